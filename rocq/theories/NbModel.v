(** Model of the lazily computed normalization bounds norm_lb and norm_ub of a domain, psdr/domains/euclidean.py 1019-1072.
    Computing one of them calls [corner], which needs both: the properties run nested, on partly filled arrays that are already
    stored in the object. *)
Require Import Reals List Bool Arith.
From Verif Require Import RVec Num DomModel DomMoreModel PredModel.
Import ListNotations.
Local Open Scope R_scope.

(** the attributes _norm_lb and _norm_ub (None: AttributeError) *)
Record nst := mkNst { s_lb : option (list num); s_ub : option (list num) }.

Definition set_nth (l : list num) (i : nat) (v : num) : list num := firstn i l ++ v :: skipn (S i) l.
(** ei, euclidean.py 1028-1029 *)
Definition unitR (m i : nat) : vec := map (fun j => if Nat.eqb j i then 1 else 0) (seq 0 m).
(** python's max of two floats that are not NaN *)
Definition nmax (a b : num) : num := if nltb a b then b else a.
Definition nmin2 (a b : num) : num := if nltb b a then b else a.

Section Nb.
  Variable l u : list num.                                    (* self.lb, self.ub *)
  Variable cor : list num -> list num -> vec -> answer.       (* self.corner when _norm_lb, _norm_ub hold the given arrays *)
  Let m := length l.

  (** finite bounds, euclidean.py 1030-1034 and 1060-1064 (1063 tests ub again, so lb may be -inf in the maximum) *)
  Definition low_given (i : nat) : option num :=
    match nth i l NaN with
    | Fin a => Some (if is_fin (nth i u NaN) then nmin2 (Fin a) (nth i u NaN) else Fin a)
    | _ => None
    end.
  Definition up_given (i : nat) : option num :=
    match nth i u NaN with Fin b => Some (nmax (Fin b) (nth i l NaN)) | _ => None end.
  (** the value stored after the call of corner, euclidean.py 1036-1040 and 1066-1070; None: EmptyDomainException passes through *)
  Definition low_found (a : answer) (i : nat) : option num :=
    match a with Pt x => Some (Fin (vget x i)) | UnboundedExc => Some NInf | EmptyExc => None end.
  Definition up_found (a : answer) (i : nat) : option num :=
    match a with Pt x => Some (Fin (vget x i)) | UnboundedExc => Some PInf | EmptyExc => None end.

  (** the loop of one property while the other array exists (it is not changed meanwhile); false: an exception, the array stays as it is *)
  Fixpoint low_inner (is : list nat) (nl nu : list num) : bool * list num :=
    match is with
    | [] => (true, nl)
    | i :: is' => match low_given i with
                  | Some v => low_inner is' (set_nth nl i v) nu
                  | None => match low_found (cor nl nu (vscale (-1) (unitR m i))) i with
                            | Some v => low_inner is' (set_nth nl i v) nu
                            | None => (false, nl)
                            end
                  end
    end.
  Fixpoint up_inner (is : list nat) (nl nu : list num) : bool * list num :=
    match is with
    | [] => (true, nu)
    | i :: is' => match up_given i with
                  | Some v => up_inner is' nl (set_nth nu i v)
                  | None => match up_found (cor nl nu (unitR m i)) i with
                            | Some v => up_inner is' nl (set_nth nu i v)
                            | None => (false, nu)
                            end
                  end
    end.

  (** the loop of norm_lb; the first call of corner computes norm_ub if it is not there yet *)
  Fixpoint low_outer (is : list nat) (nl : list num) (ou : option (list num)) : bool * nst :=
    match is with
    | [] => (true, mkNst (Some nl) ou)
    | i :: is' =>
        match low_given i with
        | Some v => low_outer is' (set_nth nl i v) ou
        | None =>
            match (match ou with Some nu => (true, nu) | None => up_inner (seq 0 m) nl (repeat PInf m) end) with
            | (false, nu) => (false, mkNst (Some nl) (Some nu))
            | (true, nu) => match low_found (cor nl nu (vscale (-1) (unitR m i))) i with
                            | Some v => low_outer is' (set_nth nl i v) (Some nu)
                            | None => (false, mkNst (Some nl) (Some nu))
                            end
            end
        end
    end.
  Fixpoint up_outer (is : list nat) (nu : list num) (ol : option (list num)) : bool * nst :=
    match is with
    | [] => (true, mkNst ol (Some nu))
    | i :: is' =>
        match up_given i with
        | Some v => up_outer is' (set_nth nu i v) ol
        | None =>
            match (match ol with Some nl => (true, nl) | None => low_inner (seq 0 m) (repeat NInf m) nu end) with
            | (false, nl) => (false, mkNst (Some nl) (Some nu))
            | (true, nl) => match up_found (cor nl nu (unitR m i)) i with
                            | Some v => up_outer is' (set_nth nu i v) (Some nl)
                            | None => (false, mkNst (Some nl) (Some nu))
                            end
            end
        end
    end.

  (** the properties: None is EmptyDomainException *)
  Definition norm_lb (st : nst) : option (list num) * nst :=
    match s_lb st with
    | Some nl => (Some nl, st)
    | None => let (ok, st') := low_outer (seq 0 m) (repeat NInf m) (s_ub st) in ((if ok then s_lb st' else None), st')
    end.
  Definition norm_ub (st : nst) : option (list num) * nst :=
    match s_ub st with
    | Some nu => (Some nu, st)
    | None => let (ok, st') := up_outer (seq 0 m) (repeat PInf m) (s_lb st) in ((if ok then s_ub st' else None), st')
    end.
End Nb.

(** corner of a LinQuadDomain or LinIneqDomain with an exact solver: what each outcome of the normalized program means, euclidean.py 265-307;
    without any constraint the domain is reported as unbounded (297) *)
Definition corner_outcome (nlb nub : list num) (d : dom) (p : vec) (a : answer) : Prop :=
  match a with
  | Pt x => corner_returns nlb nub d p x
  | EmptyExc => forall z, ~ norm_feasible nlb nub d z
  | UnboundedExc => forall B, exists z, norm_feasible nlb nub d z /\ B < corner_obj nlb nub p z
  end.
