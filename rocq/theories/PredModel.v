(** Model of the parts of psdr/domains/euclidean.py that query the domain through [corner]: the predicates is_empty, is_point,
    is_unbounded, boundary sampling, random directions and the starting point of hit-and-run. *)
Require Import Reals List Bool Arith.
From Verif Require Import RVec Num DomModel DomMoreModel GeoModel.
Import ListNotations.
Local Open Scope R_scope.

(** outcome of [self.corner(p)], euclidean.py 228-307 (SolverError is not modelled) *)
Inductive answer := Pt (x : vec) | EmptyExc | UnboundedExc.

Section Pred.
  Variable m : nat.
  Variable corner : vec -> answer.

  (** is_empty, euclidean.py 79-90 *)
  Definition is_empty : bool :=
    match corner (repeat 1 m) with Pt _ => false | EmptyExc => true | UnboundedExc => false end.

  (** np.all(np.isclose(x1, x2)), euclidean.py 104 *)
  Definition all_np_close (x1 x2 : vec) : bool := forallb (fun b => b) (zipw np_close x1 x2).

  (** the loop of is_point over the rows of U, euclidean.py 101-107; both exceptions give False (108-111) *)
  Fixpoint point_loop (U : mat) : bool :=
    match U with
    | [] => true
    | u :: U' => match corner u, corner (vscale (-1) u) with
                 | Pt x1, Pt x2 => if all_np_close x1 x2 then point_loop U' else false
                 | _, _ => false
                 end
    end.
  (** is_point, euclidean.py 93-111; [U] = ortho_group.rvs(m) when m > 1 *)
  Definition is_point (U : mat) : bool := point_loop (if Nat.ltb 1 m then U else [[1]]).

  (** is_unbounded, euclidean.py 113-126; ortho_group.rvs(m) raises a ValueError unless m > 1: None.
      The first exception met decides. *)
  Fixpoint unb_loop (U : mat) : bool :=
    match U with
    | [] => false
    | u :: U' => match corner u with
                 | UnboundedExc => true
                 | EmptyExc => false
                 | Pt _ => match corner (vscale (-1) u) with
                           | UnboundedExc => true
                           | EmptyExc => false
                           | Pt _ => unb_loop U'
                           end
                 end
    end.
  Definition is_unbounded (U : mat) : option bool := if Nat.ltb 1 m then Some (unb_loop U) else None.

  (** random_direction, euclidean.py 658-684: [g k] the k-th normal draw, [Q] the columns of _A_eq_basis, [ext p] is
      self.extent(x, p) (None: it raises); the argument x = None skips the check ([chk] = false).
      Outer None: out of fuel; inner None: exception. *)
  Fixpoint random_direction (fuel k : nat) (g : nat -> vec) (Q : mat) (chk : bool) (ext : vec -> option num) : option (option vec) :=
    match fuel with
    | O => None
    | S f => let p := proj_out Q (g k) in
             if negb chk then Some (Some p)
             else match ext p with
                  | None => Some None
                  | Some e => if nltb (Fin 0) e then Some (Some p) else random_direction f (S k) g Q chk ext
                  end
    end.

  (** sample_boundary, euclidean.py 638-654: [dirs] are the random directions drawn at self.center *)
  Fixpoint sample_boundary (dirs : list vec) : option mat :=
    match dirs with
    | [] => Some []
    | d :: ds => match corner d, sample_boundary ds with Pt x, Some X => Some (x :: X) | _, _ => None end
    end.

  (** not np.isclose(np.max(pdist(X)), 0), euclidean.py 839: the largest distance of two points *)
  Definition spread (X : mat) : R := vmax (concat (map (fun x => map (edist x) X) X)).
  Definition apart (X : mat) : bool := negb (np_close (spread X) 0).
  (** the loop of _corner_center over the columns of U, euclidean.py 836-842; None: an exception of corner *)
  Fixpoint cc_loop (i : nat) (U : mat) (X : mat) : option mat :=
    match U with
    | [] => Some X
    | u :: U' => match corner u, corner (vscale (-1) u) with
                 | Pt x1, Pt x2 => let X' := X ++ [x1; x2] in
                                   if (Nat.leb 3 i && apart X')%bool then Some X' else cc_loop (S i) U' X'
                 | _, _ => None
                 end
    end.
  (** _corner_center, euclidean.py 827-854 (the flag self._point is never read by EuclideanDomain);
      [closest] is self.closest_point *)
  Definition vmean (X : mat) : vec := vscale (/ INR (length X)) (lincomb m X (repeat 1 (length X))).
  Definition corner_center (U : mat) (closest : vec -> option vec) : option vec :=
    match cc_loop 0 (if Nat.ltb 1 m then U else [[1]]) [] with
    | Some X => closest (vmean X)
    | None => None
    end.
End Pred.
