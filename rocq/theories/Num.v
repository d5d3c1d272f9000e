(** IEEE-754 style numbers: exact reals plus the special values.
    Library file.  Finite arithmetic is exact (no rounding); the special values follow
    the IEEE rules numpy uses.  Signed zeros are not represented. *)
Require Import Reals Lra List Bool.
From Verif Require Import RVec.
Import ListNotations.
Local Open Scope R_scope.

Inductive num : Type := Fin (r : R) | PInf | NInf | NaN.

(** np.isfinite *)
Definition is_fin (a : num) : bool := match a with Fin _ => true | _ => false end.
(** np.isinf *)
Definition is_inf (a : num) : bool := match a with PInf | NInf => true | _ => false end.

Definition nadd (a b : num) : num :=
  match a, b with
  | NaN, _ | _, NaN => NaN
  | Fin x, Fin y => Fin (x + y)
  | PInf, NInf | NInf, PInf => NaN
  | PInf, _ | _, PInf => PInf
  | NInf, _ | _, NInf => NInf
  end.

Definition nopp (a : num) : num :=
  match a with Fin x => Fin (- x) | PInf => NInf | NInf => PInf | NaN => NaN end.

Definition nsub (a b : num) : num := nadd a (nopp b).

Definition ninf (positive : bool) : num := if positive then PInf else NInf.

(** IEEE product: 0 * inf = NaN *)
Definition nmul (a b : num) : num :=
  match a, b with
  | NaN, _ | _, NaN => NaN
  | Fin x, Fin y => Fin (x * y)
  | PInf, PInf | NInf, NInf => PInf
  | PInf, NInf | NInf, PInf => NInf
  | PInf, Fin y | Fin y, PInf => if Req_EM_T y 0 then NaN else ninf (Rltb 0 y)
  | NInf, Fin y | Fin y, NInf => if Req_EM_T y 0 then NaN else ninf (Rltb y 0)
  end.

(** IEEE quotient by a finite number (x/0 is +-inf by the sign of x, 0/0 = NaN;
    zeros are taken as positive) *)
Definition ndivr (a : num) (y : R) : num :=
  match a with
  | NaN => NaN
  | Fin x => if Req_EM_T y 0
             then (if Req_EM_T x 0 then NaN else ninf (Rltb 0 x))
             else Fin (x / y)
  | PInf => ninf (Rleb 0 y)
  | NInf => ninf (negb (Rleb 0 y))
  end.

(** comparisons: any comparison with NaN is False *)
Definition nleb (a b : num) : bool :=
  match a, b with
  | NaN, _ | _, NaN => false
  | Fin x, Fin y => Rleb x y
  | NInf, _ | _, PInf => true
  | _, _ => false
  end.

Definition nltb (a b : num) : bool :=
  match a, b with
  | NaN, _ | _, NaN => false
  | Fin x, Fin y => Rltb x y
  | NInf, NInf | PInf, PInf => false
  | NInf, _ | _, PInf => true
  | _, _ => false
  end.

Definition neqb (a b : num) : bool :=
  match a, b with
  | Fin x, Fin y => Reqb x y
  | PInf, PInf | NInf, NInf => true
  | _, _ => false
  end.

(** np.maximum / np.minimum (propagate NaN) *)
Definition nmax (a b : num) : num :=
  match a, b with
  | NaN, _ | _, NaN => NaN
  | _, _ => if nleb a b then b else a
  end.
Definition nmin (a b : num) : num :=
  match a, b with
  | NaN, _ | _, NaN => NaN
  | _, _ => if nleb a b then a else b
  end.

Definition nsum (l : list num) : num := fold_right nadd (Fin 0) l.

Fixpoint zipw {A B C : Type} (f : A -> B -> C) (x : list A) (y : list B) : list C :=
  match x, y with
  | a :: x', b :: y' => f a b :: zipw f x' y'
  | _, _ => []
  end.

Lemma zipw_length : forall A B C (f : A -> B -> C) x y,
  length x = length y -> length (zipw f x y) = length x.
Proof. induction x; destruct y; simpl; intros; auto; discriminate. Qed.

Lemma zipw_nth : forall A B C (f : A -> B -> C) x y i da db dc,
  length x = length y -> (i < length x)%nat ->
  nth i (zipw f x y) dc = f (nth i x da) (nth i y db).
Proof.
  induction x as [|a x IH]; destruct y as [|b y]; simpl; intros i da db dc H Hi;
    try discriminate; try (inversion Hi; fail).
  destruct i; auto. apply IH; auto using PeanoNat.Nat.succ_lt_mono.
  apply PeanoNat.Nat.succ_lt_mono; auto.
Qed.

Lemma nsum_fin : forall l, nsum (map Fin l) = Fin (vsum l).
Proof. induction l; simpl; auto. rewrite IHl. reflexivity. Qed.
