(** Small matrix library: sums, outer products, quadratic forms, spectral sums.  Library file. *)
Require Import Reals Lra Lia List Bool Arith.
From Verif Require Import RVec Num Sums DomMoreModel SweepProofs HullProofs ArnoldiMoreProofs.
Import ListNotations.
Local Open Scope R_scope.

Definition quad (H : mat) (p : vec) : R := dot p (mv H p).
Definition outer (p q : vec) : mat := map (fun a => vscale a q) p.
Definition madd (A B : mat) : mat := zipw vadd A B.
Definition msub (A B : mat) : mat := zipw vsub A B.
Definition mscale (c : R) (A : mat) : mat := map (vscale c) A.
Definition mzero (n m : nat) : mat := repeat (vzero m) n.
Definition mget (A : mat) (i j : nat) : R := vget (nth i A []) j.
Definition sq (m : nat) (A : mat) : Prop := length A = m /\ Forall (fun r => length r = m) A.
(** entrywise symmetric *)
Definition msym (m : nat) (A : mat) : Prop := forall i j, (i < m)%nat -> (j < m)%nat -> mget A i j = mget A j i.
(** sum_k w_k u_k u_k^T, i.e. U diag(w) U^T with U given by its columns *)
Fixpoint spec (m : nat) (w : vec) (us : list vec) : mat :=
  match w, us with
  | a :: w', u :: us' => madd (mscale a (outer u u)) (spec m w' us')
  | _, _ => mzero m m
  end.
Definition loewner (m : nat) (A B : mat) : Prop := forall x, length x = m -> quad A x <= quad B x.

Lemma sq_row : forall m A i, sq m A -> (i < m)%nat -> length (nth i A []) = m.
Proof. intros m A i [L F] Hi. rewrite Forall_forall in F. apply F, nth_In. lia. Qed.
Lemma outer_sq : forall m p, length p = m -> sq m (outer p p).
Proof. intros m p L. split; [unfold outer; rewrite map_length; auto|]. apply Forall_forall. intros r Hr. apply in_map_iff in Hr. destruct Hr as [a [<- _]]. rewrite vscale_length; auto. Qed.
Lemma madd_rows : forall k (A B : mat), Forall (fun r => length r = k) A -> Forall (fun r => length r = k) B -> Forall (fun r => length r = k) (madd A B).
Proof.
  intro k. induction A as [|a A IH]; intros B FA FB; [constructor|]. destruct B as [|b B]; [constructor|]. inversion FA; inversion FB; subst. simpl.
  constructor; [rewrite vadd_length; congruence|apply IH; auto].
Qed.
Lemma madd_sq : forall m A B, sq m A -> sq m B -> sq m (madd A B).
Proof. intros m A B [LA FA] [LB FB]. split; [unfold madd; rewrite zipw_length; lia|apply madd_rows; auto]. Qed.
Lemma mscale_sq : forall m c A, sq m A -> sq m (mscale c A).
Proof. intros m c A [L F]. split; [unfold mscale; rewrite map_length; auto|]. apply Forall_forall. intros r Hr. apply in_map_iff in Hr. destruct Hr as [a [<- Ha]]. rewrite vscale_length. rewrite Forall_forall in F. auto. Qed.
Lemma mzero_sq : forall m, sq m (mzero m m).
Proof. intro m. split; [apply repeat_length|]. apply Forall_forall. intros r Hr. apply repeat_spec in Hr. subst. apply repeat_length. Qed.
Lemma spec_sq : forall m w us, Forall (fun u => length u = m) us -> sq m (spec m w us).
Proof.
  intros m w. induction w as [|a w IH]; intros us F; [apply mzero_sq|]. destruct us as [|u us]; [apply mzero_sq|]. inversion F; subst. simpl.
  apply madd_sq; [apply mscale_sq, outer_sq; auto|apply IH; auto].
Qed.

Lemma mv_get : forall A x i, (i < length A)%nat -> vget (mv A x) i = dot (nth i A []) x.
Proof. intros A x i Hi. unfold mv. rewrite (map_get _ (fun a => dot a x) A i []) by auto. reflexivity. Qed.
Lemma mv_outer : forall p q x, mv (outer p q) x = vscale (dot q x) p.
Proof. intros p q x. unfold mv, outer, vscale at 2. rewrite map_map. apply map_ext. intro a. rewrite dot_vscale_l. ring. Qed.
Lemma mv_madd : forall m A B x, sq m A -> sq m B -> mv (madd A B) x = vadd (mv A x) (mv B x).
Proof.
  intros m A B x [LA FA] [LB FB]. assert (L : length A = length B) by lia. clear LA LB. revert B L FB. induction A as [|a A IH]; intros B L FB; destruct B as [|b B]; try discriminate; auto.
  inversion FA; inversion FB; subst. simpl in L. cbn. f_equal; [apply dot_vadd_l; congruence|]. apply IH; auto.
Qed.
Lemma mv_mscale : forall c A x, mv (mscale c A) x = vscale c (mv A x).
Proof. intros. unfold mv, mscale, vscale. rewrite !map_map. apply map_ext. intro a. apply dot_vscale_l. Qed.
Lemma mv_mzero : forall n m x, mv (mzero n m) x = vzero n.
Proof. intros n m x. unfold mv, mzero, vzero. induction n; simpl; auto. f_equal; auto. apply dot_zero_l. Qed.
Lemma quad_outer : forall p x, quad (outer p p) x = dot p x * dot p x.
Proof. intros. unfold quad. rewrite mv_outer, dot_vscale_r, (dot_comm x p). ring. Qed.
Lemma quad_madd : forall m A B x, sq m A -> sq m B -> quad (madd A B) x = quad A x + quad B x.
Proof. intros m A B x SA SB. unfold quad. rewrite (mv_madd m) by auto. rewrite dot_vadd_r; auto. destruct SA, SB. rewrite !mv_length. lia. Qed.
Lemma quad_mscale : forall c A x, quad (mscale c A) x = c * quad A x.
Proof. intros. unfold quad. rewrite mv_mscale. apply dot_vscale_r. Qed.
Lemma quad_mzero : forall n m x, quad (mzero n m) x = 0.
Proof. intros. unfold quad. rewrite mv_mzero. apply dot_zero_r. Qed.
Lemma quad_spec : forall m w us x, Forall (fun u => length u = m) us -> length w = length us ->
  quad (spec m w us) x = rsum (length us) (fun k => vget w k * (dot (nth k us []) x * dot (nth k us []) x)).
Proof.
  intros m w. induction w as [|a w IH]; intros us x F L; destruct us as [|u us]; try discriminate; [apply quad_mzero|]. inversion F; subst. simpl spec.
  rewrite (quad_madd (length u)) by (first [apply mscale_sq, outer_sq; auto|apply spec_sq; auto]). rewrite quad_mscale, quad_outer, IH by auto. cbn [length]. rewrite rsum_S_first. reflexivity.
Qed.
Lemma mv_spec : forall m w us x, Forall (fun u => length u = m) us -> length w = length us -> mv (spec m w us) x = lincomb m us (vmul w (mv us x)).
Proof.
  intros m w. induction w as [|a w IH]; intros us x F L; destruct us as [|u us]; try discriminate; [apply mv_mzero|]. inversion F; subst. simpl spec.
  rewrite (mv_madd (length u)) by (first [apply mscale_sq, outer_sq; auto|apply spec_sq; auto]). rewrite mv_mscale, mv_outer, IH by auto. cbn. f_equal.
  unfold vscale. rewrite map_map. apply map_ext. intro b. ring.
Qed.
Lemma lincomb_get : forall m us c i, Forall (fun u => length u = m) us -> length c = length us -> (i < m)%nat ->
  vget (lincomb m us c) i = rsum (length us) (fun k => vget c k * vget (nth k us []) i).
Proof.
  intros m us. induction us as [|u us IH]; intros c i F L Hi; destruct c as [|a c]; try discriminate; [apply vzero_get|]. inversion F; subst. cbn [lincomb length].
  rewrite vadd_get by (rewrite vscale_length, lincomb_length; auto). rewrite vscale_get, IH by (auto; simpl in L; lia). rewrite rsum_S_first. reflexivity.
Qed.
Lemma dot_lincomb_l : forall m us c x, Forall (fun u => length u = m) us -> length c = length us -> dot (lincomb m us c) x = rsum (length us) (fun k => vget c k * dot (nth k us []) x).
Proof.
  intros m us c x F L. rewrite dot_comm, (dot_lincomb m us c x F), dot_rsum by (rewrite mv_length; auto). rewrite L. apply rsum_ext. intros k Hk. f_equal. apply mv_get. auto.
Qed.
(** orthonormal families *)
Definition orthonormal (us : list vec) : Prop := orthw 1 us (length us).
Lemma dot_spec_sq : forall m w us x, Forall (fun u => length u = m) us -> length w = length us -> orthonormal us ->
  norm2sq (mv (spec m w us) x) = rsum (length us) (fun k => vget w k * vget w k * (dot (nth k us []) x * dot (nth k us []) x)).
Proof.
  intros m w us x F L O. rewrite mv_spec by auto. set (c := vmul w (mv us x)). assert (Lc : length c = length us) by (unfold c; rewrite vmul_length; rewrite ?mv_length; auto).
  unfold norm2sq. rewrite dot_lincomb_l by auto. apply rsum_ext. intros k Hk.
  assert (Ck : vget c k = vget w k * dot (nth k us []) x) by (unfold c; rewrite vmul_get by (rewrite mv_length; auto); f_equal; apply mv_get; auto).
  rewrite dot_comm, dot_lincomb_l by auto. rewrite (rsum_single (length us) k); [|auto|].
  - rewrite (O k k) by auto. rewrite Nat.eqb_refl, Ck. ring.
  - intros j Hj NE. rewrite (O j k) by auto. destruct (Nat.eqb_spec j k); [contradiction|ring].
Qed.
Lemma loewner_refl : forall m A, loewner m A A.
Proof. intros m A x _. lra. Qed.
Lemma loewner_trans : forall m A B C, loewner m A B -> loewner m B C -> loewner m A C.
Proof. intros m A B C H1 H2 x Hx. specialize (H1 x Hx). specialize (H2 x Hx). lra. Qed.
Lemma mget_outer : forall p q i j, (i < length p)%nat -> mget (outer p q) i j = vget p i * vget q j.
Proof. intros p q i j Hi. unfold mget, outer. rewrite (nth_indep _ [] (vscale 0 q)) by (rewrite map_length; auto). rewrite (map_nth (fun a => vscale a q) p 0 i). rewrite vscale_get. reflexivity. Qed.
Lemma mget_madd : forall m A B i j, sq m A -> sq m B -> (i < m)%nat -> mget (madd A B) i j = mget A i j + mget B i j.
Proof.
  intros m A B i j SA SB Hi. unfold mget, madd. rewrite (zipw_nth _ _ _ vadd A B i [] []) by (destruct SA, SB; lia). apply vadd_get. rewrite !(sq_row m) by auto. auto.
Qed.
Lemma mget_mscale : forall c A i j, mget (mscale c A) i j = c * mget A i j.
Proof. intros c A i j. unfold mget, mscale. change (@nil R) with (vscale c []) at 1. rewrite map_nth. apply vscale_get. Qed.
Lemma mget_mzero : forall n m i j, mget (mzero n m) i j = 0.
Proof. intros n m i j. unfold mget, mzero. destruct (lt_dec i n); [rewrite nth_indep with (d' := vzero m) by (rewrite repeat_length; auto); rewrite nth_repeat; apply vzero_get|]. rewrite nth_overflow by (rewrite repeat_length; lia). unfold vget. destruct j; auto. Qed.
Lemma spec_sym : forall m w us, Forall (fun u => length u = m) us -> msym m (spec m w us).
Proof.
  intros m w. induction w as [|a w IH]; intros us F i j Hi Hj; [simpl; rewrite !mget_mzero; auto|]. destruct us as [|u us]; [simpl; rewrite !mget_mzero; auto|]. inversion F; subst. simpl.
  rewrite !(mget_madd (length u)) by (auto; first [apply mscale_sq, outer_sq; auto|apply spec_sq; auto]). rewrite !mget_mscale, !mget_outer by auto. rewrite (IH us) by auto. ring.
Qed.
Lemma madd_sym : forall m A B, sq m A -> sq m B -> msym m A -> msym m B -> msym m (madd A B).
Proof. intros m A B SA SB MA MB i j Hi Hj. rewrite !(mget_madd m) by auto. rewrite (MA i j), (MB i j) by auto. auto. Qed.
Lemma outer_sym : forall p, msym (length p) (outer p p).
Proof. intros p i j Hi Hj. rewrite !mget_outer by auto. ring. Qed.
Lemma mscale_sym : forall m c A, msym m A -> msym m (mscale c A).
Proof. intros m c A S i j Hi Hj. rewrite !mget_mscale, (S i j) by auto. auto. Qed.
