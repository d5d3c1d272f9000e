(** Spectral decompositions: Parseval, contract of eigh, quadratic forms. Library file. *)
Require Import Reals Lra Lia List Bool Arith.
From Verif Require Import RVec Num Sums DomMoreModel SweepProofs HullProofs HullIneqProofs VecTac ArnoldiMoreProofs ArnoldiCases MatLib.
Import ListNotations.
Local Open Scope R_scope.

Lemma msub_rows : forall k (A B : mat), Forall (fun r => length r = k) A -> Forall (fun r => length r = k) B -> Forall (fun r => length r = k) (msub A B).
Proof.
  intro k. induction A as [|a A IH]; intros B FA FB; [constructor|]. destruct B as [|b B]; [constructor|]. inversion FA; inversion FB; subst. simpl.
  constructor; [rewrite vsub_length; congruence|apply IH; auto].
Qed.
Lemma msub_sq : forall m A B, sq m A -> sq m B -> sq m (msub A B).
Proof. intros m A B [LA FA] [LB FB]. split; [unfold msub; rewrite zipw_length; lia|apply msub_rows; auto]. Qed.
Lemma mv_msub : forall m A B x, sq m A -> sq m B -> mv (msub A B) x = vsub (mv A x) (mv B x).
Proof.
  intros m A B x [LA FA] [LB FB]. assert (L : length A = length B) by lia. clear LA LB. revert B L FB. induction A as [|a A IH]; intros B L FB; destruct B as [|b B]; try discriminate; auto.
  inversion FA; inversion FB; subst. simpl in L. cbn. f_equal; [apply dot_vsub_l; congruence|]. apply IH; auto.
Qed.
Lemma quad_msub : forall m A B x, sq m A -> sq m B -> quad (msub A B) x = quad A x - quad B x.
Proof. intros m A B x SA SB. unfold quad. rewrite (mv_msub m) by auto. rewrite dot_vsub_r; auto. destruct SA, SB. rewrite !mv_length. lia. Qed.
Lemma mget_msub : forall m A B i j, sq m A -> sq m B -> (i < m)%nat -> mget (msub A B) i j = mget A i j - mget B i j.
Proof.
  intros m A B i j SA SB Hi. unfold mget, msub. rewrite (zipw_nth _ _ _ vsub A B i [] []) by (destruct SA, SB; lia). apply vsub_get. rewrite !(sq_row m) by auto. auto.
Qed.
Lemma msub_sym : forall m A B, sq m A -> sq m B -> msym m A -> msym m B -> msym m (msub A B).
Proof. intros m A B SA SB MA MB i j Hi Hj. rewrite !(mget_msub m) by auto. rewrite (MA i j), (MB i j) by auto. auto. Qed.

(** a full orthonormal family in m dimensions *)
Definition onb (m : nat) (us : list vec) : Prop := length us = m /\ Forall (fun u => length u = m) us /\ orthonormal us.
Lemma onb_row : forall m us k, onb m us -> (k < m)%nat -> length (nth k us []) = m.
Proof. intros m us k [L [F _]] Hk. rewrite Forall_forall in F. apply F, nth_In. lia. Qed.
Lemma resid_zero : forall m us x, onb m us -> length x = m -> norm2sq (vsub x (lincomb m us (mv us x))) = 0.
Proof.
  intros m us x [LU [F OR]] Hx. set (r := vsub x (lincomb m us (mv us x))).
  assert (LC : length (lincomb m us (mv us x)) = m) by (apply lincomb_length; auto). assert (Lr : length r = m) by (unfold r; rewrite vsub_length; lia).
  assert (Z : forall k, (k < m)%nat -> dot (nth k us []) r = 0).
  { intros k Hk. unfold r. rewrite dot_vsub_r by lia. rewrite (dot_comm (nth k us []) (lincomb _ _ _)), dot_lincomb_l by (auto; rewrite mv_length; auto).
    rewrite (rsum_single (length us) k); [|lia|].
    - rewrite (OR k k) by lia. rewrite Nat.eqb_refl, mv_get by lia. ring.
    - intros j Hj NE. rewrite (OR j k) by lia. destruct (Nat.eqb_spec j k); [contradiction|ring]. }
  destruct (Req_dec (norm2sq r) 0) as [|NZ]; auto. exfalso. pose proof (norm2sq_nonneg r) as P.
  set (q := vscale (/ norm2 r) r). assert (NR : norm2 r <> 0) by (intro E; apply NZ; rewrite <- norm2_sq, E; ring).
  assert (C : (length (us ++ [q]) <= m)%nat); [|rewrite app_length in C; simpl in C; lia].
  apply (orth_count 1); [lra| |].
  - apply Forall_app. split; auto. constructor; auto. unfold q. rewrite vscale_length. auto.
  - intros a b Ha Hb. rewrite app_length in Ha, Hb. simpl in Ha, Hb.
    assert (QQ : nth m (us ++ [q]) [] = q) by (rewrite app_nth2, LU, Nat.sub_diag by lia; auto).
    assert (QU : forall c, (c < m)%nat -> nth c (us ++ [q]) [] = nth c us []) by (intros; apply app_nth1; lia).
    destruct (Nat.eq_dec a m) as [->|NA]; destruct (Nat.eq_dec b m) as [->|NB].
    + rewrite QQ, Nat.eqb_refl. unfold q. rewrite dot_vscale_l, dot_vscale_r. pose proof (norm2_sq r) as E. unfold norm2sq in E. rewrite <- E. field. auto.
    + rewrite QQ, (QU b) by lia. unfold q. rewrite dot_vscale_l, dot_comm, Z by lia. destruct (Nat.eqb_spec m b); [lia|ring].
    + rewrite QQ, (QU a) by lia. unfold q. rewrite dot_vscale_r, Z by lia. destruct (Nat.eqb_spec a m); [lia|ring].
    + rewrite !QU by lia. apply OR; lia.
Qed.
Lemma onb_expand : forall m us x, onb m us -> length x = m -> lincomb m us (mv us x) = x.
Proof.
  intros m us x OB Hx. pose proof (resid_zero m us x OB Hx) as Z. destruct OB as [LU [F _]]. assert (LC : length (lincomb m us (mv us x)) = m) by (apply lincomb_length; auto).
  apply norm2sq_zero in Z. symmetry. apply vec_ext; [lia|]. intros i Hi. rewrite Forall_forall in Z. assert (E : vget (vsub x (lincomb m us (mv us x))) i = 0) by (apply Z; unfold vget; apply nth_In; rewrite vsub_length; lia).
  rewrite vsub_get in E by lia. lra.
Qed.
Lemma parseval_dot : forall m us x y, onb m us -> length x = m -> length y = m -> dot x y = rsum m (fun k => dot (nth k us []) x * dot (nth k us []) y).
Proof.
  intros m us x y OB Hx Hy. rewrite <- (onb_expand m us x OB Hx) at 1. destruct OB as [LU [F _]]. rewrite dot_lincomb_l by (auto; rewrite mv_length; auto). rewrite LU. apply rsum_ext. intros k Hk. rewrite mv_get by lia. auto.
Qed.
Lemma parseval : forall m us x, onb m us -> length x = m -> norm2sq x = rsum m (fun k => dot (nth k us []) x * dot (nth k us []) x).
Proof. intros. unfold norm2sq. apply parseval_dot; auto. Qed.

(** contract of numpy.linalg.eigh / scipy.linalg.eigh on real symmetric matrices: A = sum_k ew_k u_k u_k^T, orthonormal, ascending *)
Definition eigh_post (m : nat) (A : mat) (e : vec * list vec) : Prop :=
  length (fst e) = m /\ onb m (snd e) /\ spec m (fst e) (snd e) = A /\ forall i j, (i <= j < m)%nat -> vget (fst e) i <= vget (fst e) j.
Definition eigh_ok (m : nat) (eigh : mat -> vec * list vec) : Prop := forall A, sq m A -> msym m A -> eigh_post m A (eigh A).
Lemma quad_spec_onb : forall m w us x, onb m us -> length w = m -> quad (spec m w us) x = rsum m (fun k => vget w k * (dot (nth k us []) x * dot (nth k us []) x)).
Proof. intros m w us x [LU [F OR]] L. rewrite quad_spec by (auto; lia). rewrite LU. auto. Qed.
Lemma eigh_quad : forall m A e x, eigh_post m A e -> quad A x = rsum m (fun k => vget (fst e) k * (dot (nth k (snd e) []) x * dot (nth k (snd e) []) x)).
Proof. intros m A e x [L [OB [E _]]]. rewrite <- E at 1. apply quad_spec_onb; auto. Qed.

(** 1 x 1: the contract is satisfiable *)
Definition eigh1 (A : mat) : vec * list vec := ([mget A 0 0], [[1]]).
Lemma onb1 : onb 1 [[1]].
Proof. split; auto. split; [repeat constructor|]. intros a b Ha Hb. simpl in Ha, Hb. assert (a = 0%nat /\ b = 0%nat) as [-> ->] by lia. cbn [nth Nat.eqb]. rewrite dot_cons. change (dot [] []) with 0. ring. Qed.
Example ex_eigh1 : eigh_ok 1 eigh1.
Proof.
  intros A [LA FA] _. destruct A as [|r [|]]; try discriminate. inversion FA; subst. destruct r as [|a [|]]; try discriminate.
  split; auto. split; [apply onb1|]. split; [|intros i j H; simpl in H; assert (i = 0%nat /\ j = 0%nat) as [-> ->] by lia; lra].
  unfold eigh1, mget, vget. cbn. do 2 f_equal. ring.
Qed.
