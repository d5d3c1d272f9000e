(** The decompositions asked of numpy exist: eigendecomposition of symmetric matrices, singular value decomposition, QR. *)
Require Import Reals List Bool Arith Lia Lra Psatz.
From Verif Require Import RVec Num Sums DomMoreModel SweepProofs ArnoldiMoreProofs MatLib SpecProofs LipModel SdpProofs GrassLib GpProofs HullProofs Compact LinLs.
Import ListNotations.
Local Open Scope R_scope.

Lemma lc_get : forall m us c i, Forall (fun u => length u = m) us -> length c = length us -> vget (lincomb m us c) i = rsum (length us) (fun k => vget c k * vget (nth k us []) i).
Proof.
  intros m us c i F L. rewrite (lincomb_get m) by auto. rewrite (dot_rs (length us)) by (rewrite ?map_length; auto). apply rsum_ext. intros k Hk. f_equal. unfold vget at 1. rewrite (nth_indep _ 0 (vget [] i)) by (rewrite map_length; auto). rewrite (map_nth (fun x => vget x i)). auto.
Qed.
(* ------------------------------------------------------------------ orthonormal families can be extended *)
Lemma orth_resid : forall m us x, Forall (fun u => length u = m) us -> orthonormal us -> length x = m -> forall k, (k < length us)%nat -> dot (nth k us []) (vsub x (lincomb m us (mv us x))) = 0.
Proof.
  intros m us x F OR Lx k Hk. assert (LC : length (lincomb m us (mv us x)) = m) by (apply lincomb_length; auto). assert (Lu : length (nth k us []) = m) by (rewrite Forall_forall in F; apply F, nth_In; auto).
  rewrite dot_vsub_r by lia. rewrite (dot_lincomb_r m) by (auto; rewrite mv_length; auto). rewrite (rsum_single (length us) k); auto.
  - rewrite (OR k k) by auto. rewrite Nat.eqb_refl, mv_get by auto. ring.
  - intros j Hj NE. rewrite (OR k j) by auto. destruct (Nat.eqb_spec k j); [congruence|ring].
Qed.
Lemma orth_snoc : forall m us q, Forall (fun u => length u = m) us -> orthonormal us -> length q = m -> dot q q = 1 -> (forall k, (k < length us)%nat -> dot (nth k us []) q = 0) ->
  Forall (fun u => length u = m) (us ++ [q]) /\ orthonormal (us ++ [q]).
Proof.
  intros m us q F OR Lq Qq Z. split; [apply Forall_app; split; auto|]. intros a b Ha Hb. rewrite app_length in Ha, Hb. simpl in Ha, Hb.
  assert (QQ : nth (length us) (us ++ [q]) [] = q) by (rewrite app_nth2, Nat.sub_diag by lia; auto). assert (QU : forall c, (c < length us)%nat -> nth c (us ++ [q]) [] = nth c us []) by (intros; apply app_nth1; lia).
  destruct (Nat.eq_dec a (length us)) as [->|NA]; destruct (Nat.eq_dec b (length us)) as [->|NB].
  - rewrite QQ, Nat.eqb_refl. auto.
  - rewrite QQ, (QU b) by lia. rewrite dot_comm, Z by lia. destruct (Nat.eqb_spec (length us) b); [lia|auto].
  - rewrite QQ, (QU a) by lia. rewrite Z by lia. destruct (Nat.eqb_spec a (length us)); [lia|auto].
  - rewrite !QU by lia. apply OR; lia.
Qed.
Lemma unit_orth : forall m us, Forall (fun u => length u = m) us -> orthonormal us -> (length us < m)%nat -> exists q, length q = m /\ dot q q = 1 /\ forall k, (k < length us)%nat -> dot (nth k us []) q = 0.
Proof.
  intros m us F OR Lt.
  set (rs := fun i => vsub (unitv m i) (lincomb m us (mv us (unitv m i)))).
  assert (LC : forall i, length (lincomb m us (mv us (unitv m i))) = m) by (intro; apply lincomb_length; auto). assert (Lr : forall i, length (rs i) = m) by (intro i; unfold rs; rewrite vsub_length; rewrite unitv_len; auto; rewrite LC; auto).
  assert (N : forall i, (i < m)%nat -> norm2sq (rs i) = 1 - rsum (length us) (fun k => vget (nth k us []) i * vget (nth k us []) i)).
  { intros i Hi. unfold norm2sq. unfold rs at 1. rewrite dot_vsub_l by (rewrite unitv_len, LC; auto). rewrite dot_lincomb_l by (auto; rewrite mv_length; auto).
    rewrite (rsum_zero (length us)) by (intros k Hk; unfold rs; rewrite (orth_resid m) by (auto; apply unitv_len); ring).
    unfold rs. rewrite dot_vsub_r by (rewrite unitv_len, LC; auto). rewrite (dot_lincomb_r m) by (auto; rewrite mv_length; auto). rewrite dot_unitv by (auto; apply unitv_len). rewrite unitv_get, Nat.eqb_refl by auto.
    rewrite Rminus_0_r. apply f_equal. apply rsum_ext. intros k Hk. assert (Lu : length (nth k us []) = m) by (rewrite Forall_forall in F; apply F, nth_In; auto).
    rewrite mv_get by auto. rewrite (dot_comm (unitv m i)), !dot_unitv by auto. auto. }
  assert (T : rsum m (fun i => norm2sq (rs i)) = INR m - INR (length us)).
  { rewrite (rsum_ext m _ (fun i => 1 - rsum (length us) (fun k => vget (nth k us []) i * vget (nth k us []) i))) by (intros; apply N; auto). rewrite rsum_minus, rsum_const, rsum_swap. rewrite Rmult_1_r. f_equal.
    rewrite (rsum_ext (length us) _ (fun _ => 1)); [rewrite rsum_const; ring|]. intros k Hk. assert (Lu : length (nth k us []) = m) by (rewrite Forall_forall in F; apply F, nth_In; auto).
    rewrite <- (dot_rs m) by auto. rewrite (OR k k) by auto. rewrite Nat.eqb_refl. auto. }
  assert (E : exists i, (i < m)%nat /\ norm2sq (rs i) <> 0).
  { assert (D : forall n, (n <= m)%nat -> (exists i, (i < n)%nat /\ norm2sq (rs i) <> 0) \/ rsum n (fun i => norm2sq (rs i)) = 0).
    { induction n as [|n IH]; intro Hn; [right; reflexivity|]. destruct (IH ltac:(lia)) as [(i & Hi & Q)|Q]; [left; exists i; split; [lia|auto]|]. destruct (Req_dec (norm2sq (rs n)) 0) as [Z|Z]; [right; simpl; lra|left; exists n; split; [lia|auto]]. }
    destruct (D m (le_n m)) as [|Q]; auto. exfalso. rewrite T in Q. apply lt_INR in Lt. lra. }
  destruct E as (i & Hi & NZ). assert (NR : norm2 (rs i) <> 0) by (intro Q; apply NZ; rewrite <- norm2_sq, Q; ring).
  exists (vscale (/ norm2 (rs i)) (rs i)). split; [rewrite vscale_length; auto|]. split.
  - rewrite dot_vscale_l, dot_vscale_r. pose proof (norm2_sq (rs i)) as Q. unfold norm2sq in Q. rewrite <- Q. field. auto.
  - intros k Hk. rewrite dot_vscale_r. unfold rs. rewrite (orth_resid m) by (auto; apply unitv_len). ring.
Qed.
Lemma extend_to : forall m k us, Forall (fun u => length u = m) us -> orthonormal us -> (length us <= k <= m)%nat -> exists vs, length (us ++ vs) = k /\ Forall (fun u => length u = m) (us ++ vs) /\ orthonormal (us ++ vs).
Proof.
  intros m k us F OR H. remember (k - length us)%nat as d eqn:D. revert us F OR H D. induction d as [|d IH]; intros us F OR H D.
  - exists []. rewrite app_nil_r. split; [lia|auto].
  - destruct (unit_orth m us F OR ltac:(lia)) as (q & Lq & Qq & Z). destruct (orth_snoc m us q F OR Lq Qq Z) as [F' OR']. destruct (IH (us ++ [q]) F' OR') as (vs & A & B & C).
    + rewrite app_length. simpl. lia.
    + rewrite app_length. simpl. lia.
    + exists (q :: vs). rewrite <- app_assoc in A, B, C. simpl in A, B, C. auto.
Qed.

(* ------------------------------------------------------------------ spectral theorem *)
Lemma cts_quad : forall m A, sq m A -> cts m (quad A).
Proof.
  intros m A [LA FA]. apply cts_ext with (fun x => rsum m (fun i => vget x i * dot (nth i A []) x)).
  - intros x Lx. unfold quad. rewrite (dot_rs m) by (auto; rewrite mv_length; auto). apply rsum_ext. intros i Hi. rewrite mv_get by lia. auto.
  - apply (cts_rsum m m (fun i x => vget x i * dot (nth i A []) x)). intros i Hi. apply cts_mult; [apply cts_coord|apply cts_dot]. rewrite Forall_forall in FA. apply FA, nth_In. lia.
Qed.
Lemma linear_zero : forall L Q : R, (forall t, 0 <= 2 * t * L + t * t * Q) -> L = 0.
Proof.
  intros L Q H. destruct (Req_dec L 0) as [|N]; auto. exfalso. destruct (Rle_lt_dec Q 0) as [C|C].
  - specialize (H (- L)). assert (0 < L * L) by nra. nra.
  - specialize (H (- L / Q)). replace (2 * (- L / Q) * L + - L / Q * (- L / Q) * Q) with (- (L * L / Q)) in H by (field; lra). assert (0 < L * L / Q) by (apply Rdiv_lt_0_compat; nra). lra.
Qed.
(** a partial eigensystem: the eigenvalues so far are smallest *)
Definition eig_part (m : nat) (A : mat) (w : vec) (us : list vec) : Prop :=
  length w = length us /\ Forall (fun u => length u = m) us /\ orthonormal us /\ (forall k, (k < length us)%nat -> mv A (nth k us []) = vscale (vget w k) (nth k us [])) /\
  (forall i j, (i <= j < length us)%nat -> vget w i <= vget w j) /\
  (forall x, length x = m -> dot x x = 1 -> (forall k, (k < length us)%nat -> dot (nth k us []) x = 0) -> forall k, (k < length us)%nat -> vget w k <= quad A x).
Lemma eig_step : forall m A w us, sq m A -> msym m A -> eig_part m A w us -> (length us < m)%nat -> exists l u, eig_part m A (w ++ [l]) (us ++ [u]).
Proof.
  intros m A w us SA MA (Lw & F & OR & EV & SO & LO) Lt. pose proof SA as [LA FA].
  set (K := fun x : vec => dot x x = 1 /\ forall k, (k < length us)%nat -> dot (nth k us []) x = 0).
  assert (LU : forall k, (k < length us)%nat -> length (nth k us []) = m) by (intros k Hk; rewrite Forall_forall in F; apply F, nth_In; auto).
  destruct (min_attained m K (quad A) (repeat (-1) m) (repeat 1 m)) as (x & Lx & [X1 XO] & MX).
  - apply repeat_length.
  - apply repeat_length.
  - apply closed_and.
    + apply closed_eq. apply cts_ext with (fun x => rsum m (fun i => vget x i * vget x i)); [intros x Lx; rewrite (dot_rs m) by auto; auto|]. apply (cts_rsum m m (fun i x => vget x i * vget x i)). intros. apply cts_sq, cts_coord.
    + apply closed_all. intro k. destruct (lt_dec k (length us)) as [Hk|Hk].
      * apply closed_imp. apply closed_eq, cts_dot. auto.
      * intros x _ H. exfalso. apply H. intro. contradiction.
  - apply cts_lsc, cts_quad. auto.
  - intros x Lx [H _] i Hi. rewrite repeat_length in Hi. assert (G : forall a, vget (repeat a m) i = a) by (intro a; unfold vget; rewrite (nth_indep _ 0 a) by (rewrite repeat_length; auto); apply nth_repeat). rewrite !G.
    assert (B : vget x i * vget x i <= 1).
    { rewrite <- H. rewrite (dot_rs m) by auto. rewrite (rsum_split m i) by auto. pose proof (rsum_nonneg m (fun i0 => if Nat.eqb i0 i then 0 else vget x i0 * vget x i0) ltac:(intros j Hj; cbn beta; destruct (Nat.eqb j i); [lra|apply Rle_0_sqr])). lra. }
    split; nra.
  - destruct (unit_orth m us F OR Lt) as (q & Lq & Qq & Z). exists q. split; auto. split; auto.
  - set (l := quad A x). assert (GE : forall y, length y = m -> (forall k, (k < length us)%nat -> dot (nth k us []) y = 0) -> l * dot y y <= quad A y).
    { intros y Ly Oy. destruct (Req_dec (dot y y) 0) as [Z|Z].
      - assert (y = vzero m). { fold (norm2sq y) in Z. apply norm2sq_zero in Z. apply vec_ext; [unfold vzero; rewrite repeat_length; auto|]. intros i Hi. rewrite vzero_get. rewrite Forall_forall in Z. apply Z, nth_In. auto. }
        subst y. rewrite Z. unfold quad. rewrite dot_comm. rewrite (dot_rs m) by (rewrite ?mv_length; auto). rewrite (rsum_zero m); [lra|]. intros. rewrite vzero_get. ring.
      - assert (P : 0 < dot y y) by (pose proof (norm2sq_nonneg y); unfold norm2sq in *; lra). assert (NR : norm2 y <> 0) by (intro Q; apply Z; change (norm2sq y = 0); rewrite <- norm2_sq, Q; ring).
        assert (NS : norm2 y * norm2 y = dot y y) by (rewrite norm2_sq; auto).
        assert (H : l <= quad A (vscale (/ norm2 y) y)).
        { apply MX; [rewrite vscale_length; auto|]. split; [rewrite dot_vscale_l, dot_vscale_r, <- NS; field; auto|]. intros k Hk. rewrite dot_vscale_r, Oy by auto. ring. }
        assert (QS : quad A (vscale (/ norm2 y) y) = quad A y / dot y y). { unfold quad. rewrite mv_vscale, dot_vscale_l, dot_vscale_r, <- NS. field. auto. }
        rewrite QS in H. apply Rmult_le_compat_r with (r := dot y y) in H; [|lra]. replace (quad A y / dot y y * dot y y) with (quad A y) in H by (field; auto). lra. }
    set (v := vsub (mv A x) (vscale l x)). assert (LAx : length (mv A x) = m) by (rewrite mv_length; auto). assert (Lv : length v = m) by (unfold v; rewrite vsub_length; rewrite ?vscale_length; lia).
    assert (Ov : forall k, (k < length us)%nat -> dot (nth k us []) v = 0).
    { intros k Hk. unfold v. rewrite dot_vsub_r by (rewrite ?vscale_length; lia). rewrite dot_vscale_r, XO by auto. rewrite (sym_dot m) by auto. rewrite EV by auto. rewrite dot_vscale_r, (dot_comm x), XO by auto. ring. }
    assert (Vx : dot v x = 0). { unfold v. rewrite dot_vsub_l by (rewrite ?vscale_length; lia). rewrite dot_vscale_l, X1, dot_comm. unfold l, quad. ring. }
    assert (VV : dot (mv A x) v = dot v v). { unfold v at 2. rewrite dot_vsub_l by (rewrite ?vscale_length; lia). rewrite dot_vscale_l, (dot_comm x v), Vx. ring. }
    assert (V0 : dot v v = 0).
    { apply (linear_zero _ (quad A v - l * dot v v)). intro t.
      assert (Ly : length (vadd x (vscale t v)) = m) by (rewrite vadd_length; rewrite ?vscale_length; lia).
      specialize (GE (vadd x (vscale t v)) Ly). assert (Q : quad A (vadd x (vscale t v)) = l + 2 * t * dot (mv A x) v + t * t * quad A v).
      { unfold quad at 1. rewrite mv_vadd by (rewrite ?vscale_length; lia). rewrite mv_vscale.
        assert (LAv : length (mv A v) = m) by (rewrite mv_length; auto).
        rewrite dot_vadd_l by (rewrite ?vscale_length; lia). rewrite !dot_vadd_r by (rewrite ?vscale_length; lia). rewrite !dot_vscale_l, !dot_vscale_r. rewrite (dot_comm v (mv A x)), (sym_dot m A x v) by auto. rewrite (dot_comm v (mv A x)). unfold l, quad. ring. }
      assert (N : dot (vadd x (vscale t v)) (vadd x (vscale t v)) = 1 + t * t * dot v v).
      { rewrite dot_vadd_l by (rewrite ?vscale_length; lia). rewrite !dot_vadd_r by (rewrite ?vscale_length; lia). rewrite !dot_vscale_l, !dot_vscale_r, X1, (dot_comm x v), Vx. ring. }
      assert (O' : forall k, (k < length us)%nat -> dot (nth k us []) (vadd x (vscale t v)) = 0) by (intros k Hk; rewrite dot_vadd_r by (rewrite ?vscale_length; rewrite ?LU; lia); rewrite dot_vscale_r, XO, Ov by auto; ring).
      specialize (GE O'). rewrite Q, N, VV in GE. lra. }
    assert (EX : mv A x = vscale l x).
    { fold (norm2sq v) in V0. apply norm2sq_zero in V0. rewrite Forall_forall in V0. apply vec_ext; [rewrite vscale_length; lia|]. intros i Hi. assert (Zi : vget v i = 0) by (apply V0, nth_In; lia). unfold v in Zi. rewrite vsub_get in Zi by (rewrite ?vscale_length; lia). lra. }
    exists l, x. destruct (orth_snoc m us x F OR Lx X1 XO) as [F' OR'].
    assert (GL : vget (w ++ [l]) (length us) = l) by (unfold vget; rewrite app_nth2, Lw, Nat.sub_diag by lia; auto).
    assert (GW : forall k, (k < length us)%nat -> vget (w ++ [l]) k = vget w k) by (intros k Hk; unfold vget; rewrite app_nth1 by lia; auto).
    assert (GU : nth (length us) (us ++ [x]) [] = x) by (rewrite app_nth2, Nat.sub_diag by lia; auto).
    assert (LEl : forall k, (k < length us)%nat -> vget w k <= l) by (intros k Hk; apply LO; auto).
    split; [rewrite !app_length; simpl; lia|]. split; auto. split; auto. rewrite app_length. simpl. split; [|split].
    + intros k Hk. destruct (Nat.eq_dec k (length us)) as [->|Nk]; [rewrite GL, GU; auto|]. rewrite GW by lia. rewrite app_nth1 by lia. apply EV. lia.
    + intros i j H. destruct (Nat.eq_dec j (length us)) as [->|Nj].
      * rewrite GL. destruct (Nat.eq_dec i (length us)) as [->|Ni]; [rewrite GL; lra|]. rewrite GW by lia. apply LEl. lia.
      * rewrite !GW by lia. apply SO. lia.
    + intros y Ly Y1 Oy k Hk. assert (Oy' : forall j, (j < length us)%nat -> dot (nth j us []) y = 0) by (intros j Hj; rewrite <- (app_nth1 us [x] [] Hj); apply Oy; lia).
      destruct (Nat.eq_dec k (length us)) as [->|Nk]; [rewrite GL; unfold l; apply MX; auto; split; auto|]. rewrite GW by lia. apply LO; auto. lia.
Qed.
Lemma eig_all : forall m A k, sq m A -> msym m A -> (k <= m)%nat -> exists w us, length us = k /\ eig_part m A w us.
Proof.
  intros m A k SA MA. induction k as [|k IH]; intro Hk.
  - exists [], []. split; auto. repeat split; auto; try (intros; simpl in *; lia). intros a b Ha; simpl in Ha; lia.
  - destruct IH as (w & us & L & E); [lia|]. destruct (eig_step m A w us SA MA E ltac:(lia)) as (l & u & E'). exists (w ++ [l]), (us ++ [u]). split; auto. rewrite app_length. simpl. lia.
Qed.
Lemma mat_ext_mv : forall m A B, sq m A -> sq m B -> (forall x, length x = m -> mv A x = mv B x) -> A = B.
Proof.
  intros m A B SA SB H. apply (mat_ext m); auto. intros i j Hi Hj. pose proof SA as [LA FA]. pose proof SB as [LB FB]. specialize (H (unitv m j) (unitv_len m j)).
  assert (E : vget (mv A (unitv m j)) i = vget (mv B (unitv m j)) i) by (rewrite H; auto). rewrite !mv_get in E by lia. rewrite !dot_unitv in E by (auto; eapply sq_row; eauto). exact E.
Qed.
(** every symmetric matrix has an eigendecomposition in the sense of the contract of eigh *)
Theorem eigh_exists : forall m A, sq m A -> msym m A -> exists e, eigh_post m A e.
Proof.
  intros m A SA MA. destruct (eig_all m A m SA MA (le_n m)) as (w & us & L & Lw & F & OR & EV & SO & _). exists (w, us). unfold eigh_post. simpl. rewrite L in *.
  assert (OB : onb m us) by (split; auto). split; [lia|]. split; auto. split; auto. apply (mat_ext_mv m); auto; [apply spec_sq; auto|].
  intros x Lx. rewrite mv_spec by (auto; lia). rewrite <- (onb_expand m us x OB Lx) at 2.
  apply vec_ext; [rewrite mv_length, lincomb_length by auto; destruct SA; lia|]. intros i Hi. rewrite lincomb_length in Hi by auto.
  rewrite (lc_get m) by (auto; rewrite vmul_length; rewrite ?mv_length; lia). pose proof SA as [LA FA]. rewrite mv_get by lia.
  rewrite (dot_lincomb_r m) by (auto; rewrite mv_length; auto). apply rsum_ext. intros k Hk. rewrite vmul_get by (rewrite mv_length; lia).
  assert (E : vget (mv A (nth k us [])) i = vget (vscale (vget w k) (nth k us [])) i) by (rewrite EV by lia; auto). rewrite mv_get in E by lia. rewrite vscale_get in E. rewrite E. ring.
Qed.
