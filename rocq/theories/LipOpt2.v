(** Minimisers of the semidefinite program of LipschitzMatrix, continued: existence, rotations, the fitted matrix, findings. *)
Require Import Reals List Bool Arith Lia Lra Psatz Classical_Prop.
From Verif Require Import RVec Num Sums DomMoreModel MatLib SpecProofs SweepProofs ArnoldiMoreProofs LipModel LipProofs LipConstProofs ProjProofs ProjGradProofs GrassLib LipFitProofs SdpProofs Compact LipOpt.
Import ListNotations.
Local Open Scope R_scope.

(** ** existence *)
Definition unflat (m : nat) (x : vec) : mat := map (fun i => map (fun j => vget x (i * m + j)) (seq 0 m)) (seq 0 m).
Definition flat (m : nat) (H : mat) : vec := map (fun k => mget H (k / m) (k mod m)) (seq 0 (m * m)).
Lemma unflat_sq : forall m x, sq m (unflat m x).
Proof. intros m x. unfold unflat. split; [rewrite map_length, seq_length; auto|]. apply Forall_forall. intros r Hr. apply in_map_iff in Hr. destruct Hr as [i [<- _]]. rewrite map_length, seq_length. auto. Qed.
Lemma unflat_get : forall m x i j, (i < m)%nat -> (j < m)%nat -> mget (unflat m x) i j = vget x (i * m + j).
Proof. intros m x i j Hi Hj. unfold mget, unflat. rewrite nth_map_seq by auto. rewrite vget_map_seq by auto. auto. Qed.
Lemma unflat_flat : forall m H, sq m H -> unflat m (flat m H) = H.
Proof.
  intros m H SH. apply (mat_ext m); auto; [apply unflat_sq|]. intros i j Hi Hj. rewrite unflat_get by auto. unfold flat. rewrite vget_map_seq by nia.
  replace ((i * m + j) / m)%nat with i by (rewrite Nat.div_add_l, Nat.div_small by lia; lia). replace ((i * m + j) mod m)%nat with j by (rewrite Nat.add_comm, Nat.mod_add, Nat.mod_small by lia; lia). auto.
Qed.
Lemma cts_get : forall m i j, (i < m)%nat -> (j < m)%nat -> cts (m * m) (fun x => mget (unflat m x) i j).
Proof. intros m i j Hi Hj. apply cts_ext with (fun x => vget x (i * m + j)); [intros; rewrite unflat_get; auto|apply cts_coord]. Qed.
Lemma cts_quad : forall m y, length y = m -> cts (m * m) (fun x => quad (unflat m x) y).
Proof.
  intros m y Hy. apply cts_ext with (fun x => rsum m (fun i => rsum m (fun j => vget y i * mget (unflat m x) i j * vget y j))); [intros x _; unfold quad; rewrite (bil_rsum m); auto; apply unflat_sq|].
  apply (cts_rsum (m * m) m (fun i x => rsum m (fun j => vget y i * mget (unflat m x) i j * vget y j))). intros i Hi. apply (cts_rsum (m * m) m (fun j x => vget y i * mget (unflat m x) i j * vget y j)). intros j Hj.
  apply cts_ext with (fun x => (vget y i * vget y j) * mget (unflat m x) i j); [intros; ring|]. apply cts_scal, cts_get; auto.
Qed.
Lemma cts_trace : forall m, cts (m * m) (fun x => trace (unflat m x)).
Proof. intro m. apply cts_ext with (fun x => rsum m (fun i => mget (unflat m x) i i)); [intros x _; rewrite (trace_sq m); auto; apply unflat_sq|]. apply (cts_rsum (m * m) m (fun i x => mget (unflat m x) i i)). intros. apply cts_get; auto. Qed.
Lemma closed_iff : forall n (K1 K2 : vec -> Prop), (forall x, length x = n -> (K1 x <-> K2 x)) -> closed_set n K1 -> closed_set n K2.
Proof. intros n K1 K2 E C x Lx N. destruct (C x Lx ltac:(intro Q; apply N, E; auto)) as (d & D & H). exists d. split; auto. intros y Cy Ky. apply (H y Cy), E; auto. apply Cy. Qed.
Lemma closed_ge : forall n f c, cts n f -> closed_set n (fun x => c <= f x).
Proof. intros n f c F. apply closed_iff with (fun x => - f x <= - c); [intros; lra|]. apply closed_le, cts_opp. auto. Qed.
Lemma closed_imp' : forall n (Q : Prop) (K : vec -> Prop), (Q -> closed_set n K) -> closed_set n (fun x => Q -> K x).
Proof. intros n Q K H x Lx N. apply imply_to_and in N. destruct N as [q N]. destruct (H q x Lx N) as (d & D & Hd). exists d. split; auto. intros y C Hy. apply (Hd y C (Hy q)). Qed.
Lemma closed_sdp : forall m X fX grads eps, Forall (dimP m) X -> closed_set (m * m) (fun x => sdp_H m X fX grads eps (unflat m x)).
Proof.
  intros m X fX grads eps FX.
  apply closed_iff with (fun x => (forall y, length y = m -> 0 <= quad (unflat m x) y) /\ (forall i j, (i < m)%nat -> (j < m)%nat -> mget (unflat m x) i j - mget (unflat m x) j i = 0) /\
    (forall i j, (i < j < length X)%nat -> (Rmax (Rabs (vget fX i - vget fX j) - eps) 0) ^ 2 <= quad (unflat m x) (pair_p X i j)) /\ (forall g, In g grads -> forall y, length y = m -> quad (outer g g) y <= quad (unflat m x) y)).
  - intros x _. unfold sdp_H, builder_ok, psd, msym, loewner. split.
    + intros (A & B & C & D). repeat (split; auto); try apply unflat_sq. intros i j Hi Hj. specialize (B i j Hi Hj). lra.
    + intros (A & _ & B & C & D). repeat (split; auto). intros i j Hi Hj. rewrite (B i j) by auto. ring.
  - apply closed_and; [|apply closed_and; [|apply closed_and]].
    + apply closed_all. intro y. apply closed_imp'. intro Hy. apply closed_ge, cts_quad; auto.
    + apply closed_all. intro i. apply closed_all. intro j. apply closed_imp'. intro Hi. apply closed_imp'. intro Hj. apply closed_eq, cts_minus; apply cts_get; auto.
    + apply closed_all. intro i. apply closed_all. intro j. apply closed_imp'. intro Hij. apply closed_ge, cts_quad. unfold pair_p; rewrite Forall_forall in FX; rewrite vsub_length; [|rewrite !FX by (apply nth_In; lia); auto]; apply FX, nth_In; lia.
    + apply closed_all. intro g. apply closed_imp'. intros _. apply closed_all. intro y. apply closed_imp'. intro Hy. apply closed_ge, cts_quad; auto.
Qed.
Lemma psd_entry : forall m H i j, sq m H -> msym m H -> psd m H -> (i < m)%nat -> (j < m)%nat -> Rabs (mget H i j) <= trace H.
Proof.
  intros m H i j SH MH P Hi Hj. pose proof (unitv_len m i) as Li. pose proof (unitv_len m j) as Lj. assert (N : forall k, (k < m)%nat -> norm2sq (unitv m k) = 1) by (intros k Hk; unfold norm2sq; rewrite dot_uu by auto; rewrite Nat.eqb_refl; auto).
  pose proof (psd_quad_trace1 m H _ SH MH P Li (N i Hi)) as Qi. pose proof (psd_quad_trace1 m H _ SH MH P Lj (N j Hj)) as Qj.
  pose proof (P (vadd (unitv m i) (unitv m j)) ltac:(rewrite vadd_length; lia)) as A. rewrite (quad_add m) in A by auto.
  pose proof (P (vsub (unitv m i) (vscale 1 (unitv m j))) ltac:(rewrite vsub_length; rewrite ?vscale_length; lia)) as B. rewrite (quad_sub m) in B by auto. rewrite bil_unit in A, B by auto. apply Rabs_le. lra.
Qed.
(** a minimiser exists as soon as some matrix is feasible *)
Lemma best_from_feasible : forall m X fX grads eps G, Forall (dimP m) X -> sdp_H m X fX grads eps G -> exists H, best m X fX grads eps H.
Proof.
  intros m X fX grads eps G FX FG. set (T := trace G). set (K := fun x => sdp_H m X fX grads eps (unflat m x) /\ trace (unflat m x) <= T).
  assert (SG : sq m G) by apply FG.
  destruct (min_attained (m * m) K (fun x => trace (unflat m x)) (repeat (- T) (m * m)) (repeat T (m * m)) (repeat_length _ _) (repeat_length _ _)) as (x & Lx & [Fx Tx] & Mx).
  - apply closed_and; [apply closed_sdp; auto|]. apply closed_le, cts_trace.
  - apply cts_lsc, cts_trace.
  - intros x Lx [[P [SH [MH _]]] Tx] k Hk. rewrite repeat_length in Hk. assert (NZ : m <> 0%nat) by (intro; subst; cbn in Hk; lia).
    assert (Hi : (k / m < m)%nat) by (apply Nat.div_lt_upper_bound; auto). assert (Hj : (k mod m < m)%nat) by (apply Nat.mod_upper_bound; auto).
    pose proof (psd_entry m (unflat m x) _ _ SH MH P Hi Hj) as Q. rewrite unflat_get in Q by auto. replace (k / m * m + k mod m)%nat with k in Q by (rewrite (Nat.div_mod k m) at 1 by auto; lia).
    assert (E : forall t, vget (repeat t (m * m)) k = t) by (intro t; unfold vget; rewrite (nth_indep _ 0 t) by (rewrite repeat_length; auto); apply nth_repeat). rewrite !E. revert Q. unfold Rabs. destruct (Rcase_abs _); intro; lra.
  - exists (flat m G). split; [unfold flat; rewrite map_length, seq_length; auto|]. unfold K. rewrite unflat_flat by auto. split; [auto|unfold T; lra].
  - exists (unflat m x). split; auto. intros G' FG'. assert (SG' : sq m G') by apply FG'. destruct (Rle_dec (trace G') T) as [L|L]; [|lra].
    specialize (Mx (flat m G') ltac:(unfold flat; rewrite map_length, seq_length; auto)). unfold K in Mx. rewrite unflat_flat in Mx by auto. auto.
Qed.
Lemma lip_ok_exists : forall X fX grads eps, same_only X fX eps -> exists l, lip_ok X fX grads eps l.
Proof.
  intros X fX grads eps S. set (n := length X). set (r := fun i j => Rabs ((Rabs (vget fX i - vget fX j) - eps) / norm2 (vsub (nth i X []) (nth j X [])))).
  set (a := rsum n (fun i => rsum n (fun j => r i j))). set (b := rsum (length grads) (fun k => norm2 (nth k grads []))).
  assert (R0 : forall i j, 0 <= r i j) by (intros; apply Rabs_pos). assert (A0 : 0 <= a) by (apply rsum_nonneg; intros; apply rsum_nonneg; auto). assert (B0 : 0 <= b) by (apply rsum_nonneg; intros; apply norm2_nonneg).
  assert (P1 : forall k f i, (forall i, (i < k)%nat -> 0 <= f i) -> (i < k)%nat -> f i <= rsum k f).
  { intros k f i F Hi. rewrite (rsum_split k i) by auto. assert (0 <= rsum k (fun j => if Nat.eqb j i then 0 else f j)); [|lra]. apply rsum_nonneg. intros j Hj. destruct (Nat.eqb j i); [lra|auto]. }
  exists (a + b). split; [lra|]. split.
  - intros i j Hij. pose proof (norm2_nonneg (vsub (nth i X []) (nth j X []))) as N0. destruct (Rle_dec (Rabs (vget fX i - vget fX j)) eps) as [L|L]; [nra|]. specialize (S i j Hij ltac:(lra)).
    assert (Q : r i j <= a). { eapply Rle_trans; [apply (P1 n (fun j => r i j) j); [auto|unfold n; lia]|]. apply (P1 n (fun i => rsum n (fun j => r i j)) i); [intros; apply rsum_nonneg; auto|unfold n; lia]. }
    unfold r in Q. set (t := Rabs (vget fX i - vget fX j) - eps) in *. set (q := norm2 _) in *. pose proof (Rle_abs (t / q)) as Q2. assert (t / q <= a + b) by lra. assert (E : t = t / q * q) by (field; lra). assert (t <= (a + b) * q) by (rewrite E; apply Rmult_le_compat_r; lra). unfold t in *. lra.
  - intros g Hg. destruct (In_nth grads g [] Hg) as [k [Hk Ek]]. pose proof (P1 (length grads) (fun k => norm2 (nth k grads [])) k (fun _ _ => norm2_nonneg _) Hk) as Q. cbn beta in Q. rewrite Ek in Q. fold b in Q. lra.
Qed.
(** the program has a solution exactly if no two coinciding points have values further apart than epsilon *)
Theorem best_exists : forall m X fX grads eps, Forall (dimP m) X -> Forall (dimP m) grads -> ((exists H, best m X fX grads eps H) <-> same_only X fX eps).
Proof.
  intros m X fX grads eps FX FG. split.
  - intros [H [[P [SH [MH [B1 _]]]] _]] i j Hij A. specialize (B1 i j Hij). fold (pair_p X i j). pose proof (norm2_nonneg (pair_p X i j)) as N0. destruct (Req_EM_T (norm2 (pair_p X i j)) 0) as [Z|]; [|lra]. exfalso.
    assert (LP : length (pair_p X i j) = m) by (unfold pair_p; rewrite Forall_forall in FX; rewrite vsub_length; [|rewrite !FX by (apply nth_In; lia); auto]; apply FX, nth_In; lia).
    assert (Z2 : norm2sq (pair_p X i j) = 0) by (rewrite <- norm2_sq, Z; ring). rewrite (zero_vec m _ LP Z2), quad_vzero, Rmax_left in B1 by lra. nra.
  - intro S. destruct (lip_ok_exists X fX grads eps S) as [l Hl]. apply (best_from_feasible m X fX grads eps (mscale (l * l) (meye m))); auto. apply meye_feasible; auto.
Qed.

(** ** rotations *)
(** the matrix of entries v_a . G v_b *)
Definition congr (vs : list vec) (G : mat) : mat := map (fun a => map (fun b => dot a (mv G b)) vs) vs.
Lemma congr_sq : forall m vs G, length vs = m -> sq m (congr vs G).
Proof. intros m vs G L. unfold congr. split; [rewrite map_length; auto|]. apply Forall_forall. intros r Hr. apply in_map_iff in Hr. destruct Hr as [a [<- _]]. rewrite map_length. auto. Qed.
Lemma congr_get : forall m vs G i j, length vs = m -> (i < m)%nat -> (j < m)%nat -> mget (congr vs G) i j = dot (nth i vs []) (mv G (nth j vs [])).
Proof.
  intros m vs G i j L Hi Hj. unfold mget, congr. rewrite (nth_indep _ [] (map (fun b => dot [] (mv G b)) vs)) by (rewrite map_length; lia). rewrite (map_nth (fun a => map (fun b => dot a (mv G b)) vs)).
  unfold vget. rewrite (nth_indep _ 0 (dot (nth i vs []) (mv G []))) by (rewrite map_length; lia). rewrite (map_nth (fun b => dot (nth i vs []) (mv G b))). auto.
Qed.
Lemma congr_sym : forall m vs G, sq m G -> msym m G -> length vs = m -> Forall (dimP m) vs -> msym m (congr vs G).
Proof. intros m vs G SG MG L F i j Hi Hj. rewrite !(congr_get m) by auto. rewrite Forall_forall in F. apply (bil_sym m); auto; apply F, nth_In; lia. Qed.
Lemma dot_lincomb_r : forall m us c x, Forall (fun u => length u = m) us -> length c = length us -> dot x (lincomb m us c) = rsum (length us) (fun k => vget c k * dot x (nth k us [])).
Proof. intros. rewrite dot_comm, dot_lincomb_l by auto. apply rsum_ext. intros. rewrite (dot_comm x). auto. Qed.
Lemma congr_quad : forall m vs G x, sq m G -> msym m G -> length vs = m -> Forall (dimP m) vs -> length x = m -> quad (congr vs G) x = quad G (lincomb m vs x).
Proof.
  intros m vs G x SG MG L F Hx. assert (LL : length (lincomb m vs x) = m) by (apply lincomb_length; auto). assert (LR : forall k, (k < m)%nat -> length (nth k vs []) = m) by (intros k Hk; rewrite Forall_forall in F; apply F, nth_In; lia).
  unfold quad at 1. rewrite (bil_rsum m) by (auto; apply congr_sq; auto). unfold quad. rewrite dot_lincomb_l by (auto; lia). rewrite L. apply rsum_ext. intros i Hi.
  rewrite (bil_sym m G (nth i vs []) (lincomb m vs x)) by auto. rewrite dot_lincomb_l by (auto; lia). rewrite L, <- rsum_scal_l. apply rsum_ext. intros j Hj. rewrite (congr_get m) by auto. rewrite (bil_sym m G (nth i vs []) (nth j vs [])) by auto. ring.
Qed.
Lemma dot_unit : forall m x i, length x = m -> (i < m)%nat -> dot x (unitv m i) = vget x i.
Proof.
  intros m x i Hx Hi. rewrite dot_rsum by (rewrite unitv_len; auto). rewrite Hx, (rsum_single m i); auto; [rewrite unitv_get by auto; rewrite Nat.eqb_refl; ring|].
  intros k Hk NK. rewrite unitv_get by auto. destruct (Nat.eqb_spec k i); [contradiction|ring].
Qed.
Lemma trace_onb : forall m us G, onb m us -> sq m G -> rsum m (fun k => quad G (nth k us [])) = trace G.
Proof.
  intros m us G OB SG. assert (LR : forall k, (k < m)%nat -> length (nth k us []) = m) by (intros; apply onb_row; auto).
  rewrite (rsum_ext m _ (fun k => rsum m (fun i => rsum m (fun j => vget (nth k us []) i * mget G i j * vget (nth k us []) j)))) by (intros k Hk; unfold quad; apply (bil_rsum m); auto).
  rewrite rsum_swap, (trace_sq m) by auto. apply rsum_ext. intros i Hi. rewrite rsum_swap. rewrite (rsum_single m i); auto.
  - assert (E : rsum m (fun k => vget (nth k us []) i * vget (nth k us []) i) = 1).
    { rewrite <- (Rmult_1_r 1). transitivity (dot (unitv m i) (unitv m i)); [|rewrite dot_uu by auto; rewrite Nat.eqb_refl; ring]. rewrite (parseval_dot m us) by (auto; apply unitv_len). apply rsum_ext. intros k Hk. rewrite !dot_unit by auto. auto. }
    rewrite (rsum_ext m _ (fun k => mget G i i * (vget (nth k us []) i * vget (nth k us []) i))) by (intros; ring). rewrite rsum_scal_l, E. ring.
  - intros j Hj NJ. assert (E : rsum m (fun k => vget (nth k us []) i * vget (nth k us []) j) = 0).
    { transitivity (dot (unitv m i) (unitv m j)); [|rewrite dot_uu by auto; destruct (Nat.eqb_spec i j); auto; subst; contradiction]. rewrite (parseval_dot m us) by (auto; apply unitv_len). apply rsum_ext. intros k Hk. rewrite !dot_unit by auto. auto. }
    rewrite (rsum_ext m _ (fun k => mget G i j * (vget (nth k us []) i * vget (nth k us []) j))) by (intros; ring). rewrite rsum_scal_l, E. ring.
Qed.
Lemma congr_trace : forall m us G, onb m us -> sq m G -> trace (congr us G) = trace G.
Proof. intros m us G OB SG. assert (L : length us = m) by apply OB. rewrite (trace_sq m) by (apply congr_sq; auto). rewrite <- (trace_onb m us G) by auto. apply rsum_ext. intros k Hk. rewrite (congr_get m) by auto. auto. Qed.
(** the columns of an orthogonal matrix *)
Definition ocols (m : nat) (Q : list vec) : list vec := map (fun i => mv Q (unitv m i)) (seq 0 m).
Lemma ocols_nth : forall m Q i, (i < m)%nat -> nth i (ocols m Q) [] = mv Q (unitv m i).
Proof. intros. unfold ocols. apply nth_map_seq. auto. Qed.
Lemma ocols_onb : forall m Q, onb m Q -> onb m (ocols m Q).
Proof.
  intros m Q OB. pose proof OB as [LQ [FQ OQ]]. assert (LO : length (ocols m Q) = m) by (unfold ocols; rewrite map_length, seq_length; auto). split; [auto|]. split.
  - apply Forall_forall. intros u Hu. unfold ocols in Hu. apply in_map_iff in Hu. destruct Hu as [i [<- _]]. rewrite mv_length. auto.
  - intros a b Ha Hb. rewrite LO in Ha, Hb. rewrite !ocols_nth by auto. rewrite <- dot_uu with (m := m) by auto. rewrite (parseval_dot m Q (unitv m a)) by (auto; apply unitv_len).
    rewrite dot_rsum by (rewrite !mv_length; auto). rewrite mv_length, LQ. apply rsum_ext. intros k Hk. rewrite !mv_get by lia. auto.
Qed.
Lemma ocols_lincomb : forall m Q x, length Q = m -> Forall (fun u => length u = m) Q -> length x = m -> lincomb m (ocols m Q) x = mv Q x.
Proof.
  intros m Q x LQ FQ Hx. assert (LO : length (ocols m Q) = m) by (unfold ocols; rewrite map_length, seq_length; auto). assert (FO : Forall (fun u => length u = m) (ocols m Q)).
  { apply Forall_forall. intros u Hu. unfold ocols in Hu. apply in_map_iff in Hu. destruct Hu as [i [<- _]]. rewrite mv_length. auto. }
  apply vec_ext; [rewrite lincomb_length, mv_length by auto; auto|]. intros i Hi. rewrite lincomb_length in Hi by auto. rewrite lincomb_get by (auto; lia). rewrite LO, mv_get by lia. assert (LR : length (nth i Q []) = m) by (rewrite Forall_forall in FQ; apply FQ, nth_In; lia).
  rewrite dot_rsum by lia. rewrite LR. apply rsum_ext. intros k Hk. rewrite ocols_nth by auto. rewrite mv_get by lia. rewrite dot_unit by auto. ring.
Qed.
Lemma rot_back : forall m Q x, onb m Q -> length x = m -> mv Q (lincomb m Q x) = x.
Proof.
  intros m Q x [LQ [FQ OQ]] Hx. apply vec_ext; [rewrite mv_length; lia|]. intros i Hi. rewrite mv_length in Hi. rewrite mv_get by auto. rewrite dot_lincomb_r by (auto; lia). rewrite (rsum_single _ i); auto.
  - rewrite (OQ i i) by auto. rewrite Nat.eqb_refl. ring.
  - intros k Hk NK. rewrite (OQ i k) by auto. destruct (Nat.eqb_spec i k); [subst; contradiction|ring].
Qed.
Lemma mv_iso : forall m Q x y, onb m Q -> length x = m -> length y = m -> dot (mv Q x) (mv Q y) = dot x y.
Proof. intros m Q x y OB Hx Hy. assert (LQ : length Q = m) by apply OB. rewrite (parseval_dot m Q x y) by auto. rewrite dot_rsum by (rewrite !mv_length; auto). rewrite mv_length, LQ. apply rsum_ext. intros k Hk. rewrite !mv_get by lia. auto. Qed.
Lemma pair_rot : forall m Q X i j, Forall (dimP m) X -> (i < j < length X)%nat -> pair_p (map (mv Q) X) i j = mv Q (pair_p X i j).
Proof.
  intros m Q X i j FX Hij. unfold pair_p. rewrite !(nth_indep (map (mv Q) X) [] (mv Q [])) by (rewrite map_length; lia). rewrite !map_nth. symmetry. apply mv_vsub. rewrite Forall_forall in FX. rewrite !FX by (apply nth_In; lia). auto.
Qed.
(** inputs rotated by Q (rows of Q orthonormal): the minimisers are rotated with them *)
Theorem best_rotate : forall m Q X fX grads eps H, onb m Q -> Forall (dimP m) X -> Forall (dimP m) grads -> best m X fX grads eps H ->
  best m (map (mv Q) X) fX (map (mv Q) grads) eps (congr Q H) /\ forall x, length x = m -> quad (congr Q H) (mv Q x) = quad H x.
Proof.
  intros m Q X fX grads eps H OB FX FG [F B]. pose proof OB as [LQ [FQ OQ]]. pose proof (ocols_onb m Q OB) as OC. pose proof OC as [LO [FO _]]. pose proof F as [P [SH [MH [B1 B2]]]].
  assert (Q1 : forall x, length x = m -> quad (congr Q H) (mv Q x) = quad H x). { intros x Hx. rewrite (congr_quad m) by (auto; rewrite mv_length; auto). rewrite (onb_expand m Q x OB Hx). auto. }
  assert (LP : forall i j, (i < j < length X)%nat -> length (pair_p X i j) = m) by (intros i j Hij; unfold pair_p; rewrite Forall_forall in FX; rewrite vsub_length; [|rewrite !FX by (apply nth_In; lia); auto]; apply FX, nth_In; lia).
  split; [|auto]. split.
  - split; [|split; [|split; [|split]]].
    + intros x Hx. rewrite (congr_quad m) by auto. apply P, lincomb_length; auto.
    + apply congr_sq; auto.
    + apply (congr_sym m); auto.
    + rewrite map_length. intros i j Hij. rewrite (pair_rot m) by auto. rewrite Q1 by auto. auto.
    + intros g' Hg. apply in_map_iff in Hg. destruct Hg as [g [<- Hg]]. intros x Hx. rewrite quad_outer, (congr_quad m) by auto. assert (Lg : length g = m) by (rewrite Forall_forall in FG; apply FG; auto).
      set (y := lincomb m Q x). assert (Ly : length y = m) by (unfold y; apply lincomb_length; auto). specialize (B2 g Hg y Ly). rewrite quad_outer in B2. assert (E : dot (mv Q g) x = dot g y); [|rewrite E; auto].
      rewrite <- (rot_back m Q x OB Hx). fold y. apply (mv_iso m); auto.
  - intros G FGm. rewrite (congr_trace m Q H) by auto. destruct FGm as [PG [SG [MG [G1 G2]]]]. rewrite <- (congr_trace m (ocols m Q) G) by auto. apply B.
    assert (QG : forall x, length x = m -> quad (congr (ocols m Q) G) x = quad G (mv Q x)) by (intros x Hx; rewrite (congr_quad m) by auto; rewrite ocols_lincomb by auto; auto).
    split; [|split; [|split; [|split]]].
    + intros x Hx. rewrite QG by auto. apply PG. rewrite mv_length. auto.
    + apply congr_sq; auto.
    + apply (congr_sym m); auto.
    + intros i j Hij. rewrite QG by auto. rewrite <- (pair_rot m) by auto. apply G1. rewrite map_length. auto.
    + intros g Hg x Hx. assert (Lg : length g = m) by (rewrite Forall_forall in FG; apply FG; auto). rewrite quad_outer, QG by auto. specialize (G2 (mv Q g) (in_map _ _ _ Hg) (mv Q x) ltac:(rewrite mv_length; auto)). rewrite quad_outer, (mv_iso m) in G2 by auto. auto.
Qed.

Lemma vsum_zero : forall l, Forall (fun a => a = 0) l -> vsum l = 0.
Proof. induction 1 as [|a l E _ IH]; auto. rewrite vsum_cons, E, IH. ring. Qed.

(** ** the fitted matrix, lipschitz.py 160-179 *)
(** the sign of every direction that carries weight is decided: its mean slope is not zero *)
Definition signs_live (m : nat) (eigh : mat -> vec * list vec) (H grads : mat) : Prop :=
  grads = [] \/ forall k, (k < m)%nat -> 0 < vget (fst (eigh H)) k -> mean_slope (nth k (snd (eigh H)) []) grads <> 0.
Lemma fit_cols : forall m eigh H X fX grads s k, eigh_post m H (eigh H) -> (k < m)%nat ->
  exists c, nth k (fst (fst (lm_fit eigh H X fX grads s))) [] = vscale c (nth (m - 1 - k) (snd (eigh H)) []) /\
    (grads = [] -> c * c = 1) /\ (grads <> [] -> c = sgn (mean_slope (nth (m - 1 - k) (snd (eigh H)) []) (map (vscale (/ s)) grads))).
Proof.
  intros m eigh H X fX grads s k EK Hk. pose proof EK as [LW [OB _]]. assert (LU : length (snd (eigh H)) = m) by apply OB.
  unfold lm_fit. cbn [fst snd]. set (us := rev (snd (eigh H))). assert (Lr : length us = m) by (unfold us; rewrite rev_length; auto). assert (Nr : nth k us [] = nth (m - 1 - k) (snd (eigh H)) []) by (unfold us; rewrite rev_nth by lia; f_equal; lia).
  unfold fix_signs. set (gr := map (vscale (/ s)) grads). set (sg := match gr with [] => _ | _ :: _ => _ end). assert (Ls : length sg = length us) by apply signs_len.
  exists (vget sg k). rewrite scale_cols_nth by lia. rewrite Nr. split; [auto|]. split.
  - intros ->. unfold sg, gr. cbn [map]. apply pm1_get; [apply signs_samps_pm1|]. unfold signs_samps. rewrite map_length. lia.
  - intro NE. unfold sg, gr. destruct grads as [|g gs]; [congruence|]. cbn [map]. unfold signs_grads. rewrite (map_get _ _ us k []) by lia. rewrite Nr. reflexivity.
Qed.
Lemma lm_fit_U_len : forall m eigh H X fX grads s, eigh_post m H (eigh H) -> length (fst (fst (lm_fit eigh H X fX grads s))) = m /\ Forall (fun u => length u = m) (fst (fst (lm_fit eigh H X fX grads s))).
Proof.
  intros m eigh H X fX grads s EK. pose proof EK as [LW [OB _]]. assert (LU : length (snd (eigh H)) = m) by apply OB.
  assert (L : length (fst (fst (lm_fit eigh H X fX grads s))) = m). { unfold lm_fit, fix_signs. cbn [fst snd]. rewrite scale_cols_len; [rewrite rev_length; auto|apply signs_len]. }
  split; [auto|]. apply Forall_forall. intros u Hu. destruct (In_nth _ _ [] Hu) as [k [Hk <-]]. rewrite L in Hk. destruct (fit_cols m eigh H X fX grads s k EK Hk) as [c [-> _]]. rewrite vscale_length. apply onb_row; auto. lia.
Qed.
(** H of the fitted object is scale^2 times the builder's matrix, also when directions without weight lose their sign *)
Theorem fit_H : forall m eigh H X fX grads s, eigh_post m H (eigh H) -> sq m H -> msym m H -> psd m H -> signs_live m eigh H (map (vscale (/ s)) grads) -> snd (fst (lm_fit eigh H X fX grads s)) = mscale (s ^ 2) H.
Proof.
  intros m eigh H X fX grads s EK SH MH P SL. pose proof EK as [LW [OB [ES SO]]]. assert (LU : length (snd (eigh H)) = m) by apply OB. destruct (lm_fit_U_len m eigh H X fX grads s EK) as [LL FL].
  assert (W0 : forall k, (k < m)%nat -> 0 <= vget (fst (eigh H)) k).
  { intros k Hk. pose proof (onb_row m _ k OB Hk) as LR. specialize (P _ LR). rewrite (eigh_quad m H _ _ EK) in P. destruct OB as [_ [_ OR]]. rewrite (rsum_single m k) in P; auto; [rewrite (OR k k), Nat.eqb_refl in P by lia; lra|].
    intros j Hj NJ. rewrite (OR j k) by lia. destruct (Nat.eqb_spec j k); [contradiction|ring]. }
  assert (LH : length H = m) by apply SH.
  assert (E : snd (fst (lm_fit eigh H X fX grads s)) = mscale (s ^ 2) (spec m (map (fun w => Rmax w 0) (rev (fst (eigh H)))) (fst (fst (lm_fit eigh H X fX grads s))))) by (unfold lm_fit; cbn [fst snd]; rewrite LH; auto).
  rewrite E. f_equal. set (us' := fst (fst (lm_fit eigh H X fX grads s))) in *. apply (quad_ext m); [apply spec_sq; auto|auto|apply spec_sym; auto|auto|].
  intros x Hx. rewrite quad_spec by (auto; rewrite map_length, rev_length; lia). rewrite LL. rewrite (eigh_quad m H _ x EK). rewrite <- (rsum_rev m (fun k => vget (fst (eigh H)) k * _)). apply rsum_ext. intros k Hk.
  rewrite mapfun_get by (rewrite rev_length; lia). rewrite rev_get by lia. rewrite LW. rewrite Rmax_left by (apply W0; lia). destruct (fit_cols m eigh H X fX grads s k EK Hk) as [c [Ec [C1 C2]]]. fold us' in Ec. rewrite Ec, dot_vscale_l.
  set (w := vget (fst (eigh H)) (m - 1 - k)). set (d := dot _ x). assert (CC : w = 0 \/ c * c = 1).
  { destruct grads as [|g gs]; [right; auto|]. destruct (Req_EM_T w 0) as [|NW]; [left; auto|right]. specialize (C2 ltac:(discriminate)). destruct SL as [SL|SL]; [discriminate|]. assert (0 < w) by (pose proof (W0 (m - 1 - k)%nat ltac:(lia)); unfold w in *; lra).
    specialize (SL (m - 1 - k)%nat ltac:(lia) ltac:(auto)). destruct (sgn_pm _ SL) as [S|S]; rewrite S in C2; rewrite C2; ring. }
  destruct CC as [->|CC]; [ring|]. replace (w * (c * d * (c * d))) with (w * (c * c) * (d * d)) by ring. rewrite CC. ring.
Qed.
(** fit: a minimiser for the scaled data gives a minimiser for the data *)
Theorem fit_best : forall m eigh X fX grads eps s H, eigh_post m H (eigh H) -> 0 < s -> best m X (vscale (/ s) fX) (map (vscale (/ s)) grads) (eps / s) H -> signs_live m eigh H (map (vscale (/ s)) grads) ->
  best m X fX grads eps (snd (fst (lm_fit eigh H X fX grads s))).
Proof. intros m eigh X fX grads eps s H EK Hs B SL. pose proof B as [[P [SH [MH _]]] _]. rewrite (fit_H m) by auto. apply best_scale; auto. Qed.
(** a direction of weight zero is orthogonal to all gradients; its sign is zero and the column of U is the zero vector *)
Theorem fit_zero_column : forall m eigh X fX grads eps s H k, eigh_post m H (eigh H) -> 0 < s -> sdp_H m X (vscale (/ s) fX) (map (vscale (/ s)) grads) (eps / s) H -> grads <> [] -> Forall (dimP m) grads -> (k < m)%nat ->
  vget (fst (eigh H)) k = 0 -> nth (m - 1 - k) (fst (fst (lm_fit eigh H X fX grads s))) [] = vzero m.
Proof.
  intros m eigh X fX grads eps s H k EK Hs [P [SH [MH [_ B2]]]] NE FG Hk Z. pose proof EK as [LW [OB [ES SO]]]. pose proof (onb_row m _ k OB Hk) as LR.
  assert (QZ : quad H (nth k (snd (eigh H)) []) = 0).
  { rewrite (eigh_quad m H _ _ EK). apply rsum_zero. intros j Hj. destruct OB as [LU [_ OR]]. destruct (Nat.eq_dec j k) as [->|NJ]; [rewrite Z; ring|]. rewrite (OR j k) by lia. destruct (Nat.eqb_spec j k); [contradiction|ring]. }
  destruct (fit_cols m eigh H X fX grads s (m - 1 - k)%nat EK ltac:(lia)) as [c [Ec [_ C2]]]. specialize (C2 NE). replace (m - 1 - (m - 1 - k))%nat with k in * by lia. rewrite Ec. set (u := nth k (snd (eigh H)) []) in *.
  assert (MS : mean_slope u (map (vscale (/ s)) grads) = 0).
  { unfold mean_slope. rewrite vsum_zero; [unfold Rdiv; ring|]. apply Forall_forall. intros a Ha. apply in_map_iff in Ha. destruct Ha as [g [<- Hg]]. specialize (B2 g Hg u LR). rewrite quad_outer, QZ in B2. nra. }
  rewrite C2, MS, sgn_0. apply vec_ext; [rewrite vscale_length; unfold vzero; rewrite repeat_length; auto|]. intros i Hi. rewrite vscale_get. unfold vget, vzero. rewrite nth_repeat. ring.
Qed.
(** hence: whenever gradients are given and some direction is orthogonal to all gradients and active sample differences, U has a zero column *)
Theorem fit_not_orthonormal : forall m eigh X fX grads eps s H v, eigh_post m H (eigh H) -> 0 < s -> best m X (vscale (/ s) fX) (map (vscale (/ s)) grads) (eps / s) H -> grads <> [] -> Forall (dimP m) X -> Forall (dimP m) grads ->
  length v = m -> 0 < norm2sq v -> (forall i j, (i < j < length X)%nat -> eps < Rabs (vget fX i - vget fX j) -> dot v (vsub (nth i X []) (nth j X [])) = 0) -> (forall g, In g grads -> dot v g = 0) ->
  exists k, (k < m)%nat /\ nth k (fst (fst (lm_fit eigh H X fX grads s))) [] = vzero m.
Proof.
  intros m eigh X fX grads eps s H v EK Hs B NE FX FG LV NV OX OG. pose proof B as [F _]. pose proof F as [P [SH [MH _]]]. pose proof EK as [LW [OB _]].
  assert (KV : mv H v = vzero m).
  { apply (best_kernel m X (vscale (/ s) fX) (map (vscale (/ s)) grads) (eps / s)); auto.
    - intros i j Hij A. apply OX; auto. rewrite !vscale_get in A. replace (/ s * vget fX i - / s * vget fX j) with (/ s * (vget fX i - vget fX j)) in A by ring. assert (Hi : 0 < / s) by (apply Rinv_0_lt_compat; auto). rewrite Rabs_mult, (Rabs_right (/ s)) in A by lra. unfold Rdiv in A. nra.
    - intros g' Hg. apply in_map_iff in Hg. destruct Hg as [g [<- Hg]]. rewrite dot_vscale_r, OG by auto. ring. }
  assert (QV : quad H v = 0) by (unfold quad; rewrite KV; apply dot_zero_r). rewrite (eigh_quad m H _ v EK) in QV.
  assert (W0 : forall k, (k < m)%nat -> 0 <= vget (fst (eigh H)) k).
  { intros k Hk. pose proof (onb_row m _ k OB Hk) as LR. pose proof (P _ LR) as Pk. rewrite (eigh_quad m H _ _ EK) in Pk. destruct OB as [LU [_ OR]]. rewrite (rsum_single m k) in Pk; auto; [rewrite (OR k k), Nat.eqb_refl in Pk by lia; lra|].
    intros j Hj NJ. rewrite (OR j k) by lia. destruct (Nat.eqb_spec j k); [contradiction|ring]. }
  rewrite (parseval m _ v OB LV) in NV.
  assert (EX : exists k, (k < m)%nat /\ dot (nth k (snd (eigh H)) []) v <> 0).
  { apply NNPP. intro N. assert (Z : rsum m (fun k => dot (nth k (snd (eigh H)) []) v * dot (nth k (snd (eigh H)) []) v) = 0); [|lra]. apply rsum_zero. intros k Hk. destruct (Req_EM_T (dot (nth k (snd (eigh H)) []) v) 0) as [E|E]; [rewrite E; ring|]. exfalso. apply N. exists k. auto. }
  destruct EX as [k [Hk Dk]]. assert (PT : forall i, (i < m)%nat -> 0 <= vget (fst (eigh H)) i * (dot (nth i (snd (eigh H)) []) v * dot (nth i (snd (eigh H)) []) v)) by (intros i Hi; apply Rmult_le_pos; [apply W0; auto|apply Rle_0_sqr]).
  pose proof (rsum_zero_inv m _ PT QV k Hk) as Zk. cbn beta in Zk.
  assert (Wk : vget (fst (eigh H)) k = 0) by (apply Rmult_integral in Zk; destruct Zk as [|Zk]; auto; apply Rmult_integral in Zk; destruct Zk; contradiction).
  exists (m - 1 - k)%nat. split; [lia|]. apply (fit_zero_column m eigh X fX grads eps s H k); auto.
Qed.
