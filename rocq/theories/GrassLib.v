(** Linear combinations of orthonormal systems and geodesics on the Grassmann manifold.  Library file. *)
Require Import Reals Lra Lia List Bool Arith.
From Verif Require Import RVec Num Sums DomMoreModel SweepProofs HullProofs VecTac ArnoldiMoreProofs MatLib SpecProofs LipModel.
Import ListNotations.
Local Open Scope R_scope.

Lemma dot_rs : forall n x y, length x = n -> length y = n -> dot x y = rsum n (fun i => vget x i * vget y i).
Proof. intros n x y <- L. apply dot_rsum. auto. Qed.
Lemma dot_lincomb_r : forall m us c x, Forall (fun u => length u = m) us -> length c = length us -> dot x (lincomb m us c) = rsum (length us) (fun k => vget c k * dot x (nth k us [])).
Proof. intros m us c x F L. rewrite dot_comm, (dot_lincomb_l m) by auto. apply rsum_ext. intros k Hk. rewrite dot_comm. auto. Qed.
(** an orthonormal system is an isometry *)
Lemma dot_lincomb2 : forall m us c d, Forall (fun u => length u = m) us -> orthonormal us -> length c = length us -> length d = length us ->
  dot (lincomb m us c) (lincomb m us d) = dot c d.
Proof.
  intros m us c d F OR Lc Ld. rewrite (dot_lincomb_l m) by auto. rewrite (dot_rs (length us)) by lia. apply rsum_ext. intros k Hk. f_equal.
  rewrite (dot_lincomb_r m) by auto. rewrite (rsum_single _ k); [|auto|].
  - rewrite (OR k k) by auto. rewrite Nat.eqb_refl. ring.
  - intros j Hj N. rewrite (OR k j) by auto. destruct (Nat.eqb_spec k j); [lia|ring].
Qed.
Lemma mv_lincomb_onb : forall m us c, Forall (fun u => length u = m) us -> orthonormal us -> length c = length us -> mv us (lincomb m us c) = c.
Proof.
  intros m us c F OR L. apply vec_ext; [rewrite mv_length; auto|]. intros i Hi. rewrite mv_length in Hi. rewrite mv_get by auto. rewrite (dot_lincomb_r m) by auto.
  rewrite (rsum_single _ i); [|auto|].
  - rewrite (OR i i) by auto. rewrite Nat.eqb_refl. ring.
  - intros j Hj N. rewrite (OR i j) by auto. destruct (Nat.eqb_spec i j); [lia|ring].
Qed.
Lemma unitv_len : forall m i, length (unitv m i) = m.
Proof. intros. unfold unitv. rewrite map_length, seq_length. auto. Qed.
Lemma unitv_get : forall m i j, (j < m)%nat -> vget (unitv m i) j = if Nat.eqb j i then 1 else 0.
Proof. intros m i j Hj. unfold unitv. rewrite vget_map_seq by auto. auto. Qed.
Lemma dot_unitv : forall m i x, (i < m)%nat -> length x = m -> dot x (unitv m i) = vget x i.
Proof.
  intros m i x Hi L. rewrite (dot_rs m) by (auto; apply unitv_len). rewrite (rsum_single _ i); [|auto|].
  - rewrite unitv_get by auto. rewrite Nat.eqb_refl. ring.
  - intros j Hj N. rewrite unitv_get by auto. destruct (Nat.eqb_spec j i); [lia|ring].
Qed.
Lemma col_len : forall X i, length (col X i) = length X.
Proof. intros. unfold col. apply map_length. Qed.
Lemma col_get : forall X i k, (k < length X)%nat -> vget (col X i) k = vget (nth k X []) i.
Proof. intros X i k Hk. unfold col. rewrite (map_get _ _ X k []) by auto. auto. Qed.
(** the columns of a square orthogonal matrix given by its rows *)
Lemma onb_cols : forall r zs c d, onb r zs -> (c < r)%nat -> (d < r)%nat -> dot (col zs c) (col zs d) = if Nat.eqb c d then 1 else 0.
Proof.
  intros r zs c d OB Hc Hd. pose proof OB as [L [F OR]]. rewrite (dot_rs r) by (rewrite col_len; auto).
  transitivity (dot (unitv r c) (unitv r d)).
  - rewrite (parseval_dot r zs) by (auto; apply unitv_len). apply rsum_ext. intros k Hk. rewrite !col_get by lia. rewrite !dot_unitv by (auto; apply (onb_row r); auto). auto.
  - rewrite dot_unitv by (auto; apply unitv_len). rewrite unitv_get by auto. destruct (Nat.eqb_spec d c), (Nat.eqb_spec c d); auto; lia.
Qed.

(** thin singular value decomposition of dU (columns [ds]): dU = Y diag(s) ZT with Y orthonormal columns, ZT orthogonal *)
Definition svd_post (m : nat) (ds ys : list vec) (s : vec) (zs : list vec) : Prop :=
  length ys = length ds /\ Forall (fun y => length y = m) ys /\ orthonormal ys /\ length s = length ds /\ onb (length ds) zs /\
  (forall c, (c < length ds)%nat -> nth c ds [] = lincomb m ys (vmul s (col zs c))).
(** U^T Y diag(s) = 0 when U^T dU = 0 *)
Lemma svd_orth : forall m us ds ys s zs, Forall (fun u => length u = m) us -> svd_post m ds ys s zs ->
  (forall u d, In u us -> In d ds -> dot u d = 0) -> forall u k, In u us -> (k < length ds)%nat -> vget s k * dot u (nth k ys []) = 0.
Proof.
  intros m us ds ys s zs FU [Ly [FY [OY [Ls [OZ E]]]]] H u k Iu Hk. set (r := length ds) in *.
  assert (A : forall c, (c < r)%nat -> rsum r (fun j => vget s j * dot u (nth j ys []) * vget (nth j zs []) c) = 0).
  { intros c Hc. rewrite <- (H u (nth c ds []) Iu) by (apply nth_In; auto). rewrite E by auto. pose proof OZ as [Lz _]. rewrite (dot_lincomb_r m) by (try assumption; unfold vmul; rewrite vmap2_length by (rewrite col_len; lia); lia).
    rewrite Ly. apply rsum_ext. intros j Hj. rewrite vmul_get by (rewrite ?col_len; lia). rewrite col_get by lia. ring. }
  pose proof OZ as [Lz [FZ ORZ]].
  assert (B : rsum r (fun c => rsum r (fun j => vget s j * dot u (nth j ys []) * vget (nth j zs []) c) * vget (nth k zs []) c) = 0).
  { apply rsum_zero. intros c Hc. rewrite A by auto. ring. }
  rewrite <- B. rewrite (rsum_ext r _ (fun c => rsum r (fun j => vget s j * dot u (nth j ys []) * (vget (nth j zs []) c * vget (nth k zs []) c)))).
  2:{ intros c Hc. rewrite <- rsum_scal_r. apply rsum_ext. intros; ring. }
  rewrite rsum_swap. rewrite (rsum_ext r _ (fun j => vget s j * dot u (nth j ys []) * (if Nat.eqb j k then 1 else 0))).
  2:{ intros j Hj. rewrite rsum_scal_l. f_equal. rewrite <- (ORZ j k) by lia. rewrite (dot_rs r) by (apply (onb_row r); auto). auto. }
  rewrite (rsum_single _ k); [|auto|].
  - rewrite Nat.eqb_refl. ring.
  - intros j Hj N. destruct (Nat.eqb_spec j k); [lia|ring].
Qed.

Lemma geo_cols_nth : forall m us ys s zs t k, (k < length us)%nat ->
  nth k (geo_cols m us ys s zs t) [] = vadd (vscale (cos (vget s k * t)) (lincomb m us (nth k zs []))) (vscale (sin (vget s k * t)) (nth k ys [])).
Proof. intros. unfold geo_cols. rewrite nth_map_seq by auto. auto. Qed.
Lemma geo_cols_len : forall m us ys s zs t, length (geo_cols m us ys s zs t) = length us.
Proof. intros. unfold geo_cols. rewrite map_length, seq_length. auto. Qed.
Section Geo.
Context (m : nat) (us ds ys : list vec) (s : vec) (zs : list vec) (t : R).
Hypothesis FU : Forall (fun u => length u = m) us.
Hypothesis OU : orthonormal us.
Hypothesis LD : length ds = length us.
Hypothesis SV : svd_post m ds ys s zs.
Hypothesis TG : forall u d, In u us -> In d ds -> dot u d = 0.
Lemma geo_rows : Forall (fun u => length u = m) (geo_cols m us ys s zs t).
Proof.
  destruct SV as [Ly [FY [OY [Ls [OZ E]]]]]. apply Forall_forall. intros u I. apply (In_nth _ _ []) in I. destruct I as [k [Hk <-]]. rewrite geo_cols_len in Hk. rewrite geo_cols_nth by auto.
  assert (L1 : length (lincomb m us (nth k zs [])) = m) by (apply lincomb_length; auto).
  assert (L2 : length (nth k ys []) = m) by (rewrite Forall_forall in FY; apply FY, nth_In; lia).
  rewrite vadd_length; rewrite !vscale_length; lia.
Qed.
Lemma cross_zero : forall k l, (k < length us)%nat -> (l < length us)%nat -> sin (vget s l * t) * dot (lincomb m us (nth k zs [])) (nth l ys []) = 0.
Proof.
  intros k l Hk Hl. pose proof SV as [Ly [FY [OY [Ls [OZ E]]]]]. rewrite (dot_lincomb_l m) by (auto; rewrite <- LD; apply (onb_row (length ds)); auto; lia).
  destruct (Req_dec (vget s l) 0) as [Z|NZ]; [rewrite Z, Rmult_0_l, sin_0; ring|].
  rewrite rsum_zero; [ring|]. intros j Hj. pose proof (svd_orth m us ds ys s zs FU SV TG (nth j us []) l (nth_In _ _ Hj)) as Q. rewrite LD in Q. specialize (Q Hl).
  apply Rmult_integral in Q. destruct Q as [Q|Q]; [contradiction|]. rewrite Q. ring.
Qed.
Theorem geo_orthonormal : orthonormal (geo_cols m us ys s zs t).
Proof.
  pose proof SV as [Ly [FY [OY [Ls [OZ E]]]]]. intros k l Hk Hl. rewrite geo_cols_len in Hk, Hl. rewrite !geo_cols_nth by auto. pose proof OZ as [Lz [FZ ORZ]].
  assert (LU : forall j, (j < length us)%nat -> length (lincomb m us (nth j zs [])) = m) by (intros; apply lincomb_length; auto).
  assert (LY : forall j, (j < length us)%nat -> length (nth j ys []) = m) by (intros j Hj; rewrite Forall_forall in FY; apply FY, nth_In; lia).
  assert (LZ : forall j, (j < length us)%nat -> length (nth j zs []) = length us) by (intros j Hj; rewrite <- LD; apply (onb_row (length ds)); auto; lia).
  rewrite dot_vadd_l by (rewrite !vscale_length, LU, LY; auto). rewrite !dot_vadd_r by (rewrite !vscale_length, LU, LY; auto). rewrite !dot_vscale_l, !dot_vscale_r.
  rewrite (dot_lincomb2 m) by (auto; rewrite LZ; auto). pose proof (cross_zero k l Hk Hl) as C1. pose proof (cross_zero l k Hl Hk) as C2. rewrite (dot_comm (lincomb m us (nth l zs []))) in C2.
  rewrite (OY k l) by lia. rewrite (ORZ k l) by lia.
  replace (cos (vget s k * t) * (cos (vget s l * t) * (if Nat.eqb k l then 1 else 0)) + cos (vget s k * t) * (sin (vget s l * t) * dot (lincomb m us (nth k zs [])) (nth l ys [])) +
    (sin (vget s k * t) * (cos (vget s l * t) * dot (nth k ys []) (lincomb m us (nth l zs []))) + sin (vget s k * t) * (sin (vget s l * t) * (if Nat.eqb k l then 1 else 0))))
   with ((cos (vget s k * t) * cos (vget s l * t) + sin (vget s k * t) * sin (vget s l * t)) * (if Nat.eqb k l then 1 else 0) + cos (vget s k * t) * (sin (vget s l * t) * dot (lincomb m us (nth k zs [])) (nth l ys []))
     + cos (vget s l * t) * (sin (vget s k * t) * dot (nth k ys []) (lincomb m us (nth l zs [])))) by ring.
  rewrite C1, C2. destruct (Nat.eqb_spec k l) as [->|]; [|ring]. pose proof (sin2_cos2 (vget s l * t)) as SC. unfold Rsqr in SC. lra.
Qed.
Theorem pl_geo_orthonormal : orthonormal (pl_geo m us ys s zs t) /\ length (pl_geo m us ys s zs t) = length us /\ Forall (fun u => length u = m) (pl_geo m us ys s zs t).
Proof.
  pose proof SV as [Ly [FY [OY [Ls [OZ E]]]]]. pose proof OZ as [Lz _]. assert (LP : length (pl_geo m us ys s zs t) = length us) by (unfold pl_geo; rewrite map_length, seq_length; auto).
  split; [|split; auto].
  - intros c d Hc Hd. rewrite LP in Hc, Hd. unfold pl_geo. rewrite !nth_map_seq by auto. rewrite (dot_lincomb2 m); [|apply geo_rows|apply geo_orthonormal|rewrite col_len, geo_cols_len; lia|rewrite col_len, geo_cols_len; lia].
    apply (onb_cols (length ds)); auto; lia.
  - apply Forall_forall. intros u I. unfold pl_geo in I. apply in_map_iff in I. destruct I as [c [<- _]]. apply lincomb_length. apply geo_rows.
Qed.
End Geo.
(** at t = 0 the PartialLipschitzMatrix path starts at U *)
Theorem pl_geo_start : forall m us ds ys s zs, Forall (fun u => length u = m) us -> length ds = length us -> svd_post m ds ys s zs -> pl_geo m us ys s zs 0 = us.
Proof.
  intros m us ds ys s zs FU LD [Ly [FY [OY [Ls [OZ E]]]]]. pose proof OZ as [Lz [FZ ORZ]]. apply (nth_ext _ _ [] []); [unfold pl_geo; rewrite map_length, seq_length; auto|]. intros c Hc.
  assert (Hc' : (c < length us)%nat) by (unfold pl_geo in Hc; rewrite map_length, seq_length in Hc; auto). unfold pl_geo. rewrite nth_map_seq by auto.
  assert (FG : Forall (fun u => length u = m) (geo_cols m us ys s zs 0)).
  { apply Forall_forall. intros u I. apply (In_nth _ _ []) in I. destruct I as [k [Hk <-]]. rewrite geo_cols_len in Hk. rewrite geo_cols_nth by auto. assert (L2 : length (nth k ys []) = m) by (rewrite Forall_forall in FY; apply FY, nth_In; lia). assert (length (lincomb m us (nth k zs [])) = m) by (apply lincomb_length; auto). rewrite vadd_length; rewrite !vscale_length; lia. }
  assert (LUc : length (nth c us []) = m) by (rewrite Forall_forall in FU; apply FU, nth_In; auto).
  apply vec_ext; [rewrite lincomb_length; auto|]. intros i Hi. rewrite lincomb_length in Hi by auto. rewrite (lincomb_get m) by (auto; rewrite col_len, geo_cols_len; lia). rewrite geo_cols_len.
  set (r := length us) in *.
  rewrite (rsum_ext r _ (fun k => rsum r (fun j => vget (nth k zs []) c * (vget (nth k zs []) j * vget (nth j us []) i)))).
  2:{ intros k Hk. rewrite geo_cols_nth by auto. rewrite col_get by lia. rewrite vadd_get by (rewrite !vscale_length, lincomb_length by auto; rewrite Forall_forall in FY; symmetry; apply FY, nth_In; lia). rewrite !vscale_get. rewrite Rmult_0_r, cos_0, sin_0.
      rewrite (lincomb_get m) by (auto; fold r; rewrite <- LD; apply (onb_row (length ds)); auto; lia). fold r. rewrite rsum_scal_l. ring. }
  rewrite rsum_swap. rewrite (rsum_ext r _ (fun j => (if Nat.eqb c j then 1 else 0) * vget (nth j us []) i)).
  2:{ intros j Hj. rewrite <- (onb_cols (length ds) zs c j OZ) by lia. rewrite (dot_rs r (col zs c)) by (rewrite col_len; lia). rewrite <- rsum_scal_r. apply rsum_ext. intros k Hk. rewrite !col_get by lia. ring. }
  rewrite (rsum_single _ c); [|auto|].
  - rewrite Nat.eqb_refl. ring.
  - intros j Hj N. destruct (Nat.eqb_spec c j); [lia|ring].
Qed.
