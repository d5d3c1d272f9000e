(** How many singular values of the stacked Jacobian can be nonzero; with at most m samples the Gauss-Newton step divides by zero. *)
Require Import Reals Lra Lia List Bool Arith.
From Verif Require Import RVec Num Sums DomModel DomMoreModel SweepProofs HullProofs Deriv BasisModel IndexProofs PolyProofs MatLib SpecProofs GrassLib LipModel LipFitProofs SubModel ActiveProofs RidgeModel RidgeProofs TrajProofs PolySpan VarproLib VarproProofs VarAffine GnStep RidgeFitProofs ArnoldiProofs ArnoldiMoreProofs PolyfitModel PolyfitProofs LsqAlg ProjGradProofs VarArnModel VarArnProofs VarArnDeriv VarArnMain VarVecModel VarVecProofs VarVecMain VarVecStep VarVecInst.
Import ListNotations.
Local Open Scope R_scope.

(* ---------------- more vectors than dimensions are dependent ---------------- *)
Definition skip (q i : nat) : nat := if Nat.ltb i q then i else S i.
Lemma rsum_skip : forall p q f, (q <= p)%nat -> rsum (S p) f = f q + rsum p (fun i => f (skip q i)).
Proof.
  induction p as [|p IH]; intros q f Hq; [assert (q = 0%nat) by lia; subst; cbn; ring|]. destruct (Nat.eq_dec q (S p)) as [->|N].
  - cbn [rsum]. rewrite (rsum_ext p (fun i => f (skip (S p) i)) f) by (intros i Hi; unfold skip; destruct (Nat.ltb_spec i (S p)); [auto|lia]). unfold skip. destruct (Nat.ltb_spec p (S p)); [ring|lia].
  - change (rsum (S (S p)) f) with (rsum (S p) f + f (S p)). rewrite (IH q f) by lia. cbn [rsum]. unfold skip at 3. destruct (Nat.ltb_spec p q); [lia|]. ring.
Qed.
Lemma dependent : forall D p (w : nat -> nat -> R), (D < p)%nat -> exists a : nat -> R, (exists i, (i < p)%nat /\ a i <> 0) /\ forall j, (j < D)%nat -> rsum p (fun i => a i * w i j) = 0.
Proof.
  induction D as [|D IH]; intros p w Hp; [exists (fun _ => 1); split; [exists 0%nat; split; [lia|lra]|intros; lia]|].
  destruct (List.Exists_dec (fun i => w i D <> 0) (seq 0 p) ltac:(intro i; destruct (Req_EM_T (w i D) 0); [right; auto|left; auto])) as [EX|NX].
  - apply Exists_exists in EX. destruct EX as (q & I & Nq). apply in_seq in I. destruct p as [|p]; [lia|].
    destruct (IH p (fun i j => w (skip q i) j - w (skip q i) D / w q D * w q j) ltac:(lia)) as (a & (i0 & Hi0 & N0) & H).
    exists (fun i => if Nat.eqb i q then - rsum p (fun k => a k * (w (skip q k) D / w q D)) else if Nat.ltb i q then a i else a (i - 1)%nat).
    assert (SK : forall k, (if Nat.eqb (skip q k) q then - rsum p (fun k => a k * (w (skip q k) D / w q D)) else if Nat.ltb (skip q k) q then a (skip q k) else a (skip q k - 1)%nat) = a k).
    { intro k. unfold skip at 1 3 4 5. destruct (Nat.ltb_spec k q).
      - destruct (Nat.eqb_spec k q); [lia|]. destruct (Nat.ltb_spec k q); [auto|lia].
      - destruct (Nat.eqb_spec (S k) q); [lia|]. destruct (Nat.ltb_spec (S k) q); [lia|]. f_equal. lia. }
    split.
    + exists (skip q i0). split; [unfold skip; destruct (Nat.ltb_spec i0 q); lia|]. rewrite SK. auto.
    + intros j Hj. rewrite (rsum_skip p q) by lia. rewrite Nat.eqb_refl.
      match goal with |- ?u + ?v = 0 => replace v with (rsum p (fun k => a k * w (skip q k) j)) by (apply rsum_ext; intros k Hk; cbv beta; f_equal; symmetry; apply SK) end.
      assert (E : rsum p (fun k => a k * (w (skip q k) j - w (skip q k) D / w q D * w q j)) = 0).
      { destruct (Nat.eq_dec j D) as [->|]; [apply rsum_zero; intros k Hk; field; auto|apply H; lia]. }
      rewrite (rsum_ext p _ (fun k => a k * w (skip q k) j - a k * (w (skip q k) D / w q D) * w q j)) in E by (intros; ring). rewrite rsum_minus, rsum_scal_r in E. lra.
  - destruct (IH p w ltac:(lia)) as (a & A & H). exists a. split; auto. intros j Hj. destruct (Nat.eq_dec j D) as [->|]; [|apply H; lia]. apply rsum_zero. intros i Hi. destruct (Req_dec (w i D) 0) as [->|N]; [ring|]. exfalso. apply NX, Exists_exists. exists i. split; auto. apply in_seq. lia.
Qed.

(* ---------------- thin singular value decomposition ---------------- *)
(** scipy.linalg.svd(J, full_matrices = False) for any shape: J = Y diag(s) ZT with orthonormal columns of Y and rows of ZT, s sorted *)
Definition svd_thin (M : nat) (J ys : list vec) (s : vec) (zs : list vec) : Prop :=
  length ys = length s /\ Forall (fun y => length y = M) ys /\ orthonormal ys /\ length zs = length s /\ Forall (fun z => length z = length J) zs /\ orthonormal zs /\
  (forall c, (c < length J)%nat -> nth c J [] = lincomb M ys (vmul s (col zs c))) /\ (forall i j, (i <= j)%nat -> (j < length s)%nat -> 0 <= vget s j <= vget s i).
Lemma thin_apply : forall M J ys s zs q k, svd_thin M J ys s zs -> Forall (fun v => length v = M) J -> length q = length J -> (k < length s)%nat -> dot (nth k ys []) (lincomb M J q) = vget s k * dot (nth k zs []) q.
Proof.
  intros M J ys s zs q k (Ly & FY & OY & Lz & FZ & OZ & E & _) FJ Lq Hk. assert (Lk : length (nth k ys []) = M) by (rewrite Forall_forall in FY; apply FY, nth_In; lia). rewrite (dot_lincomb_r M) by auto.
  rewrite (dot_rs (length J)) by (auto; rewrite Forall_forall in FZ; apply FZ, nth_In; lia). rewrite <- rsum_scal_l. apply rsum_ext. intros c Hc. rewrite E by auto. rewrite (dot_lincomb_r M) by (auto; unfold vmul; rewrite vmap2_length; rewrite ?col_len; lia).
  rewrite (rsum_single _ k).
  - rewrite OY by lia. rewrite Nat.eqb_refl. rewrite vmul_get by (rewrite col_len; lia). rewrite col_get by lia. ring.
  - lia.
  - intros i Hi Ni. rewrite OY by lia. destruct (Nat.eqb_spec k i); [lia|ring].
Qed.
(** the Jacobian factors through D coordinates, E of which do not matter *)
Lemma rank_count : forall M J ys s zs (D E : nat) (w e : nat -> nat -> R), svd_thin M J ys s zs -> Forall (fun v => length v = M) J ->
  (forall b : nat -> R, (forall d, (d < D)%nat -> rsum E (fun k => b k * e k d) = 0) -> forall k, (k < E)%nat -> b k = 0) ->
  (forall q b, length q = length J -> (forall d, (d < D)%nat -> rsum (length J) (fun c => vget q c * w c d) + rsum E (fun k => b k * e k d) = 0) -> lincomb M J q = vzero M) ->
  forall i, (D - E <= i < length s)%nat -> vget s i = 0.
Proof.
  intros M J ys s zs D E w e SV FJ IND KER i Hi. pose proof SV as (Ly & FY & OY & Lz & FZ & OZ & _ & SO). destruct (Req_dec (vget s i) 0) as [|NZ]; auto. exfalso. assert (SP : forall k, (k <= i)%nat -> vget s k <> 0) by (intros k Hk; pose proof (SO k i Hk ltac:(lia)); pose proof (SO i i ltac:(lia) ltac:(lia)); lra).
  destruct (dependent D (S i + E) (fun k d => if Nat.ltb k (S i) then rsum (length J) (fun c => vget (nth k zs []) c * w c d) else e (k - S i)%nat d) ltac:(lia)) as (a & (i0 & Hi0 & N0) & H).
  assert (Lzk : forall k, (k <= i)%nat -> length (nth k zs []) = length J) by (intros k Hk; rewrite Forall_forall in FZ; apply FZ, nth_In; lia).
  set (q := map (fun c => rsum (S i) (fun k => a k * vget (nth k zs []) c)) (seq 0 (length J))). assert (Lq : length q = length J) by (unfold q; rewrite map_length, seq_length; auto).
  assert (HH : forall d, (d < D)%nat -> rsum (length J) (fun c => vget q c * w c d) + rsum E (fun k => a (S i + k)%nat * e k d) = 0).
  { intros d Hd. rewrite <- (H d Hd). rewrite rsum_app. f_equal.
    - rewrite (rsum_ext (length J) _ (fun c => rsum (S i) (fun k => a k * (vget (nth k zs []) c * w c d)))) by (intros c Hc; unfold q; rewrite vget_map_seq by auto; rewrite <- rsum_scal_r; apply rsum_ext; intros; ring). rewrite rsum_swap. apply rsum_ext. intros k Hk. destruct (Nat.ltb_spec k (S i)); [|lia]. apply rsum_scal_l.
    - apply rsum_ext. intros k Hk. destruct (Nat.ltb_spec (S i + k) (S i)); [lia|]. replace (S i + k - S i)%nat with k by lia. reflexivity. }
  assert (AZ : forall k, (k <= i)%nat -> a k = 0).
  { intros k Hk. pose proof (thin_apply M J ys s zs q k SV FJ Lq ltac:(lia)) as T. rewrite (KER q (fun k => a (S i + k)%nat) Lq HH), dot_zero_r in T. symmetry in T. apply Rmult_integral in T. destruct T as [T|T]; [exfalso; apply (SP k); auto|].
    rewrite (dot_rs (length J)) in T by auto. rewrite (rsum_ext (length J) _ (fun c => rsum (S i) (fun k' => a k' * (vget (nth k zs []) c * vget (nth k' zs []) c)))) in T by (intros c Hc; unfold q; rewrite vget_map_seq by auto; rewrite <- rsum_scal_l; apply rsum_ext; intros; ring).
    rewrite rsum_swap in T. rewrite (rsum_single _ k) in T.
    - rewrite rsum_scal_l, <- (dot_rs (length J)) in T by auto. rewrite OZ in T by lia. rewrite Nat.eqb_refl in T. lra.
    - lia.
    - intros k' Hk' Nk. rewrite rsum_scal_l, <- (dot_rs (length J)) by (auto; apply Lzk; lia). rewrite OZ by lia. destruct (Nat.eqb_spec k k'); [lia|ring]. }
  assert (BZ : forall k, (k < E)%nat -> a (S i + k)%nat = 0).
  { apply (IND (fun k => a (S i + k)%nat)). intros d Hd. rewrite <- (HH d Hd). rewrite (rsum_zero (length J)); [ring|]. intros c Hc. unfold q. rewrite vget_map_seq by auto. rewrite rsum_zero; [ring|]. intros k Hk. rewrite AZ by lia. ring. }
  apply N0. destruct (le_lt_dec i0 i) as [L|L]; [apply AZ; auto|]. replace i0 with (S i + (i0 - S i))%nat by lia. apply BZ. lia.
Qed.

Lemma dv_ : forall l P a, (a < P)%nat -> ((l * P + a) / P)%nat = l.
Proof. intros l P a H. rewrite Nat.add_comm, Nat.div_add, Nat.div_small by lia. lia. Qed.
Lemma md_ : forall l P a, (a < P)%nat -> ((l * P + a) mod P)%nat = a.
Proof. intros l P a H. rewrite Nat.add_comm, Nat.mod_add, Nat.mod_small by lia. lia. Qed.
(** the projected samples do not lie in a hyperplane *)
Definition aff_indep (us : list vec) (X : mat) : Prop :=
  forall b0 (b : nat -> R), (forall k, (k < length X)%nat -> b0 + rsum (length us) (fun q => b q * vget (mv us (nth k X [])) q) = 0) -> b0 = 0 /\ forall q, (q < length us)%nat -> b q = 0.
Lemma rank_affine : forall M m us X J ys s zs, (1 <= length us)%nat -> Forall (fun x => length x = m) X -> aff_indep us X -> length J = (m * length us)%nat -> Forall (fun v => length v = M) J ->
  (forall ds, affdir m us X ds -> lincomb M J (flat m ds) = vzero M) -> svd_thin M J ys s zs -> forall i, (length us * (length X - (length us + 1)) <= i < length s)%nat -> vget s i = 0.
Proof.
  intros M m us X J ys s zs Hn FX AI LJ FJ KER SV i Hi. set (n := length us) in *. set (P := length X) in *.
  set (Yc := fun b j => match j with O => 1 | S q => vget (mv us (nth b X [])) q end).
  assert (SUM : forall g : nat -> R, g 0%nat + rsum n (fun q => g (S q)) = rsum (n + 1) g) by (intro g; rewrite Nat.add_1_r, rsum_S_first; reflexivity).
  apply (rank_count M J ys s zs (n * P) (n * (n + 1)) (fun c d => if Nat.eqb (c mod n) (d / P) then vget (nth (d mod P) X []) (c / n) else 0) (fun k d => if Nat.eqb (k / (n + 1)) (d / P) then Yc (d mod P) (k mod (n + 1)) else 0) SV FJ).
  - intros b H k Hk. set (l := (k / (n + 1))%nat). assert (Hl : (l < n)%nat) by (apply Nat.div_lt_upper_bound; lia).
    assert (E : forall a, (a < P)%nat -> b (l * (n + 1))%nat + rsum n (fun q => b (l * (n + 1) + S q)%nat * vget (mv us (nth a X [])) q) = 0).
    { intros a Ha. specialize (H (l * P + a)%nat ltac:(nia)). rewrite dv_, md_ in H by auto. rewrite rsum_grid in H. rewrite (rsum_single n l) in H; auto.
      - rewrite <- H. rewrite <- (SUM (fun j => b (l * (n + 1) + j)%nat * (if Nat.eqb ((l * (n + 1) + j) / (n + 1)) l then Yc a ((l * (n + 1) + j) mod (n + 1)) else 0))). f_equal.
        + rewrite dv_, md_ by lia. rewrite Nat.eqb_refl, Nat.add_0_r. unfold Yc. ring.
        + apply rsum_ext. intros q Hq. rewrite dv_, md_ by lia. rewrite Nat.eqb_refl. reflexivity.
      - intros l' Hl' Nl. apply rsum_zero. intros q Hq. rewrite dv_ by lia. destruct (Nat.eqb_spec l' l); [lia|ring]. }
    destruct (AI (b (l * (n + 1))%nat) (fun q => b (l * (n + 1) + S q)%nat) E) as [B0 BQ]. assert (EK : k = (l * (n + 1) + k mod (n + 1))%nat) by (unfold l; pose proof (Nat.div_mod k (n + 1) ltac:(lia)); lia). pose proof (Nat.mod_upper_bound k (n + 1) ltac:(lia)). destruct (k mod (n + 1))%nat as [|q] eqn:EM; [rewrite EK, Nat.add_0_r; auto|]. rewrite EK. apply BQ. fold n. lia.
  - intros q b Lq H. rewrite LJ in *. rewrite <- (flat_unflat m n q Lq). apply KER. destruct (unflat_len m n q) as [L1 L2]. split; auto. split; auto.
    exists (map (fun l => - b (l * (n + 1))%nat) (seq 0 n)), (map (fun l => map (fun j => - b (l * (n + 1) + S j)%nat) (seq 0 n)) (seq 0 n)). fold n. fold P. intros a l Ha Hl. rewrite vget_map_seq by auto. rewrite nth_map_seq by auto.
    rewrite (rsum_ext n (fun q0 => vget (map (fun j => - b (l * (n + 1) + S j)%nat) (seq 0 n)) q0 * vget (mv us (nth a X [])) q0) (fun j => - (b (l * (n + 1) + S j)%nat * vget (mv us (nth a X [])) j))) by (intros j Hj; rewrite vget_map_seq by auto; ring). rewrite rsum_opp.
    specialize (H (l * P + a)%nat ltac:(nia)). rewrite dv_, md_ in H by auto. rewrite (rsum_grid m n) in H. rewrite (rsum_grid n (n + 1)) in H.
    assert (X1 : rsum m (fun k => rsum n (fun l0 => vget q (k * n + l0) * (if Nat.eqb ((k * n + l0) mod n) l then vget (nth a X []) ((k * n + l0) / n) else 0))) = dot (nth a X []) (nth l (unflat m n q) [])).
    { rewrite (dot_rs m) by (rewrite Forall_forall in *; first [apply FX, nth_In; auto | apply L2, nth_In; lia]). apply rsum_ext. intros k Hk. rewrite (rsum_single n l); auto.
      - rewrite dv_, md_ by auto. rewrite Nat.eqb_refl. pose proof (unflat_ent m n q l k Hl Hk) as U. unfold ent in U. rewrite U. ring.
      - intros l0 Hl0 Nl. rewrite md_ by auto. destruct (Nat.eqb_spec l0 l); [lia|ring]. }
    rewrite X1 in H. rewrite (rsum_single n l) in H; auto.
    + rewrite <- (SUM (fun j => b (l * (n + 1) + j)%nat * (if Nat.eqb ((l * (n + 1) + j) / (n + 1)) l then Yc a ((l * (n + 1) + j) mod (n + 1)) else 0))) in H. rewrite dv_, md_ in H by lia. rewrite Nat.eqb_refl, Nat.add_0_r in H. change (Yc a 0%nat) with 1 in H.
      rewrite (rsum_ext n _ (fun j => b (l * (n + 1) + S j)%nat * vget (mv us (nth a X [])) j)) in H by (intros j Hj; rewrite dv_, md_ by lia; rewrite Nat.eqb_refl; reflexivity). lra.
    + intros l' Hl' Nl. apply rsum_zero. intros j Hj. rewrite dv_ by lia. destruct (Nat.eqb_spec l' l); [lia|ring].
  - replace (n * P - n * (n + 1))%nat with (n * (P - (n + 1)))%nat by (apply Nat.mul_sub_distr_l). exact Hi.
Qed.
(** at most n (M - n - 1) singular values of the stacked Jacobian are nonzero *)
Lemma vv_affine : forall B m us X fs cs ys s zs ds, vv_pre B m us X fs cs ys s zs -> affdir m us X ds -> lincomb (length fs * length X) (vv_jac B us m X ys s zs fs cs) (flat m ds) = vzero (length fs * length X).
Proof.
  intros B m us X fs cs ys s zs ds (OB & FU & FX & FF & SV & LA) W. pose proof W as [Ld _]. apply vv_jac_zero; auto; [rewrite flat_len; lia|]. destruct LA as [L LS]. intros o Ho.
  assert (Lf : length (nth o fs []) = length X) by (apply Forall_nth_len; auto). destruct (LS o Ho) as [Lc LSo]. apply (jac_kernel_affine B m (length us)); auto.
  - rewrite vp_res_len; rewrite vp_V_len; auto.
  - intros e Le. apply (ls_normal (length (indices B))); auto; [apply vp_V_rows|rewrite vp_V_len; auto].
Qed.
Theorem vec_rank : forall B m us X fs cs ys s zs yJ sJ zJ, vv_pre B m us X fs cs ys s zs -> aff_indep us X -> svd_thin (length fs * length X) (vv_jac B us m X ys s zs fs cs) yJ sJ zJ ->
  forall i, (length us * (length X - (length us + 1)) <= i < length sJ)%nat -> vget sJ i = 0.
Proof.
  intros B m us X fs cs ys s zs yJ sJ zJ P AI SJ. pose proof P as (OB & FU & FX & FF & SV & LA). destruct (vv_jac_zero B m us X fs cs ys s zs (vzero (m * length us)) FF SV LA (repeat_length _ _)) as (LJ & FJ & _).
  apply (rank_affine (length fs * length X) m us X (vv_jac B us m X ys s zs fs cs) yJ sJ zJ); auto; [apply OB|]. intros ds W. apply vv_affine; auto.
Qed.
(** with at most m samples _gn_solver divides by a singular value that is zero *)
Theorem vec_few_samples : forall B m us X fs cs ys s zs yJ sJ zJ, vv_pre B m us X fs cs ys s zs -> aff_indep us X -> svd_thin (length fs * length X) (vv_jac B us m X ys s zs fs cs) yJ sJ zJ ->
  (length X <= m)%nat -> (length us < m)%nat -> length sJ = (m * length us)%nat -> exists i, (i < gn_keep (length us) sJ)%nat /\ vget sJ i = 0.
Proof.
  intros B m us X fs cs ys s zs yJ sJ zJ P AI SJ HM Hm Ls. pose proof P as ((_ & _ & _ & Hn & _) & _). assert (K : gn_keep (length us) sJ = (m * length us - length us * length us)%nat) by (unfold gn_keep; rewrite (proj2 (Nat.eqb_neq (length us) 0)) by lia; rewrite Ls; auto).
  set (n := length us) in *. set (M := length X) in *. assert (H1 : (n * (M - (n + 1)) < m * n - n * n)%nat) by (replace (m * n - n * n)%nat with (n * (m - n))%nat by nia; apply Nat.mul_lt_mono_pos_l; lia).
  exists (n * (M - (n + 1)))%nat. split; [lia|]. apply (vec_rank B m us X fs cs ys s zs yJ sJ zJ P AI SJ). fold n. fold M. lia.
Qed.
Theorem arn_vec_rank : forall p m us X fs yJ sJ zJ, fs <> [] -> (forall f, In f fs -> va_pre p m us X f) -> aff_indep us X -> exists J, va_vec_jac p m us X fs = Some J /\
  (svd_thin (length fs * length X) J yJ sJ zJ -> forall i, (length us * (length X - (length us + 1)) <= i < length sJ)%nat -> vget sJ i = 0).
Proof.
  intros p m us X fs yJ sJ zJ NE PR AI. destruct (va_jac_zero p m us X fs (vzero (m * length us)) PR (repeat_length _ _)) as (J & EJ & LJ & FJ & _). exists J. split; auto. intro SJ. destruct fs as [|f0 fs]; [contradiction|]. destruct (PR f0 ltac:(left; auto)) as (Hn & _ & FU & FX & _).
  apply (rank_affine (length (f0 :: fs) * length X) m us X J yJ sJ zJ); auto. intros ds W. pose proof W as [Ld _]. destruct (va_jac_zero p m us X (f0 :: fs) (flat m ds) PR) as (J' & EJ' & _ & _ & Z); [rewrite flat_len; lia|]. rewrite EJ in EJ'. injection EJ' as <-. apply Z. intros f I. apply arn_kernel_affine; auto.
Qed.
