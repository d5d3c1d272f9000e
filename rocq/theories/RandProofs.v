(** NormalDomain: normalization keeps membership, samples and density; its normalization bounds in closed form. *)
Require Import Reals Lra Lia List Bool Arith.
From Verif Require Import RVec Sums Num MatLib GrassLib SpecProofs DomModel DomSpec DomProofs NormProofs DomOpsProofs DomMoreModel CvxProofs PredModel PredProofs NbModel NbProofs CholProofs RandModel.
Import ListNotations.
Local Open Scope R_scope.

(** contracts of the numerical libraries *)
Definition factors (m : nat) (cov : mat) : Prop := sq_mat m cov /\ exists L, chol_ok m cov L.
Definition chol_spec (chol : mat -> mat) : Prop := forall m cov, factors m cov -> chol_ok m cov (chol cov).
Definition tinv_spec (tinv : mat -> mat) : Prop := forall m cov L, chol_ok m cov L -> inv_ok m L (tinv L).
Definition det_spec (det : mat -> R) : Prop := forall m cov L, sq_mat m cov -> chol_ok m cov L -> det cov = vprod (map (fun i => ent L i i) (seq 0 m)) * vprod (map (fun i => ent L i i) (seq 0 m)).

(** * products *)
Lemma vprod_cons : forall a x, vprod (a :: x) = a * vprod x. Proof. reflexivity. Qed.
Lemma vprod_app : forall x y, vprod (x ++ y) = vprod x * vprod y.
Proof. induction x as [|a x IH]; intro y; [unfold vprod; simpl; ring|]. rewrite <- app_comm_cons, !vprod_cons, IH. ring. Qed.
Lemma vprod_pos : forall n f, (forall i, (i < n)%nat -> 0 < f i) -> 0 < vprod (map f (seq 0 n)).
Proof. induction n as [|n IH]; intros f H; [unfold vprod; simpl; lra|]. rewrite seq_S, map_app, vprod_app. assert (E : vprod (map f [(0 + n)%nat]) = f n) by (unfold vprod; simpl; ring). rewrite E. apply Rmult_lt_0_compat; auto. Qed.
Lemma vprod_mul : forall n f g, vprod (map (fun i => f i * g i) (seq 0 n)) = vprod (map f (seq 0 n)) * vprod (map g (seq 0 n)).
Proof. induction n as [|n IH]; intros f g; [unfold vprod; simpl; ring|]. rewrite seq_S, !map_app, !vprod_app, IH. simpl. unfold vprod. simpl. ring. Qed.
Lemma vprod_ext : forall n f g, (forall i, (i < n)%nat -> f i = g i) -> vprod (map f (seq 0 n)) = vprod (map g (seq 0 n)).
Proof. intros n f g H. f_equal. apply map_ext_in. intros i Hi. apply in_seq in Hi. apply H. lia. Qed.
Lemma vprod_get : forall x, vprod x = vprod (map (vget x) (seq 0 (length x))).
Proof. intro x. f_equal. apply vec_ext; [rewrite map_length, seq_length; auto|]. intros i Hi. rewrite vget_map_seq by auto. auto. Qed.

(** * the covariance of the normalized domain *)
Lemma diag_row : forall s i, (i < length s)%nat -> nth i (diag s) [] = map (fun j => if Nat.eqb i j then vget s i else 0) (seq 0 (length s)).
Proof. intros s i Hi. unfold diag. apply (nth_map_seq _ (fun i => map (fun j => if Nat.eqb i j then vget s i else 0) (seq 0 (length s)))). auto. Qed.
Lemma matmul_ent : forall A D m i j, (i < length A)%nat -> (j < m)%nat -> ent (matmul A D m) i j = dot (nth i A []) (mat_col D j).
Proof.
  intros A D m i j Hi Hj. unfold ent, matmul. rewrite (nth_indep _ [] (map (fun j => dot [] (mat_col D j)) (seq 0 m))) by (rewrite map_length; auto).
  rewrite (map_nth (fun r => map (fun j => dot r (mat_col D j)) (seq 0 m)) A [] i). rewrite vget_map_seq; auto.
Qed.
Lemma mat_col_get : forall D j k, vget (mat_col D j) k = vget (nth k D []) j.
Proof.
  intros D j k. unfold mat_col. destruct (Nat.lt_ge_cases k (length D)) as [H|H].
  - unfold vget at 1. rewrite (nth_indep _ 0 (vget [] j)) by (rewrite map_length; auto). rewrite (map_nth (fun r => vget r j)). auto.
  - unfold vget at 1. rewrite nth_overflow by (rewrite map_length; auto). rewrite (nth_overflow D) by auto. unfold vget. destruct j; auto.
Qed.
Lemma matmul_sq : forall A D m, length A = m -> sq_mat m (matmul A D m).
Proof. intros A D m L. split; [unfold matmul; rewrite map_length; auto|]. apply Forall_forall. intros r Hr. unfold matmul in Hr. apply in_map_iff in Hr. destruct Hr as (a & <- & _). rewrite map_length, seq_length. auto. Qed.
Lemma cov_scaled : forall m s cov i j, length s = m -> sq_mat m cov -> (i < m)%nat -> (j < m)%nat ->
  ent (matmul (matmul (diag s) cov m) (diag s) m) i j = vget s i * ent cov i j * vget s j.
Proof.
  intros m s cov i j Ls SC Hi Hj. assert (LD : length (diag s) = m) by (rewrite diag_length; auto). assert (LM : length (matmul (diag s) cov m) = m) by (unfold matmul; rewrite map_length; auto).
  rewrite matmul_ent by lia. assert (LR : length (nth i (matmul (diag s) cov m) []) = m).
  { unfold matmul. rewrite (nth_indep _ [] (map (fun j => dot [] (mat_col cov j)) (seq 0 m))) by (rewrite map_length; lia). rewrite (map_nth (fun r => map (fun j => dot r (mat_col cov j)) (seq 0 m)) (diag s) [] i). rewrite map_length, seq_length. auto. }
  assert (LC : length (mat_col (diag s) j) = m) by (unfold mat_col; rewrite map_length; auto).
  rewrite (dot_rs m) by auto. rewrite (rsum_single m j) by auto || (intros k Hk N; rewrite mat_col_get, diag_row by lia; rewrite vget_map_seq by lia; destruct (Nat.eqb_spec k j); [contradiction|ring]).
  rewrite mat_col_get, diag_row, vget_map_seq, Nat.eqb_refl by lia. f_equal. fold (ent (matmul (diag s) cov m) i j). rewrite matmul_ent by lia.
  assert (LC2 : length (mat_col cov j) = m) by (unfold mat_col; rewrite map_length; apply SC). rewrite (dot_rs m) by (auto; rewrite diag_row, map_length, seq_length by lia; auto).
  rewrite (rsum_single m i); auto.
  - rewrite diag_row, vget_map_seq, Nat.eqb_refl, mat_col_get by lia. auto.
  - intros k Hk N. rewrite diag_row, vget_map_seq by lia. destruct (Nat.eqb_spec i k); [exfalso; auto|ring].
Qed.

(** * membership of a normal domain *)
Lemma normal_relaxed : forall mean Linv clip tol x, relaxed (normal_dom mean Linv clip) tol x <-> length x = length mean /\ (forall c, clip = Some c -> norm2 (mv Linv (vsub x mean)) <= sqrt c + tol).
Proof.
  intros mean Linv clip tol x. unfold relaxed, normal_dom. cbn [dim lb ub dA db dAeq dbeq quads]. split.
  - intros (L & _ & _ & _ & Q). split; auto. intros c ->. apply (Q _ (or_introl eq_refl)).
  - intros [L H]. split; auto. split; [|split; [|split]].
    + intro i. split; intros v Hv; exfalso; apply nth_error_In in Hv; apply repeat_spec in Hv; discriminate.
    + intros k a c Ha. destruct k; discriminate.
    + intros k a c Ha. destruct k; discriminate.
    + destruct clip as [c|]; [|intros q []]. intros q [<-|[]]. cbn [qL qy qrho]. auto.
Qed.
Lemma normal_member : forall mean Linv clip x, member (normal_dom mean Linv clip) x <-> length x = length mean /\ (forall c, clip = Some c -> norm2 (mv Linv (vsub x mean)) <= sqrt c).
Proof.
  intros mean Linv clip x. unfold member, normal_dom. cbn [dim lb ub dA db dAeq dbeq quads]. split.
  - intros (L & _ & _ & _ & Q). split; auto. intros c ->. pose proof (Q _ (or_introl eq_refl)) as K. cbn [qL qy qrho] in K. lra.
  - intros [L H]. split; auto. split; [|split; [|split]].
    + intro i. split; intros v Hv; exfalso; apply nth_error_In in Hv; apply repeat_spec in Hv; discriminate.
    + intros k a c Ha. destruct k; discriminate.
    + intros k a c Ha. destruct k; discriminate.
    + destruct clip as [c|]; [|intros q []]. intros q [<-|[]]. cbn [qL qy qrho]. specialize (H c eq_refl). lra.
Qed.
Lemma normal_wf : forall m mean Linv clip, length mean = m -> sq_mat m Linv -> (forall c, clip = Some c -> 0 < c) -> dom_wf (normal_dom mean Linv clip).
Proof.
  intros m mean Linv clip Lm [LL FL] P. unfold dom_wf, normal_dom. cbn [dcls dim lb ub dA db dAeq dbeq quads]. rewrite !repeat_length. split; auto. split; auto. split; [constructor|]. split; auto. split; [constructor|]. split; auto.
  split; [destruct clip as [c|]; repeat constructor; cbn [qL qy qrho]; [rewrite Lm; auto|apply sqrt_lt_R0; auto]|]. split; [intro H; contradiction|]. split; [intros [H|H]; discriminate|intro H; discriminate].
Qed.
Lemma normal_inside : forall m mean Linv clip tol x, length mean = m -> sq_mat m Linv -> (forall c, clip = Some c -> 0 < c) ->
  (inside1 (normal_dom mean Linv clip) x tol = true <-> length x = m /\ (forall c, clip = Some c -> norm2 (mv Linv (vsub x mean)) <= sqrt c + tol)).
Proof. intros m mean Linv clip tol x Lm SL P. rewrite inside1_spec by (try discriminate; apply (normal_wf m); auto). rewrite normal_relaxed, Lm. tauto. Qed.

Section Norm.
  Variable chol tinv : mat -> mat.
  Variable isf : R -> nat -> R.
  Variable det : mat -> R.
  Variable m : nat.
  Variable mean : vec.
  Variable cov : mat.
  Variable t : option R.
  Variable nlb nub : list num.
  Hypothesis CS : chol_spec chol.
  Hypothesis TS : tinv_spec tinv.
  Hypothesis IS : forall a, t = Some a -> 0 < isf a m.
  Hypothesis Lm : length mean = m.
  Hypothesis FA : factors m cov.
  Lemma SC : sq_mat m cov. Proof. apply FA. Qed.
  Hypothesis L1 : length nlb = m.
  Hypothesis L2 : length nub = m.
  Hypothesis OR : oriented nlb nub.
  Let s := nslopes nlb nub.
  Let d := normal_new chol tinv isf mean cov t.
  Let d' := normal_normalized chol tinv isf nlb nub d.

  Lemma s_len : length s = m. Proof. unfold s. rewrite nslopes_length; congruence. Qed.
  Lemma s_pos : forall i, (i < m)%nat -> 0 < vget s i.
  Proof. intros i Hi. unfold s. rewrite nslopes_get by congruence. apply nslope_pos; auto. Qed.
  Lemma norm_diag : forall v, length v = m -> mv (diag s) v = vmul s v.
  Proof. intros v Lv. apply mv_diag. rewrite s_len. auto. Qed.
  Lemma mean' : length (n_mean d') = m /\ forall i, vget (n_mean d') i = 0.
  Proof.
    unfold d', normal_normalized, normal_new, normal_normalize. cbn [n_mean d]. fold s. unfold d, normal_new. cbn [n_mean]. assert (LZ : length (vsub mean mean) = m) by (rewrite vsub_length; auto).
    rewrite norm_diag by auto. split; [rewrite vmul_length; rewrite s_len; auto|]. intro i. rewrite vmul_get by (rewrite s_len; auto). rewrite vsub_get by auto. ring.
  Qed.
  Lemma cov' : forall i j, (i < m)%nat -> (j < m)%nat -> ent (n_cov d') i j = vget s i * ent cov i j * vget s j.
  Proof. intros i j Hi Hj. unfold d', normal_normalized, normal_new. cbn [n_cov]. fold s. unfold d, normal_new. cbn [n_cov n_mean]. rewrite Lm. apply cov_scaled; auto; [apply s_len|apply SC]. Qed.
  Lemma sq' : sq_mat m (n_cov d').
  Proof. unfold d', normal_normalized, normal_new. cbn [n_cov]. fold s. unfold d, normal_new. cbn [n_cov n_mean]. rewrite Lm. apply matmul_sq. unfold matmul. rewrite map_length, diag_length. apply s_len. Qed.
  Lemma fac' : factors m (n_cov d').
  Proof. split; [apply sq'|]. destruct FA as [_ [L C]]. exists (scale_rows s L). apply (chol_scaled m cov); auto; [apply s_len|apply s_pos|apply cov']. Qed.
  Lemma white : n_L d' = scale_rows s (n_L d) /\ forall v, length v = m -> mv (n_Linv d') (vmul s v) = mv (n_Linv d) v.
  Proof.
    assert (C : chol_ok m cov (chol cov)) by (apply CS; auto). assert (C' : chol_ok m (n_cov d') (chol (n_cov d'))) by (apply CS; apply fac').
    apply (whiten_scaled m cov (n_cov d') s (n_L d) (n_Linv d) (n_L d') (n_Linv d')); [apply s_len|apply s_pos|apply cov'|exact C|apply (TS m cov); exact C|exact C'|apply (TS m (n_cov d')); exact C'].
  Qed.
  Lemma linv_sq : sq_mat m (n_Linv d). Proof. apply (TS m cov (chol cov) (CS m cov FA)). Qed.
  Lemma linv_sq' : sq_mat m (n_Linv d'). Proof. apply (TS m (n_cov d') (chol (n_cov d')) (CS m _ fac')). Qed.
  Lemma clip' : n_clip d' = n_clip d.
  Proof.
    change (n_clip d') with (match t with Some a => Some (isf a (length (n_mean d'))) | None => None end). rewrite (proj1 mean').
    change (n_clip d) with (match t with Some a => Some (isf a (length mean)) | None => None end). rewrite Lm. auto.
  Qed.
  Lemma clip_pos : forall c, n_clip d = Some c -> 0 < c.
  Proof. intros c. unfold d, normal_new. cbn [n_clip]. destruct t as [a|]; [|discriminate]. intro H. injection H as <-. rewrite Lm. apply IS. auto. Qed.
  Lemma normalize_len : forall x, length x = m -> length (normal_normalize nlb nub d x) = m.
  Proof. intros x Lx. unfold normal_normalize. fold s. rewrite mv_length, diag_length. apply s_len. Qed.
  Lemma dist' : forall x, length x = m -> mv (n_Linv d') (vsub (normal_normalize nlb nub d x) (n_mean d')) = mv (n_Linv d) (vsub x (n_mean d)).
  Proof.
    intros x Lx. assert (LV : length (vsub x (n_mean d)) = m) by (unfold d, normal_new; cbn [n_mean]; rewrite vsub_length; congruence). rewrite <- (proj2 white (vsub x (n_mean d)) LV). f_equal. destruct mean' as [LM ZM].
    unfold normal_normalize. fold s. rewrite norm_diag by auto. assert (LK : length (vmul s (vsub x (n_mean d))) = m) by (rewrite vmul_length; rewrite s_len; auto).
    apply vec_ext; [rewrite vsub_length; congruence|]. intros i _. rewrite vsub_get by congruence. rewrite ZM. ring.
  Qed.

  Theorem normal_normalized_inside : forall tol x, length x = m -> inside1 (ndom_dom d') (normal_normalize nlb nub d x) tol = inside1 (ndom_dom d) x tol.
  Proof.
    intros tol x Lx. apply eq_true_iff_eq. unfold ndom_dom. rewrite (normal_inside m) by (auto; try apply linv_sq'; try apply mean'; rewrite clip'; apply clip_pos). rewrite (normal_inside m) by (auto; try apply linv_sq; apply clip_pos).
    rewrite clip', dist' by auto. split; intros [_ H]; split; auto. apply normalize_len; auto.
  Qed.
  Theorem normal_normalized_member : forall x, length x = m -> (member (ndom_dom d') (normal_normalize nlb nub d x) <-> member (ndom_dom d) x).
  Proof.
    intros x Lx. unfold ndom_dom. rewrite !normal_member. rewrite clip', dist' by auto. split; intros [_ H]; split; auto; [exact (eq_trans Lx (eq_sym Lm))|]. rewrite normalize_len by auto. symmetry. apply mean'.
  Qed.
  Theorem normal_normalized_point : forall xi, length xi = m -> normal_point d' xi = normal_normalize nlb nub d (normal_point d xi).
  Proof.
    intros xi Lx. unfold normal_point. destruct mean' as [LM ZM]. assert (SL : sq_mat m (n_L d)) by (unfold d, normal_new; cbn [n_L]; apply (CS m cov FA)). assert (LL : length (mv (n_L d) xi) = m) by (apply sq_mv; auto).
    assert (LMd : length (n_mean d) = m) by auto. assert (LA : length (vadd (n_mean d) (mv (n_L d) xi)) = m) by (rewrite vadd_length; congruence). assert (LB : length (vsub (vadd (n_mean d) (mv (n_L d) xi)) (n_mean d)) = m) by (rewrite vsub_length; congruence).
    pose proof s_len as LS. unfold normal_normalize. fold s. rewrite norm_diag by auto. rewrite (proj1 white). rewrite (scale_rows_mv m) by auto. assert (LK : length (vmul s (mv (n_L d) xi)) = m) by (rewrite vmul_length; congruence).
    assert (LK2 : length (vmul s (vsub (vadd (n_mean d) (mv (n_L d) xi)) (n_mean d))) = m) by (rewrite vmul_length; congruence).
    apply vec_ext; [rewrite vadd_length; congruence|]. intros i _. rewrite vadd_get by congruence. rewrite ZM. rewrite !vmul_get by congruence. rewrite vsub_get, vadd_get by congruence. ring.
  Qed.
  Hypothesis DS : det_spec det.
  Theorem normal_normalized_pdf : forall tol x, length x = m -> normal_pdf det d tol x = vprod s * normal_pdf det d' tol (normal_normalize nlb nub d x).
  Proof.
    intros tol x Lx. unfold normal_pdf. rewrite normal_normalized_inside, dist' by auto.
    assert (C : chol_ok m cov (chol cov)) by (apply CS; auto). assert (C' : chol_ok m (n_cov d') (scale_rows s (chol cov))) by (apply (chol_scaled m cov); auto; [apply s_len|apply s_pos|apply cov']).
    assert (LM : length (n_mean d') = m) by apply mean'. rewrite LM. replace (length (n_mean d)) with m by auto. replace (n_cov d) with cov by auto.
    set (pl := vprod (map (fun i => ent (chol cov) i i) (seq 0 m))). assert (PP : 0 < pl) by (apply vprod_pos; intros i Hi; apply C; auto).
    assert (PS : 0 < vprod s) by (rewrite vprod_get; apply vprod_pos; intros i Hi; apply s_pos; rewrite <- s_len; auto).
    assert (D1 : det cov = pl * pl) by (apply (DS m cov (chol cov) SC C)). assert (D2 : det (n_cov d') = (vprod s * pl) * (vprod s * pl)).
    { rewrite (DS m _ _ sq' C'). assert (E : vprod (map (fun i => ent (scale_rows s (chol cov)) i i) (seq 0 m)) = vprod s * pl); [|rewrite E; auto]. rewrite (vprod_get s), s_len. unfold pl. rewrite <- vprod_mul. apply vprod_ext. intros i Hi. unfold ent. rewrite scale_rows_row by (rewrite s_len; auto). apply vscale_get. }
    rewrite D1, D2. assert (P2 : 0 < (2 * PI) ^ m) by (apply pow_lt; pose proof PI_RGT_0; lra).
    assert (Q1 : sqrt ((2 * PI) ^ m * Rabs (pl * pl)) = sqrt ((2 * PI) ^ m) * pl) by (rewrite Rabs_pos_eq by nra; rewrite sqrt_mult by nra; rewrite sqrt_square by lra; auto).
    assert (Q2 : sqrt ((2 * PI) ^ m * Rabs (vprod s * pl * (vprod s * pl))) = sqrt ((2 * PI) ^ m) * (vprod s * pl)) by (assert (0 < vprod s * pl) by nra; rewrite Rabs_pos_eq by nra; rewrite sqrt_mult by nra; rewrite sqrt_square by lra; auto).
    rewrite Q1, Q2. assert (P3 : 0 < sqrt ((2 * PI) ^ m)) by (apply sqrt_lt_R0; auto). replace (n_trunc d') with (n_trunc d) by auto.
    assert (K : / (sqrt ((2 * PI) ^ m) * pl) = vprod s * / (sqrt ((2 * PI) ^ m) * (vprod s * pl))) by (field; repeat split; lra).
    unfold Rdiv. rewrite K. destruct (n_trunc d); ring.
  Qed.
End Norm.
