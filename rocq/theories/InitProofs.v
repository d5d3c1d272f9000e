(** check_sample_inputs (misc.py 12-31) and initialize_subspace (initialization.py 6-25). *)
Require Import Reals List Bool Arith ZArith Lia Lra Psatz Permutation.
From Verif Require Import RVec Num Sums DomMoreModel SweepProofs MatLib SpecProofs LipModel GrassLib SubModel ActiveProofs LocalLinProofs.
Import ListNotations.
Local Open Scope R_scope.

(** accepted inputs: samples and values pair up, samples and gradients have the same dimension, and whatever pair was given is returned *)
Theorem csi_consistent : forall X fX grads X' f' g', check_sample_inputs X fX grads = Some (X', f', g') ->
  length (arows X') = length f' /\ acols X' = acols g' /\ (forall X0 f0, X = Some X0 -> fX = Some f0 -> X' = X0 /\ f' = f0) /\ (forall g0, grads = Some g0 -> g' = g0) /\ (grads = None -> arows g' = []).
Proof.
  intros X fX grads X' f' g' E. unfold check_sample_inputs in E.
  destruct X as [X|], fX as [f|], grads as [g|]; simpl in E; try discriminate;
    try (destruct (Nat.eqb_spec (length (arows X)) (length f)) as [e|]; [|discriminate]);
    try (destruct (Nat.eqb_spec (acols X) (acols g)) as [e'|]; [|discriminate]); simpl in E; injection E as <- <- <-;
    (split; [auto|]; split; [auto|]; split; [intros X0 f0 H1 H2; try discriminate; injection H1 as <-; injection H2 as <-; auto|]; split; [intros g0 H; try discriminate; injection H as <-; auto|intros H; try discriminate; auto]).
Qed.
(** pairs of different length and gradients of another dimension raise *)
Theorem csi_rejects : forall X f grads, (length (arows X) <> length f \/ exists g, grads = Some g /\ acols X <> acols g) -> check_sample_inputs (Some X) (Some f) grads = None.
Proof.
  intros X f grads [H|[g [-> H]]]; unfold check_sample_inputs.
  - destruct (Nat.eqb_spec (length (arows X)) (length f)); [contradiction|]. auto.
  - destruct (Nat.eqb (length (arows X)) (length f)); auto. destruct (Nat.eqb_spec (acols X) (acols g)); [contradiction|]. auto.
Qed.
(** samples without values are dropped without an exception, even when their dimension disagrees with the gradients *)
Theorem csi_drop_refuted : exists X g X' f' g', check_sample_inputs (Some X) None (Some g) = Some (X', f', g') /\ arows X <> [] /\ arows X' = [] /\ acols X <> acols g.
Proof. exists (mkArr 2 [[1; 2]]), (mkArr 1 [[3]]). eexists _, _, _. split; [reflexivity|]. simpl. repeat split; try discriminate. Qed.

(* ---------- initialize_subspace ---------- *)
(** scipy.linalg.svd(A, full_matrices = False): A of m rows given by its columns *)
Definition svd_thin (m : nat) (cols us : list vec) : Prop :=
  exists s vs, length us = Nat.min m (length cols) /\ Forall (fun u => length u = m) us /\ orthonormal us /\ length s = length us /\
    length vs = length us /\ orthonormal vs /\ Forall (fun v => length v = length cols) vs /\ Forall (fun a => 0 <= a) s /\
    (forall i j, (i <= j < length s)%nat -> vget s j <= vget s i) /\
    forall c, (c < length cols)%nat -> nth c cols [] = lincomb m us (vmul s (col vs c)).
Definition svd_thin_ok (svd1 : list vec -> list vec) (m : nat) : Prop := forall cols, Forall (fun c => length c = m) cols -> cols <> [] -> svd_thin m cols (svd1 cols).
Definition in_span (m : nat) (us : list vec) (x : vec) : Prop := exists a, length a = length us /\ x = lincomb m us a.
Lemma svd_thin_span : forall m cols us x, svd_thin m cols us -> In x cols -> in_span m us x.
Proof.
  intros m cols us x [s [vs [L1 [F [OR [Ls [Lv [OV [FV [P [D E]]]]]]]]]]] I. apply In_nth with (d := []) in I. destruct I as [c [Hc <-]]. exists (vmul s (col vs c)). split; [rewrite vmul_length; rewrite ?col_len; lia|]. apply E. auto.
Qed.
(** the result is orthonormal and its span contains every given gradient *)
Theorem init_span : forall perm llg svd1 X fX g n_grads us, svd_thin_ok svd1 (acols g) -> Forall (fun v => length v = acols g) (arows g) -> arows g <> [] ->
  (forall X f Xt A, llg X f Xt = Some A -> Forall (fun v => length v = acols g) A) ->
  initialize_subspace perm llg svd1 X fX (Some g) n_grads = Some us ->
  Forall (fun u => length u = acols g) us /\ orthonormal us /\ (length us <= acols g)%nat /\ forall v, In v (arows g) -> in_span (acols g) us v.
Proof.
  intros perm llg svd1 X fX g n us SV FG NG LL E. unfold initialize_subspace in E. destruct (check_sample_inputs X fX (Some g)) as [[[X' f'] g']|] eqn:EC; [|discriminate]. destruct (csi_consistent _ _ _ _ _ _ EC) as [_ [_ [_ [Hg _]]]]. specialize (Hg g eq_refl). subst g'.
  assert (G : exists extra, us = svd1 (arows g ++ extra) /\ Forall (fun v => length v = acols g) extra).
  { destruct (_ && _).
    - destruct (llg _ _ _) as [est|] eqn:EL; [|discriminate]. injection E as <-. exists est. split; auto. eapply LL; eauto.
    - injection E as <-. exists []. rewrite app_nil_r. auto. }
  destruct G as [extra [-> FE]]. assert (SV' : svd_thin (acols g) (arows g ++ extra) (svd1 (arows g ++ extra))) by (apply SV; [apply Forall_app; auto|destruct (arows g); [congruence|discriminate]]).
  pose proof SV' as [s [vs [L1 [F [OR _]]]]]. split; auto. split; auto. split; [rewrite L1; lia|]. intros v Iv. eapply svd_thin_span; eauto. apply in_or_app. auto.
Qed.
(** all columns multiples of a, one of them not zero: the first column of U is a direction of a *)
Lemma svd_rank_one : forall m cols us a t, svd_thin m cols us -> length a = m -> norm2 a <> 0 -> length t = length cols -> (forall c, (c < length cols)%nat -> nth c cols [] = vscale (vget t c) a) ->
  (exists c, (c < length cols)%nat /\ vget t c <> 0) -> (1 <= length us)%nat /\ exists e, (e = 1 \/ e = -1) /\ nth 0 us [] = vscale (e / norm2 a) a.
Proof.
  intros m cols us a t [s [vs [L1 [F [OR [Ls [Lv [OV [FV [P [D E]]]]]]]]]]] La Na Lt HC [c0 [Hc0 Nt]].
  assert (M1 : (1 <= m)%nat). { destruct m; [|lia]. destruct a; [|simpl in La; lia]. exfalso. apply Na. unfold norm2, norm2sq. rewrite dot_nil_l. apply sqrt_0. }
  assert (LU : (1 <= length us)%nat) by lia. split; auto. set (r := length us) in *. set (N := length cols) in *.
  assert (UL : forall k, (k < r)%nat -> length (nth k us []) = m) by (intros k Hk; rewrite Forall_forall in F; apply F, nth_In; auto).
  assert (VL : forall k, (k < r)%nat -> length (nth k vs []) = N) by (intros k Hk; rewrite Forall_forall in FV; apply FV, nth_In; lia).
  assert (DC : forall k c, (k < r)%nat -> (c < N)%nat -> vget t c * dot (nth k us []) a = vget s k * vget (nth k vs []) c).
  { intros k c Hk Hc. rewrite <- dot_vscale_r, <- HC by auto. rewrite E by auto. rewrite (dot_lincomb_r m) by (auto; rewrite vmul_length; rewrite ?col_len; lia). fold r. rewrite (rsum_single r k); [|auto|].
    - rewrite (OR k k) by (auto; lia). rewrite Nat.eqb_refl, vmul_get by (rewrite ?col_len; lia). rewrite col_get by lia. ring.
    - intros j Hj Nj. rewrite (OR k j) by lia. destruct (Nat.eqb_spec k j); [lia|ring]. }
  set (T := rsum N (fun c => vget t c * vget t c)).
  assert (DA : forall j k, (j < r)%nat -> (k < r)%nat -> T * (dot (nth j us []) a * dot (nth k us []) a) = if Nat.eqb j k then vget s j * vget s j else 0).
  { intros j k Hj Hk. unfold T. rewrite <- rsum_scal_r. rewrite (rsum_ext N _ (fun c => vget s j * vget s k * (vget (nth j vs []) c * vget (nth k vs []) c))).
    - rewrite rsum_scal_l. replace (rsum N (fun c => vget (nth j vs []) c * vget (nth k vs []) c)) with (dot (nth j vs []) (nth k vs [])) by (rewrite dot_rsum by (rewrite !VL; auto); rewrite VL by auto; auto). rewrite (OV j k) by lia. destruct (Nat.eqb_spec j k); subst; ring.
    - intros c Hc. pose proof (DC j c Hj Hc) as Q1. pose proof (DC k c Hk Hc) as Q2. replace (vget t c * vget t c * (dot (nth j us []) a * dot (nth k us []) a)) with ((vget t c * dot (nth j us []) a) * (vget t c * dot (nth k us []) a)) by ring. rewrite Q1, Q2. ring. }
  assert (TP : 0 < T). { unfold T. pose proof (rsum_nonneg N (fun c => vget t c * vget t c) ltac:(intros; apply Rle_0_sqr)) as Q. destruct Q as [Q|Q]; auto. exfalso. symmetry in Q. pose proof (rsum_zero_inv N (fun c => vget t c * vget t c) ltac:(intros; apply Rle_0_sqr) Q c0 Hc0) as Z. simpl in Z. apply Rmult_integral in Z. tauto. }
  assert (SPn : forall k, (k < r)%nat -> 0 <= vget s k) by (intros k Hk; rewrite Forall_forall in P; apply P; unfold vget; apply nth_In; lia).
  assert (OZ : forall k, (1 <= k < r)%nat -> dot (nth k us []) a = 0).
  { intros k Hk. destruct (Req_dec (dot (nth k us []) a) 0) as [Z|Z]; auto. exfalso. pose proof (DA 0%nat k ltac:(lia) ltac:(lia)) as Q. destruct (Nat.eqb_spec 0 k); [lia|]. pose proof (DA k k ltac:(lia) ltac:(lia)) as Qk. rewrite Nat.eqb_refl in Qk. pose proof (DA 0%nat 0%nat ltac:(lia) ltac:(lia)) as Q0. simpl in Q0. pose proof (D 0%nat k ltac:(lia)) as Dk. pose proof (SPn k ltac:(lia)).
    assert (D0 : dot (nth 0 us []) a = 0). { apply Rmult_integral in Q. destruct Q as [Q|Q]; [lra|]. apply Rmult_integral in Q. tauto. } rewrite D0 in Q0. assert (0 < dot (nth k us []) a * dot (nth k us []) a) by (apply Rsqr_pos_lt in Z; exact Z). nra. }
  (* a in the span *)
  assert (AS : a = vscale (dot (nth 0 us []) a) (nth 0 us [])).
  { assert (EA : vscale (vget t c0) a = lincomb m us (vmul s (col vs c0))) by (rewrite <- HC by auto; apply E; auto). apply vec_ext; [rewrite vscale_length; rewrite UL; auto|]. intros i Hi. rewrite vscale_get.
    assert (EI : vget t c0 * vget a i = vget t c0 * (dot (nth 0 us []) a * vget (nth 0 us []) i)).
    { rewrite <- (vscale_get (vget t c0) a i), EA. rewrite MatLib.lincomb_get by (auto; try lia; rewrite vmul_length; rewrite ?col_len; lia). fold r. rewrite (rsum_single r 0); [|lia|].
      - rewrite vmul_get by (rewrite ?col_len; lia). rewrite col_get by lia. rewrite <- DC by lia. ring.
      - intros k Hk Nk. rewrite vmul_get by (rewrite ?col_len; lia). rewrite col_get by lia. rewrite <- DC by lia. rewrite OZ by lia. ring. }
    apply Rmult_eq_reg_l in EI; auto. }
  set (al := dot (nth 0 us []) a) in *. assert (N1 : norm2 (nth 0 us []) = 1). { unfold norm2, norm2sq. rewrite (OR 0%nat 0%nat) by lia. simpl. apply sqrt_1. }
  assert (NA : norm2 a = Rabs al) by (rewrite AS, norm2_vscale, N1; ring). assert (AN : al <> 0) by (intros Z; apply Na; rewrite NA, Z, Rabs_R0; auto).
  assert (UE : nth 0 us [] = vscale (/ al) a). { rewrite AS. rewrite vscale_vscale, Rinv_l by auto. apply vec_ext; [rewrite vscale_length; auto|]. intros i Hi. rewrite vscale_get. ring. }
  unfold Rabs in NA. destruct (Rcase_abs al); [exists (-1)|exists 1]; (split; [auto|]); rewrite UE; f_equal; rewrite NA; field; auto.
Qed.
(** affine data, no gradients given: when it returns, the first column is the direction of the slope *)
Theorem init_affine : forall perm pb lstsq svd1 m X fX a c n_grads us, (forall n, Permutation (perm n) (seq 0 n)) -> lstsq_ok (m + 1) lstsq -> svd_thin_ok svd1 m ->
  length a = m -> norm2 a <> 0 -> affine_data a c X fX -> spanning m X -> (1 <= n_grads)%nat -> (m + 1 <= length X)%nat ->
  initialize_subspace perm (fun X f Xt => local_linear_grads pb lstsq m X f None None (Some Xt)) svd1 (Some (mkArr m X)) (Some fX) None n_grads = Some us ->
  exists e, (e = 1 \/ e = -1) /\ nth 0 us [] = vscale (e / norm2 a) a.
Proof.
  intros perm pb lstsq svd1 m X fX a c n us PM LS SV La Na AD SP Hn HM E. unfold initialize_subspace in E. destruct (check_sample_inputs _ _ _) as [[[X' f'] g']|] eqn:EC; [|discriminate].
  destruct (csi_consistent _ _ _ _ _ _ EC) as [LX [CE [HX [_ Hg]]]]. destruct (HX _ _ eq_refl eq_refl) as [-> ->]. specialize (Hg eq_refl). cbn [arows acols] in *. rewrite Hg in E. cbn [length] in E. rewrite Nat.sub_0_r in E.
  replace (Nat.ltb 0 n) with true in E by (symmetry; apply Nat.ltb_lt; lia). replace (Nat.leb (m + 1) (length X)) with true in E by (symmetry; apply Nat.leb_le; lia). cbn [andb app] in E.
  set (idx := firstn n (perm (length X))) in *. set (Xt := map (fun i => nth i X []) idx) in *.
  assert (LP : length (perm (length X)) = length X) by (rewrite (Permutation_length (PM (length X))), seq_length; auto). assert (LI : (1 <= length idx <= length X)%nat) by (unfold idx; rewrite firstn_length; lia).
  unfold local_linear_grads in E. destruct (local_linear pb lstsq m X fX None None (Some Xt)) as [A|] eqn:EL; [|discriminate]. simpl in E. injection E as <-.
  destruct (ll_shape _ _ _ _ _ _ _ _ _ EL) as [LA [_ ZR]]. assert (LXt : length Xt = length idx) by (unfold Xt; apply map_length). simpl points in ZR.
  set (t := map (fun i => if Nat.ltb i (length Xt) then 1 else 0) (seq 0 (length A))).
  assert (EA : forall i, (i < length A)%nat -> nth i (map (@tl R) A) [] = vscale (vget t i) a).
  { intros i Hi. rewrite (nth_indep _ [] (tl (@nil R))) by (rewrite map_length; auto). rewrite map_nth. unfold t. rewrite vget_map_seq by auto. destruct (Nat.ltb_spec i (length Xt)) as [h|h].
    - rewrite (ll_affine pb lstsq m X fX None None (Some Xt) A a c LS La AD SP EL) by (simpl; auto). simpl. apply vec_ext; [rewrite vscale_length; auto|]. intros k Hk. rewrite vscale_get. ring.
    - rewrite ZR by lia. rewrite Nat.add_1_r. simpl. unfold vzero. rewrite vscale_0. rewrite La. auto. }
  assert (FA : Forall (fun v => length v = m) (map (@tl R) A)). { apply Forall_forall. intros v Iv. apply In_nth with (d := []) in Iv. destruct Iv as [i [Hi <-]]. rewrite map_length in Hi. rewrite EA by auto. rewrite vscale_length. auto. }
  assert (NE : map (@tl R) A <> []) by (intros Z; apply map_eq_nil in Z; subst; simpl in LA; lia).
  destruct (svd_rank_one m (map (@tl R) A) _ a t (SV _ FA NE) La Na) as [_ R]; auto.
  - unfold t. rewrite !map_length, seq_length. auto.
  - intros i Hi. rewrite map_length in Hi. auto.
  - exists 0%nat. rewrite map_length. split; [lia|]. unfold t. rewrite vget_map_seq by lia. destruct (Nat.ltb_spec 0 (length Xt)); [lra|lia].
Qed.
(** the smallest sample for which gradients are to be estimated: local_linear_grads refuses its own default perplexity *)
Theorem init_minimal_refuted : exists m X fX a c, length a = m /\ affine_data a c X fX /\ spanning m X /\ length X = (m + 1)%nat /\
  forall perm pb lstsq svd1 n_grads, (1 <= n_grads)%nat ->
    initialize_subspace perm (fun X f Xt => local_linear_grads pb lstsq m X f None None (Some Xt)) svd1 (Some (mkArr m X)) (Some fX) None n_grads = None.
Proof.
  destruct ll_default_refuted as [m [X [fX [a [c [AD [SP [La [LX H]]]]]]]]]. exists m, X, fX, a, c. repeat (split; [auto|]). intros perm pb lstsq svd1 n Hn. unfold initialize_subspace.
  destruct (check_sample_inputs _ _ _) as [[[X' f'] g']|] eqn:EC; auto. destruct (csi_consistent _ _ _ _ _ _ EC) as [_ [_ [HX [_ Hg]]]]. destruct (HX _ _ eq_refl eq_refl) as [-> ->]. specialize (Hg eq_refl). cbn [arows acols]. rewrite Hg. cbn [length].
  replace (Nat.ltb 0 n) with true by (symmetry; apply Nat.ltb_lt; lia). replace (Nat.leb (m + 1) (length X)) with true by (symmetry; apply Nat.leb_le; lia). cbn [andb].
  unfold local_linear_grads, local_linear. destruct AD as [Lf _]. rewrite Lf, Nat.eqb_refl. simpl.
  rewrite LX. rewrite Nat.min_id. replace (Rleb 2 (INR (m + 1)) && Rltb (INR (m + 1)) (INR (m + 1))) with false; auto. symmetry. apply andb_false_iff. right. apply Rltb_false. lra.
Qed.
(** f = 2 x + 1 at 0, 1, 2 with two gradients asked for: the estimated gradients are 2, 2 and a zero row *)
Example init_case : affine_data [2] 1 [[0]; [1]; [2]] [1; 3; 5] /\ spanning 1 [[0]; [1]; [2]] /\ svd_thin 1 [[2]; [2]; [0]] [[1]] /\
  initialize_subspace (fun n => seq 0 n) (fun _ _ _ => Some [[2]; [2]; [0]]) (fun _ => [[1]]) (Some (mkArr 1 [[0]; [1]; [2]])) (Some [1; 3; 5]) None 2 = Some [[1]].
Proof.
  split; [apply line3_affine|]. split; [apply line3_span|]. split; [|reflexivity].
  assert (S2 : sqrt 2 * sqrt 2 = 2) by (apply sqrt_sqrt; lra). assert (SP : 0 < sqrt 2) by (apply sqrt_lt_R0; lra).
  exists [2 * sqrt 2], [[/ sqrt 2; / sqrt 2; 0]]. split; auto. split; [repeat constructor|]. split.
  { intros i j Hi Hj. simpl in Hi, Hj. destruct i, j; try lia. simpl. rewrite dot_cons, dot_nil_l. ring. }
  split; auto. split; auto. split.
  { intros i j Hi Hj. simpl in Hi, Hj. destruct i, j; try lia. cbn [nth Nat.eqb]. rewrite !dot_cons, dot_nil_l. replace (/ sqrt 2 * / sqrt 2) with (/ 2) by (rewrite <- Rinv_mult; rewrite S2; auto). lra. }
  split; [repeat constructor|]. split; [constructor; [lra|constructor]|]. split; [intros i j H; simpl in H; replace j with i by lia; lra|].
  intros c Hc. simpl in Hc. apply vec_ext; [destruct c as [|[|[|c]]]; try lia; reflexivity|]. intros i Hi. assert (i = 0)%nat by (destruct c as [|[|[|c]]]; simpl in Hi; lia). subst i. rewrite MatLib.lincomb_get by (auto; repeat constructor). cbn [length]. unfold rsum. simpl rsum. rewrite vmul_get by reflexivity. destruct c as [|[|[|c]]]; try lia; unfold col, vget; simpl; field; lra.
Qed.
