(** project_evals leaves a matrix that satisfies its constraints alone (C30). *)
Require Import Reals Lra Lia List Bool Arith.
From Verif Require Import RVec Num Sums MatLib SpecProofs LipModel LipProofs LipConstProofs ProjProofs GrassLib LipFitProofs SdpProofs PartialProofs LipOpt ArnoldiMoreProofs DomMoreModel HullIneqProofs.
Import ListNotations.
Local Open Scope R_scope.

(** a matrix that satisfies all the constraints is returned as it is; without samples any matrix is *)
Theorem project_evals_fixed : forall m H X fX fuel, Forall (dimP m) X -> apart X -> length X <> 1%nat -> (0 < fuel)%nat -> eval_ok X fX pe_tol H -> project_evals fuel H X fX = Ret H.
Proof.
  intros m H X fX fuel HX HA HN FU OK. unfold project_evals. destruct X as [|x0 X'] eqn:EX; auto. rewrite <- EX in *. destruct fuel as [|n]; [lia|]. cbn [pe_loop].
  destruct (pe_step_spec X fX HA ltac:(subst X; simpl in *; lia) H) as [[-> _]|[i [j [Hij [UP _]]]]]; auto. exfalso.
  specialize (OK i j Hij). pose proof (pp_pos X HA i j Hij) as P. unfold upd in UP. cbn [fst snd] in UP. set (d := dot (pair_p X i j) (pair_p X i j)) in *.
  assert (D : 0 < d * d) by nra. apply Rmult_lt_compat_r with (r := d * d) in UP; [|lra]. unfold Rdiv in UP. rewrite Rmult_assoc, Rinv_l, Rmult_1_r in UP by lra. lra.
Qed.
(** projecting twice is projecting once *)
Theorem project_evals_idempotent : forall m H X fX fuel, sq m H -> Forall (dimP m) X -> apart X -> length X <> 1%nat -> (length X * (length X - 1) / 2 < fuel)%nat ->
  exists H', project_evals fuel H X fX = Ret H' /\ forall fuel', (0 < fuel')%nat -> project_evals fuel' H' X fX = Ret H'.
Proof.
  intros m H X fX fuel SH HX HA HN FU. destruct X as [|x0 X'] eqn:EX; [exists H; split; auto|]. rewrite <- EX in *.
  destruct (project_evals_correct m H X fX fuel SH HX HA ltac:(subst X; simpl in *; lia) FU) as [H' [E [_ [_ OK]]]]. exists H'. split; auto. intros fuel' F. apply (project_evals_fixed m); auto.
Qed.
Example fixed_case : (forall H fX, project_evals 1 H [] fX = Ret H) /\ eval_ok [[0]; [1]] [0; 2] pe_tol [[5]] /\ project_evals 9 [[5]] [[0]; [1]] [0; 2] = Ret [[5]].
Proof.
  assert (OK : eval_ok [[0]; [1]] [0; 2] pe_tol [[5]]).
  { intros i j Hij. simpl in Hij. assert (i = 0%nat /\ j = 1%nat) as [-> ->] by lia. unfold pair_df2, pair_p, vget. cbn [nth]. change (vsub [0] [1]) with [0 - 1]. rewrite quad1, dot1. pose proof pe_tol_pos. nra. }
  split; [intros; apply (project_evals_fixed 0); simpl; auto; [intros i j K; simpl in K; lia|intros i j K; simpl in K; lia]|]. split; auto. apply (project_evals_fixed 1); auto; [repeat constructor| |simpl; lia|lia].
  destruct ex_project as [_ [_ [A _]]]. exact A.
Qed.

(** * PartialLipschitzMatrix (C78) *)
Lemma quad_sums : forall n A c, sq n A -> length c = n -> quad A c = rsum n (fun i => rsum n (fun j => vget c i * vget c j * mget A i j)).
Proof.
  intros n A c SA Lc. unfold quad. rewrite (dot_rs n) by (auto; rewrite mv_length; apply SA). apply rsum_ext. intros i Hi. rewrite mv_get by (destruct SA as [-> _]; auto). rewrite (dot_rs n) by (auto; apply (sq_row n); auto).
  rewrite <- rsum_scal_l. apply rsum_ext. intros j Hj. unfold mget. ring.
Qed.
Lemma frame_gram : forall m us a b, Forall (dimP m) us -> orthonormal us -> (a < length us)%nat -> (b < length us)%nat -> rsum m (fun i => vget (nth a us []) i * vget (nth b us []) i) = if Nat.eqb a b then 1 else 0.
Proof.
  intros m us a b HU OU Ha Hb. rewrite <- (OU a b Ha Hb). symmetry. rewrite Forall_forall in HU. apply (dot_rs m); apply HU, nth_In; auto.
Qed.
Lemma mv_units : forall m us i a, Forall (dimP m) us -> (i < m)%nat -> (a < length us)%nat -> vget (mv us (unitv m i)) a = vget (nth a us []) i.
Proof. intros m us i a HU Hi Ha. rewrite mv_get by auto. apply dot_unitv; auto. rewrite Forall_forall in HU. apply HU, nth_In; auto. Qed.
(** the trace of U J U^T is the trace of J *)
Lemma trace_frame : forall m us J, Forall (dimP m) us -> orthonormal us -> sq (length us) J -> rsum m (fun i => quad J (mv us (unitv m i))) = trace J.
Proof.
  intros m us J HU OU SJ. set (r := length us) in *. rewrite (trace_sq r) by auto.
  rewrite (rsum_ext m _ (fun i => rsum r (fun a => rsum r (fun b => vget (nth a us []) i * vget (nth b us []) i * mget J a b)))).
  2:{ intros i Hi. rewrite (quad_sums r) by (auto; apply mv_length). apply rsum_ext. intros a Ha. apply rsum_ext. intros b Hb. rewrite !(mv_units m) by auto. auto. }
  rewrite rsum_swap. apply rsum_ext. intros a Ha. rewrite rsum_swap.
  rewrite (rsum_ext r _ (fun b => (if Nat.eqb a b then 1 else 0) * mget J a b)) by (intros b Hb; rewrite rsum_scal_r, frame_gram by auto; auto).
  rewrite (rsum_single r a); auto.
  - rewrite Nat.eqb_refl. ring.
  - intros b Hb NB. destruct (Nat.eqb_spec a b); [congruence|ring].
Qed.
Lemma trace_proj : forall m us, Forall (dimP m) us -> orthonormal us -> rsum m (fun i => dot (mv us (unitv m i)) (mv us (unitv m i))) = INR (length us).
Proof.
  intros m us HU OU. set (r := length us) in *.
  rewrite (rsum_ext m _ (fun i => rsum r (fun a => vget (nth a us []) i * vget (nth a us []) i))).
  2:{ intros i Hi. rewrite (dot_rs r) by apply mv_length. apply rsum_ext. intros a Ha. rewrite !(mv_units m) by auto. auto. }
  rewrite rsum_swap. rewrite (rsum_ext r _ (fun _ => 1)) by (intros a Ha; rewrite frame_gram, Nat.eqb_refl by auto; auto). rewrite rsum_const. ring.
Qed.
(** the trace of the matrix that is returned is the objective that was minimized, in the units of the values *)
Theorem pl_fit_trace : forall eigh m us J alpha X fX grads scale us' w a, eigh_ok (length us) eigh -> Forall (dimP m) us -> orthonormal us -> sq (length us) J -> msym (length us) J -> psd (length us) J ->
  pl_signs_fine eigh m us J grads scale -> pl_fit eigh m us J alpha X fX grads scale = (us', w, a) -> trace (pl_H m us' w a) = scale ^ 2 * pl_obj m (length us) (J, alpha).
Proof.
  intros eigh m us J alpha X fX grads scale us' w a HE HU OU SJ MJ PJ HS E. destruct (pl_fit_correct eigh m us J alpha X fX grads scale us' w a HE HU OU SJ MJ PJ HS E) as [L' [HU' [OU' [Lw [_ Q]]]]].
  assert (SH : sq m (pl_H m us' w a)) by (apply madd_sq; [apply spec_sq; auto|apply mscale_sq, msub_sq; [apply meye_sq|apply spec_sq; auto]]).
  rewrite (trace_quads m) by auto. rewrite (rsum_ext m _ (fun i => scale ^ 2 * (quad J (mv us (unitv m i)) + (alpha * 1 - alpha * dot (mv us (unitv m i)) (mv us (unitv m i)))))).
  2:{ intros i Hi. rewrite Q by apply GrassLib.unitv_len. rewrite (dot_unitv m i) by (auto; apply GrassLib.unitv_len). rewrite GrassLib.unitv_get, Nat.eqb_refl by auto. ring. }
  rewrite rsum_scal_l, rsum_plus, rsum_minus, rsum_const, rsum_scal_l, trace_frame, trace_proj by auto. unfold pl_obj. cbn [fst snd]. ring.
Qed.
(** the line search takes the longest of the ten steps that decreases the objective *)
Theorem pl_search_first : forall step fixedU ob obj n k t last, (k < n)%nat -> (forall i, (i < k)%nat -> obj <= ob (fixedU (step (t / 10 ^ i)))) -> ob (fixedU (step (t / 10 ^ k))) < obj ->
  pl_search n step fixedU ob obj t last = (step (t / 10 ^ k), fixedU (step (t / 10 ^ k))).
Proof.
  intros step fixedU ob obj n. induction n as [|n IH]; intros k t last Hk HB HL; [lia|]. cbn [pl_search]. cbv zeta. destruct k as [|k].
  - replace (t / 10 ^ 0) with t in * by (simpl; field). rewrite (proj2 (Rltb_true _ _) HL). auto.
  - specialize (HB 0%nat ltac:(lia)) as H0. replace (t / 10 ^ 0) with t in H0 by (simpl; field). rewrite (proj2 (Rltb_false _ _) H0).
    assert (T : forall i, t / 10 / 10 ^ i = t / 10 ^ S i) by (intros i; simpl; field; apply pow_nonzero; lra).
    rewrite <- T. apply (IH k); [lia| |rewrite T; exact HL]. intros i Hi. rewrite T. apply HB. lia.
Qed.
(** so an iteration with a step that decreases the objective makes progress *)
Theorem pl_optimize_progress : forall (D : Type) (descent : list vec -> mat * R -> option D) small step fixedU ob tol maxiter U0 U Ja d k,
  descent U0 (fixedU U0) = Some d -> small d = false -> (k < 10)%nat -> ob (fixedU (step U0 d (1 / 10 ^ k))) < ob (fixedU U0) ->
  pl_optimize (S maxiter) descent small step fixedU ob tol U0 = Some (U, Ja) -> ob Ja < ob (fixedU U0).
Proof.
  intros D descent small step fixedU ob tol maxiter U0 U Ja d k HD HS Hk HL E. unfold pl_optimize in E. cbn [pl_loop] in E. rewrite HD, HS in E.
  assert (F : exists j, (j < 10)%nat /\ (forall i, (i < j)%nat -> ob (fixedU U0) <= ob (fixedU (step U0 d (1 / 10 ^ i)))) /\ ob (fixedU (step U0 d (1 / 10 ^ j))) < ob (fixedU U0)).
  { revert Hk HL. induction k as [k IH] using lt_wf_ind. intros Hk HL. destruct (existsb (fun i => Rltb (ob (fixedU (step U0 d (1 / 10 ^ i)))) (ob (fixedU U0))) (seq 0 k)) eqn:X.
    - apply existsb_exists in X. destruct X as [i [I X]]. apply in_seq in I. apply Rltb_true in X. apply (IH i); auto; lia.
    - exists k. split; auto. split; auto. intros i Hi. apply Rltb_false. destruct (Rltb (ob (fixedU (step U0 d (1 / 10 ^ i)))) (ob (fixedU U0))) eqn:Y; auto. assert (Z : existsb (fun i => Rltb (ob (fixedU (step U0 d (1 / 10 ^ i)))) (ob (fixedU U0))) (seq 0 k) = true) by (apply existsb_exists; exists i; split; auto; apply in_seq; lia). congruence. }
  destruct F as [j [Hj [HB HJ]]]. cbv zeta in E. rewrite (pl_search_first (step U0 d) fixedU ob (ob (fixedU U0)) 10 j 1 (U0, fixedU U0) Hj HB HJ) in E. cbn [fst snd] in E. set (V := step U0 d (1 / 10 ^ j)) in *.
  destruct (Rltb (ob (fixedU U0)) (ob (fixedU V))) eqn:C1; [apply Rltb_true in C1; lra|]. destruct (Rltb (ob (fixedU U0)) (ob (fixedU V) + tol)); [injection E as <- <-; auto|].
  destruct (pl_optimize_monotone D descent small step fixedU ob tol (fun _ => True) maxiter V U Ja) as [_ [_ M]]; auto. lra.
Qed.
(** an instance: f = (x - 1/100)^2 along a line; the first two steps are too long *)
Example progress_case : let fixedU := fun U : list vec => ([[ (mget U 0 0 - 1 / 100) ^ 2 ]], 0) in let ob := fun Ja : mat * R => mget (fst Ja) 0 0 in let step := fun (_ : list vec) (_ : unit) (t : R) => [[t]] in
  (forall i, (i < 2)%nat -> ob (fixedU [[0]]) <= ob (fixedU (step [[0]] tt (1 / 10 ^ i)))) /\ ob (fixedU (step [[0]] tt (1 / 10 ^ 2))) < ob (fixedU [[0]]) /\
  exists U Ja, pl_optimize 1 (fun _ _ => Some tt) (fun _ => false) step fixedU ob (/ 10) [[0]] = Some (U, Ja) /\ U = [[/ 100]].
Proof.
  intros fixedU ob step. assert (A : forall i, (i < 2)%nat -> ob (fixedU [[0]]) <= ob (fixedU (step [[0]] tt (1 / 10 ^ i)))).
  { intros i Hi. unfold ob, fixedU, step, mget, vget. cbn [fst nth]. destruct i as [|[|i]]; [simpl; lra|simpl; lra|lia]. }
  assert (B : ob (fixedU (step [[0]] tt (1 / 10 ^ 2))) < ob (fixedU [[0]])) by (unfold ob, fixedU, step, mget, vget; cbn [fst nth]; simpl; lra).
  split; [exact A|]. split; [exact B|]. unfold pl_optimize. cbn [pl_loop]. cbv zeta.
  rewrite (pl_search_first (step [[0]] tt) fixedU ob (ob (fixedU [[0]])) 10 2 1 ([[0]], fixedU [[0]])) by (auto; lia). cbn [fst snd].
  rewrite (proj2 (Rltb_false _ _)) by lra. rewrite (proj2 (Rltb_true _ _)) by (unfold ob, fixedU, step, mget, vget; cbn [fst nth]; simpl; lra).
  eexists. eexists. split; [reflexivity|]. unfold step. replace (1 / 10 ^ 2) with (/ 100) by (simpl; field). auto.
Qed.
(** for data increasing along a column the sign fixed from samples keeps it, for decreasing data it is turned round *)
Lemma vsum_nonneg_pos : forall (A : Type) (f : A -> R) l, (forall a, In a l -> 0 <= f a) -> 0 <= vsum (map f l) /\ ((exists a, In a l /\ 0 < f a) -> 0 < vsum (map f l)).
Proof.
  intros A f. induction l as [|a l IH]; intros H; cbn [map]; [change (vsum []) with 0; split; [lra|intros [a [[] _]]]|]. rewrite vsum_cons. destruct IH as [I1 I2]; [intros b Hb; apply H; right; auto|]. pose proof (H a (or_introl eq_refl)). split; [lra|].
  intros [b [[<-|Hb] P]]; [lra|]. assert (0 < vsum (map f l)) by (apply I2; eauto). lra.
Qed.
Lemma vsum_opp : forall (A : Type) (f : A -> R) l, vsum (map (fun a => - f a) l) = - vsum (map f l).
Proof. intros A f. induction l as [|a l IH]; cbn [map]; [change (vsum []) with 0; ring|]. rewrite !vsum_cons, IH. ring. Qed.
Definition increasing_along (u : vec) (X : mat) (fX : vec) : Prop :=
  forall i j, (i < length X)%nat -> (j < length X)%nat -> 0 < dot u (vsub (nth i X []) (nth j X [])) -> vget fX j < vget fX i.
Definition decreasing_along (u : vec) (X : mat) (fX : vec) : Prop :=
  forall i j, (i < length X)%nat -> (j < length X)%nat -> 0 < dot u (vsub (nth i X []) (nth j X [])) -> vget fX i < vget fX j.
Definition spread_along (u : vec) (X : mat) : Prop := exists i j, (i < j < length X)%nat /\ dot u (vsub (nth i X []) (nth j X [])) <> 0.
Lemma dot_vsub_swap : forall u x y, length x = length u -> length y = length u -> dot u (vsub y x) = - dot u (vsub x y).
Proof. intros u x y Lx Ly. rewrite !dot_vsub_r by lia. ring. Qed.
Lemma slope_increasing : forall u X fX, Forall (dimP (length u)) X -> increasing_along u X fX -> 0 <= slope_sum u X fX /\ (spread_along u X -> 0 < slope_sum u X fX).
Proof.
  intros u X fX HX HI. rewrite Forall_forall in HX. assert (DX : forall i, (i < length X)%nat -> length (nth i X []) = length u) by (intros i Hi; apply HX, nth_In; auto).
  assert (T : forall i j, (i < j < length X)%nat -> dot u (vsub (nth i X []) (nth j X [])) <> 0 -> 0 < (vget fX i - vget fX j) / dot u (vsub (nth i X []) (nth j X []))).
  { intros i j Hij D. set (d := dot u (vsub (nth i X []) (nth j X []))) in *. destruct (Rtotal_order d 0) as [N|[Z|P]]; [|contradiction|].
    - assert (N' : 0 < dot u (vsub (nth j X []) (nth i X []))) by (rewrite dot_vsub_swap by (apply DX; lia); fold d; lra). apply HI in N'; [|lia|lia]. replace ((vget fX i - vget fX j) / d) with ((vget fX j - vget fX i) / - d) by (field; lra). apply Rdiv_lt_0_compat; lra.
    - pose proof (HI i j ltac:(lia) ltac:(lia) P). apply Rdiv_lt_0_compat; lra. }
  unfold slope_sum. cbv zeta. destruct (vsum_nonneg_pos _ (fun ij => if Rltb 0 (Rabs (dot u (vsub (nth (fst ij) X []) (nth (snd ij) X [])))) then (vget fX (fst ij) - vget fX (snd ij)) / dot u (vsub (nth (fst ij) X []) (nth (snd ij) X [])) else 0) (pairs (length X))) as [A B].
  - intros [i j] I. apply in_pairs in I. cbn [fst snd]. destruct (Rltb 0 (Rabs (dot u (vsub (nth i X []) (nth j X []))))) eqn:E; [|lra]. apply Rltb_true in E. apply Rlt_le, T; auto. intros Z. rewrite Z, Rabs_R0 in E. lra.
  - split; [exact A|]. intros [i [j [Hij D]]]. apply B. exists (i, j). split; [apply in_pairs; auto|]. cbn [fst snd]. rewrite (proj2 (Rltb_true _ _)) by (apply Rabs_pos_lt; auto). apply T; auto.
Qed.
Lemma slope_opp : forall u X fX, slope_sum u X (vscale (-1) fX) = - slope_sum u X fX.
Proof.
  intros u X fX. unfold slope_sum. rewrite <- vsum_opp. f_equal. apply map_ext. intros ij. cbv zeta. rewrite !vscale_get. destruct (Rltb 0 (Rabs (dot u (vsub (nth (fst ij) X []) (nth (snd ij) X []))))) eqn:E; [|ring].
  apply Rltb_true in E. field. intros Z. rewrite Z, Rabs_R0 in E. lra.
Qed.
Theorem fix_signs_monotone : forall us X fX k, (k < length us)%nat -> Forall (dimP (length (nth k us []))) X ->
  (increasing_along (nth k us []) X fX -> nth k (fix_signs us X fX []) [] = nth k us []) /\
  (decreasing_along (nth k us []) X fX -> spread_along (nth k us []) X -> nth k (fix_signs us X fX []) [] = vscale (-1) (nth k us [])).
Proof.
  intros us X fX k Hk HX. unfold fix_signs. rewrite scale_cols_nth by (auto; unfold signs_samps; apply map_length). unfold signs_samps. rewrite (map_get _ _ us k []) by auto. cbv zeta. set (u := nth k us []) in *. split.
  - intros HI. destruct (slope_increasing u X fX HX HI) as [P _]. assert (S : sgn (if Reqb (slope_sum u X fX) 0 then 1 else slope_sum u X fX) = 1).
    { unfold sgn. rewrite (proj2 (Rltb_true _ _)); auto. destruct (Reqb (slope_sum u X fX) 0) eqn:E; [lra|]. apply Reqb_false in E. lra. }
    rewrite S. apply vec_ext; [apply vscale_length|]. intros i Hi. rewrite vscale_get. ring.
  - intros HD HS. destruct (slope_increasing u X (vscale (-1) fX) HX) as [_ P]; [intros i j Hi Hj D; rewrite !vscale_get; pose proof (HD i j Hi Hj D); lra|]. specialize (P HS). rewrite slope_opp in P.
    rewrite (proj2 (Reqb_false _ _)) by lra. unfold sgn. rewrite (proj2 (Rltb_false _ _)) by lra. rewrite (proj2 (Rltb_true _ _)) by lra. auto.
Qed.
Example monotone_case : decreasing_along [1] [[0]; [1]; [3]] [0; -1; -3] /\ spread_along [1] [[0]; [1]; [3]] /\ increasing_along [1] [[0]; [1]; [3]] [2; 4; 5].
Proof.
  split; [|split].
  - intros i j Hi Hj. simpl in Hi, Hj. destruct i as [|[|[|i]]]; try lia; destruct j as [|[|[|j]]]; try lia; unfold vsub, vget; cbn [nth vmap2]; rewrite !dot_cons, !dot_nil_l; lra.
  - exists 0%nat, 1%nat. split; [simpl; lia|]. unfold vsub. cbn [nth vmap2]. rewrite dot_cons, dot_nil_l. lra.
  - intros i j Hi Hj. simpl in Hi, Hj. destruct i as [|[|[|i]]]; try lia; destruct j as [|[|[|j]]]; try lia; unfold vsub, vget; cbn [nth vmap2]; rewrite !dot_cons, !dot_nil_l; lra.
Qed.
(** with values and gradients the scale is the smallest number bounding all differences of values and all gradient norms *)
Theorem lip_scale_least : forall fX grads, fX <> [] -> grads <> [] ->
  (forall i j, (i < length fX)%nat -> (j < length fX)%nat -> vget fX i - vget fX j <= lip_scale fX grads) /\ (forall g, In g grads -> norm2 g <= lip_scale fX grads) /\
  forall s, (forall i j, (i < length fX)%nat -> (j < length fX)%nat -> vget fX i - vget fX j <= s) -> (forall g, In g grads -> norm2 g <= s) -> lip_scale fX grads <= s.
Proof.
  intros fX grads NF NG. assert (E : lip_scale fX grads = Rmax (vmax fX - vmin fX) (vmax (map norm2 grads))) by (unfold lip_scale; destruct fX; [congruence|]; destruct grads; [congruence|]; auto). rewrite E.
  destruct (vmax_spec fX NF) as [M MI]. destruct (vmin_spec fX NF) as [N NI]. assert (NM : map norm2 grads <> []) by (destruct grads; [congruence|discriminate]). destruct (vmax_spec _ NM) as [G GI]. split; [|split].
  - intros i j Hi Hj. eapply Rle_trans; [|apply Rmax_l]. assert (I1 : In (vget fX i) fX) by (unfold vget; apply nth_In; auto). assert (I2 : In (vget fX j) fX) by (unfold vget; apply nth_In; auto). pose proof (M _ I1). pose proof (N _ I2). lra.
  - intros g I. eapply Rle_trans; [|apply Rmax_r]. apply G, in_map, I.
  - intros s H1 H2. apply Rmax_lub.
    + apply (In_nth _ _ 0) in MI. apply (In_nth _ _ 0) in NI. destruct MI as [i [Hi EI]]. destruct NI as [j [Hj EJ]]. rewrite <- EI, <- EJ. apply (H1 i j); auto.
    + apply in_map_iff in GI. destruct GI as [g [<- I]]. apply H2, I.
Qed.
Example scale_case : lip_scale [0; 4] [[6]; [1]] = 6.
Proof. unfold lip_scale. cbn [vmax vmin fold_left map]. rewrite !norm2_1. unfold Rmax, Rmin, Rabs. repeat (destruct (Rle_dec _ _) || destruct (Rcase_abs _)); lra. Qed.
