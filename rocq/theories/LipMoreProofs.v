(** Coordinate subspaces (C32), gradients of the uncertainty bounds and the domain uncertainty (C77). *)
Require Import Reals Lra Lia List Bool Arith Permutation.
From Verif Require Import RVec Num Sums DomMoreModel SweepProofs HullProofs HullIneqProofs VecTac Deriv ArnoldiMoreProofs MatLib SpecProofs LipModel LipProofs LipConstProofs ProjProofs GrassLib LipFitProofs.
Import ListNotations.
Local Open Scope R_scope.

(** ** C32 *)
(** np.argsort: a permutation of the indices that sorts the values in ascending order *)
Definition argsort_ok (argsort : vec -> list nat) : Prop := forall v,
  Permutation (argsort v) (seq 0 (length v)) /\ forall i j, (i < j < length v)%nat -> vget v (nth i (argsort v) O) <= vget v (nth j (argsort v) O).
(** the columns of U are the coordinate vectors, each once, with scores along them descending *)
Definition sorted_coords (s : vec) (U : list vec) : Prop := exists p : list nat,
  Permutation p (seq 0 (length s)) /\ U = map (fun k => map (fun j => if Nat.eqb j k then 1 else 0) (seq 0 (length s))) p /\
  forall i j, (i < j < length s)%nat -> vget s (nth j p O) <= vget s (nth i p O).
Theorem coord_U_sorted : forall argsort s c, argsort_ok argsort -> c_U c = None -> exists U c', coord_U argsort (coord_fit s c) = (Some U, c') /\ sorted_coords s U /\ onb (length s) U.
Proof.
  intros argsort s c AK N. unfold coord_U, coord_fit. cbn [c_U c_score]. rewrite N. destruct (AK (vscale (-1) s)) as [P Q]. rewrite vscale_length in *. set (p := argsort (vscale (-1) s)) in *.
  eexists; eexists; split; [reflexivity|]. assert (LP : length p = length s) by (rewrite (Permutation_length P), seq_length; auto).
  split; [exists p; split; auto; split; auto|].
  - intros i j Hij. specialize (Q i j Hij). rewrite !vscale_get in Q. lra.
  - assert (BD : forall k, (k < length s)%nat -> (nth k p O < length s)%nat) by (intros k Hk; assert (I : In (nth k p O) (seq 0 (length s))) by (apply (Permutation_in _ P), nth_In; lia); apply in_seq in I; lia).
    assert (ND : NoDup p) by (eapply Permutation_NoDup; [apply Permutation_sym; eauto|apply seq_NoDup]).
    split; [rewrite map_length; auto|]. split; [apply Forall_forall; intros u I; apply in_map_iff in I; destruct I as [k [<- _]]; apply unitv_len|].
    intros a b Ha Hb. rewrite map_length in Ha, Hb. rewrite !(nth_map_any _ _ (unitv (length s)) p _ O) by lia. rewrite dot_unitv by (try apply unitv_len; apply BD; lia). rewrite unitv_get by (apply BD; lia).
    destruct (Nat.eqb_spec a b) as [->|NE]; [rewrite Nat.eqb_refl; auto|]. destruct (Nat.eqb_spec (nth b p O) (nth a p O)) as [E|]; auto. exfalso. apply NE. symmetry. apply (proj1 (NoDup_nth p O) ND b a); auto; lia.
Qed.
(** insertion argsort, used to show the contract can be met *)
Fixpoint ins (v : vec) (k : nat) (l : list nat) : list nat := match l with [] => [k] | j :: l' => if Rleb (vget v k) (vget v j) then k :: l else j :: ins v k l' end.
Definition isort (v : vec) : list nat := fold_right (ins v) [] (seq 0 (length v)).
Lemma ins_perm : forall v k l, Permutation (ins v k l) (k :: l).
Proof. induction l as [|j l IH]; simpl; auto. destruct (Rleb _ _); auto. eapply Permutation_trans; [apply perm_skip, IH|apply perm_swap]. Qed.
Definition asc (v : vec) (l : list nat) : Prop := forall i j, (i < j < length l)%nat -> vget v (nth i l O) <= vget v (nth j l O).
Lemma asc_cons : forall v k l, asc v l -> (forall j, In j l -> vget v k <= vget v j) -> asc v (k :: l).
Proof. intros v k l A H [|i] [|j] Hij; simpl in *; try lia; [apply H, nth_In; lia|apply A; lia]. Qed.
Lemma asc_tail : forall v k l, asc v (k :: l) -> asc v l /\ forall j, In j l -> vget v k <= vget v j.
Proof. intros v k l A. split; [intros i j Hij; apply (A (S i) (S j)); simpl; lia|]. intros j I. apply (In_nth _ _ O) in I. destruct I as [n [Hn <-]]. apply (A O (S n)). simpl. lia. Qed.
Lemma ins_asc : forall v k l, asc v l -> asc v (ins v k l).
Proof.
  induction l as [|j l IH]; intro A; simpl; [intros a b Hab; simpl in Hab; lia|]. destruct (Rleb (vget v k) (vget v j)) eqn:E; apply asc_tail in A as A2; destruct A2 as [A1 A2].
  - apply Rleb_true in E. apply asc_cons; auto. intros i [<-|I]; auto. specialize (A2 i I). lra.
  - apply Rleb_false in E. apply asc_cons; auto. intros i I. apply (Permutation_in _ (ins_perm v k l)) in I. destruct I as [<-|I]; [lra|auto].
Qed.
Theorem isort_ok : argsort_ok isort.
Proof.
  intro v. assert (P : Permutation (isort v) (seq 0 (length v))).
  { unfold isort. induction (seq 0 (length v)) as [|k l IH]; simpl; auto. eapply Permutation_trans; [apply ins_perm|apply perm_skip; auto]. }
  split; auto. intros i j Hij. assert (A : asc v (isort v)) by (clear P Hij; unfold isort; induction (seq 0 (length v)) as [|k l IH]; simpl; [intros a b Hab; simpl in Hab; lia|apply ins_asc; auto]).
  apply A. rewrite (Permutation_length P), seq_length. auto.
Qed.
(** finding: U is computed once and never reset by fit, so after a second fit the columns follow the old scores *)
Theorem coord_U_refit_refuted : exists s1 s2, length s1 = length s2 /\ forall argsort, argsort_ok argsort ->
  let c1 := snd (coord_U argsort (coord_fit s1 coord_init)) in exists U c2, coord_U argsort (coord_fit s2 c1) = (Some U, c2) /\ ~ sorted_coords s2 U.
Proof.
  exists [2; 1], [1; 2]. split; auto. intros argsort AK. cbv zeta. destruct (coord_U_sorted argsort [2; 1] coord_init AK eq_refl) as [U [c1 [E [[p [P [EU SC]]] OB]]]].
  assert (EC : c1 = mkCoord (Some [2; 1]) (Some U)) by (unfold coord_U, coord_fit, coord_init in E; cbn in E; inversion E; subst; auto).
  rewrite E. cbn [snd]. subst c1. unfold coord_U, coord_fit. cbn [c_U]. exists U. eexists. split; [reflexivity|]. intros [p' [P' [EU' SC']]].
  specialize (SC 0 1)%nat. specialize (SC' 0 1)%nat. cbn [length] in *. specialize (SC ltac:(lia)). specialize (SC' ltac:(lia)).
  assert (D : forall p : list nat, Permutation p (seq 0 2) -> p = [0; 1]%nat \/ p = [1; 0]%nat).
  { intros l PL. apply Permutation_sym in PL. apply Permutation_length_2_inv in PL. auto. }
  destruct (D p P) as [-> | ->]; [|cbn in SC; lra]. destruct (D p' P') as [-> | ->]; [cbn in SC'; lra|]. rewrite EU in EU'. cbn in EU'. inversion EU'. lra.
Qed.
(** finding: a DiagonalLipschitzMatrix built with a given L has no score, asking for U raises *)
Theorem coord_U_given_refuted : forall argsort, coord_U argsort coord_init = (None, coord_init).
Proof. reflexivity. Qed.

(** ** C77 *)
Lemma d_sqrt_quad : forall a b c, 0 < a -> derivable_pt_lim (fun t => sqrt (a + b * t + c * t * t)) 0 (b / (2 * sqrt a)).
Proof.
  intros a b c Pa. apply d_ext with (f := fun t => sqrt (a + b * t + c * t * t)) (l := / (2 * sqrt (a + b * 0 + c * 0 * 0)) * (0 + b * 1 + (c * 1 * 0 + c * 0 * 1))).
  - auto.
  - replace (a + b * 0 + c * 0 * 0) with a by ring. field. apply Rgt_not_eq, sqrt_lt_R0. auto.
  - apply (d_comp sqrt (fun t => a + b * t + c * t * t)).
    + apply d_plus; [apply d_plus; [apply d_const|apply d_scal, d_id]|]. apply (d_mult (fun t => c * t) (fun t => t)); [apply d_scal, d_id|apply d_id].
    + apply derivable_pt_lim_sqrt. lra.
Qed.
Lemma d_norm : forall w z, length w = length z -> 0 < norm2 w -> derivable_pt_lim (fun t => norm2 (vadd w (vscale t z))) 0 (dot w z / norm2 w).
Proof.
  intros w z L N. assert (P : 0 < norm2sq w) by (rewrite <- norm2_sq; nra).
  apply d_ext with (f := fun t => sqrt (norm2sq w + (2 * dot w z) * t + norm2sq z * t * t)) (l := (2 * dot w z) / (2 * sqrt (norm2sq w))).
  - intro t. unfold norm2. f_equal. unfold norm2sq. rewrite dot_vadd_l, !dot_vadd_r by (rewrite ?vscale_length; auto). rewrite !dot_vscale_l, !dot_vscale_r, (dot_comm z w). ring.
  - fold (norm2 w). field. lra.
  - apply d_sqrt_quad. auto.
Qed.
Lemma dot_mtv : forall m L v x, Forall (dimP m) L -> length v = length L -> dot (mtv m L v) x = dot v (mv L x).
Proof.
  intros m L v x F Lv. unfold mtv. rewrite (dot_lincomb_l m) by auto. rewrite (dot_rs (length L)) by (auto; apply mv_length). apply rsum_ext. intros k Hk. rewrite mv_get by auto. auto.
Qed.
(** the distance along a line and its derivative *)
Lemma line_dist : forall m L x v z, Forall (dimP m) L -> length x = m -> length v = m -> length z = m -> forall t,
  vsub (mv L (vadd x (vscale t v))) (mv L z) = vadd (vsub (mv L x) (mv L z)) (vscale t (mv L v)).
Proof.
  intros m L x v z F Hx Hv Hz t. rewrite mv_vadd by (rewrite vscale_length; lia). rewrite mv_vscale. vring.
Qed.
(** each row of the gradient is the directional derivative of the corresponding bound, wherever the distance is positive *)
Theorem bound_grad_correct : forall m L D x k v, Forall (dimP m) L -> Forall (fun d => length (fst d) = m) D -> length x = m -> length v = m -> (k < length D)%nat ->
  0 < Ldist L x (fst (nth k D ([], 0))) ->
  derivable_pt_lim (fun t => vget (lowerb L D (vadd x (vscale t v))) k) 0 (dot (nth k (bound_grad m L D x) []) v) /\
  derivable_pt_lim (fun t => vget (upperb L D (vadd x (vscale t v))) k) 0 (dot (nth k (bound_grad m L D x) []) v).
Proof.
  intros m L D x k v FL FD Hx Hv Hk P. set (d := nth k D ([], 0)) in *. assert (Ld : length (fst d) = m) by (rewrite Forall_forall in FD; apply FD, nth_In; auto). unfold Ldist in P. set (w := vsub (mv L x) (mv L (fst d))) in *.
  assert (Lw : length w = length L) by (unfold w; rewrite vsub_length; rewrite !mv_length; auto).
  assert (G : dot (nth k (bound_grad m L D x) []) v = - (dot w (mv L v) / norm2 w)).
  { unfold bound_grad. rewrite (nth_map_any _ _ _ D k ([], 0)) by auto. cbv zeta. fold d w. replace (Rltb 0 (norm2 w)) with true by (symmetry; apply Rltb_true; auto). rewrite dot_mtv by (auto; rewrite vscale_length; auto). rewrite dot_vscale_l. field. lra. }
  pose proof (d_norm w (mv L v) ltac:(rewrite mv_length; auto) P) as DN. rewrite G. split.
  - apply d_ext with (f := fun t => snd d - norm2 (vadd w (vscale t (mv L v)))) (l := 0 - dot w (mv L v) / norm2 w); [|ring|apply d_minus; [apply d_const|auto]].
    intro t. unfold lowerb, vget. rewrite (nth_map_any _ _ _ D k ([], 0)) by auto. fold d. rewrite (line_dist m) by auto. auto.
  - apply d_ext with (f := fun t => - (snd d + norm2 (vadd w (vscale t (mv L v))))) (l := - (0 + dot w (mv L v) / norm2 w)); [|ring|apply d_opp, d_plus; [apply d_const|auto]].
    intro t. unfold upperb, vget. rewrite (nth_map_any _ _ _ D k ([], 0)) by auto. fold d. rewrite (line_dist m) by auto. auto.
Qed.
(** at a data point (zero distance) the gradient row is zero, a subgradient of neither bound being required there *)
Theorem bound_grad_zero : forall m L D x k v, Forall (dimP m) L -> (k < length D)%nat -> Ldist L x (fst (nth k D ([], 0))) = 0 -> dot (nth k (bound_grad m L D x) []) v = 0.
Proof.
  intros m L D x k v FL Hk Z. unfold Ldist in Z. unfold bound_grad. rewrite (nth_map_any _ _ _ D k ([], 0)) by auto. cbv zeta. rewrite Z. replace (Rltb 0 0) with false by (symmetry; apply Rltb_false; lra).
  rewrite dot_mtv by (auto; apply repeat_length). apply dot_zero_l.
Qed.
(** uncertainty_domain: both ends are attained at points of the domain, so the reported interval lies INSIDE the true range *)
Lemma vmax_in : forall l, l <> [] -> In (vmax l) l. Proof. intros l N. destruct (vmax_spec l N) as [_ I]. auto. Qed.
Lemma vmin_in : forall l, l <> [] -> In (vmin l) l. Proof. intros l N. destruct (vmin_spec l N) as [_ I]. auto. Qed.
Theorem unc_domain_attained : forall (P : vec -> Prop) mmx L D X0, (forall f x0, In x0 X0 -> P (mmx f x0)) -> X0 <> [] ->
  exists lb ub, unc_domain mmx L D X0 = Some (lb, ub) /\
  (exists x, P x /\ lb = vmax (map (fun d => snd d - Ldist L x (fst d)) D)) /\
  (exists x, P x /\ ub = vmin (map (fun d => snd d + Ldist L x (fst d)) D)).
Proof.
  intros P mmx L D X0 HP NE. unfold unc_domain. destruct X0 as [|a X0']; [congruence|]. set (X0 := a :: X0') in *. eexists; eexists; split; [reflexivity|]. split.
  - assert (I : In (vmin (map (fun x0 => vmax (lowerb L D (mmx (lowerb L D) x0))) X0)) (map (fun x0 => vmax (lowerb L D (mmx (lowerb L D) x0))) X0)) by (apply vmin_in; discriminate).
    apply in_map_iff in I. destruct I as [x0 [E I]]. exists (mmx (lowerb L D) x0). split; [apply HP; auto|]. rewrite <- E. reflexivity.
  - assert (I : In (vmax (map (fun x0 => vmin (vscale (-1) (upperb L D (mmx (upperb L D) x0)))) X0)) (map (fun x0 => vmin (vscale (-1) (upperb L D (mmx (upperb L D) x0)))) X0)) by (apply vmax_in; discriminate).
    apply in_map_iff in I. destruct I as [x0 [E I]]. exists (mmx (upperb L D) x0). split; [apply HP; auto|]. rewrite <- E. f_equal. unfold upperb, vscale. rewrite map_map. apply map_ext. intro d. unfold Ldist. ring.
Qed.
(** the starts already bound it: if minimax never ends worse than it starts, the interval contains the one over the starting points *)
Theorem unc_domain_starts : forall mmx L D X0 lb ub, (forall x0, In x0 X0 -> vmax (lowerb L D (mmx (lowerb L D) x0)) <= vmax (lowerb L D x0)) ->
  (forall x0, In x0 X0 -> vmax (upperb L D (mmx (upperb L D) x0)) <= vmax (upperb L D x0)) -> D <> [] ->
  unc_domain mmx L D X0 = Some (lb, ub) -> forall x0, In x0 X0 -> lb <= vmax (map (fun d => snd d - Ldist L x0 (fst d)) D) /\ vmin (map (fun d => snd d + Ldist L x0 (fst d)) D) <= ub.
Proof.
  intros mmx L D X0 lb ub M1 M2 ND E x0 I. unfold unc_domain in E. destruct X0 as [|a X0']; [discriminate|]. set (X0 := a :: X0') in *. inversion E; subst lb ub. clear E.
  assert (NM : forall x, vmin (vscale (-1) (upperb L D x)) = - vmax (upperb L D x)).
  { intro x. assert (N1 : vscale (-1) (upperb L D x) <> []) by (destruct D; [congruence|discriminate]). assert (N2 : upperb L D x <> []) by (destruct D; [congruence|discriminate]).
    destruct (vmin_spec _ N1) as [A1 A2]. destruct (vmax_spec _ N2) as [B1 B2]. unfold vscale in A2 at 2. apply in_map_iff in A2. destruct A2 as [b [E I2]]. specialize (B1 b I2). specialize (A1 (-1 * vmax (upperb L D x)) (in_map _ _ _ B2)). lra. }
  split.
  - assert (NE : map (fun x0 => vmax (lowerb L D (mmx (lowerb L D) x0))) X0 <> []) by discriminate. destruct (vmin_spec _ NE) as [A _]. eapply Rle_trans; [apply A; apply (in_map (fun x0 => vmax (lowerb L D (mmx (lowerb L D) x0)))); exact I|]. apply M1. auto.
  - assert (NE : map (fun x0 => vmin (vscale (-1) (upperb L D (mmx (upperb L D) x0)))) X0 <> []) by discriminate. destruct (vmax_spec _ NE) as [A _]. eapply Rle_trans; [|apply A; apply (in_map (fun x0 => vmin (vscale (-1) (upperb L D (mmx (upperb L D) x0))))); exact I].
    cbv beta. rewrite NM. specialize (M2 x0 I). replace (map (fun d => snd d + Ldist L x0 (fst d)) D) with (vscale (-1) (upperb L D x0)) by (unfold upperb, vscale; rewrite map_map; apply map_ext; intro d; unfold Ldist; ring). rewrite NM. lra.
Qed.
(** finding: uncertainty_domain ignores epsilon: on the single point {x} it is narrower than uncertainty at x *)
Theorem unc_domain_epsilon_refuted : exists L D e x, 0 < e /\
  unc_domain (fun _ x0 => x0) L D [x] = Some (-1, 1) /\ unc1 L (Some e) D x = (Fin (-2), Fin 2).
Proof.
  exists [[1]], [([1], 0)], 1, [0]. split; [lra|]. split.
  - unfold unc_domain, lowerb, upperb. cbn [map vmax vmin fold_left fst snd mv vscale vsub vmap2]. rewrite !dot1, !norm2_1. replace (1 * 0 - 1 * 1) with (-1) by ring. rewrite Rabs_left by lra. do 2 f_equal; ring.
  - unfold unc1, unc_lb0, unc_ub0, Ldist. cbn [fold_left fst snd mv map vsub vmap2]. rewrite !dot1, !norm2_1. replace (1 * 1 - 1 * 0) with 1 by ring. rewrite Rabs_right by lra. cbn. f_equal; f_equal; ring.
Qed.
Example ex_bound_grad : Forall (dimP 1) [[2]] /\ Forall (fun d : vec * R => length (fst d) = 1%nat) [([0], 5)] /\ 0 < Ldist [[2]] [3] (fst (nth 0 [([0], 5)] ([], 0))) /\
  bound_grad 1 [[2]] [([0], 5)] [3] = [[-2]].
Proof.
  split; [repeat constructor|]. split; [repeat constructor|]. unfold Ldist, bound_grad. cbn [nth fst mv map vsub vmap2]. rewrite !dot1, !norm2_1. replace (2 * 3 - 2 * 0) with 6 by ring. rewrite Rabs_right by lra. split; [lra|].
  replace (Rltb 0 6) with true by (symmetry; apply Rltb_true; lra). unfold mtv. cbn. repeat f_equal. field.
Qed.
