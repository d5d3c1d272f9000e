(** constrained least squares, closest point and corner of constraint-defined domains (C14, C66, C67). *)
Require Import Reals Lra Lia List Bool Arith.
From Verif Require Import RVec Num DomModel DomSpec DomProofs NormProofs DomOpsProofs DomExamples DomMoreModel.
Import ListNotations.
Local Open Scope R_scope.

Ltac vlen := first [ solve [congruence | auto] | rewrite vscale_length; vlen | rewrite mv_length; vlen | rewrite vsub_length; vlen | rewrite vadd_length; vlen ].

(** hypotheses under which the normalized constraint set is faithful (C04, C13) *)
Definition norm_ok (nlb nub : list num) (d : dom) : Prop :=
  dom_wf d /\ length nlb = dim d /\ length nub = dim d /\ uniform (lb d) /\ uniform (ub d) /\
  oriented nlb nub /\ Forall (quad_centred nlb nub) (quads d).

Lemma norm_feasible_member0 : forall nlb nub d z, dom_wf d -> length nlb = dim d -> length nub = dim d ->
  (norm_feasible nlb nub d z <-> member (normalized_domain nlb nub d) z).
Proof.
  intros nlb nub d z W H1 H2. unfold norm_feasible, member.
  assert (D : dim (normalized_domain nlb nub d) = dim d) by (unfold normalized_domain; destruct (dcls d); auto).
  rewrite D.
  assert (QL : length z = dim d -> forall q, In q (quads (normalized_domain nlb nub d)) -> length (qy q) = length z).
  { intros E q Hq. assert (In q (map (quad_norm nlb nub) (quads d))).
    { unfold normalized_domain in Hq. destruct (dcls d); simpl in Hq; auto; contradiction. }
    apply in_map_iff in H. destruct H as [q0 [E0 I0]]. subst q. unfold quad_norm; simpl.
    destruct W as [_ [_ [_ [_ [_ [_ [W _]]]]]]]. rewrite Forall_forall in W. destruct (W _ I0) as [_ [Y _]].
    rewrite vsub_length; [congruence|]. rewrite center_length; congruence. }
  split.
  - intros [L [B1 [B2 [I [E Q]]]]]. split; auto. split; [|split; [|split]].
    + intro i. split; intros v Hv; [apply B1 in Hv|apply B2 in Hv]; lra.
    + intros k a c Ha Hc. specialize (I k a c Ha Hc). lra.
    + exact E.
    + intros q Hq. rewrite mv_vsub by (symmetry; apply QL; auto). specialize (Q q Hq). lra.
  - intros [L [B [I [E Q]]]]. split; auto. split; [|split; [|split; [|split]]].
    + intros i v Hv. destruct (B i) as [B1 _]. specialize (B1 v Hv). lra.
    + intros i v Hv. destruct (B i) as [_ B1]. specialize (B1 v Hv). lra.
    + intros k a c Ha Hc. specialize (I k a c Ha Hc). lra.
    + exact E.
    + intros q Hq. specialize (Q q Hq). rewrite mv_vsub in Q by (symmetry; apply QL; auto). lra.
Qed.

(** the program is over exactly the normalized images of the members *)
Lemma norm_feasible_member : forall nlb nub d z, norm_ok nlb nub d ->
  (norm_feasible nlb nub d z <-> length z = dim d /\ member d (unnormalize nlb nub z)).
Proof.
  intros nlb nub d z [W [H1 [H2 [U1 [U2 [O Q]]]]]]. rewrite norm_feasible_member0 by auto.
  assert (D : dim (normalized_domain nlb nub d) = dim d) by (unfold normalized_domain; destruct (dcls d); auto).
  split.
  - intro M. assert (L : length z = dim d) by (destruct M as [L _]; congruence). split; auto.
    apply (normalized_domain_member nlb nub d); auto; [rewrite unnormalize_length; congruence|].
    rewrite normalize_unnormalize by congruence. auto.
  - intros [L M]. apply (normalized_domain_member nlb nub d) in M; auto; [|rewrite unnormalize_length; congruence].
    rewrite normalize_unnormalize in M by congruence. auto.
Qed.

Lemma A_norm_mv : forall nlb nub A x, length nlb = length nub -> Forall (fun r => length r = length nlb) A -> length x = length nlb ->
  mv (A_norm nlb nub A) (normalize nlb nub x) = vsub (mv A x) (mv A (center nlb nub)).
Proof.
  intros nlb nub A x H F Hx. rewrite A_norm_rows by auto. induction F as [|r A Hr F IH]; auto.
  unfold vsub in *. simpl. rewrite IH. f_equal. apply row_norm; auto.
Qed.

(** generic transfer: an argmin in normalized coordinates is an argmin over the members *)
Lemma argmin_transfer : forall nlb nub d (obj f : vec -> R) z, norm_ok nlb nub d ->
  (forall x, length x = dim d -> obj (normalize nlb nub x) = f x) ->
  argmin obj (norm_feasible nlb nub d) z ->
  member d (unnormalize nlb nub z) /\ forall w, member d w -> f (unnormalize nlb nub z) <= f w.
Proof.
  intros nlb nub d obj f z OK E [F M]. pose proof OK as [W [H1 [H2 _]]].
  apply norm_feasible_member in F; auto. destruct F as [L F]. split; auto. intros w Mw.
  assert (Lw : length w = dim d) by (destruct Mw; auto).
  rewrite <- !E; auto; [|rewrite unnormalize_length; congruence]. rewrite normalize_unnormalize by congruence.
  apply M. apply norm_feasible_member; auto. split; [rewrite normalize_length; congruence|].
  rewrite unnormalize_normalize by congruence. auto.
Qed.

(** what constrained_least_squares actually minimises: ||A x - (b + 2 A c)|| with c the centre *)
Theorem cls_actual : forall nlb nub d A b x, norm_ok nlb nub d -> Forall (fun r => length r = dim d) A -> length b = length A ->
  cls_returns nlb nub d A b x ->
  let b' := vadd b (vscale 2 (mv A (center nlb nub))) in
  member d x /\ forall w, member d w -> norm2 (vsub (mv A x) b') <= norm2 (vsub (mv A w) b').
Proof.
  intros nlb nub d A b x OK F Lb [z [M E]] b'. subst x. pose proof OK as [W [H1 [H2 _]]].
  apply (argmin_transfer nlb nub d _ (fun x => norm2 (vsub (mv A x) b')) z OK) in M; auto.
  intros x Lx. unfold cls_obj. rewrite A_norm_mv by (try rewrite H1; congruence || auto). f_equal.
  assert (LC : length (mv A (center nlb nub)) = length A) by apply mv_length.
  apply vec_ext.
  - unfold b'. vlen.
  - intros i _. unfold b'. repeat first [rewrite vsub_get by vlen|rewrite vadd_get by vlen|rewrite vscale_get]. ring.
Qed.

Theorem cls_correct_if_centred : forall nlb nub d A b x, norm_ok nlb nub d -> Forall (fun r => length r = dim d) A -> length b = length A ->
  Forall (fun v => v = 0) (mv A (center nlb nub)) -> cls_returns nlb nub d A b x ->
  member d x /\ forall w, member d w -> norm2 (vsub (mv A x) b) <= norm2 (vsub (mv A w) b).
Proof.
  intros nlb nub d A b x OK F Lb Z H. destruct (cls_actual nlb nub d A b x OK F Lb H) as [M G].
  assert (E : vadd b (vscale 2 (mv A (center nlb nub))) = b).
  { assert (LC : length (mv A (center nlb nub)) = length b) by (rewrite mv_length; auto).
    apply vec_ext; [rewrite vadd_length; rewrite ?vscale_length; auto|]. intros i _.
    rewrite vadd_get, vscale_get by (rewrite ?vscale_length; auto).
    replace (vget (mv A (center nlb nub)) i) with 0; [ring|].
    destruct (Nat.lt_ge_cases i (length b)) as [Hi|Hi].
    - rewrite Forall_forall in Z. symmetry. apply Z. unfold vget. apply nth_In. rewrite LC; auto.
    - unfold vget. rewrite nth_overflow; auto. rewrite LC; auto. }
  rewrite E in G. auto.
Qed.

Theorem closest_correct : forall nlb nub d tol L x0 x, norm_ok nlb nub d -> dcls d <> Point -> 0 <= tol ->
  Forall (fun r => length r = dim d) L -> length x0 = dim d ->
  closest_returns nlb nub d tol L x0 x ->
  (relaxed d tol x0 /\ x = x0) \/
  (member d x /\ forall w, member d w -> norm2 (mv L (vsub x x0)) <= norm2 (mv L (vsub w x0))).
Proof.
  intros nlb nub d tol L x0 x OK NP Ht F L0 H. pose proof OK as [W [H1 [H2 _]]]. unfold closest_returns in H.
  destruct (inside1 d x0 tol) eqn:I.
  - left. apply inside1_spec in I; auto.
  - right. destruct H as [z [M E]]. subst x.
    apply (argmin_transfer nlb nub d _ (fun x => norm2 (mv L (vsub x x0))) z OK) in M; auto.
    intros x Lx. unfold cp_obj. rewrite !A_norm_mv by (try rewrite H1; congruence || auto). f_equal.
    rewrite mv_vsub by congruence. apply vec_ext.
    + vlen.
    + intros i _. repeat first [rewrite vsub_get by vlen|rewrite vadd_get by vlen|rewrite vscale_get]. ring.
Qed.

Theorem corner_correct : forall nlb nub d p x, norm_ok nlb nub d -> length p = dim d ->
  corner_returns nlb nub d p x -> member d x /\ forall w, member d w -> dot p w <= dot p x.
Proof.
  intros nlb nub d p x OK Lp [z [M E]]. subst x. pose proof OK as [W [H1 [H2 _]]].
  assert (LU : length (uslopes nlb nub) = dim d) by (rewrite uslopes_length; congruence).
  apply (argmin_transfer nlb nub d _ (fun x => dot p (center nlb nub) - dot p x) z OK) in M.
  - destruct M as [M1 M2]. split; auto. intros w Mw. specialize (M2 w Mw). lra.
  - intros x Lx. unfold corner_obj. rewrite mv_diag by congruence.
    replace (vmul (uslopes nlb nub) p) with (vmul p (uslopes nlb nub)).
    + pose proof (row_norm nlb nub p x ltac:(congruence) ltac:(congruence) ltac:(congruence)). lra.
    + unfold vmul. clear. revert p. induction (uslopes nlb nub) as [|a u IH]; destruct p; simpl; auto. f_equal; [ring|auto].
Qed.

(* ---------------- refutation of the claimed least squares problem ---------------- *)
Definition ex_cls : dom := mkDom Box 1 [Fin 0] [Fin 2] [] [] [] [] [].
Lemma ex_cls_ok : norm_ok [Fin 0] [Fin 2] ex_cls.
Proof.
  unfold norm_ok, ex_cls; simpl. split; [wf|]. split; auto. split; auto. split; [left; exists [0]; auto|].
  split; [left; exists [2]; auto|]. split; [|constructor].
  intros i v w. destruct i as [|[|i]]; simpl; intros E1 E2; try discriminate; inversion E1; inversion E2; lra.
Qed.
Lemma ex_cls_member : forall v, member ex_cls [v] <-> 0 <= v <= 2.
Proof.
  intro v. unfold ex_cls. split.
  - intros [_ [B _]]. destruct (B O) as [B1 B2]. specialize (B1 0 eq_refl). specialize (B2 2 eq_refl). unfold vget in *; simpl in *. lra.
  - intros H. split; [reflexivity|]. split; [|split; [|split]].
    + intro i. destruct i as [|[|i]]; simpl; split; intros u E; try discriminate; inversion E; subst; unfold vget; simpl; lra.
    + intros k a c H1. destruct k; discriminate.
    + intros k a c H1. destruct k; discriminate.
    + intros q [].
Qed.
Lemma ex_cls_returns : cls_returns [Fin 0] [Fin 2] ex_cls [[1]] [0] [2].
Proof.
  exists [1]. split.
  - split.
    + apply norm_feasible_member; [apply ex_cls_ok|]. split; [reflexivity|].
      replace (unnormalize [Fin 0] [Fin 2] [1]) with [2]; [apply ex_cls_member; lra|].
      unfold unnormalize, uslopes, center; simpl. rb. unfold diag; simpl; vc. f_equal. field.
    + intros w F. apply norm_feasible_member in F; [|apply ex_cls_ok]. destruct F as [Lw Mw].
      destruct w as [|t [|? ?]]; try discriminate.
      assert (UN : unnormalize [Fin 0] [Fin 2] [t] = [t + 1]).
      { unfold unnormalize, uslopes, center; simpl. rb. unfold diag; simpl; vc. f_equal. field. }
      rewrite UN in Mw. apply ex_cls_member in Mw.
      unfold cls_obj, A_norm, matmul, uslopes, center, mat_col, diag; simpl. rb.
      unfold norm2. apply sqrt_le_1_alt. unfold norm2sq. vc. nra.
  - unfold unnormalize, uslopes, center; simpl. rb. unfold diag; simpl; vc. f_equal. field.
Qed.

(** the minimiser of ||x - 0|| over [0,2] is reported to be 2 *)
Lemma cls_refuted : exists nlb nub d A b x w, norm_ok nlb nub d /\ Forall (fun r => length r = dim d) A /\ length b = length A /\
  cls_returns nlb nub d A b x /\ member d w /\ norm2 (vsub (mv A w) b) < norm2 (vsub (mv A x) b).
Proof.
  exists [Fin 0], [Fin 2], ex_cls, [[1]], [0], [2], [0].
  split; [apply ex_cls_ok|]. split; [repeat constructor|]. split; [reflexivity|]. split; [apply ex_cls_returns|].
  split; [apply ex_cls_member; lra|]. unfold norm2. apply sqrt_lt_1_alt. unfold norm2sq. vc. lra.
Qed.

(** concrete instances: the closest point of [0,2] to 5 is 2; the corner in direction -1 is 0 *)
Lemma ex_unnorm : forall t, unnormalize [Fin 0] [Fin 2] [t] = [t + 1].
Proof. intro t. unfold unnormalize, uslopes, center; simpl. rb. unfold diag; simpl; vc. f_equal. field. Qed.
Lemma ex_closest : closest_returns [Fin 0] [Fin 2] ex_cls (1/100) [[1]] [5] [2].
Proof.
  unfold closest_returns.
  replace (inside1 ex_cls [5] (1/100)) with false.
  2:{ symmetry. destruct (inside1 ex_cls [5] (1/100)) eqn:E; auto. apply inside1_spec in E; [|apply ex_cls_ok|discriminate].
      destruct E as [_ [B _]]. destruct (B O) as [_ B2]. specialize (B2 2 eq_refl). unfold vget in B2; simpl in B2. lra. }
  exists [1]. split; [split|].
  - apply norm_feasible_member; [apply ex_cls_ok|]. split; [reflexivity|]. rewrite ex_unnorm. apply ex_cls_member. lra.
  - intros w F. apply norm_feasible_member in F; [|apply ex_cls_ok]. destruct F as [Lw Mw].
    destruct w as [|t [|? ?]]; try discriminate. rewrite ex_unnorm in Mw. apply ex_cls_member in Mw.
    unfold cp_obj. rewrite A_norm_rows by (repeat constructor). unfold normalize, nslopes, uslopes, center; simpl. rb. unfold diag; simpl.
    unfold norm2. apply sqrt_le_1_alt. unfold norm2sq. vc. nra.
  - rewrite ex_unnorm. apply (f_equal (fun t => [t])). lra.
Qed.
Lemma ex_corner : corner_returns [Fin 0] [Fin 2] ex_cls [-1] [0].
Proof.
  exists [-1]. split; [split|].
  - apply norm_feasible_member; [apply ex_cls_ok|]. split; [reflexivity|]. rewrite ex_unnorm. apply ex_cls_member. lra.
  - intros w F. apply norm_feasible_member in F; [|apply ex_cls_ok]. destruct F as [Lw Mw].
    destruct w as [|t [|? ?]]; try discriminate. rewrite ex_unnorm in Mw. apply ex_cls_member in Mw.
    unfold corner_obj, uslopes; simpl. rb. unfold diag; simpl. vc. lra.
  - rewrite ex_unnorm. apply (f_equal (fun t => [t])). lra.
Qed.

(** an off-centre ellipsoid breaks corner: |x - 9/2| <= 1 inside [0,10]; the corner in direction -1
    is reported at 3/2, outside the domain *)
Definition ex_off : dom := mkDom LinQuad 1 [Fin 0] [Fin 10] [] [] [] [] [mkQuad [[1]] [9/2] 1].
Lemma ex_off_wf : dom_wf ex_off.
Proof. unfold ex_off; wf. Qed.
Lemma abs_norm : forall v, norm2 [v] = Rabs v.
Proof. intro v. unfold norm2, norm2sq. rewrite dot_cons, dot_nil_r, Rplus_0_r. apply sqrt_Rsqr_abs. Qed.
Lemma ex_off_unnorm : forall t, unnormalize [Fin 0] [Fin 10] [t] = [5 * t + 5].
Proof. intro t. unfold unnormalize, uslopes, center; simpl. rb. unfold diag; simpl; vc. f_equal. field. Qed.
Lemma ex_off_feasible : forall t, norm_feasible [Fin 0] [Fin 10] ex_off [t] <-> -7/10 <= t <= -3/10.
Proof.
  intro t. unfold norm_feasible, normalized_domain, ex_off; cbn [dcls lb ub dA db dAeq dbeq quads dim].
  assert (QE : quad_norm [Fin 0] [Fin 10] (mkQuad [[1]] [9/2] 1) = mkQuad [[5]] [-1/2] 1).
  { unfold quad_norm; cbn [qL qy qrho]. rewrite A_norm_rows by (repeat constructor). unfold uslopes, center; simpl. rb. vc.
    f_equal; apply (f_equal (fun t => [t])); [apply (f_equal (fun t => [t]))|]; field. }
  assert (LE : lb_norm [Fin 0] [Fin 10] [Fin 0] = [Fin (-1)] /\ ub_norm [Fin 0] [Fin 10] [Fin 10] = [Fin 1]).
  { unfold lb_norm, ub_norm. rewrite (normalizeN_fin _ _ [0]), (normalizeN_fin _ _ [10]) by auto.
    unfold normalize, nslopes, center; simpl. rb. unfold diag; simpl; vc. split; apply (f_equal (fun t => [Fin t])); field. }
  destruct LE as [LE UE]. simpl map. rewrite QE, LE, UE. split.
  - intros [_ [_ [_ [_ [_ Q]]]]]. specialize (Q _ (or_introl eq_refl)). cbn [qL qy qrho] in Q.
    replace (vsub (mv [[5]] [t]) (mv [[5]] [-1/2])) with [5 * t + 5/2] in Q by (vc; f_equal; field).
    rewrite abs_norm in Q. unfold Rabs in Q. destruct (Rcase_abs _) in Q; lra.
  - intro H. split; [reflexivity|]. split; [|split; [|split; [|split]]].
    + intros i v. destruct i as [|[|i]]; simpl; intro E; inversion E; subst; unfold vget; simpl; lra.
    + intros i v. destruct i as [|[|i]]; simpl; intro E; inversion E; subst; unfold vget; simpl; lra.
    + intros k a c E. destruct k; discriminate.
    + intros k a c E. destruct k; discriminate.
    + intros q [E|[]]. subst q. cbn [qL qy qrho].
      replace (vsub (mv [[5]] [t]) (mv [[5]] [-1/2])) with [5 * t + 5/2] by (vc; f_equal; field).
      rewrite abs_norm. apply Rabs_le. lra.
Qed.

Lemma corner_offcentre_refuted : exists nlb nub d p x w, dom_wf d /\ length nlb = dim d /\ length nub = dim d /\
  uniform (lb d) /\ uniform (ub d) /\ oriented nlb nub /\ length p = dim d /\
  corner_returns nlb nub d p x /\ ~ relaxed d 1 x /\ member d w.
Proof.
  exists [Fin 0], [Fin 10], ex_off, [-1], [3/2], [9/2].
  split; [apply ex_off_wf|]. split; auto. split; auto. split; [left; exists [0]; auto|]. split; [left; exists [10]; auto|].
  split; [intros i v w; destruct i as [|[|i]]; simpl; intros E1 E2; try discriminate; inversion E1; inversion E2; lra|].
  split; auto. split; [|split].
  - exists [-7/10]. split; [split|].
    + apply ex_off_feasible. lra.
    + intros w F. assert (Lw : length w = 1%nat) by (destruct F; auto). destruct w as [|t [|? ?]]; try discriminate.
      apply ex_off_feasible in F. unfold corner_obj, uslopes; simpl. rb. unfold diag; simpl. vc. lra.
    + rewrite ex_off_unnorm. apply (f_equal (fun t => [t])). lra.
  - intros [_ [_ [_ [_ Q]]]]. specialize (Q _ (or_introl eq_refl)). cbn [qL qy qrho] in Q.
    replace (mv [[1]] (vsub [3/2] [9/2])) with [-3] in Q by (vc; f_equal; field).
    rewrite abs_norm in Q. unfold Rabs in Q. destruct (Rcase_abs _) in Q; lra.
  - unfold ex_off. split; [reflexivity|]. split; [|split; [|split]].
    + intro i. destruct i as [|[|i]]; simpl; split; intros u E; try discriminate; inversion E; subst; unfold vget; simpl; lra.
    + intros k a c H1. destruct k; discriminate.
    + intros k a c H1. destruct k; discriminate.
    + intros q [E|[]]. subst q. cbn [qL qy qrho]. replace (mv [[1]] (vsub [9/2] [9/2])) with [0] by (vc; f_equal; field).
      rewrite abs_norm, Rabs_R0. lra.
Qed.
