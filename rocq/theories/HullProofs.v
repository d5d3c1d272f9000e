(** Convex hull domains (C15) and cached box predicates (C16). *)
Require Import Reals Lra Lia List Bool Arith.
From Verif Require Import RVec Num DomModel DomSpec DomProofs NormProofs DomOpsProofs DomExamples DomMoreModel SweepProofs CvxProofs.
Import ListNotations.
Local Open Scope R_scope.

Definition hull_wf (h : hull) : Prop :=
  dom_wf (hcon h) /\ dcls (hcon h) <> Point /\ Forall (fun x => length x = dim (hcon h)) (hX h).

(** x is a convex combination of the points X *)
Definition convex_comb (X : mat) (m : nat) (x : vec) : Prop :=
  exists al, length al = length X /\ Forall (fun a => 0 <= a) al /\ vsum al = 1 /\ x = lincomb m X al.

Lemma hull_nlb_length : forall h, length (hull_nlb h) = dim (hcon h).
Proof. intro h. unfold hull_nlb. rewrite map_length, seq_length. auto. Qed.
Lemma hull_nub_length : forall h, length (hull_nub h) = dim (hcon h).
Proof. intro h. unfold hull_nub. rewrite map_length, seq_length. auto. Qed.

Lemma vzero_get : forall n i, vget (vzero n) i = 0.
Proof. intros n i. unfold vget, vzero. revert i. induction n; destruct i; simpl; auto. Qed.

Lemma lincomb_get : forall m X al i, Forall (fun x => length x = m) X ->
  vget (lincomb m X al) i = dot al (map (fun x => vget x i) X).
Proof.
  intros m X al i F. revert al. induction F as [|x X Hx F IH]; intro al; simpl; [rewrite vzero_get, dot_nil_r; auto|].
  destruct al as [|a al]; [rewrite vzero_get, dot_nil_l; auto|].
  rewrite vadd_get by (rewrite vscale_length, lincomb_length; auto). rewrite vscale_get, IH, dot_cons. auto.
Qed.

Lemma dot_affine : forall al v s c, length al = length v -> dot al (map (fun x => s * (x - c)) v) = s * (dot al v - c * vsum al).
Proof.
  induction al as [|a al IH]; intros v s c H; destruct v as [|x v]; simpl in H; try lia; simpl.
  - rewrite dot_nil_l. unfold vsum; simpl. ring.
  - rewrite !dot_cons, IH by lia. unfold vsum; simpl. fold (vsum al). ring.
Qed.

Lemma norm_comb_get : forall a b m X al i, length a = m -> length b = m -> Forall (fun x => length x = m) X ->
  length al = length X -> (i < m)%nat ->
  vget (lincomb m (map (normalize a b) X) al) i =
  nslope (nth i a NaN) (nth i b NaN) * (vget (lincomb m X al) i - center_i (nth i a NaN) (nth i b NaN) * vsum al).
Proof.
  intros a b m X al i Ha Hb F L Hi.
  assert (F2 : Forall (fun x => length x = m) (map (normalize a b) X)).
  { apply Forall_forall. intros y Hy. apply in_map_iff in Hy. destruct Hy as [x [E _]]. subst y.
    rewrite normalize_length; congruence. }
  rewrite !lincomb_get by auto. rewrite map_map.
  rewrite (map_ext_in _ (fun x => (fun t => nslope (nth i a NaN) (nth i b NaN) * (t - center_i (nth i a NaN) (nth i b NaN))) (vget x i))).
  - rewrite <- (map_map (fun x => vget x i) (fun t => nslope (nth i a NaN) (nth i b NaN) * (t - center_i (nth i a NaN) (nth i b NaN)))).
    apply dot_affine. rewrite map_length; auto.
  - intros x Hx. rewrite Forall_forall in F. rewrite normalize_get; auto; try congruence; rewrite Ha; auto.
Qed.

Lemma norm2sq_zero_eq : forall x y, length x = length y -> norm2sq (vsub x y) = 0 -> x = y.
Proof.
  intros x y H E. apply norm2sq_zero in E. apply vec_ext; auto. intros i Hi.
  rewrite Forall_forall in E. assert (G : vget (vsub x y) i = 0).
  { apply E. unfold vget. apply nth_In. rewrite vsub_length; auto. }
  rewrite vsub_get in G by auto. lra.
Qed.

(** an exact residual of zero pins a convex combination *)
Lemma hull_res_zero : forall h x al, hull_wf h -> length x = dim (hcon h) -> length al = length (hX h) ->
  (hull_res h x al = 0 <-> vsum al = 1 /\ x = lincomb (dim (hcon h)) (hX h) al).
Proof.
  intros h x al [W [NP F]] Lx La. set (m := dim (hcon h)) in *. unfold hull_res. fold m.
  assert (La' : length (hull_nlb h) = m) by apply hull_nlb_length.
  assert (Lb' : length (hull_nub h) = m) by apply hull_nub_length.
  assert (F2 : Forall (fun x => length x = m) (map (normalize (hull_nlb h) (hull_nub h)) (hX h))).
  { apply Forall_forall. intros y Hy. apply in_map_iff in Hy. destruct Hy as [z [E _]]. subst y. rewrite normalize_length; congruence. }
  assert (LL : length (lincomb m (map (normalize (hull_nlb h) (hull_nub h)) (hX h)) al) = length (normalize (hull_nlb h) (hull_nub h) x)).
  { rewrite lincomb_length by auto. rewrite normalize_length; congruence. }
  split.
  - intro E. pose proof (norm2sq_nonneg (vsub (lincomb m (map (normalize (hull_nlb h) (hull_nub h)) (hX h)) al) (normalize (hull_nlb h) (hull_nub h) x))) as N.
    assert (S1 : vsum al = 1) by nra. split; auto.
    assert (Z : norm2sq (vsub (lincomb m (map (normalize (hull_nlb h) (hull_nub h)) (hX h)) al) (normalize (hull_nlb h) (hull_nub h) x)) = 0) by nra.
    apply norm2sq_zero_eq in Z; auto. apply vec_ext; [rewrite lincomb_length; auto|]. intros i Hi.
    assert (Hm : (i < m)%nat) by lia.
    assert (G : vget (lincomb m (map (normalize (hull_nlb h) (hull_nub h)) (hX h)) al) i = vget (normalize (hull_nlb h) (hull_nub h) x) i) by (rewrite Z; auto).
    rewrite norm_comb_get in G by auto. rewrite normalize_get in G by congruence || lia. rewrite S1 in G.
    pose proof (slopes_inv (nth i (hull_nlb h) NaN) (nth i (hull_nub h) NaN)) as SI.
    set (s := nslope _ _) in *. assert (s <> 0) by (intro Z0; rewrite Z0 in SI; lra).
    apply Rmult_eq_reg_l in G; auto. lra.
  - intros [S1 E]. rewrite S1.
    replace (lincomb m (map (normalize (hull_nlb h) (hull_nub h)) (hX h)) al) with (normalize (hull_nlb h) (hull_nub h) x).
    + replace (norm2sq _) with 0; [ring|]. symmetry. set (z := normalize (hull_nlb h) (hull_nub h) x).
      unfold norm2sq. clear. induction z as [|a z IH]; [reflexivity|]. unfold vsub in *. simpl. rewrite dot_cons, IH. ring.
    + symmetry. apply vec_ext; auto. intros i Hi. rewrite lincomb_length in Hi by auto.
      rewrite norm_comb_get by auto. rewrite normalize_get by congruence || lia. rewrite S1, <- E. ring.
Qed.

Lemma hull_res_nonneg : forall h x al, 0 <= hull_res h x al.
Proof.
  intros h x al. unfold hull_res. cbv zeta. apply Rplus_le_le_0_compat; [apply norm2sq_nonneg|apply Rle_0_sqr].
Qed.

Theorem hull_complete : forall h x al tol, hull_wf h -> nnls_contract h x al -> 0 < tol ->
  convex_comb (hX h) (dim (hcon h)) x -> relaxed (hcon h) tol x -> hull_isinside h al x tol = true.
Proof.
  intros h x al tol HW [L [Nn Min]] Ht [al0 [L0 [N0 [S0 E0]]]] R. pose proof HW as [W [NP F]].
  assert (Lx : length x = dim (hcon h)) by (destruct R; auto).
  assert (Z0 : hull_res h x al0 = 0) by (apply hull_res_zero; auto).
  assert (Z : hull_res h x al = 0).
  { apply Rle_antisym; [rewrite <- Z0; apply Min; auto|apply hull_res_nonneg]. }
  apply hull_res_zero in Z; auto. destruct Z as [_ E]. unfold hull_isinside. apply andb_true_iff. split.
  - rewrite <- E. apply Rltb_true. replace (norm2 (vsub x x)) with 0; auto.
    unfold norm2. replace (norm2sq (vsub x x)) with 0; [symmetry; apply sqrt_0|]. symmetry.
    unfold norm2sq. clear. induction x as [|a z IH]; [reflexivity|]. unfold vsub in *. simpl. rewrite dot_cons, IH. ring.
  - apply inside1_spec; auto.
Qed.

(** soundness when the coefficients found happen to sum to one *)
Theorem hull_sound_partial : forall h x al tol, hull_wf h -> nnls_contract h x al -> vsum al = 1 ->
  hull_isinside h al x tol = true ->
  relaxed (hcon h) tol x /\ exists y, convex_comb (hX h) (dim (hcon h)) y /\ norm2 (vsub x y) < tol.
Proof.
  intros h x al tol [W [NP F]] [L [Nn _]] S I. unfold hull_isinside in I. apply andb_true_iff in I. destruct I as [I1 I2].
  apply inside1_spec in I2; auto. split; auto. exists (lincomb (dim (hcon h)) (hX h) al). split; [exists al; auto|].
  apply Rltb_true; auto.
Qed.

(** 3 is reported inside the convex hull of 0 and 2 *)
Definition ex_hull : hull := mkHull [[0]; [2]] (mkDom LinQuad 1 [NInf] [PInf] [] [] [] [] []).
Lemma ex_hull_wf : hull_wf ex_hull.
Proof. unfold hull_wf, ex_hull; simpl. split; [wf|]. split; [discriminate|]. repeat constructor. Qed.
Lemma ex_hull_norm : forall v, normalize (hull_nlb ex_hull) (hull_nub ex_hull) [v] = [v - 1].
Proof.
  intro v. unfold hull_nlb, hull_nub, ex_hull; simpl. unfold col, vmin, vmax, vget; simpl.
  rewrite Rmin_left, Rmax_right by lra. unfold normalize, nslopes, center; simpl. rb. unfold diag; simpl; vc. f_equal. field.
Qed.
Lemma ex_hull_res : forall x a b, hull_res ex_hull [x] [a; b] = (b - a - (x - 1)) * (b - a - (x - 1)) + (a + b - 1) * (a + b - 1).
Proof.
  intros x a b. unfold hull_res. simpl hX. simpl map. rewrite !ex_hull_norm. simpl. vc. ring.
Qed.
Lemma ex_hull_nnls : nnls_contract ex_hull [3] [0; 3/2].
Proof.
  split; [reflexivity|]. split; [repeat constructor; lra|]. intros be L N.
  destruct be as [|a [|b [|? ?]]]; try discriminate. inversion N as [|? ? Ha N1]; inversion N1 as [|? ? Hb _]; subst.
  rewrite !ex_hull_res.
  assert (0 <= (2 * b - 3) * (2 * b - 3)) by apply Rle_0_sqr. assert (0 <= a * a) by nra. nra.
Qed.
Lemma hull_refuted : exists h x al tol, hull_wf h /\ nnls_contract h x al /\ 0 < tol /\ hull_isinside h al x tol = true /\
  forall y, convex_comb (hX h) (dim (hcon h)) y -> 1 <= norm2 (vsub x y).
Proof.
  exists ex_hull, [3], [0; 3/2], (1/100). split; [apply ex_hull_wf|]. split; [apply ex_hull_nnls|]. split; [lra|]. split.
  - unfold hull_isinside. apply andb_true_iff. split.
    + apply Rltb_true. simpl. replace (vsub [3] _) with [0] by (vc; f_equal; field). rewrite abs_norm, Rabs_R0. lra.
    + apply inside1_spec; [apply ex_hull_wf|discriminate|]. split; [reflexivity|]. split; [|split; [|split]].
      * intro i; split; intros v; destruct i as [|i]; simpl; try discriminate; destruct i; discriminate.
      * intros k a c. destruct k; discriminate.
      * intros k a c. destruct k; discriminate.
      * intros q [].
  - intros y [al [L [N [S E]]]]. destruct al as [|a [|b [|? ?]]]; try discriminate.
    inversion N as [|? ? Ha N1]; inversion N1 as [|? ? Hb _]; subst. unfold vsum in S; simpl in S.
    simpl. replace (vsub [3] _) with [3 - 2 * b] by (vc; f_equal; ring). rewrite abs_norm.
    rewrite Rabs_right; lra.
Qed.

Lemma ex_hull_case : hull_wf ex_hull /\ nnls_contract ex_hull [1] [1/2; 1/2] /\
  convex_comb (hX ex_hull) (dim (hcon ex_hull)) [1] /\ relaxed (hcon ex_hull) (1/100) [1].
Proof.
  split; [apply ex_hull_wf|]. split; [|split].
  - split; [reflexivity|]. split; [repeat constructor; lra|]. intros be L N.
    destruct be as [|a [|b [|? ?]]]; try discriminate. rewrite !ex_hull_res.
    apply Rle_trans with 0; [right; field|apply Rplus_le_le_0_compat; apply Rle_0_sqr].
  - exists [1/2; 1/2]. split; [reflexivity|]. split; [repeat constructor; lra|]. split; [vc; lra|]. simpl. vc. f_equal. lra.
  - split; [reflexivity|]. split; [|split; [|split]].
    + intro i; split; intros v; destruct i as [|i]; simpl; try discriminate; destruct i; discriminate.
    + intros k a c. destruct k; discriminate.
    + intros k a c. destruct k; discriminate.
    + intros q [].
Qed.

(** adding constraints to a hull: same points, conjunction of the constraints *)
Theorem hull_add_conj : forall h c x tol al, hull_wf h -> dom_wf c -> proper (hcon h) -> proper c ->
  dim c = dim (hcon h) -> dcls c <> Point ->
  hull_isinside (hull_add h c) al x tol = (hull_isinside h al x tol && inside1 c x tol)%bool.
Proof.
  intros h c x tol al [W [NP F]] Wc P Pc D Nc. unfold hull_isinside, hull_add; cbn [hX hcon dim].
  destruct (add_constraints_fields (hcon h) c W Wc D) as [DA [_ [_ [_ [_ [_ [_ [_ NR]]]]]]]].
  rewrite DA. rewrite <- andb_assoc. f_equal.
  rewrite <- add_constraints_inside by auto.
  set (r := add_constraints (hcon h) c).
  assert (Wr : dom_wf r) by (apply add_constraints_wf; auto).
  apply Bool.eq_true_iff_eq.
  rewrite <- DA. fold r. rewrite !inside1_spec; auto; [reflexivity| |discriminate].
  destruct Wr as [A1 [A2 [A3 [A4 [A5 [A6 [A7 _]]]]]]]. unfold dom_wf; simpl. repeat (split; auto); try discriminate.
  - intro H; congruence.
  - destruct H; discriminate.
  - destruct H; discriminate.
Qed.

(** intersecting a plain domain with a hull forgets the hull *)
Lemma and_hull_refuted : exists d h x tol, dom_wf d /\ dcls d <> Point /\ hull_wf h /\ 0 < tol /\ inside1 (and_hull d h) x tol = true /\
  forall y, convex_comb (hX h) (dim (hcon h)) y -> 1 <= norm2 (vsub x y).
Proof.
  exists (mkDom LinQuad 1 [Fin 0] [Fin 10] [] [] [] [] []), ex_hull, [3], (1/100).
  assert (W : dom_wf (mkDom LinQuad 1 [Fin 0] [Fin 10] [] [] [] [] [])) by wf.
  split; auto. split; [discriminate|]. split; [apply ex_hull_wf|]. split; [lra|]. split.
  - unfold and_hull. rewrite add_constraints_inside; auto; try discriminate.
    + apply andb_true_iff. split; (apply inside1_spec; [auto; apply ex_hull_wf|discriminate|]).
      * apply member_relaxed1; [memb|lra].
      * apply member_relaxed1; [|lra]. unfold ex_hull; simpl. split; [reflexivity|]. split; [|split; [|split]].
        -- intro i; split; intros v; destruct i as [|i]; simpl; try discriminate; destruct i; discriminate.
        -- intros k a c. destruct k; discriminate.
        -- intros k a c. destruct k; discriminate.
        -- intros q [].
    + apply ex_hull_wf.
    + unfold proper; simpl; repeat constructor.
    + unfold proper; simpl; repeat constructor.
  - intros y [al [L [N [S E]]]]. destruct al as [|a [|b [|? ?]]]; try discriminate.
    inversion N as [|? ? Ha N1]; inversion N1 as [|? ? Hb _]; subst. unfold vsum in S; simpl in S.
    simpl. replace (vsub [3] _) with [3 - 2 * b] by (vc; f_equal; ring). rewrite abs_norm.
    rewrite Rabs_right; lra.
Qed.

(** to_linineq drops the bounds *)
Lemma to_linineq_refuted : exists x c y tol, dom_wf c /\ 0 < tol /\ length x = dim c /\
  inside1 (hull1_to_linineq x c) y tol = true /\ ~ relaxed c 1 y.
Proof.
  exists [5], (mkDom LinQuad 1 [Fin 0] [Fin 1] [] [] [] [] []), [5], (1/100).
  split; [wf|]. split; [lra|]. split; [reflexivity|]. split.
  - unfold hull1_to_linineq. cbn [dim dA db dAeq dbeq quads].
    set (d1 := mkDom LinQuad 1 (repeat NInf 1) (repeat PInf 1) [] [] (diag (repeat 1 1)) [5] []).
    set (d2 := mkDom LinQuad 1 (repeat NInf 1) (repeat PInf 1) [] [] [] [] []).
    assert (W1 : dom_wf d1) by (unfold d1; wf). assert (W2 : dom_wf d2) by (unfold d2; wf).
    rewrite add_constraints_inside; auto; try (unfold d1, d2; discriminate).
    + apply andb_true_iff. split; (apply inside1_spec; [auto|discriminate|]; apply member_relaxed1; [|lra]); unfold d1, d2; simpl;
        (split; [reflexivity|]; split; [|split; [|split]]).
      * intro i; split; intros v; destruct i as [|i]; simpl; try discriminate; destruct i; discriminate.
      * intros k a c. destruct k; discriminate.
      * intros k a c. destruct k as [|[|k]]; simpl; intros E1 E2; try discriminate. inversion E1; inversion E2; subst. vc. lra.
      * intros q [].
      * intro i; split; intros v; destruct i as [|i]; simpl; try discriminate; destruct i; discriminate.
      * intros k a c. destruct k; discriminate.
      * intros k a c. destruct k; discriminate.
      * intros q [].
    + unfold proper; simpl; repeat constructor.
    + unfold proper; simpl; repeat constructor.
  - intros [_ [B _]]. destruct (B O) as [_ B2]. specialize (B2 1 eq_refl). unfold vget in B2; simpl in B2. lra.
Qed.
