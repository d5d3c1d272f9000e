(** Cached predicates of boxes (C16), extent and sampling of hulls. *)
Require Import Reals Lra Lia List Bool Arith.
From Verif Require Import RVec Num DomModel DomSpec DomProofs NormProofs DomOpsProofs DomExamples DomMoreModel SweepProofs CvxProofs HullProofs.
Import ListNotations.
Local Open Scope R_scope.

Definition box_bounds (l u : list num) : Prop := Forall lower_ok l /\ Forall upper_ok u /\ length l = length u.
(** points of the box *)
Definition in_box (l u : list num) (x : vec) : Prop := length x = length l /\ sat_bounds l u 0 x.

(** coordinate-wise reading *)
Definition coord_ok (l u : num) (v : R) : Prop := nleb l (Fin v) = true /\ nleb (Fin v) u = true.
Lemma in_box_forall2 : forall l u x, box_bounds l u ->
  (in_box l u x <-> Forall2 (fun lu v => coord_ok (fst lu) (snd lu) v) (combine l u) x).
Proof.
  intros l u x [L [U E]]. revert u x U E. induction L as [|a l Ha L IH]; intros u x U E; destruct u as [|b u]; simpl in E; try lia; simpl.
  - split; [intros [H _]; destruct x; [constructor|discriminate]|]. intro F; inversion F; subst. split; [auto|].
    intro i; split; intros v H; destruct i; discriminate.
  - inversion U as [|? ? Hb U']; subst. split.
    + intros [H S]. destruct x as [|v x]; [discriminate|]. constructor.
      * destruct (S O) as [S1 S2]. simpl in S1, S2. unfold coord_ok; simpl. unfold vget in *; simpl in *. split.
        -- destruct a; try contradiction; simpl; auto. apply Rleb_true. specialize (S1 r eq_refl). lra.
        -- destruct b; try contradiction; simpl; auto. apply Rleb_true. specialize (S2 r eq_refl). lra.
      * apply IH; auto. split; [simpl in H; lia|]. intro i. apply (S (Datatypes.S i)).
    + intro F. inversion F as [|? v ? x' Hv F']; subst. apply IH in F'; auto. destruct F' as [H S]. split; [simpl; lia|].
      intro i. destruct i as [|i]; [|apply (S i)]. destruct Hv as [H1 H2]. simpl in *. split; intros w Hw; inversion Hw; subst; unfold vget; simpl.
      * simpl in H1. apply Rleb_true in H1. lra.
      * simpl in H2. apply Rleb_true in H2. lra.
Qed.

(** a point of one coordinate interval *)
Definition pick (l u : num) : R :=
  match l, u with Fin a, _ => a | _, Fin b => b | _, _ => 0 end.
Lemma pick_ok : forall l u, lower_ok l -> upper_ok u -> nltb u l = false -> coord_ok l u (pick l u).
Proof.
  intros l u H1 H2 H. unfold coord_ok, pick. destruct l; try contradiction; destruct u; try contradiction; simpl in *; split; auto;
    try (apply Rleb_true); try (apply Rltb_false in H); lra.
Qed.

Lemma any_gt_false : forall l u, length l = length u ->
  (any_gt l u = false <-> Forall (fun lu => nltb (snd lu) (fst lu) = false) (combine l u)).
Proof.
  unfold any_gt. induction l as [|a l IH]; intros u E; destruct u as [|b u]; simpl in *; try lia; [split; auto|].
  rewrite orb_false_iff, IH by lia. split; [intros [H1 H2]; constructor; auto|]. intro F; inversion F; auto.
Qed.

Theorem is_empty_spec : forall l u, box_bounds l u -> (any_gt l u = true <-> ~ exists x, in_box l u x).
Proof.
  intros l u B. pose proof B as [L [U E]]. destruct (any_gt l u) eqn:G.
  - split; auto. intros _ [x I]. apply in_box_forall2 in I; auto.
    assert (A : any_gt l u = false); [|congruence]. apply any_gt_false; auto. clear G.
    induction I as [|lu v lus x [H1 H2] I IH]; constructor; auto. destruct lu as [a b]; simpl in *.
    destruct a; destruct b; simpl in *; auto; try discriminate. apply Rltb_false. apply Rleb_true in H1, H2. lra.
  - split; [discriminate|]. intro N. exfalso. apply N. apply any_gt_false in G; auto.
    exists (map (fun lu => pick (fst lu) (snd lu)) (combine l u)). apply in_box_forall2; auto.
    assert (LO : Forall (fun lu => lower_ok (fst lu) /\ upper_ok (snd lu)) (combine l u)).
    { clear - L U E. revert u U E. induction L; intros u U E; destruct u; simpl in *; try lia; constructor; inversion U; subst; auto. }
    clear - G LO. induction G as [|[a b] lus H G IH]; simpl; constructor; inversion LO; subst; auto.
    apply pick_ok; simpl in *; tauto.
Qed.

(** replace one coordinate of a point of the box *)
Lemma in_box_update : forall l u x i v, box_bounds l u -> in_box l u x -> (i < length l)%nat ->
  coord_ok (nth i l NaN) (nth i u NaN) v -> exists y, in_box l u y /\ vget y i = v.
Proof.
  intros l u x i v B I Hi C. apply in_box_forall2 in I; auto. pose proof B as [L [U E]].
  assert (G : exists y, Forall2 (fun lu v => coord_ok (fst lu) (snd lu) v) (combine l u) y /\ vget y i = v).
  { clear B L U. revert u x i E I Hi C. induction l as [|a l IH]; intros u x i E I Hi C; simpl in Hi; [lia|].
    destruct u as [|b u]; simpl in E; [lia|]. inversion I as [|? w ? x' Hw I']; subst. destruct i as [|i].
    - exists (v :: x'). split; [constructor; auto|reflexivity].
    - destruct (IH u x' i ltac:(lia) I' ltac:(lia) C) as [y [Y1 Y2]]. exists (w :: y). split; [constructor; auto|exact Y2]. }
  destruct G as [y [Y1 Y2]]. exists y. split; auto. apply in_box_forall2; auto.
Qed.
Lemma in_box_coord : forall l u x i, box_bounds l u -> in_box l u x -> (i < length l)%nat -> coord_ok (nth i l NaN) (nth i u NaN) (vget x i).
Proof.
  intros l u x i B I Hi. apply in_box_forall2 in I; auto. destruct B as [_ [_ E]]. revert u x i E I Hi.
  induction l as [|a l IH]; intros u x i E I Hi; simpl in Hi; [lia|]. destruct u as [|b u]; simpl in E; [lia|].
  inversion I as [|? w ? x' Hw I']; subst. destruct i as [|i]; [exact Hw|]. apply (IH u x' i); auto; lia.
Qed.

Lemma all_close_forall : forall l u tol, length l = length u -> (all_close l u tol = true <->
  forall i, (i < length l)%nat -> nltb (nabs (nsub (nth i u NaN) (nth i l NaN))) (Fin tol) = true).
Proof.
  unfold all_close. induction l as [|a l IH]; intros u tol E; destruct u as [|b u]; simpl in E; try lia; simpl.
  - split; auto. intros _ i Hi. lia.
  - rewrite andb_true_iff, IH by lia. split.
    + intros [H1 H2] i Hi. destruct i as [|i]; auto. apply H2. lia.
    + intro H. split; [apply (H O); lia|]. intros i Hi. apply (H (S i)). lia.
Qed.

Theorem is_point_spec : forall l u tol, box_bounds l u -> 0 < tol -> (exists x, in_box l u x) ->
  (all_close l u tol = true <-> forall x y i, in_box l u x -> in_box l u y -> (i < length l)%nat -> Rabs (vget x i - vget y i) < tol).
Proof.
  intros l u tol B Ht [x0 I0]. pose proof B as [L [U E]]. rewrite all_close_forall by auto. split.
  - intros H x y i Ix Iy Hi. specialize (H i Hi). apply in_box_coord with (i := i) in Ix, Iy; auto.
    destruct Ix as [X1 X2], Iy as [Y1 Y2]. destruct (nth i l NaN); destruct (nth i u NaN); simpl in *; try discriminate.
    apply Rleb_true in X1, X2, Y1, Y2. apply Rltb_true in H. replace (r0 + - r) with (r0 - r) in H by ring.
    rewrite Rabs_right in H by lra. apply Rabs_def1; lra.
  - intros H i Hi. pose proof (in_box_coord l u x0 i B I0 Hi) as [C1 C2].
    assert (LO : lower_ok (nth i l NaN) /\ upper_ok (nth i u NaN)).
    { rewrite Forall_forall in L, U. split; [apply L|apply U]; apply nth_In; auto; rewrite <- E; auto. }
    destruct LO as [LO UO]. destruct (nth i l NaN) as [a| | |] eqn:EL; try contradiction; destruct (nth i u NaN) as [b| | |] eqn:EU; try contradiction; simpl in C1, C2.
    + apply Rleb_true in C1, C2. destruct (in_box_update l u x0 i b B I0 Hi) as [y1 [Y1 V1]].
      { rewrite EL, EU. split; simpl; apply Rleb_true; lra. }
      destruct (in_box_update l u x0 i a B I0 Hi) as [y2 [Y2 V2]].
      { rewrite EL, EU. split; simpl; apply Rleb_true; lra. }
      specialize (H y1 y2 i Y1 Y2 Hi). rewrite V1, V2 in H. simpl. apply Rltb_true. exact H.
    + exfalso. destruct (in_box_update l u x0 i (vget x0 i + tol) B I0 Hi) as [y1 [Y1 V1]].
      { rewrite EL, EU. apply Rleb_true in C1. split; simpl; auto. apply Rleb_true; lra. }
      specialize (H y1 x0 i Y1 I0 Hi). rewrite V1 in H. replace (vget x0 i + tol - vget x0 i) with tol in H by ring.
      rewrite Rabs_right in H; lra.
    + exfalso. destruct (in_box_update l u x0 i (vget x0 i - tol) B I0 Hi) as [y1 [Y1 V1]].
      { rewrite EL, EU. apply Rleb_true in C2. split; simpl; auto. apply Rleb_true; lra. }
      specialize (H x0 y1 i I0 Y1 Hi). rewrite V1 in H. replace (vget x0 i - (vget x0 i - tol)) with tol in H by ring.
      rewrite Rabs_right in H; lra.
    + exfalso. destruct (in_box_update l u x0 i (vget x0 i - tol) B I0 Hi) as [y1 [Y1 V1]].
      { rewrite EL, EU. split; simpl; auto. }
      specialize (H x0 y1 i I0 Y1 Hi). rewrite V1 in H. replace (vget x0 i - (vget x0 i - tol)) with tol in H by ring.
      rewrite Rabs_right in H; lra.
Qed.

Theorem is_unbounded_spec : forall l u, box_bounds l u -> (exists x, in_box l u x) ->
  (any_inf l u = true <-> forall M, exists x i, in_box l u x /\ (i < length l)%nat /\ M < Rabs (vget x i)).
Proof.
  intros l u B [x0 I0]. pose proof B as [L [U E]]. unfold any_inf. rewrite orb_true_iff, !existsb_exists. split.
  - intros H M.
    assert (A : exists i, (i < length l)%nat /\ (nth i l NaN = NInf \/ nth i u NaN = PInf)).
    { rewrite Forall_forall in L, U. destruct H as [[a [Ha F]]|[a [Ha F]]].
      - destruct (In_nth l a NaN Ha) as [i [Hi Ei]]. exists i. split; auto. left. rewrite Ei. specialize (L a Ha). destruct a; try contradiction; simpl in F; try discriminate; auto.
      - destruct (In_nth u a NaN Ha) as [i [Hi Ei]]. exists i. split; [lia|]. right. rewrite Ei. specialize (U a Ha). destruct a; try contradiction; simpl in F; try discriminate; auto. }
    destruct A as [i [Hi A]]. pose proof (in_box_coord l u x0 i B I0 Hi) as [C1 C2].
    pose proof (Rle_abs M) as RM. pose proof (Rabs_pos M) as PM. destruct A as [A|A].
    + set (t := Rmin (vget x0 i) (- (Rabs M + 1))).
      assert (T : t <= vget x0 i /\ t <= - (Rabs M + 1)) by (split; [apply Rmin_l|apply Rmin_r]).
      destruct (in_box_update l u x0 i t B I0 Hi) as [y [Y V]].
      { split; [rewrite A; auto|]. destruct (nth i u NaN); simpl in *; auto. apply Rleb_true in C2. apply Rleb_true. lra. }
      exists y, i. split; auto. split; auto. rewrite V. rewrite Rabs_left1; lra.
    + set (t := Rmax (vget x0 i) (Rabs M + 1)).
      assert (T : vget x0 i <= t /\ Rabs M + 1 <= t) by (split; [apply Rmax_l|apply Rmax_r]).
      destruct (in_box_update l u x0 i t B I0 Hi) as [y [Y V]].
      { split; [|rewrite A; auto]. destruct (nth i l NaN); simpl in *; auto. apply Rleb_true in C1. apply Rleb_true. lra. }
      exists y, i. split; auto. split; auto. rewrite V. rewrite Rabs_right; lra.
  - intro H.
    assert (BD : (forall i, (i < length l)%nat -> exists a b, nth i l NaN = Fin a /\ nth i u NaN = Fin b) -> False).
    { intro FB.
      assert (G : exists M, forall i, (i < length l)%nat -> forall v, coord_ok (nth i l NaN) (nth i u NaN) v -> Rabs v <= M).
      { clear - FB. assert (K : forall n, (n <= length l)%nat -> exists M, forall i, (i < n)%nat -> forall v, coord_ok (nth i l NaN) (nth i u NaN) v -> Rabs v <= M).
        { induction n as [|n IH]; intro Hn; [exists 0; intros; lia|]. destruct (IH ltac:(lia)) as [M HM].
          destruct (FB n ltac:(lia)) as [a [b [Ea Eb]]]. exists (Rmax M (Rabs a + Rabs b)). intros i Hi v C.
          destruct (Nat.eq_dec i n) as [->|Hne].
          - rewrite Ea, Eb in C. destruct C as [C1 C2]. simpl in C1, C2. apply Rleb_true in C1, C2.
            apply Rle_trans with (2 := Rmax_r _ _). unfold Rabs; repeat destruct (Rcase_abs _); lra.
          - apply Rle_trans with (2 := Rmax_l _ _). apply (HM i); auto. lia. }
        apply K; auto. }
      destruct G as [M HM]. destruct (H M) as [x [i [Ix [Hi G]]]]. specialize (HM i Hi (vget x i) (in_box_coord l u x i B Ix Hi)). lra. }
    destruct (existsb is_inf l) eqn:E1; [left; apply existsb_exists in E1; auto|].
    destruct (existsb is_inf u) eqn:E2; [right; apply existsb_exists in E2; auto|].
    exfalso. apply BD. intros i Hi.
    assert (F1 : is_inf (nth i l NaN) = false).
    { destruct (is_inf (nth i l NaN)) eqn:Z; auto. assert (existsb is_inf l = true); [|congruence]. apply existsb_exists. exists (nth i l NaN). split; auto. apply nth_In; auto. }
    assert (F2 : is_inf (nth i u NaN) = false).
    { destruct (is_inf (nth i u NaN)) eqn:Z; auto. assert (existsb is_inf u = true); [|congruence]. apply existsb_exists. exists (nth i u NaN). split; auto. apply nth_In; lia. }
    rewrite Forall_forall in L, U. assert (LO : lower_ok (nth i l NaN)) by (apply L, nth_In; auto).
    assert (UO : upper_ok (nth i u NaN)) by (apply U, nth_In; lia).
    destruct (nth i l NaN); try contradiction; try discriminate; destruct (nth i u NaN); try contradiction; try discriminate; eauto.
Qed.

(* ---------------- histories ---------------- *)
(** the value each query should have *)
Definition truth (l u : list num) (tol : R) (q : query) : bool :=
  match q with QEmpty | QSample => any_gt l u | QPoint => all_close l u tol | QUnb => any_inf l u end.
Definition asks_empty (q : query) : bool := match q with QEmpty | QSample => true | _ => false end.

(** without is_empty (and sampling) every answer is right, whatever the order *)
Theorem history_partial : forall l u tol qs, Forall (fun q => asks_empty q = false) qs ->
  fst (run_queries l u tol qs fresh) = map (truth l u tol) qs.
Proof.
  intros l u tol qs F.
  assert (G : forall c, (forall b, c_point c = Some b -> b = all_close l u tol) -> (forall b, c_unb c = Some b -> b = any_inf l u) ->
     fst (run_queries l u tol qs c) = map (truth l u tol) qs).
  { induction F as [|q qs Hq F IH]; intros c P U; auto. destruct q; simpl in Hq; try discriminate; simpl; pose proof (IH c P U) as IHc.
    - unfold get_point. destruct (c_point c) as [b|] eqn:E.
      + destruct (run_queries l u tol qs c) as [bs c2]; simpl in *. rewrite IHc, (P b eq_refl). auto.
      + match goal with |- context [run_queries l u tol qs ?c'] => specialize (IH c') end. simpl in IH.
        destruct (run_queries l u tol qs _) as [bs c2]; simpl in *. rewrite IH; auto. intros b Eb; congruence.
    - unfold get_unb. destruct (c_unb c) as [b|] eqn:E.
      + destruct (run_queries l u tol qs c) as [bs c2]; simpl in *. rewrite IHc, (U b eq_refl). auto.
      + match goal with |- context [run_queries l u tol qs ?c'] => specialize (IH c') end. simpl in IH.
        destruct (run_queries l u tol qs _) as [bs c2]; simpl in *. rewrite IH; auto. intros b Eb; congruence. }
  apply G; discriminate.
Qed.

(** is_empty is always right *)
Theorem history_empty : forall l u tol qs i, nth_error qs i = Some QEmpty ->
  nth_error (fst (run_queries l u tol qs fresh)) i = Some (any_gt l u).
Proof.
  intros l u tol qs.
  assert (G : forall c, (forall b, c_empty c = Some b -> b = any_gt l u) -> forall i, nth_error qs i = Some QEmpty ->
     nth_error (fst (run_queries l u tol qs c)) i = Some (any_gt l u)).
  { induction qs as [|q qs IH]; intros c E i Hi; [destruct i; discriminate|]. simpl.
    assert (S : let '(b, c1) := ask l u tol q c in (forall b, c_empty c1 = Some b -> b = any_gt l u) /\ (q = QEmpty -> b = any_gt l u)).
    { destruct q; simpl; unfold get_empty, get_point, get_unb.
      - destruct (c_empty c) as [b|] eqn:X; simpl; [split; [intros b0 H; rewrite X in H; apply E; congruence|intros; apply E; auto]|split; [intros b0 H; congruence|auto]].
      - destruct (c_point c); simpl; split; auto; discriminate.
      - destruct (c_unb c); simpl; split; auto; discriminate.
      - destruct (c_empty c) as [b|] eqn:X; simpl; [split; [intros b0 H; rewrite X in H; apply E; congruence|discriminate]|split; [intros b0 H; congruence|discriminate]]. }
    destruct (ask l u tol q c) as [b c1]. destruct S as [S1 S2]. specialize (IH c1 S1).
    destruct (run_queries l u tol qs c1) as [bs c2]; simpl in *.
    destruct i as [|i]; simpl in *; [injection Hi as ->; rewrite S2; auto|auto]. }
  apply G. discriminate.
Qed.

(** after is_empty (or a sample) the predicates of a point box and of a half-line are wrong *)
Lemma history_refuted : exists l1 u1 l2 u2 tol, 0 < tol /\ box_bounds l1 u1 /\ box_bounds l2 u2 /\
  (forall x y i, in_box l1 u1 x -> in_box l1 u1 y -> (i < length l1)%nat -> Rabs (vget x i - vget y i) < tol) /\
  fst (run_queries l1 u1 tol [QEmpty; QPoint] fresh) = [false; false] /\
  fst (run_queries l1 u1 tol [QPoint; QEmpty] fresh) = [true; false] /\
  (forall M, exists x i, in_box l2 u2 x /\ (i < length l2)%nat /\ M < Rabs (vget x i)) /\
  fst (run_queries l2 u2 tol [QSample; QUnb] fresh) = [false; false].
Proof.
  exists [Fin 1], [Fin 1], [Fin 0], [PInf], (1/100).
  assert (B1 : box_bounds [Fin 1] [Fin 1]) by (repeat split; repeat constructor).
  assert (B2 : box_bounds [Fin 0] [PInf]) by (repeat split; repeat constructor).
  split; [lra|]. split; auto. split; auto. split; [|split; [|split; [|split]]].
  - intros x y i Ix Iy Hi. assert (i = O) by (simpl in Hi; lia). subst i. apply in_box_coord with (i := O) in Ix, Iy; auto.
    destruct Ix as [X1 X2], Iy as [Y1 Y2]. simpl in *. apply Rleb_true in X1, X2, Y1, Y2. apply Rabs_def1; lra.
  - simpl. unfold get_empty, any_gt; simpl. rb. reflexivity.
  - simpl. unfold get_point, get_empty, any_gt, all_close; simpl. replace (1 + - (1)) with 0 by ring. rewrite Rabs_R0. unfold get_empty; simpl. rb. reflexivity.
  - apply is_unbounded_spec; auto. exists [0]. apply in_box_forall2; auto. repeat constructor; simpl; apply Rleb_true; lra.
  - simpl. unfold get_empty, any_gt; simpl. reflexivity.
Qed.

(* ---------------- hull extent ---------------- *)
Theorem hull_step_spec : forall h x p beta, hull_wf h -> length x = dim (hcon h) -> length p = dim (hcon h) ->
  (hull_step h x p beta <-> convex_comb (hX h) (dim (hcon h)) (along x p beta)).
Proof.
  intros h x p beta [W [NP F]] Lx Lp. unfold hull_step, convex_comb. cbv zeta. set (m := dim (hcon h)) in *.
  assert (La : length (hull_nlb h) = m) by apply hull_nlb_length.
  assert (Lb : length (hull_nub h) = m) by apply hull_nub_length.
  assert (F2 : Forall (fun x => length x = m) (map (normalize (hull_nlb h) (hull_nub h)) (hX h))).
  { apply Forall_forall. intros y Hy. apply in_map_iff in Hy. destruct Hy as [z [E _]]. subst y. rewrite normalize_length; congruence. }
  assert (NL : forall y, length (normalize (hull_nlb h) (hull_nub h) y) = m) by (intro y; rewrite normalize_length; congruence).
  assert (EQ : forall al i, length al = length (hX h) -> vsum al = 1 -> (i < m)%nat ->
     vget (lincomb m (map (normalize (hull_nlb h) (hull_nub h)) (hX h)) al) i -
     vget (vadd (vscale beta (vsub (normalize (hull_nlb h) (hull_nub h) (vadd x p)) (normalize (hull_nlb h) (hull_nub h) x)))
        (normalize (hull_nlb h) (hull_nub h) x)) i =
     nslope (nth i (hull_nlb h) NaN) (nth i (hull_nub h) NaN) * (vget (lincomb m (hX h) al) i - vget (along x p beta) i)).
  { intros al i L S Hi. rewrite norm_comb_get by auto. rewrite S.
    rewrite vadd_get by (rewrite vscale_length, vsub_length; rewrite !NL; auto).
    rewrite vscale_get, vsub_get by (rewrite !NL; auto).
    rewrite !normalize_get by (rewrite ?vadd_length by congruence; congruence || lia). rewrite vadd_get by congruence. rewrite along_get by congruence. ring. }
  assert (LL : length (vadd (vscale beta (vsub (normalize (hull_nlb h) (hull_nub h) (vadd x p)) (normalize (hull_nlb h) (hull_nub h) x)))
        (normalize (hull_nlb h) (hull_nub h) x)) = m).
  { rewrite vadd_length; rewrite vscale_length, vsub_length; rewrite ?NL; auto. }
  split; intros [al [L [N [S E]]]]; exists al; repeat (split; auto).
  - symmetry. apply vec_ext; [rewrite lincomb_length by auto; rewrite along_length; congruence|]. intros i Hi.
    rewrite lincomb_length in Hi by auto. pose proof (EQ al i L S Hi) as Q. rewrite E in Q. rewrite Rminus_diag_eq in Q by auto.
    pose proof (slopes_inv (nth i (hull_nlb h) NaN) (nth i (hull_nub h) NaN)) as SI. symmetry in Q. apply Rmult_integral in Q.
    destruct Q as [Q|Q]; [rewrite Q in SI; lra|lra].
  - apply vec_ext; [rewrite lincomb_length by auto; auto|]. intros i Hi. rewrite lincomb_length in Hi by auto.
    pose proof (EQ al i L S Hi) as Q. rewrite <- E in Q. rewrite Rminus_diag_eq with (r1 := vget (along x p beta) i) in Q by auto. lra.
Qed.

(** without further constraints the reported extent is exact *)
Theorem hull_extent_partial : forall h x p e, hull_wf h -> length x = dim (hcon h) -> length p = dim (hcon h) ->
  hull_extent_returns h x p e ->
  convex_comb (hX h) (dim (hcon h)) (along x p e) /\
  forall t, convex_comb (hX h) (dim (hcon h)) (along x p t) -> t <= e.
Proof.
  intros h x p e W Lx Lp [_ [H M]]. split; [apply hull_step_spec; auto|]. intros t Ht. apply M. apply hull_step_spec; auto.
Qed.

(** the further constraints are only imposed on the start point *)
Definition ex_hull_ub : hull := mkHull [[0]; [2]] (mkDom LinQuad 1 [NInf] [Fin 1] [] [] [] [] []).
Lemma ex_hull_ub_norm : forall v, normalize (hull_nlb ex_hull_ub) (hull_nub ex_hull_ub) [v] = [v - 1].
Proof.
  intro v. unfold hull_nlb, hull_nub, ex_hull_ub; simpl. unfold col, vmin, vmax, vget; simpl.
  rewrite Rmin_left, Rmax_right by lra. unfold normalize, nslopes, center; simpl. rb. unfold diag; simpl; vc. f_equal. field.
Qed.
Lemma hull_extent_refuted : exists h x p e, hull_wf h /\ length x = dim (hcon h) /\ length p = dim (hcon h) /\
  convex_comb (hX h) (dim (hcon h)) x /\ member (hcon h) x /\ hull_extent_returns h x p e /\ ~ relaxed (hcon h) (1/2) (along x p e).
Proof.
  exists ex_hull_ub, [0], [1], 2.
  assert (HW : hull_wf ex_hull_ub) by (unfold hull_wf, ex_hull_ub; simpl; split; [wf|]; split; [discriminate|]; repeat constructor).
  assert (CC : forall v, 0 <= v <= 2 -> convex_comb (hX ex_hull_ub) (dim (hcon ex_hull_ub)) [v]).
  { intros v Hv. exists [1 - v/2; v/2]. split; [reflexivity|].
    split; [apply Forall_cons; [lra|apply Forall_cons; [lra|constructor]]|]. split; [vc; lra|]. simpl. vc. f_equal. field. }
  assert (M0 : member (hcon ex_hull_ub) [0]).
  { unfold ex_hull_ub; simpl. split; [reflexivity|]. split; [|split; [|split]].
    - intro i. destruct i as [|[|i]]; simpl; split; intros u E; try discriminate; inversion E; subst; unfold vget; simpl; lra.
    - intros k a c H1. destruct k; discriminate.
    - intros k a c H1. destruct k; discriminate.
    - intros q []. }
  split; auto. split; auto. split; auto. split; [apply CC; lra|]. split; auto. split.
  - split; [|split].
    + assert (NB : hull_nlb ex_hull_ub = [Fin 0] /\ hull_nub ex_hull_ub = [Fin 2]).
      { unfold hull_nlb, hull_nub, ex_hull_ub; simpl. unfold col, vmin, vmax, vget; simpl. rewrite Rmin_left, Rmax_right by lra. auto. }
      destruct NB as [N1 N2]. apply norm_feasible_member.
      * rewrite N1, N2. unfold norm_ok. split; [apply HW|]. split; auto. split; auto. split; [right; repeat constructor|].
        split; [left; exists [1]; auto|]. split; [|constructor].
        intros i v w. destruct i as [|[|i]]; simpl; intros E1 E2; try discriminate; inversion E1; inversion E2; lra.
      * split; [rewrite ex_hull_ub_norm; reflexivity|]. rewrite N1, N2, unnormalize_normalize; auto.
    + apply hull_step_spec; auto. replace (along [0] [1] 2) with [2]; [apply CC; lra|]. unfold along. vc. f_equal. lra.
    + intros beta H. apply hull_step_spec in H; auto. destruct H as [al [L [N [S E]]]].
      destruct al as [|a [|b [|? ?]]]; try discriminate. inversion N as [|? ? Ha N1]; inversion N1 as [|? ? Hb _]; subst.
      unfold vsum in S; simpl in S. unfold along in E. simpl in E. vc. injection E as E. lra.
  - intros [_ [B _]]. destruct (B O) as [_ B2]. specialize (B2 1 eq_refl). unfold along in B2. vc. lra.
Qed.
