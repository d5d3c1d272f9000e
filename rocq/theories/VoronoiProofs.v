(** Voronoi vertices in any dimension: the fill distance is exact (up to the tolerance of unique_points). *)
Require Import Reals Lra Lia List Bool Arith ZArith Permutation Sorted.
From Verif Require Import RVec Num Sums DomModel DomSpec DomProofs DomMoreModel SweepProofs HullProofs HullIneqProofs LipModel LipProofs MatLib SampModel PigeonLib LatinProofs PoissonProofs PoissonCases DesignProofs CoffeeProofs GeoModel GeoProofs.
Import ListNotations.
Local Open Scope R_scope.

(** the closed half plane of points nearer to p than to q *)
Lemma nearer_iff : forall p q y : vec, length p = length y -> length q = length y ->
  (dot (vsub q p) y <= dot (vsub q p) (vscale (1/2) (vadd p q)) <-> norm2 (vsub y p) <= norm2 (vsub y q)).
Proof.
  intros p q y Hp Hq. rewrite dot_vscale_r, dot_vadd_r by congruence. rewrite !dot_vsub_l by congruence.
  assert (E1 : norm2sq (vsub y p) = dot y y - 2 * dot p y + dot p p) by (unfold norm2sq; rewrite dot_vsub_l, !dot_vsub_r by congruence; rewrite (dot_comm y p); ring).
  assert (E2 : norm2sq (vsub y q) = dot y y - 2 * dot q y + dot q q) by (unfold norm2sq; rewrite dot_vsub_l, !dot_vsub_r by congruence; rewrite (dot_comm y q); ring).
  assert (S : norm2 (vsub y p) <= norm2 (vsub y q) <-> norm2sq (vsub y p) <= norm2sq (vsub y q)).
  { rewrite norm2_le_iff by apply norm2_nonneg. rewrite norm2_sq. tauto. }
  rewrite S, E1, E2, (dot_comm p q). lra.
Qed.

Lemma dot_weights : forall al f B, length al = length f -> Forall (fun a => 0 <= a) al -> (forall t, In t f -> t <= B) -> dot al f <= vsum al * B.
Proof.
  induction al as [|a al IH]; intros f B HL HP HB; destruct f as [|t f]; try discriminate; [rewrite dot_nil_l; unfold vsum; simpl; lra|]. inversion HP; subst. rewrite dot_cons, vsum_cons.
  pose proof (HB t ltac:(left; auto)). pose proof (IH f B ltac:(simpl in HL; lia) H2 ltac:(intros; apply HB; right; auto)). nra.
Qed.
(** a convex combination is no farther from c than the farthest of the points *)
Lemma convex_far : forall m (vs : mat) c y, Forall (fun v => length v = m) vs -> length c = m -> vs <> [] -> convex_comb vs m y -> exists v, In v vs /\ norm2 (vsub y c) <= norm2 (vsub v c).
Proof.
  intros m vs c y F Hc NE [al [La [Pa [Sa ->]]]]. set (y := lincomb m vs al). assert (Ly : length y = m) by (apply lincomb_length; auto).
  set (M := vmax (map (fun v => norm2 (vsub v c)) vs)). destruct (vmax_map_at vec (fun v => norm2 (vsub v c)) vs NE) as [v [Iv Ev]]. exists v. split; auto. rewrite <- Ev. fold M.
  set (w := vsub y c). assert (Lw : length w = m) by (unfold w; rewrite vsub_length; congruence).
  assert (E : norm2sq w = dot al (map (fun v => dot (vsub v c) w) vs)).
  { unfold norm2sq. unfold w at 1. rewrite dot_vsub_l by congruence. rewrite (dot_comm y w). unfold y. rewrite (dot_lincomb m) by auto.
    assert (G : forall (al0 : vec) (vs0 : mat), length al0 = length vs0 -> Forall (fun v => length v = m) vs0 -> dot al0 (map (fun v => dot (vsub v c) w) vs0) = dot al0 (mv vs0 w) - vsum al0 * dot c w).
    { clear -Hc Lw. intros al0. induction al0 as [|a al0 IH]; intros [|u vs0] HL F0; try discriminate; [cbn; rewrite !dot_nil_l; unfold vsum; simpl; ring|]. inversion F0 as [|? ? Hu Hr].
      unfold mv. cbn [map]. rewrite !dot_cons, vsum_cons, IH by (auto; simpl in HL; lia). fold (mv vs0 w). rewrite dot_vsub_l by congruence. ring. }
    rewrite G, Sa by auto. ring. }
  assert (B : norm2sq w <= M * norm2 w).
  { rewrite E. replace (M * norm2 w) with (vsum al * (M * norm2 w)) by (rewrite Sa; ring). apply dot_weights; [rewrite map_length; auto|auto|].
    intros t It. apply in_map_iff in It. destruct It as [u [<- Iu]]. rewrite Forall_forall in F. specialize (F u Iu). eapply Rle_trans; [apply cauchy_schwarz; rewrite vsub_length; congruence|].
    apply Rmult_le_compat_r; [apply norm2_nonneg|]. apply (vmax_map_ge vec (fun v => norm2 (vsub v c))); auto. }
  rewrite <- norm2_sq in B. pose proof (norm2_nonneg w). destruct (Req_dec (norm2 w) 0) as [Z|Z]; [|nra].
  rewrite Z. pose proof (vmax_map_ge vec (fun v => norm2 (vsub v c)) vs v Iv). pose proof (norm2_nonneg (vsub v c)). fold M in H0. lra.
Qed.

(** what qhull promises for bounded full-dimensional polytopes: the returned points satisfy the inequalities and
    every point satisfying them is a convex combination of the returned points *)
Definition sat (rows : list (vec * R)) (y : vec) : Prop := forall a c, In (a, c) rows -> dot a y <= c.
Definition hsi_ok (m : nat) (rows : list (vec * R)) (vs : mat) : Prop :=
  Forall (fun v => length v = m /\ sat rows v) vs /\ forall y, length y = m -> sat rows y -> convex_comb vs m y.
Definition inverse_of (m : nat) (L Linv : mat) : Prop :=
  sq m L /\ sq m Linv /\ forall x, length x = m -> mv Linv (mv L x) = x /\ mv L (mv Linv x) = x.
Definition inP (m : nat) (A : mat) (b : vec) (x : vec) : Prop := length x = m /\ sat (combine A b) x.
(** the half spaces passed to qhull for cell k *)
Definition hs_rows (m : nat) (A : mat) (b : vec) (L Linv Xhat : mat) (k : nat) : list (vec * R) :=
  match Xhat with
  | [_] => combine A b
  | _ => combine (map (fun a => row_times m a Linv) A) b ++ cell_rows (map (mv L) Xhat) k
  end.

Lemma convex_nonempty : forall vs m y, convex_comb vs m y -> vs <> [].
Proof. intros vs m y [al [La [_ [Sa _]]]] ->. destruct al; [|discriminate]. unfold vsum in Sa. simpl in Sa. lra. Qed.
Lemma sat_app : forall r1 r2 y, sat (r1 ++ r2) y <-> sat r1 y /\ sat r2 y.
Proof. intros. unfold sat. split; [intro H; split; intros; apply H, in_or_app; auto|]. intros [H1 H2] a c I. apply in_app_or in I. destruct I; auto. Qed.
Lemma sat_rows : forall m A b Linv y, Forall (fun r => length r = m) Linv -> (sat (combine (map (fun a => row_times m a Linv) A) b) y <-> sat (combine A b) (mv Linv y)).
Proof.
  intros m A b Linv y F. assert (E : forall a, dot (row_times m a Linv) y = dot a (mv Linv y)) by (intro a; unfold row_times; rewrite dot_comm, (dot_lincomb m) by auto; auto).
  revert b. induction A as [|a A IH]; intros [|c b]; try (unfold sat; simpl; tauto). cbn [map combine]. unfold sat in *. specialize (IH b). split; intros H a' c' I.
  - destruct I as [I|I]; [injection I as <- <-; rewrite <- E; apply H; left; auto|]. apply IH; auto. intros; apply H; right; auto.
  - destruct I as [I|I]; [injection I as <- <-; rewrite E; apply H; left; auto|]. apply IH; auto. intros; apply H; right; auto.
Qed.
(** the cell rows say exactly that site k is a nearest one *)
Lemma cell_sat : forall Y k y, Forall (fun z => length z = length y) Y -> (k < length Y)%nat -> (sat (cell_rows Y k) y <-> forall z, In z Y -> norm2 (vsub y (nth k Y [])) <= norm2 (vsub y z)).
Proof.
  intros Y k y F Hk. set (p := nth k Y []). assert (Lp : length p = length y) by (rewrite Forall_forall in F; apply F, nth_In; auto). split.
  - intros H z Iz. assert (Lz : length z = length y) by (rewrite Forall_forall in F; auto). apply nearer_iff; auto.
    destruct (Rlt_or_le 0 (norm2sq (vsub z p))) as [Hp|Hp].
    + apply H. unfold cell_rows. apply filter_In. split; [apply in_map_iff; exists z; split; auto|]. simpl. apply Rltb_true. auto.
    + assert (Z : norm2sq (vsub z p) = 0) by (pose proof (norm2sq_nonneg (vsub z p)); lra). apply norm2sq_zero in Z.
      assert (ZV : forall t, length t = length y -> dot (vsub z p) t = 0).
      { intros t Ht. assert (G : forall (u : vec) (t : vec), Forall (fun a => a = 0) u -> dot u t = 0). { clear. induction u as [|a u IH]; intros t F; [apply dot_nil_l|]. destruct t; [apply dot_nil_r|]. inversion F; subst. rewrite dot_cons, IH by auto. ring. } auto. }
      rewrite !ZV; [lra|rewrite vscale_length, vadd_length; congruence|auto].
  - intros H a c I. unfold cell_rows in I. apply filter_In in I. destruct I as [I _]. apply in_map_iff in I. destruct I as [z [E Iz]]. injection E as <- <-.
    rewrite Forall_forall in F. apply nearer_iff; auto.
Qed.

Lemma mind_sites : forall L Xhat x, mind L Xhat x = vmin (map (fun y => norm2 (vsub y (mv L x))) (map (mv L) Xhat)).
Proof. intros. unfold mind, Ldist. rewrite map_map. auto. Qed.

Lemma mv_vzero : forall (L : mat) m, mv L (vzero m) = vzero (length L).
Proof. induction L as [|a L IH]; intros m; simpl; auto. rewrite dot_zero_r, IH. auto. Qed.
Lemma mv_lincomb : forall (L : mat) m V al, Forall (fun v => length v = m) V -> length al = length V -> mv L (lincomb m V al) = lincomb (length L) (map (mv L) V) al.
Proof.
  intros L m V al FV. revert al. induction FV as [|v V Hv FV IH]; intros [|c al] La; try discriminate; cbn [lincomb map]; [apply mv_vzero|].
  rewrite mv_vadd by (rewrite vscale_length, lincomb_length; auto). rewrite mv_vscale, IH by (simpl in La; lia). auto.
Qed.

Section Vor.
Variables (m : nat) (A : mat) (b : vec) (L Linv : mat) (hsi : list (vec * R) -> mat).
Hypothesis HI : inverse_of m L Linv.
Lemma LF : Forall (fun r => length r = m) L. Proof. apply HI. Qed.
Lemma LiF : Forall (fun r => length r = m) Linv. Proof. apply HI. Qed.
Lemma Llen : length L = m. Proof. apply HI. Qed.
Lemma Lilen : length Linv = m. Proof. apply HI. Qed.

(** vertices before filtering: all in the domain, one of them as far from the sites as any point of the domain *)
Lemma vor_all_far : forall Xhat, Xhat <> [] -> Forall (inP m A b) Xhat -> (forall k, (k < length Xhat)%nat -> hsi_ok m (hs_rows m A b L Linv Xhat k) (hsi (hs_rows m A b L Linv Xhat k))) ->
  Forall (inP m A b) (vor_all m A b L Linv hsi Xhat) /\
  forall x, inP m A b x -> exists v, In v (vor_all m A b L Linv hsi Xhat) /\ mind L Xhat x <= mind L Xhat v.
Proof.
  intros Xhat NE FX HH. rewrite Forall_forall in FX. pose proof Llen as LL. pose proof Lilen as LLi. pose proof LiF as FLi.
  destruct Xhat as [|x1 [|x2 Xr]]; [congruence| |].
  - (* one site: the vertices of the domain *)
    cbn [vor_all]. destruct (HH O ltac:(simpl; lia)) as [H1 H2]. cbn [hs_rows] in H1, H2. split.
    + eapply Forall_impl; [|exact H1]. intros a [Ha Sa]. split; auto.
    + intros x [Lx Sx]. destruct (H2 x Lx Sx) as [al [La [Pa [Sa Ex]]]].
      set (V := hsi (combine A b)) in *. assert (FV : Forall (fun v => length v = m) V) by (eapply Forall_impl; [|exact H1]; intros a [Ha _]; auto).
      assert (NV : V <> []) by (intro E; rewrite E in La; destruct al; [unfold vsum in Sa; simpl in Sa; lra|discriminate]).
      (* push through L *)
      assert (CC : convex_comb (map (mv L) V) m (mv L x)).
      { exists al. rewrite map_length. split; auto. split; auto. split; auto. rewrite Ex, mv_lincomb by auto. rewrite LL. auto. }
      destruct (convex_far m (map (mv L) V) (mv L x1) (mv L x)) as [w [Iw Hw]]; auto.
      * apply Forall_forall. intros w Iw. apply in_map_iff in Iw. destruct Iw as [v [<- _]]. rewrite mv_length. auto.
      * rewrite mv_length. auto.
      * intro E. apply NV. destruct V; [auto|discriminate].
      * apply in_map_iff in Iw. destruct Iw as [v [<- Iv]]. exists v. split; auto. unfold mind, vmin. cbn [map fold_left]. rewrite !(Ldist_sym L x1). exact Hw.
  - set (Xhat := x1 :: x2 :: Xr) in *.
    assert (EV : vor_all m A b L Linv hsi Xhat = map (mv Linv) (flat_map (fun k => hsi (hs_rows m A b L Linv Xhat k)) (seq 0 (length Xhat)))) by reflexivity.
    assert (ER : forall k, hs_rows m A b L Linv Xhat k = combine (map (fun a => row_times m a Linv) A) b ++ cell_rows (map (mv L) Xhat) k) by reflexivity.
    assert (FY : forall y : vec, length y = m -> Forall (fun z => length z = length y) (map (mv L) Xhat)) by (intros y Hy; apply Forall_forall; intros z Iz; apply in_map_iff in Iz; destruct Iz as [u [<- _]]; rewrite mv_length; congruence).
    assert (NK : forall k, (k < length Xhat)%nat -> nth k (map (mv L) Xhat) [] = mv L (nth k Xhat [])) by (intros k Hk; rewrite nth_indep with (d' := mv L []) by (rewrite map_length; auto); apply map_nth).
    rewrite EV. split.
    + apply Forall_forall. intros v Iv. apply in_map_iff in Iv. destruct Iv as [y [<- Iy]]. apply in_flat_map in Iy. destruct Iy as [k [Hk Iy]]. apply in_seq in Hk. destruct (HH k ltac:(lia)) as [H1 _].
      rewrite Forall_forall in H1. destruct (H1 y Iy) as [Ly Sy]. rewrite ER in Sy. apply sat_app in Sy. destruct Sy as [Sy _]. apply (sat_rows m) in Sy; auto. split; [rewrite mv_length; auto|auto].
    + intros x [Lx Sx]. set (y := mv L x). assert (Ly : length y = m) by (unfold y; rewrite mv_length; auto).
      (* nearest site *)
      set (ds := map (fun xh => Ldist L x xh) Xhat). assert (ND : ds <> []) by discriminate. destruct (argmin_spec ds ND) as [K1 K2]. set (k := argmin_idx ds) in *. unfold ds in K1, K2. rewrite map_length in K1, K2.
      assert (GD : forall j, (j < length Xhat)%nat -> vget (map (fun xh => Ldist L x xh) Xhat) j = Ldist L x (nth j Xhat [])).
      { intros j Hj. unfold vget. rewrite nth_indep with (d' := (fun xh => Ldist L x xh) []) by (rewrite map_length; auto). apply (map_nth (fun xh => Ldist L x xh)). }
      assert (NEAR : forall xh, In xh Xhat -> Ldist L x (nth k Xhat []) <= Ldist L x xh).
      { intros xh I. destruct (In_nth _ _ [] I) as [j [Hj <-]]. pose proof (K2 j Hj) as Q. rewrite !GD in Q by auto. auto. }
      destruct (HH k K1) as [H1 H2]. assert (SY : sat (hs_rows m A b L Linv Xhat k) y).
      { rewrite ER. apply sat_app. split.
        - apply (sat_rows m); auto. unfold y. destruct HI as [_ [_ HI3]]. destruct (HI3 x Lx) as [-> _]. auto.
        - apply cell_sat; [apply FY; auto|rewrite map_length; auto|]. intros z Iz. apply in_map_iff in Iz. destruct Iz as [xh [<- Ih]]. rewrite NK by auto. apply NEAR. auto. }
      pose proof (H2 y Ly SY) as CC. assert (FV : Forall (fun v => length v = m) (hsi (hs_rows m A b L Linv Xhat k))) by (eapply Forall_impl; [|exact H1]; intros a [Ha _]; auto).
      destruct (convex_far m _ (nth k (map (mv L) Xhat) []) y FV) as [w [Iw Hw]]; auto; [rewrite NK by auto; rewrite mv_length; auto|apply (convex_nonempty _ m y); auto|].
      exists (mv Linv w). rewrite Forall_forall in H1. destruct (H1 w Iw) as [Lw Sw]. split; [apply in_map; apply in_flat_map; exists k; split; [apply in_seq; lia|auto]|].
      rewrite ER in Sw. apply sat_app in Sw. destruct Sw as [_ Sw]. rewrite cell_sat in Sw by (try (apply FY; auto); rewrite map_length; auto).
      rewrite NK in Hw, Sw by auto. destruct HI as [_ [_ HI3]]. destruct (HI3 w Lw) as [_ EW].
      assert (MW : norm2 (vsub w (mv L (nth k Xhat []))) <= mind L Xhat (mv Linv w)).
      { destruct (mind_at L Xhat (mv Linv w) NE) as [xh [Ih ->]]. rewrite Ldist_sym. unfold Ldist. rewrite EW. apply Sw. apply in_map. auto. }
      pose proof (mind_le L Xhat x (nth k Xhat []) ltac:(apply nth_In; auto)) as MX. rewrite Ldist_sym in MX. unfold Ldist in MX. fold y in MX. lra.
Qed.

(** dropping near duplicates costs at most one tolerance per dropped vertex *)
Lemma Ldist_edist : forall x y, length x = m -> length y = m -> Ldist L x y <= fro L * edist x y.
Proof.
  intros x y Hx Hy. unfold Ldist, edist. rewrite <- mv_vsub by congruence. apply mv_norm_bound. rewrite vsub_length by congruence. rewrite Hx. apply LF.
Qed.
Lemma mind_lip : forall Xhat x y, Xhat <> [] -> mind L Xhat x <= mind L Xhat y + Ldist L x y.
Proof.
  intros Xhat x y NE. destruct (mind_at L Xhat y NE) as [xh [I ->]]. pose proof (mind_le L Xhat x xh I). pose proof (Ldist_triangle L xh y x). rewrite (Ldist_sym L y x) in H0. lra.
Qed.
Lemma select_in : forall (X : mat) mask j, length mask = length X -> (j < length X)%nat -> nth j mask false = true -> In (nth j X []) (select mask X).
Proof.
  induction X as [|x X IH]; intros mask j HL Hj HM; [simpl in Hj; lia|]. destruct mask as [|c mask]; [discriminate|]. destruct j as [|j]; simpl in *.
  - subst c. left. auto.
  - destruct c; [right|]; apply IH; auto; lia.
Qed.
Lemma select_incl : forall (X : mat) mask v, In v (select mask X) -> In v X.
Proof. induction X as [|x X IH]; intros [|c mask] v I; simpl in *; try contradiction. destruct c; [destruct I as [->|I]; auto|]; right; eauto. Qed.

Lemma vor_far : forall inside Xhat, Xhat <> [] -> Forall (inP m A b) Xhat -> (forall x, inP m A b x -> inside x = true) ->
  (forall k, (k < length Xhat)%nat -> hsi_ok m (hs_rows m A b L Linv Xhat k) (hsi (hs_rows m A b L Linv Xhat k))) ->
  let V := voronoi_vertex m A b L Linv hsi inside Xhat in let eps := fro L * (INR (length (vor_all m A b L Linv hsi Xhat)) * atol) in
  Forall (inP m A b) V /\ forall x, inP m A b x -> exists v, In v V /\ mind L Xhat x <= mind L Xhat v + eps.
Proof.
  intros inside Xhat NE FX HIn HH V eps. destruct (vor_all_far Xhat NE FX HH) as [FA HA]. set (W := vor_all m A b L Linv hsi Xhat) in *.
  assert (F0 : 0 <= fro L) by apply sqrt_pos. pose proof atol_pos as A0. assert (E0 : 0 <= eps) by (unfold eps; pose proof (pos_INR (length W)); apply Rmult_le_pos; [auto|apply Rmult_le_pos; lra]).
  assert (CASE : V = W \/ V = filter inside (select (unique_mask W) W)).
  { unfold V, voronoi_vertex. fold W. destruct Xhat as [|? [|? ?]]; auto. }
  destruct CASE as [-> | ->].
  - split; auto. intros x Px. destruct (HA x Px) as [v [Iv Hv]]. exists v. split; auto. lra.
  - rewrite Forall_forall in FA. split.
    + apply Forall_forall. intros v Iv. apply filter_In in Iv. destruct Iv as [Iv _]. apply select_incl in Iv. auto.
    + intros x Px. destruct (HA x Px) as [v [Iv Hv]]. destruct (In_nth _ _ [] Iv) as [i [Hi Ei]].
      assert (FW : Forall (fun w => length w = m) W) by (apply Forall_forall; intros w Iw; apply FA; auto).
      destruct (unique_near_partial m W i FW Hi) as [j [Hj [Kj Dj]]]. exists (nth j W []). assert (Iw : In (nth j W []) W) by (apply nth_In; lia). split.
      * apply filter_In. split; [apply select_in; [apply mask_len|lia|auto]|]. apply HIn. auto.
      * rewrite Ei in Dj. pose proof (mind_lip Xhat v (nth j W []) NE) as ML. pose proof (Ldist_edist v (nth j W []) ltac:(apply FA; auto) ltac:(apply FA; auto)) as LE.
        assert (INR (j - i) <= INR (length W)) by (apply le_INR; lia). assert (edist v (nth j W []) <= INR (length W) * atol) by nra.
        assert (fro L * edist v (nth j W []) <= eps) by (unfold eps; apply Rmult_le_compat_l; auto). lra.
Qed.
(** fill_distance: attained in the domain, and below the true fill distance by at most the tolerance *)
Lemma fill_exact0 : forall inside Xhat, Xhat <> [] -> Forall (inP m A b) Xhat -> (forall x, inP m A b x -> inside x = true) ->
  (forall k, (k < length Xhat)%nat -> hsi_ok m (hs_rows m A b L Linv Xhat k) (hsi (hs_rows m A b L Linv Xhat k))) ->
  let d := fill_dist L Xhat (voronoi_vertex m A b L Linv hsi inside Xhat) in let eps := fro L * (INR (length (vor_all m A b L Linv hsi Xhat)) * atol) in
  (forall x, inP m A b x -> mind L Xhat x <= d + eps) /\ exists x, inP m A b x /\ mind L Xhat x = d.
Proof.
  intros inside Xhat NE FX HIn HH d eps. destruct (vor_far inside Xhat NE FX HIn HH) as [FV HV]. fold eps in HV. set (V := voronoi_vertex m A b L Linv hsi inside Xhat) in *.
  assert (NV : V <> []). { destruct Xhat as [|x X]; [congruence|]. inversion FX; subst. destruct (HV x H1) as [v [Iv _]]. intro E. rewrite E in Iv. destruct Iv. }
  split.
  - intros x Px. destruct (HV x Px) as [v [Iv Hv]]. assert (mind L Xhat v <= d) by (apply (vmax_map_ge vec (mind L Xhat)); auto). lra.
  - destruct (vmax_map_at vec (mind L Xhat) V NV) as [w [Iw Ew]]. exists w. rewrite Forall_forall in FV. split; auto.
Qed.
(** hence the coffeehouse design built on these vertices is 2-optimal up to the tolerance *)
Lemma coffeehouse_vor0 : forall inside eps x0 N, (1 <= N)%nat -> inP m A b x0 -> (forall x, inP m A b x -> inside x = true) ->
  (forall Xhat, Xhat <> [] -> Forall (inP m A b) Xhat -> fro L * (INR (length (vor_all m A b L Linv hsi Xhat)) * atol) <= eps /\
     forall k, (k < length Xhat)%nat -> hsi_ok m (hs_rows m A b L Linv Xhat k) (hsi (hs_rows m A b L Linv Xhat k))) ->
  exists Y, coffeehouse N L (voronoi_vertex m A b L Linv hsi inside) x0 = Some Y /\ length Y = N /\ Forall (inP m A b) Y /\
    forall Z : mat, length Z = N -> Forall (inP m A b) Z -> (2 <= N)%nat ->
      exists i j, (i < j < N)%nat /\ forall p q, (p < q < N)%nat -> Ldist L (nth i Z []) (nth j Z []) <= 2 * Ldist L (nth p Y []) (nth q Y []) + 4 * eps.
Proof.
  intros inside eps x0 N HN P0 HIn HC. assert (FAR : farthest (inP m A b) L eps (voronoi_vertex m A b L Linv hsi inside)).
  { intros Xhat NE FX. destruct (HC Xhat NE FX) as [HE HH]. destruct (fill_exact0 inside Xhat NE FX HIn HH) as [U _]. destruct (vor_far inside Xhat NE FX HIn HH) as [FV HV]. split; auto.
    set (V := voronoi_vertex m A b L Linv hsi inside Xhat) in *. assert (NV : V <> []). { destruct Xhat as [|x X]; [congruence|]. inversion FX; subst. destruct (HV x H1) as [v [Iv _]]. intro E. rewrite E in Iv. destruct Iv. }
    destruct (vmax_map_at vec (mind L Xhat) V NV) as [w [Iw Ew]]. exists w. split; auto. intros x Px. pose proof (U x Px) as Q. unfold fill_dist in Q. fold V in Q. rewrite Ew in Q. lra. }
  assert (E0 : 0 <= eps). { destruct (HC [x0] ltac:(discriminate) ltac:(auto)) as [HE _]. pose proof atol_pos. assert (0 <= fro L) by apply sqrt_pos. pose proof (pos_INR (length (vor_all m A b L Linv hsi [x0]))). eapply Rle_trans; [|exact HE]. apply Rmult_le_pos; [auto|apply Rmult_le_pos; lra]. }
  destruct (coffeehouse_2opt (inP m A b) L eps (voronoi_vertex m A b L Linv hsi inside) x0 N HN E0 P0 FAR) as [Y [E [LY [FY [_ H]]]]]. exists Y. auto.
Qed.
End Vor.

Theorem fill_exact : forall m A b L Linv hsi, inverse_of m L Linv -> forall inside Xhat, Xhat <> [] -> Forall (inP m A b) Xhat -> (forall x, inP m A b x -> inside x = true) ->
  (forall k, (k < length Xhat)%nat -> hsi_ok m (hs_rows m A b L Linv Xhat k) (hsi (hs_rows m A b L Linv Xhat k))) ->
  let d := fill_dist L Xhat (voronoi_vertex m A b L Linv hsi inside Xhat) in let eps := fro L * (INR (length (vor_all m A b L Linv hsi Xhat)) * atol) in
  (forall x, inP m A b x -> mind L Xhat x <= d + eps) /\ exists x, inP m A b x /\ mind L Xhat x = d.
Proof. intros m A b L Linv hsi HI. apply (fill_exact0 m A b L Linv hsi HI). Qed.
Theorem coffeehouse_vor : forall m A b L Linv hsi, inverse_of m L Linv -> forall inside eps x0 N, (1 <= N)%nat -> inP m A b x0 -> (forall x, inP m A b x -> inside x = true) ->
  (forall Xhat, Xhat <> [] -> Forall (inP m A b) Xhat -> fro L * (INR (length (vor_all m A b L Linv hsi Xhat)) * atol) <= eps /\
     forall k, (k < length Xhat)%nat -> hsi_ok m (hs_rows m A b L Linv Xhat k) (hsi (hs_rows m A b L Linv Xhat k))) ->
  exists Y, coffeehouse N L (voronoi_vertex m A b L Linv hsi inside) x0 = Some Y /\ length Y = N /\ Forall (inP m A b) Y /\
    forall Z : mat, length Z = N -> Forall (inP m A b) Z -> (2 <= N)%nat ->
      exists i j, (i < j < N)%nat /\ forall p q, (p < q < N)%nat -> Ldist L (nth i Z []) (nth j Z []) <= 2 * Ldist L (nth p Y []) (nth q Y []) + 4 * eps.
Proof. intros m A b L Linv hsi HI. apply (coffeehouse_vor0 m A b L Linv hsi HI). Qed.
