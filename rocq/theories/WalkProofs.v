(** The Voronoi vertex walk (vertex.py voronoi_vertex_sample): stays in the domain, nearest site, distance. *)
Require Import Reals Lra Lia List Bool Arith ZArith Permutation Sorted.
From Verif Require Import RVec Num Sums DomModel DomSpec DomProofs DomMoreModel SweepProofs HullProofs HullIneqProofs LipModel LipProofs MatLib GrassLib SampModel PigeonLib LatinProofs PoissonProofs PoissonCases DesignProofs CoffeeProofs GeoModel GeoProofs VoronoiProofs.
Import ListNotations.
Local Open Scope R_scope.

(** what the economic QR factorization promises: orthonormal columns whose span contains the given columns *)
Definition qr_ok (m : nat) (ns Q : mat) : Prop :=
  Forall (fun q => length q = m) Q /\ orthonormal Q /\ forall c, In c ns -> c = lincomb m Q (mv Q c).
(** ord is an argsort of the distances as far as its first entry goes: a valid index of a nearest site *)
Definition first_nearest (L Xhat : mat) (ord : list nat) (x : vec) : Prop :=
  (forall j, (j < length Xhat)%nat -> (nth j ord O < length Xhat)%nat) /\ forall xhat, In xhat Xhat -> Ldist L x (site Xhat ord 0) <= Ldist L x xhat.

Lemma ltl_dot : forall m L d h, Forall (fun r => length r = m) L -> dot (ltl m L d) h = dot (mv L d) (mv L h).
Proof. intros m L d h F. unfold ltl. rewrite dot_comm. apply dot_lincomb. auto. Qed.
Lemma ltl_length : forall m L d, Forall (fun r => length r = m) L -> length (ltl m L d) = m.
Proof. intros. apply lincomb_length. auto. Qed.
(** the projected direction is orthogonal to every column, and to the removed part *)
Lemma proj_perp : forall m ns Q h c, qr_ok m ns Q -> length h = m -> In c ns -> dot c (proj_out Q h) = 0.
Proof.
  intros m ns Q h c [FQ [OQ SQ]] Hh Ic. rewrite (SQ c Ic). unfold proj_out. rewrite Hh. rewrite dot_vsub_r by (rewrite !lincomb_length; auto).
  rewrite (dot_lincomb2 m) by (auto; rewrite mv_length; auto). rewrite (dot_comm (lincomb m Q (mv Q c)) h), (dot_lincomb m) by auto. ring.
Qed.
Lemma proj_self : forall m Q h g, Forall (fun q => length q = m) Q -> orthonormal Q -> length h = m -> length g = m -> dot h (proj_out Q g) = dot (proj_out Q h) (proj_out Q g).
Proof.
  intros m Q h g FQ OQ Hh Hg. unfold proj_out. rewrite Hh, Hg. rewrite dot_vsub_l by (rewrite ?vsub_length, ?lincomb_length; auto).
  rewrite (dot_vsub_r (lincomb m Q (mv Q h))) by (rewrite !lincomb_length; auto). rewrite (dot_lincomb2 m) by (auto; rewrite mv_length; auto). rewrite (dot_comm (lincomb m Q (mv Q h)) g), (dot_lincomb m) by auto. ring.
Qed.
Lemma qr_ok_nil_dir : forall m L qr rnd ns g x0 xh, Forall (fun r => length r = m) L -> (ns <> [] -> qr_ok m ns (qr ns)) -> length g = m -> length x0 = m -> length xh = m ->
  let h := vv_dir m L qr rnd ns g x0 xh in length h = m /\ forall c, In c ns -> dot c h = 0.
Proof.
  intros m L qr rnd ns g x0 xh F HQ Hg Hx Hh h. unfold h, vv_dir. assert (L0 : length (ltl m L (vsub x0 xh)) = m) by (apply ltl_length; auto). destruct ns as [|c0 ns]; [split; [auto|intros c []]|].
  set (cs := c0 :: ns) in *. specialize (HQ ltac:(discriminate)). destruct (np_close (norm2 (proj_out (qr cs) (ltl m L (vsub x0 xh)))) 0 && rnd)%bool;
  (split; [apply proj_out_length; auto; apply HQ|intros c Ic; apply (proj_perp m cs); auto]).
Qed.

Lemma omin_list_le : forall l a, In (Some a) l -> exists m, omin_list l = Some m /\ m <= a.
Proof.
  induction l as [|o l IH]; intros a I; [destruct I|]. cbn [omin_list fold_right]. fold (omin_list l). destruct I as [->|I].
  - destruct (omin_list l) as [z|]; simpl; [exists (Rmin a z); split; auto; apply Rmin_l|exists a; split; auto; lra].
  - destruct (IH a I) as [z [-> Hz]]. destruct o as [y|]; simpl; [exists (Rmin y z); split; auto; pose proof (Rmin_r y z); lra|exists z; auto].
Qed.
Lemma omin_list_ge : forall l a c, omin_list l = Some a -> (forall z, In (Some z) l -> c <= z) -> c <= a.
Proof.
  induction l as [|o l IH]; intros a c E H; [discriminate|]. cbn [omin_list fold_right] in E. fold (omin_list l) in E. destruct o as [y|]; destruct (omin_list l) as [z|] eqn:EZ; simpl in E; try discriminate; injection E as <-.
  - apply Rmin_glb; [apply H; left; auto|apply (IH z c); auto; intros; apply H; right; auto].
  - apply H. left. auto.
  - apply (IH z c); auto; intros; apply H; right; auto.
Qed.

Section Alpha.
Variables (L A : mat) (b : vec) (Xhat : mat) (x0 xh h : vec).
Definition al : R := vv_alpha L A b Xhat x0 xh h.
Lemma alpha_nonneg : 0 <= al.
Proof.
  unfold al, vv_alpha. set (fa := if small_dir h then Some 0 else omin_list (map (face_alpha x0 h) (combine A b))). set (sa := omin_list (map (site_alpha L x0 xh h) Xhat)).
  assert (FA : forall z, fa = Some z -> 0 <= z).
  { unfold fa. intros z E. destruct (small_dir h); [injection E as <-; lra|]. apply (omin_list_ge _ _ _ E). intros y I. apply in_map_iff in I. destruct I as [p [E' _]]. unfold face_alpha in E'.
    destruct (Reqb _ _); [discriminate|]. destruct (Rleb _ 0) eqn:R; [discriminate|]. injection E' as <-. apply Rleb_false in R. lra. }
  assert (SA : forall z, sa = Some z -> 0 <= z).
  { unfold sa. intros z E. apply (omin_list_ge _ _ _ E). intros y I. apply in_map_iff in I. destruct I as [p [E' _]]. unfold site_alpha in E'.
    destruct (np_close _ _); [discriminate|]. destruct (Rltb _ 0) eqn:R; [discriminate|]. injection E' as <-. apply Rltb_false in R. lra. }
  destruct sa as [s|], fa as [f|]; simpl; try lra; [apply Rmin_glb|..]; auto.
Qed.
Lemma alpha_face : forall p z, In p (combine A b) -> face_alpha x0 h p = Some z -> al <= z.
Proof.
  intros p z I E. assert (Z : 0 <= z). { unfold face_alpha in E. destruct (Reqb _ _); [discriminate|]. destruct (Rleb _ 0) eqn:R; [discriminate|]. injection E as <-. apply Rleb_false in R. lra. }
  unfold al, vv_alpha. destruct (small_dir h).
  - destruct (omin_list (map (site_alpha L x0 xh h) Xhat)) as [s|]; simpl; [pose proof (Rmin_r s 0)|]; lra.
  - destruct (omin_list_le (map (face_alpha x0 h) (combine A b)) z) as [f [-> Hf]]; [rewrite <- E; apply in_map; auto|].
    destruct (omin_list (map (site_alpha L x0 xh h) Xhat)) as [s|]; simpl; [pose proof (Rmin_r s f)|]; lra.
Qed.
Lemma alpha_site : forall xhat z, In xhat Xhat -> site_alpha L x0 xh h xhat = Some z -> al <= z.
Proof.
  intros xhat z I E. unfold al, vv_alpha. destruct (omin_list_le (map (site_alpha L x0 xh h) Xhat) z) as [s [-> Hs]]; [rewrite <- E; apply in_map; auto|].
  destruct (if small_dir h then Some 0 else omin_list (map (face_alpha x0 h) (combine A b))) as [f|]; simpl; [pose proof (Rmin_l s f)|]; lra.
Qed.
End Alpha.

(** ** one step *)
Lemma sq_mono : forall a c : R, 0 <= a -> 0 <= c -> a * a <= c * c -> a <= c. Proof. intros. apply Rsqr_incr_0_var; auto. Qed.
Definition step_h (m : nat) (L A : mat) (b : vec) (Aeq Xhat : mat) (qr : mat -> mat) (rnd : bool) (ord : list nat) (g : vec) (k : nat) (x0 : vec) : vec :=
  vv_dir m L qr rnd (vv_null m L A b Aeq Xhat ord k x0) g x0 (site Xhat ord 0).
Definition step_al m L A b Aeq Xhat qr rnd ord g k x0 : R := al L A b Xhat x0 (site Xhat ord 0) (step_h m L A b Aeq Xhat qr rnd ord g k x0).
Lemma vv_step_eq : forall m L A b Aeq Xhat qr rnd ord g k x0, vv_step m L A b Aeq Xhat qr rnd ord g k x0 = vadd x0 (vscale (step_al m L A b Aeq Xhat qr rnd ord g k x0) (step_h m L A b Aeq Xhat qr rnd ord g k x0)).
Proof. reflexivity. Qed.

(** the setting of one step: sizes, start in the domain, factorization and sorting contracts *)
Definition step_pre (m : nat) (L A : mat) (b : vec) (Aeq Xhat : mat) (qr : mat -> mat) (ord : list nat) (g : vec) (k : nat) (x0 : vec) : Prop :=
  Forall (fun r => length r = m) L /\ Forall (fun a => length a = m) A /\ Forall (fun a => length a = m) Aeq /\ Xhat <> [] /\ Forall (fun x => length x = m) Xhat /\ length g = m /\
  inP m A b x0 /\ first_nearest L Xhat ord x0 /\
  let ns := vv_null m L A b Aeq Xhat ord k x0 in ns <> [] -> qr_ok m ns (qr ns).

Section Step.
Variables (m : nat) (L A : mat) (b : vec) (Aeq Xhat : mat) (qr : mat -> mat) (rnd : bool) (ord : list nat) (g : vec) (k : nat) (x0 : vec).
Hypothesis PRE : step_pre m L A b Aeq Xhat qr ord g k x0.
Notation h := (step_h m L A b Aeq Xhat qr rnd ord g k x0).
Notation a0 := (step_al m L A b Aeq Xhat qr rnd ord g k x0).
Notation x' := (vv_step m L A b Aeq Xhat qr rnd ord g k x0).
Notation xh := (site Xhat ord 0).

Lemma xh_in : In xh Xhat.
Proof. destruct PRE as [_ [_ [_ [NE [_ [_ [_ [[H _] _]]]]]]]]. unfold site. apply nth_In. apply H. destruct Xhat; [congruence|simpl; lia]. Qed.
Lemma xh_len : length xh = m.
Proof. destruct PRE as [_ [_ [_ [_ [F _]]]]]. rewrite Forall_forall in F. apply F, xh_in. Qed.
Lemma h_ok : length h = m /\ forall c, In c (vv_null m L A b Aeq Xhat ord k x0) -> dot c h = 0.
Proof. destruct PRE as [HL [_ [_ [_ [_ [Hg [[Hx _] [_ HQ]]]]]]]]. apply qr_ok_nil_dir; auto. apply xh_len. Qed.
Lemma x0_len : length x0 = m. Proof. destruct PRE as [_ [_ [_ [_ [_ [_ [[Hx _] _]]]]]]]. auto. Qed.

(** the step stays in the domain, and on the affine space of the equality constraints *)
Lemma step_inside : inP m A b x' /\ forall a, In a Aeq -> dot a x' = dot a x0.
Proof.
  destruct h_ok as [Lh Ph]. pose proof x0_len as Lx. pose proof PRE as [_ [_ [_ [_ [_ [_ [[_ S0] _]]]]]]]. rewrite vv_step_eq.
  assert (E : forall a : vec, dot a (vadd x0 (vscale a0 h)) = dot a x0 + a0 * dot a h) by (intro a; rewrite dot_vadd_r, dot_vscale_r by (rewrite vscale_length; congruence); auto).
  split; [split|].
  - rewrite vadd_length; rewrite ?vscale_length; congruence.
  - intros a c I. rewrite E. pose proof (S0 a c I) as B0. pose proof (alpha_nonneg L A b Xhat x0 xh h) as AN. fold a0 in AN.
    destruct (np_close (dot a x0) c) eqn:NC.
    + rewrite Ph; [lra|]. unfold vv_null. apply in_or_app. right. apply in_or_app. left. apply in_map_iff. exists (a, c). split; auto. apply filter_In. auto.
    + destruct (Rle_or_lt (dot a h) 0) as [N|P]; [nra|].
      assert (B1 : dot a x0 < c). { destruct B0 as [B0|B0]; auto. rewrite B0, np_close_refl in NC. discriminate. }
      assert (FA : face_alpha x0 h (a, c) = Some ((c - dot a x0) / dot a h)).
      { unfold face_alpha. cbn [fst snd]. destruct (Reqb (dot a h) 0) eqn:Q; [apply Reqb_true in Q; lra|]. assert (0 < (c - dot a x0) / dot a h) by (apply Rdiv_lt_0_compat; lra). destruct (Rleb _ 0) eqn:R; [apply Rleb_true in R; lra|auto]. }
      pose proof (alpha_face L A b Xhat x0 xh h (a, c) _ I FA) as AL. fold a0 in AL.
      assert (a0 * dot a h <= (c - dot a x0) / dot a h * dot a h) by (apply Rmult_le_compat_r; lra). unfold Rdiv in H. rewrite Rmult_assoc, Rinv_l in H by lra. unfold step_al in *. lra.
  - intros a I. rewrite E, Ph; [ring|]. unfold vv_null. apply in_or_app. auto.
Qed.

(** the quantity the separating plane test looks at: half the difference of squared distances *)
Lemma plane : forall xhat x, length xhat = m -> length x = m ->
  dot (vsub (mv L x) (vscale (1/2) (mv L (vadd xhat xh)))) (mv L (vsub xhat xh)) = (Ldist L x xh * Ldist L x xh - Ldist L x xhat * Ldist L x xhat) / 2.
Proof.
  intros xhat x H1 H2. pose proof xh_len as H3. unfold Ldist. rewrite !norm2_sq. rewrite mv_vadd, mv_vsub by congruence. unfold norm2sq.
  set (p := mv L x). set (q := mv L xhat). set (r := mv L xh). assert (Lp : length p = length L) by (apply mv_length). assert (Lq : length q = length L) by (apply mv_length). assert (Lr : length r = length L) by (apply mv_length).
  assert (length (vadd q r) = length L) by (rewrite vadd_length; congruence).
  rewrite (dot_vsub_l (vsub q r) p (vscale (1/2) (vadd q r))) by (rewrite ?vscale_length; congruence). rewrite dot_vscale_l, dot_vadd_l by congruence. rewrite !dot_vsub_r by (rewrite ?vsub_length; congruence). rewrite !dot_vsub_l by congruence.
  rewrite (dot_comm r q), (dot_comm q p), (dot_comm r p). field.
Qed.
Definition nh (xhat : vec) : R := dot (mv L (vsub xhat xh)) (mv L h).
Lemma plane_step : forall xhat, length xhat = m ->
  (Ldist L x' xh * Ldist L x' xh - Ldist L x' xhat * Ldist L x' xhat) / 2 = (Ldist L x0 xh * Ldist L x0 xh - Ldist L x0 xhat * Ldist L x0 xhat) / 2 + a0 * nh xhat.
Proof.
  intros xhat Hl. destruct h_ok as [Lh _]. pose proof x0_len as Lx. assert (Lx' : length x' = m) by apply step_inside. rewrite <- !plane by auto. rewrite vv_step_eq. unfold nh.
  rewrite mv_vadd, mv_vscale by (rewrite vscale_length; congruence). set (n := mv L (vsub xhat xh)). assert (Ln : length n = length L) by apply mv_length.
  assert (length (mv L (vadd xhat xh)) = length L) by apply mv_length. assert (length (mv L x0) = length L) by apply mv_length. assert (length (mv L h) = length L) by apply mv_length.
  assert (length (vadd (mv L x0) (vscale a0 (mv L h))) = length L) by (rewrite vadd_length; rewrite ?vscale_length; congruence).
  rewrite !dot_vsub_l by (rewrite ?vscale_length; congruence). rewrite dot_vadd_l, dot_vscale_l by (rewrite ?vscale_length; congruence). rewrite (dot_comm (mv L h) n). ring.
Qed.
(** the nearest site stays nearest up to the tolerance of the plane test ... *)
Lemma step_nearest : forall xhat, In xhat Xhat ->
  Ldist L x' xh * Ldist L x' xh <= Ldist L x' xhat * Ldist L x' xhat + (if np_close (Rabs (nh xhat)) 0 then 2 * a0 * Rmax 0 (nh xhat) else 0).
Proof.
  intros xhat I. assert (Hl : length xhat = m) by (destruct PRE as [_ [_ [_ [_ [F _]]]]]; rewrite Forall_forall in F; auto). pose proof (plane_step xhat Hl) as PS.
  pose proof (alpha_nonneg L A b Xhat x0 xh h) as AN. change (al L A b Xhat x0 xh h) with a0 in AN. destruct PRE as [_ [_ [_ [_ [_ [_ [_ [[_ N0] _]]]]]]]]. specialize (N0 xhat I).
  pose proof (norm2_nonneg (vsub (mv L x0) (mv L xh))) as P1. fold (Ldist L x0 xh) in P1. assert (F0 : Ldist L x0 xh * Ldist L x0 xh <= Ldist L x0 xhat * Ldist L x0 xhat) by nra.
  pose proof (Rmax_l 0 (nh xhat)) as M1. pose proof (Rmax_r 0 (nh xhat)) as M2.
  destruct (np_close (Rabs (nh xhat)) 0) eqn:NC.
  - assert (a0 * nh xhat <= a0 * Rmax 0 (nh xhat)) by (apply Rmult_le_compat_l; auto). unfold step_al in *. lra.
  - destruct (Rle_or_lt (nh xhat) 0) as [N|P]; [assert (a0 * nh xhat <= 0) by (rewrite <- (Rmult_0_r a0); apply Rmult_le_compat_l; auto); lra|].
    set (num := - ((Ldist L x0 xh * Ldist L x0 xh - Ldist L x0 xhat * Ldist L x0 xhat) / 2)) in *. assert (Nn : 0 <= num) by (unfold num; lra).
    assert (0 <= num / nh xhat) by (apply Rmult_le_pos; [auto|left; apply Rinv_0_lt_compat; auto]).
    assert (SA : site_alpha L x0 xh h xhat = Some (num / nh xhat)).
    { unfold site_alpha. fold (nh xhat). rewrite NC. rewrite plane by (auto using x0_len). fold num. destruct (Rltb _ 0) eqn:R; [apply Rltb_true in R; lra|auto]. }
    pose proof (alpha_site L A b Xhat x0 xh h xhat _ I SA) as AL. fold a0 in AL. assert (a0 * nh xhat <= num / nh xhat * nh xhat) by (apply Rmult_le_compat_r; [lra|exact AL]).
    unfold Rdiv in H0. rewrite Rmult_assoc, Rinv_l in H0 by lra. unfold num in *. lra.
Qed.
(** ... and the squared distance to it does not decrease, up to the tolerance of the random restart *)
Lemma step_distance : Ldist L x0 xh * Ldist L x0 xh <= Ldist L x' xh * Ldist L x' xh + (if rnd then 2 * atol * edist x' x0 else 0).
Proof.
  destruct h_ok as [Lh _]. pose proof x0_len as Lx. pose proof xh_len as Lxh. pose proof PRE as [FL _]. set (d := vsub x0 xh). assert (Ld : length d = m) by (unfold d; rewrite vsub_length; congruence).
  pose proof (alpha_nonneg L A b Xhat x0 xh h) as AN. fold a0 in AN. change (al L A b Xhat x0 xh h) with a0 in AN.
  assert (D0 : Ldist L x0 xh * Ldist L x0 xh = norm2sq (mv L d)) by (unfold Ldist, d; rewrite norm2_sq, mv_vsub by congruence; auto).
  assert (D1 : Ldist L x' xh * Ldist L x' xh = norm2sq (mv L d) + 2 * a0 * dot (ltl m L d) h + a0 * a0 * norm2sq (mv L h)).
  { unfold Ldist. rewrite norm2_sq, vv_step_eq. rewrite <- mv_vsub by (rewrite vadd_length; rewrite ?vscale_length; congruence).
    assert (E : vsub (vadd x0 (vscale a0 h)) xh = vadd d (vscale a0 h)).
    { apply vec_ext; [unfold d; rewrite vsub_length, !vadd_length; rewrite ?vsub_length, ?vscale_length, ?vadd_length; rewrite ?vscale_length; congruence|]. intros i Hi. unfold d.
      rewrite vsub_get by (rewrite vadd_length; rewrite ?vscale_length; congruence). rewrite !vadd_get by (rewrite ?vsub_length, ?vscale_length; congruence). rewrite vsub_get by congruence. ring. }
    rewrite E, mv_vadd, mv_vscale by (rewrite vscale_length; congruence). rewrite (ltl_dot m) by auto. unfold norm2sq.
    assert (length (mv L d) = length L) by apply mv_length. assert (length (mv L h) = length L) by apply mv_length.
    rewrite dot_vadd_l, !dot_vadd_r by (rewrite ?vadd_length; rewrite ?vscale_length; congruence). rewrite !dot_vscale_l, !dot_vscale_r. rewrite (dot_comm (mv L h) (mv L d)). ring. }
  rewrite D0, D1. pose proof (norm2sq_nonneg (mv L h)) as N2. assert (0 <= a0 * a0 * norm2sq (mv L h)) by (apply Rmult_le_pos; [nra|auto]).
  assert (CASE : 0 <= dot (ltl m L d) h \/ (rnd = true /\ - (atol * norm2 h) <= dot (ltl m L d) h)).
  { pose proof PRE as [_ [_ [_ [_ [_ [Hg [_ [_ HQ]]]]]]]]. cbv zeta in HQ. unfold step_h, vv_dir. fold d. destruct (vv_null m L A b Aeq Xhat ord k x0) as [|c cs]; [left; apply (norm2sq_nonneg (ltl m L d))|].
    specialize (HQ ltac:(discriminate)). destruct HQ as [FQ [OQ _]]. set (Q := qr (c :: cs)) in *. assert (Lt : length (ltl m L d) = m) by (apply ltl_length; auto).
    destruct (np_close (norm2 (proj_out Q (ltl m L d))) 0) eqn:NC; [destruct rnd|]; cbn [andb].
    - right. split; auto. rewrite (proj_self m) by auto. set (u := proj_out Q (ltl m L d)) in *. set (w := proj_out Q g). assert (length u = m) by (apply proj_out_length; auto). assert (length w = m) by (apply proj_out_length; auto).
      assert (norm2 u <= atol). { unfold np_close in NC. apply Rleb_true in NC. rewrite Rminus_0_r, Rabs_R0, Rmult_0_r, Rplus_0_r in NC. pose proof (Rle_abs (norm2 u)). lra. }
      pose proof (cauchy_schwarz (vscale (-1) u) w ltac:(rewrite vscale_length; congruence)) as CS. rewrite dot_vscale_l, norm2_vscale in CS. replace (Rabs (-1)) with 1 in CS by (rewrite Rabs_left; lra). pose proof (norm2_nonneg w). assert (norm2 u * norm2 w <= atol * norm2 w) by (apply Rmult_le_compat_r; auto). lra.
    - left. rewrite (proj_self m) by auto. apply (norm2sq_nonneg (proj_out Q (ltl m L d))).
    - left. rewrite (proj_self m) by auto. apply (norm2sq_nonneg (proj_out Q (ltl m L d))). }
  assert (ED : edist x' x0 = a0 * norm2 h).
  { unfold edist. rewrite vv_step_eq. assert (E : vsub (vadd x0 (vscale a0 h)) x0 = vscale a0 h).
    { apply vec_ext; [rewrite vsub_length, vscale_length; rewrite ?vadd_length; rewrite ?vscale_length; congruence|]. intros i Hi. rewrite vsub_get by (rewrite vadd_length; rewrite ?vscale_length; congruence). rewrite vadd_get by (rewrite vscale_length; congruence). ring. }
    rewrite E, norm2_vscale, Rabs_right by lra. auto. }
  pose proof atol_pos as AP. destruct CASE as [C|[Er C]].
  - assert (0 <= 2 * a0 * dot (ltl m L d) h) by (apply Rmult_le_pos; [lra|auto]). assert (0 <= edist x' x0) by apply norm2_nonneg. assert (0 <= 2 * atol * edist x' x0) by (apply Rmult_le_pos; lra). assert (0 <= if rnd then 2 * atol * edist x' x0 else 0) by (destruct rnd; lra). lra.
  - assert (EI : (if rnd then 2 * atol * edist x' x0 else 0) = 2 * atol * edist x' x0) by (rewrite Er; auto). rewrite EI, ED. assert (2 * a0 * (- (atol * norm2 h)) <= 2 * a0 * dot (ltl m L d) h) by (apply Rmult_le_compat_l; lra). lra.
Qed.
End Step.

(** the three claims about one step, with the tolerances of the code made explicit *)
Theorem vv_step_correct : forall m L A b Aeq Xhat qr rnd ord g k x0, step_pre m L A b Aeq Xhat qr ord g k x0 ->
  let x' := vv_step m L A b Aeq Xhat qr rnd ord g k x0 in let xh := site Xhat ord 0 in
  let nh xhat := dot (mv L (vsub xhat xh)) (mv L (step_h m L A b Aeq Xhat qr rnd ord g k x0)) in
  inP m A b x' /\ (forall a, In a Aeq -> dot a x' = dot a x0) /\
  (forall xhat, In xhat Xhat -> nh xhat <= 0 \/ atol < nh xhat -> Ldist L x' xh <= Ldist L x' xhat) /\
  (rnd = false -> Ldist L x0 xh <= Ldist L x' xh) /\
  Ldist L x0 xh * Ldist L x0 xh <= Ldist L x' xh * Ldist L x' xh + 2 * atol * edist x' x0.
Proof.
  intros m L A b Aeq Xhat qr rnd ord g k x0 PRE x' xh nh0. destruct (step_inside m L A b Aeq Xhat qr rnd ord g k x0 PRE) as [I1 I2]. split; auto. split; auto. split; [|split].
  - intros xhat I H. apply sq_mono; try apply norm2_nonneg. pose proof (step_nearest m L A b Aeq Xhat qr rnd ord g k x0 PRE xhat I) as S.
    change (nh m L A b Aeq Xhat qr rnd ord g k x0 xhat) with (nh0 xhat) in S. fold xh in S. fold x' in S. destruct (np_close (Rabs (nh0 xhat)) 0) eqn:NC; [|lra].
    assert (nh0 xhat <= 0). { destruct H as [H|H]; auto. unfold np_close in NC. apply Rleb_true in NC. rewrite Rminus_0_r, Rabs_R0, Rmult_0_r, Rplus_0_r in NC. pose proof (Rle_abs (Rabs (nh0 xhat))). pose proof (Rle_abs (nh0 xhat)). lra. }
    rewrite Rmax_left in S by auto. lra.
  - intros ->. apply sq_mono; try apply norm2_nonneg. pose proof (step_distance m L A b Aeq Xhat qr false ord g k x0 PRE) as S. cbv iota in S. fold xh x' in S. lra.
  - pose proof (step_distance m L A b Aeq Xhat qr rnd ord g k x0 PRE) as S. fold xh x' in S. destruct rnd; auto. pose proof atol_pos. assert (0 <= edist x' x0) by apply norm2_nonneg. assert (0 <= 2 * atol * edist x' x0) by (apply Rmult_le_pos; lra). lra.
Qed.

Section WalkS.
Variables (m : nat) (L A : mat) (b : vec) (Aeq Xhat : mat) (qr : mat -> mat) (rnd : bool) (ords : vec -> list nat) (gs : nat -> vec).
Definition walk_pre : Prop :=
  Forall (fun r => length r = m) L /\ Forall (fun a => length a = m) A /\ Forall (fun a => length a = m) Aeq /\ Xhat <> [] /\ Forall (fun x => length x = m) Xhat /\ (forall k, length (gs k) = m) /\
  (forall x, inP m A b x -> first_nearest L Xhat (ords x) x) /\ (forall ns, ns <> [] -> Forall (fun c => length c = m) ns -> qr_ok m ns (qr ns)).
Hypothesis WP : walk_pre.
Notation walk n k x0 := (vv_walk n k m L A b Aeq Xhat qr rnd ords gs x0).

Lemma walk_S : forall n k x0, walk (S n) k x0 = let x := walk n k x0 in vv_step m L A b Aeq Xhat qr rnd (ords x) (gs (k + n)%nat) (k + n) x.
Proof.
  induction n as [|n IH]; intros k x0; [simpl; rewrite Nat.add_0_r; auto|]. cbn [vv_walk] in IH |- *. rewrite (IH (S k)). cbv zeta. replace (S k + n)%nat with (k + S n)%nat by lia. auto.
Qed.
Lemma walk_step_pre : forall k x, inP m A b x -> step_pre m L A b Aeq Xhat qr (ords x) (gs k) k x.
Proof.
  intros k x Hx. destruct WP as [W1 [W2 [W3 [W4 [W5 [W6 [W7 W8]]]]]]]. do 5 (split; auto). split; auto. split; auto. split; auto. cbv zeta. intro NE. apply W8; auto.
  unfold vv_null. apply Forall_app. split; auto. apply Forall_app. split.
  - apply Forall_forall. intros c I. apply in_map_iff in I. destruct I as [[a t] [<- I]]. apply filter_In in I. destruct I as [I _]. apply in_combine_l in I. rewrite Forall_forall in W2. apply W2. auto.
  - apply Forall_forall. intros c I. apply in_map_iff in I. destruct I as [j [<- _]]. apply ltl_length. auto.
Qed.
Lemma walk_inside0 : forall n k x0, inP m A b x0 -> inP m A b (walk n k x0) /\ forall a, In a Aeq -> dot a (walk n k x0) = dot a x0.
Proof.
  induction n as [|n IH]; intros k x0 H; [simpl; auto|]. rewrite walk_S. cbv zeta. destruct (IH k x0 H) as [I1 I2]. pose proof (walk_step_pre (k + n) _ I1) as SP.
  destruct (vv_step_correct m L A b Aeq Xhat qr rnd _ _ _ _ SP) as [J1 [J2 _]]. split; auto. intros a Ia. rewrite J2 by auto. auto.
Qed.
(** no site with a positive but tiny normal component is met on the way *)
Definition clean_step (k : nat) (x : vec) : Prop :=
  forall xhat, In xhat Xhat -> let xh := site Xhat (ords x) 0 in let v := dot (mv L (vsub xhat xh)) (mv L (step_h m L A b Aeq Xhat qr rnd (ords x) (gs k) k x)) in v <= 0 \/ atol < v.
Lemma walk_far0 : forall n k x0 Dm, inP m A b x0 -> (forall x y, inP m A b x -> inP m A b y -> edist x y <= Dm) ->
  (forall i, (i < n)%nat -> clean_step (k + i) (walk i k x0)) ->
  mind L Xhat x0 * mind L Xhat x0 <= mind L Xhat (walk n k x0) * mind L Xhat (walk n k x0) + (if rnd then INR n * (2 * atol * Dm) else 0).
Proof.
  induction n as [|n IH]; intros k x0 Dm H HD HC; [simpl; destruct rnd; lra|]. rewrite walk_S. cbv zeta. destruct (walk_inside0 n k x0 H) as [I1 _]. specialize (IH k x0 Dm H HD ltac:(intros; apply HC; lia)).
  set (x := walk n k x0) in *. pose proof (walk_step_pre (k + n) x I1) as SP. pose proof (HC n ltac:(lia)) as CL. fold x in CL. unfold clean_step in CL.
  destruct (vv_step_correct m L A b Aeq Xhat qr rnd _ _ _ _ SP) as [J1 [_ [J3 _]]]. pose proof (step_distance m L A b Aeq Xhat qr rnd _ _ _ _ SP) as J4.
  set (x' := vv_step m L A b Aeq Xhat qr rnd (ords x) (gs (k + n)%nat) (k + n) x) in *. set (xh := site Xhat (ords x) 0) in *.
  pose proof WP as [_ [_ [_ [NE [_ [_ [FN _]]]]]]]. destruct (FN x I1) as [F1 F2]. fold xh in F2.
  assert (Ixh : In xh Xhat) by (unfold xh, site; apply nth_In; apply F1; destruct Xhat; [congruence|simpl; lia]).
  assert (M0 : mind L Xhat x = Ldist L x xh).
  { apply Rle_antisym; [rewrite Ldist_sym; apply mind_le; auto|]. destruct (mind_at L Xhat x NE) as [z [Iz ->]]. rewrite (Ldist_sym L z x). auto. }
  assert (M1 : mind L Xhat x' = Ldist L x' xh).
  { apply Rle_antisym; [rewrite Ldist_sym; apply mind_le; auto|]. destruct (mind_at L Xhat x' NE) as [z [Iz ->]]. rewrite (Ldist_sym L z x'). apply J3; auto. }
  rewrite M0 in IH. rewrite M1. destruct rnd; [|lra]. rewrite S_INR. pose proof (HD x' x J1 I1). pose proof atol_pos. assert (2 * atol * edist x' x <= 2 * atol * Dm) by (apply Rmult_le_compat_l; lra). lra.
Qed.
End WalkS.
Theorem walk_inside : forall m L A b Aeq Xhat qr rnd ords gs n x0, walk_pre m L A b Aeq Xhat qr ords gs -> inP m A b x0 ->
  let x := vv_walk n 0 m L A b Aeq Xhat qr rnd ords gs x0 in inP m A b x /\ forall a, In a Aeq -> dot a x = dot a x0.
Proof. intros. apply walk_inside0; auto. Qed.
Theorem walk_far_partial : forall m L A b Aeq Xhat qr rnd ords gs n x0 Dm, walk_pre m L A b Aeq Xhat qr ords gs -> inP m A b x0 -> (forall x y, inP m A b x -> inP m A b y -> edist x y <= Dm) ->
  (forall i, (i < n)%nat -> clean_step m L A b Aeq Xhat qr rnd ords gs i (vv_walk i 0 m L A b Aeq Xhat qr rnd ords gs x0)) ->
  let x := vv_walk n 0 m L A b Aeq Xhat qr rnd ords gs x0 in
  mind L Xhat x0 * mind L Xhat x0 <= mind L Xhat x * mind L Xhat x + (if rnd then INR n * (2 * atol * Dm) else 0).
Proof. intros. apply (walk_far0 m L A b Aeq Xhat qr rnd ords gs H n 0 x0 Dm); auto. Qed.

(** ** the plane test ignores sites whose normal component is below 1e-8, so the point can walk onto another site *)
Definition tA : mat := [[1]; [-1]].
Definition tb : vec := [/10000; 0].
Definition tX : mat := [[0]; [/10000]].
Definition tqr (ns : mat) : mat := [[1]].
Definition tord (x : vec) : list nat := if Rleb (Rabs (vget x 0)) (Rabs (vget x 0 - /10000)) then [0; 1]%nat else [1; 0]%nat.
Lemma Ldist1 : forall x y : R, Ldist [[1]] [x] [y] = Rabs (x - y).
Proof. intros. unfold Ldist, mv. cbn [map]. rewrite !dot_cons, !dot_nil_l. cbn [vsub vmap2]. rewrite norm2_1. f_equal. ring. Qed.
Lemma t_pre : walk_pre 1 [[1]] tA tb [] tX tqr tord (fun _ => [1]).
Proof.
  unfold walk_pre, tA, tX. do 6 (split; [repeat constructor; try discriminate|]). split.
  - intros x [Lx _]. destruct x as [|x [|]]; try discriminate. unfold first_nearest, tord, site. cbn [vget nth length]. destruct (Rleb (Rabs x) (Rabs (x - /10000))) eqn:E; cbn [nth].
    + apply Rleb_true in E. split; [intros [|[|j]] Hj; simpl; lia|]. intros z [<-|[<-|[]]]; rewrite !Ldist1, Rminus_0_r; lra.
    + apply Rleb_false in E. split; [intros [|[|j]] Hj; simpl; lia|]. intros z [<-|[<-|[]]]; rewrite !Ldist1, ?Rminus_0_r; lra.
  - intros ns _ F. split; [repeat constructor|]. split.
    + intros i j Hi Hj. simpl in Hi, Hj. assert (i = O) by lia. assert (j = O) by lia. subst. unfold tqr. cbn [nth Nat.eqb]. rewrite dot_cons, dot_nil_l. ring.
    + intros c Ic. rewrite Forall_forall in F. specialize (F c Ic). destruct c as [|c [|]]; try discriminate. unfold tqr, mv. cbn. rewrite dot_cons, dot_nil_l. f_equal. ring.
Qed.
Lemma np_close0_no : forall t, atol < Rabs t -> np_close t 0 = false.
Proof. intros t H. apply np_close0_f. auto. Qed.
Lemma t_walk : vv_walk 1 0 1 [[1]] tA tb [] tX tqr false tord (fun _ => [1]) [/25000] = [/10000].
Proof.
  cbn [vv_walk]. assert (EO : tord [/25000] = [0;1]%nat). { unfold tord. cbn [vget nth]. destruct (Rleb _ _) eqn:Q; auto. apply Rleb_false in Q. rewrite (Rabs_right (/25000)) in Q by lra. rewrite (Rabs_left (/25000 - /10000)) in Q by lra. lra. }
    rewrite EO. rewrite vv_step_eq. assert (HH : step_h 1 [[1]] tA tb [] tX tqr false [0;1]%nat [1] 0 [/25000] = [/25000]).
    { unfold step_h, vv_dir. assert (NN : vv_null 1 [[1]] tA tb [] tX [0;1]%nat 0 [/25000] = []).
      { unfold vv_null, tA, tb. cbn [app combine map fst snd filter length Nat.min Nat.add Nat.sub seq]. rewrite !dot_cons, !dot_nil_l.
        assert (C1 : np_close (1 * /25000 + 0) (/10000) = false). { unfold np_close. destruct (Rleb _ _) eqn:Q; auto. apply Rleb_true in Q. rewrite (Rabs_left (1 * /25000 + 0 - /10000)) in Q by lra. rewrite (Rabs_right (/10000)) in Q by lra. unfold atol, rtol in Q. lra. }
        assert (C2 : np_close (-1 * /25000 + 0) 0 = false). { apply np_close0_no. rewrite Rabs_left by lra. unfold atol. lra. }
        cbn [filter fst snd]. rewrite C1, C2. cbn. reflexivity. }
      rewrite NN. unfold ltl, site, tX, mv. cbn. rewrite !dot_cons, !dot_nil_l. f_equal. ring. }
    unfold step_al. rewrite HH. unfold al, vv_alpha. 
    assert (SD : small_dir [/25000] = false). { unfold small_dir, vmax. cbn. destruct (Rltb _ _) eqn:Q; auto. apply Rltb_true in Q. rewrite Rabs_right in Q by lra. lra. }
    assert (S1 : site_alpha [[1]] [/25000] (site tX [0;1]%nat 0) [/25000] [0] = None). { unfold site_alpha, site, tX, mv. cbn. rewrite !dot_cons, !dot_nil_l. assert (Q : np_close (Rabs ((1 * (0 - 0) + 0) * (1 * / 25000 + 0) + 0)) 0 = true). { unfold np_close. apply Rleb_true. replace ((1 * (0 - 0) + 0) * (1 * / 25000 + 0) + 0) with 0 by ring. rewrite !Rabs_R0, Rminus_0_r, Rabs_R0. unfold atol. lra. } rewrite Q. auto. }
    assert (S2 : site_alpha [[1]] [/25000] (site tX [0;1]%nat 0) [/25000] [/10000] = None). { unfold site_alpha, site, tX, mv. cbn. rewrite !dot_cons, !dot_nil_l. assert (Q : np_close (Rabs ((1 * (/10000 - 0) + 0) * (1 * / 25000 + 0) + 0)) 0 = true). { unfold np_close. apply Rleb_true. rewrite Rminus_0_r, Rabs_Rabsolu, Rabs_R0, Rabs_right by lra. unfold atol, rtol. lra. } rewrite Q. auto. }
    assert (F1 : face_alpha [/25000] [/25000] ([1], /10000) = Some (3/2)). { unfold face_alpha. cbn [fst snd]. rewrite !dot_cons, !dot_nil_l. destruct (Reqb _ 0) eqn:Q; [apply Reqb_true in Q; lra|]. replace ((/10000 - (1 * /25000 + 0)) / (1 * /25000 + 0)) with (3/2) by lra. destruct (Rleb _ 0) eqn:R; [apply Rleb_true in R; lra|auto]. }
    assert (F2 : face_alpha [/25000] [/25000] ([-1], 0) = None). { unfold face_alpha. cbn [fst snd]. rewrite !dot_cons, !dot_nil_l. destruct (Reqb _ 0) eqn:Q; auto. destruct (Rleb _ 0) eqn:R; auto. apply Rleb_false in R. replace ((0 - (-1 * /25000 + 0)) / (-1 * /25000 + 0)) with (-1) in R by lra. lra. }
    assert (EM : map (site_alpha [[1]] [/25000] (site tX [0;1]%nat 0) [/25000]) tX = [None; None]).
    { change (map (site_alpha [[1]] [/25000] (site tX [0;1]%nat 0) [/25000]) tX) with [site_alpha [[1]] [/25000] (site tX [0;1]%nat 0) [/25000] [0]; site_alpha [[1]] [/25000] (site tX [0;1]%nat 0) [/25000] [/10000]]. rewrite S1, S2. auto. }
    rewrite SD, EM. unfold tA, tb. cbn [map combine]. rewrite F1, F2. cbn. f_equal. lra.
Qed.
Theorem walk_far_refuted : exists m L A b Aeq Xhat qr ords gs x0,
  walk_pre m L A b Aeq Xhat qr ords gs /\ inP m A b x0 /\ 0 < mind L Xhat x0 /\
  let x := vv_walk m 0 m L A b Aeq Xhat qr false ords gs x0 in In x Xhat /\ mind L Xhat x = 0.
Proof.
  exists 1%nat, [[1]], tA, tb, [], tX, tqr, tord, (fun _ => [1]), [/25000]. split; [apply t_pre|].
  split; [split; [auto|]; unfold tA, tb; intros a c [E|[E|[]]]; injection E as <- <-; rewrite dot_cons, dot_nil_l; lra|].
  split. { unfold mind, tX, vmin. cbn [map fold_left]. rewrite !Ldist1. apply Rmin_glb_lt; apply Rabs_pos_lt; lra. }
  pose proof t_walk as E.
  cbv zeta. rewrite E. split; [right; left; auto|]. unfold mind, tX, vmin. cbn [map fold_left]. rewrite !Ldist1. replace (/10000 - /10000) with 0 by ring. rewrite Rabs_R0. apply Rmin_right. apply Rabs_pos.
Qed.
