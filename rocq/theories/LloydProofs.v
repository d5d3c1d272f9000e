(** Lloyd iteration and scaling of minimax designs. *)
Require Import Reals Lra Lia List Bool Arith ZArith.
From Verif Require Import RVec Num Sums DomModel DomSpec DomProofs DomMoreModel SweepProofs HullProofs HullIneqProofs LipModel LipProofs MatLib SampModel PigeonLib LatinProofs PoissonProofs PoissonCases DesignProofs CoffeeProofs GeoModel GeoProofs VoronoiProofs SampMoreModel MinimaxProofs.
Import ListNotations.
Local Open Scope R_scope.

(** site k is a nearest site of x *)
Definition nearest (L Xhat : mat) (k : nat) (x : vec) : Prop := (k < length Xhat)%nat /\ forall z, In z Xhat -> Ldist L (nth k Xhat []) x <= Ldist L z x.
(** V holds the vertices of the bounded Voronoi cells: every point x of the domain is, in the coordinates L x, a convex combination of
    vertices of V that share each of its nearest sites *)
Definition vor_cover (P : vec -> Prop) (L Xhat V : mat) : Prop :=
  Forall P V /\ forall x k, P x -> nearest L Xhat k x -> exists vs, incl vs V /\ (forall v, In v vs -> nearest L Xhat k v) /\ convex_comb (map (mv L) vs) (length L) (mv L x).
(** exact solution of the convex program of minimax_lloyd.py 121-126 *)
Definition radius (L V : mat) (x : vec) : R := vmax (map (Ldist L x) V).
Definition cc_ok (P : vec -> Prop) (L : mat) (cc : mat -> vec) : Prop := forall V, V <> [] -> Forall P V -> P (cc V) /\ forall z, P z -> radius L V (cc V) <= radius L V z.

Lemma nearest_exists : forall L Xhat x, Xhat <> [] -> exists k, nearest L Xhat k x.
Proof.
  intros L Xhat x NE. destruct (mind_at L Xhat x NE) as [c [Ic E]]. destruct (In_nth _ _ [] Ic) as [k [Hk Ek]]. exists k. split; auto. intros z Iz. rewrite Ek, <- E. apply mind_le. auto.
Qed.
Lemma nearest_mind : forall L Xhat k x, nearest L Xhat k x -> Ldist L (nth k Xhat []) x = mind L Xhat x.
Proof.
  intros L Xhat k x [Hk H]. apply Rle_antisym; [|apply mind_le, nth_In; auto]. destruct (mind_at L Xhat x) as [c [Ic ->]]; [intro E; rewrite E in Hk; simpl in Hk; lia|]. auto.
Qed.
Lemma owned_nearest : forall L Xhat V k v, In v V -> nearest L Xhat k v -> In v (owned L Xhat V k).
Proof. intros L Xhat V k v Iv HN. unfold owned. apply filter_In. split; auto. rewrite (nearest_mind L Xhat k v HN). apply np_close_refl. Qed.
Lemma owned_close : forall L Xhat V k v, Xhat <> [] -> In v (owned L Xhat V k) -> In v V /\ Ldist L (nth k Xhat []) v <= (1 + rtol) * mind L Xhat v + atol.
Proof.
  intros L Xhat V k v NE I. unfold owned in I. apply filter_In in I. destruct I as [I C]. split; auto. unfold np_close in C. apply Rleb_true in C. assert (0 <= mind L Xhat v) by (destruct (mind_at L Xhat v NE) as [c [_ ->]]; apply Ldist_nonneg).
  rewrite (Rabs_right (mind L Xhat v)) in C by lra. pose proof (Rle_abs (Ldist L (nth k Xhat []) v - mind L Xhat v)). lra.
Qed.

Section Lloyd.
Variables (P : vec -> Prop) (L : mat) (verts : mat -> mat) (cc : mat -> vec).
Hypothesis HC : cc_ok P L cc.
(** every point of the domain is at most as far from its new centre as the farthest vertex of its old cell was from the old centre *)
Lemma step_core : forall Xhat B, Xhat <> [] -> Forall P Xhat -> vor_cover P L Xhat (verts Xhat) ->
  (forall k v, (k < length Xhat)%nat -> In v (owned L Xhat (verts Xhat) k) -> Ldist L (nth k Xhat []) v <= B) ->
  forall x, P x -> mind L (lloyd_step L verts cc Xhat) x <= B.
Proof.
  intros Xhat B NE FX [FV VC] HB x Px. destruct (nearest_exists L Xhat x NE) as [k Hk]. destruct (VC x k Px Hk) as [vs [I1 [I2 I3]]]. set (V := verts Xhat) in *. set (W := owned L Xhat V k). set (c := cc W).
  assert (NV : vs <> []) by (apply convex_nonempty in I3; intro E; apply I3; rewrite E; auto).
  assert (IW : incl vs W) by (intros v Iv; apply owned_nearest; auto).
  assert (NW : W <> []) by (destruct vs as [|v vs]; [congruence|]; intro E; specialize (IW v ltac:(left; auto)); rewrite E in IW; destruct IW).
  destruct Hk as [Hk Hk2]. assert (Pk : P (nth k Xhat [])) by (rewrite Forall_forall in FX; apply FX, nth_In; auto).
  assert (FW : Forall P W) by (rewrite Forall_forall in FV; apply Forall_forall; intros w Iw; apply FV; unfold W, owned in Iw; apply filter_In in Iw; tauto).
  destruct (HC W NW FW) as [_ HM].
  assert (Ic : In c (lloyd_step L verts cc Xhat)) by (unfold lloyd_step; apply in_map_iff; exists k; split; [reflexivity|apply in_seq; lia]).
  apply Rle_trans with (Ldist L c x); [apply mind_le; auto|].
  assert (NM : map (mv L) vs <> []) by (destruct vs; [congruence|discriminate]).
  destruct (convex_far (length L) (map (mv L) vs) (mv L c) (mv L x)) as [w [Iw Hw]]; auto; [apply Forall_forall; intros w Iw; apply in_map_iff in Iw; destruct Iw as [v [<- _]]; apply mv_length|apply mv_length|].
  apply in_map_iff in Iw. destruct Iw as [v [<- Iv]]. rewrite Ldist_sym. unfold Ldist at 1. apply Rle_trans with (Ldist L c v); [rewrite Ldist_sym; exact Hw|].
  apply Rle_trans with (radius L W c); [unfold radius; apply (vmax_map_ge vec (Ldist L c)); apply IW; auto|]. apply Rle_trans with (radius L W (nth k Xhat [])); [apply HM; auto|].
  apply vmax_map_ub; auto.
Qed.
Lemma step_rows : forall Xhat, length (lloyd_step L verts cc Xhat) = length Xhat.
Proof. intros. unfold lloyd_step. rewrite map_length, seq_length. auto. Qed.
End Lloyd.

(** One iteration does not increase the fill distance by more than the tolerance of np.isclose. *)
Theorem lloyd_step_fill : forall P L verts cc Xhat F, cc_ok P L cc -> Xhat <> [] -> Forall P Xhat -> vor_cover P L Xhat (verts Xhat) ->
  (forall x, P x -> mind L Xhat x <= F) -> forall x, P x -> mind L (lloyd_step L verts cc Xhat) x <= (1 + rtol) * F + atol.
Proof.
  intros P L verts cc Xhat F HC NE FX VC HF x Px. apply (step_core P); auto. intros k v Hk Iv. destruct (owned_close L Xhat (verts Xhat) k v NE Iv) as [IV D]. destruct VC as [FV _]. rewrite Forall_forall in FV. pose proof (HF v (FV v IV)). unfold rtol in *. lra.
Qed.
(** ... and not at all if the vertices assigned to each centre are exactly those of its cell *)
Theorem lloyd_step_monotone_partial : forall P L verts cc Xhat F, cc_ok P L cc -> Xhat <> [] -> Forall P Xhat -> vor_cover P L Xhat (verts Xhat) ->
  (forall k v, (k < length Xhat)%nat -> In v (owned L Xhat (verts Xhat) k) -> nearest L Xhat k v) ->
  (forall x, P x -> mind L Xhat x <= F) -> forall x, P x -> mind L (lloyd_step L verts cc Xhat) x <= F.
Proof.
  intros P L verts cc Xhat F HC NE FX VC HO HF x Px. apply (step_core P); auto. intros k v Hk Iv. rewrite (nearest_mind L Xhat k v) by (apply HO; auto). destruct (owned_close L Xhat (verts Xhat) k v NE Iv) as [IV _]. destruct VC as [FV _]. rewrite Forall_forall in FV. auto.
Qed.
(** the whole iteration: N points of the domain; the fill distance grows by at most the tolerances *)
Fixpoint grow (n : nat) (F : R) : R := match n with O => F | S n' => grow n' ((1 + rtol) * F + atol) end.
Lemma grow_ge : forall n F, 0 <= F -> F <= grow n F.
Proof.
  induction n as [|n IH]; intros F HF; cbn [grow]; [lra|]. pose proof atol_pos. assert (F <= (1 + rtol) * F + atol) by (unfold rtol; nra). pose proof (IH ((1 + rtol) * F + atol) ltac:(lra)). lra.
Qed.
(** every cell keeps a vertex, so that the programs have data *)
Theorem lloyd_fill : forall P L verts cc xtol n Xhat F, cc_ok P L cc -> Xhat <> [] -> Forall P Xhat -> 0 <= F ->
  (forall X, X <> [] -> Forall P X -> vor_cover P L X (verts X) /\ forall k, (k < length X)%nat -> owned L X (verts X) k <> []) ->
  (forall x, P x -> mind L Xhat x <= F) ->
  let D := lloyd n L verts cc xtol Xhat in length D = length Xhat /\ Forall P D /\ forall x, P x -> mind L D x <= grow n F.
Proof.
  intros P L verts cc xtol n Xhat F HC. revert Xhat F. induction n as [|n IH]; intros Xhat F NE FX F0 HV HF; cbn [lloyd grow]; [auto|].
  destruct (HV Xhat NE FX) as [VC NO]. set (Xn := lloyd_step L verts cc Xhat).
  assert (S1 : length Xn = length Xhat) by apply step_rows. assert (NX : Xn <> []) by (intro E; rewrite E in S1; destruct Xhat; [congruence|discriminate]).
  assert (S2 : Forall P Xn).
  { apply Forall_forall. intros c Ic. unfold Xn, lloyd_step in Ic. apply in_map_iff in Ic. destruct Ic as [k [<- Hk]]. apply in_seq in Hk. apply HC; [apply NO; lia|]. destruct VC as [FV _]. rewrite Forall_forall in FV. apply Forall_forall. intros w Iw. apply FV. unfold owned in Iw. apply filter_In in Iw. tauto. }
  assert (S3 : forall x, P x -> mind L Xn x <= (1 + rtol) * F + atol) by (apply lloyd_step_fill; auto). pose proof atol_pos. assert (0 <= (1 + rtol) * F + atol) by (unfold rtol; nra).
  destruct (Rltb (lloyd_dx Xn Xhat) xtol).
  - cbv zeta. split; auto. split; auto. intros x Px. pose proof (S3 x Px). pose proof (grow_ge n ((1 + rtol) * F + atol) ltac:(lra)). lra.
  - destruct (IH Xn ((1 + rtol) * F + atol)) as [A [B C]]; auto. cbv zeta. rewrite <- S1. auto.
Qed.

(** the vertices computed by voronoi_vertex form such a cover: before removing duplicates ... *)
Theorem vor_all_cover : forall m A b L Linv hsi Xhat, inverse_of m L Linv -> Xhat <> [] -> Forall (inP m A b) Xhat ->
  (forall k, (k < length Xhat)%nat -> hsi_ok m (hs_rows m A b L Linv Xhat k) (hsi (hs_rows m A b L Linv Xhat k))) ->
  vor_cover (inP m A b) L Xhat (vor_all m A b L Linv hsi Xhat).
Proof.
  intros m A b L Linv hsi Xhat HI NE FX HH. split; [apply (vor_all_far m A b L Linv hsi HI Xhat NE FX HH)|]. intros x k [Lx Sx] [Hk NR]. pose proof (HH k Hk) as [H1 H2].
  destruct HI as [[LL LF] [[LLi LFi] HI3]]. destruct Xhat as [|x1 [|x2 Xr]]; [congruence| |].
  - cbn [vor_all]. cbn [hs_rows] in H1, H2. exists (hsi (combine A b)). split; [apply incl_refl|]. split.
    + intros v Iv. split; auto. intros z [<-|[]]. destruct k; [apply Rle_refl|simpl in Hk; lia].
    + destruct (H2 x Lx Sx) as [al [La [Pa [Sa Ex]]]]. exists al. rewrite map_length. split; auto. split; auto. split; auto. rewrite Ex, mv_lincomb; auto. eapply Forall_impl; [|exact H1]. intros a [Ha _]. auto.
  - set (Xhat := x1 :: x2 :: Xr) in *.
    assert (EV : vor_all m A b L Linv hsi Xhat = map (mv Linv) (flat_map (fun k => hsi (hs_rows m A b L Linv Xhat k)) (seq 0 (length Xhat)))) by reflexivity.
    assert (ER : hs_rows m A b L Linv Xhat k = combine (map (fun a => row_times m a Linv) A) b ++ cell_rows (map (mv L) Xhat) k) by reflexivity.
    assert (FY : forall y : vec, length y = m -> Forall (fun z => length z = length y) (map (mv L) Xhat)) by (intros y Hy; apply Forall_forall; intros z Iz; apply in_map_iff in Iz; destruct Iz as [u [<- _]]; rewrite mv_length; congruence).
    assert (NK : nth k (map (mv L) Xhat) [] = mv L (nth k Xhat [])) by (rewrite nth_indep with (d' := mv L []) by (rewrite map_length; auto); apply map_nth).
    set (y := mv L x). assert (Ly : length y = m) by (unfold y; rewrite mv_length; auto).
    assert (SY : sat (hs_rows m A b L Linv Xhat k) y).
    { rewrite ER. apply sat_app. split.
      - apply (sat_rows m); auto. unfold y. destruct (HI3 x Lx) as [-> _]. auto.
      - apply cell_sat; [apply FY; auto|rewrite map_length; auto|]. intros z Iz. apply in_map_iff in Iz. destruct Iz as [xh [<- Ih]]. rewrite NK. pose proof (NR xh Ih) as Q. rewrite (Ldist_sym L (nth k Xhat [])), (Ldist_sym L xh) in Q. exact Q. }
    pose proof (H2 y Ly SY) as CC. set (W := hsi (hs_rows m A b L Linv Xhat k)) in *. exists (map (mv Linv) W).
    assert (EW : map (mv L) (map (mv Linv) W) = W).
    { rewrite map_map. rewrite <- (map_id W) at 2. apply map_ext_in. intros w Iw. rewrite Forall_forall in H1. destruct (H1 w Iw) as [Lw _]. apply HI3. auto. }
    rewrite EW, LL. split; [|split; [|exact CC]].
    + rewrite EV. intros v Iv. apply in_map_iff in Iv. destruct Iv as [w [<- Iw]]. apply in_map. apply in_flat_map. exists k. split; [apply in_seq; lia|exact Iw].
    + intros v Iv. apply in_map_iff in Iv. destruct Iv as [w [<- Iw]]. rewrite Forall_forall in H1. destruct (H1 w Iw) as [Lw Sw]. rewrite ER in Sw. apply sat_app in Sw. destruct Sw as [_ Sw]. rewrite cell_sat in Sw by (try (apply FY; auto); rewrite map_length; auto).
      rewrite NK in Sw. split; auto. intros z Iz. rewrite (Ldist_sym L (nth k Xhat [])), (Ldist_sym L z). unfold Ldist. destruct (HI3 w Lw) as [_ ->]. apply Sw. apply in_map. auto.
Qed.
(** ... and afterwards, if vertices closer than the tolerance are equal *)
Theorem voronoi_vertex_cover : forall m A b L Linv hsi inside Xhat, inverse_of m L Linv -> Xhat <> [] -> Forall (inP m A b) Xhat -> (forall x, inP m A b x -> inside x = true) ->
  (forall k, (k < length Xhat)%nat -> hsi_ok m (hs_rows m A b L Linv Xhat k) (hsi (hs_rows m A b L Linv Xhat k))) ->
  (forall v w, In v (vor_all m A b L Linv hsi Xhat) -> In w (vor_all m A b L Linv hsi Xhat) -> edist v w <= atol -> v = w) ->
  vor_cover (inP m A b) L Xhat (voronoi_vertex m A b L Linv hsi inside Xhat).
Proof.
  intros m A b L Linv hsi inside Xhat HI NE FX HIn HH HS. destruct (vor_all_cover m A b L Linv hsi Xhat HI NE FX HH) as [FV VC].
  assert (G : incl (vor_all m A b L Linv hsi Xhat) (voronoi_vertex m A b L Linv hsi inside Xhat) /\ incl (voronoi_vertex m A b L Linv hsi inside Xhat) (vor_all m A b L Linv hsi Xhat)).
  { unfold voronoi_vertex. destruct Xhat as [|x1 [|x2 Xr]]; [congruence|split; apply incl_refl|]. set (V := vor_all m A b L Linv hsi (x1 :: x2 :: Xr)) in *. split.
    - intros v Iv. rewrite Forall_forall in FV. apply filter_In. split; [|apply HIn; auto]. clear -HS Iv. revert v Iv.
      assert (G : forall l W : mat, V = l ++ W -> forall v, In v W -> exists j, (j < length W)%nat /\ nth j (unique_mask W) false = true /\ nth j W [] = v).
      { intros l W. revert l. induction W as [|w W IH]; intros l E v Iv; [destruct Iv|]. destruct (nth 0 (unique_mask (w :: W)) false) eqn:M.
        - destruct Iv as [->|Iv]; [exists O; split; [simpl; lia|]; auto|]. destruct (IH (l ++ [w])) with (v := v) as [j [J1 [J2 J3]]]; [rewrite <- app_assoc; auto|auto|]. exists (S j). split; [simpl; lia|]. split; auto.
        - assert (Iv' : In v W).
          { destruct Iv as [->|Iv]; auto. destruct (unique_dropped (v :: W) 0 ltac:(simpl; lia) M) as [j [J1 J2]]. destruct j as [|j]; [lia|]. cbn [nth] in J2. assert (IW : In (nth j W []) W) by (apply nth_In; simpl in J1; lia).
            rewrite (HS v (nth j W [])); auto; rewrite E; apply in_or_app; right; [left; auto|right; auto]. }
          destruct (IH (l ++ [w])) with (v := v) as [j [J1 [J2 J3]]]; [rewrite <- app_assoc; auto|auto|]. exists (S j). split; [simpl; lia|]. split; auto. }
      intros v Iv. destruct (G [] V eq_refl v Iv) as [j [J1 [J2 <-]]]. apply select_in; auto. apply mask_len.
    - intros v Iv. apply filter_In in Iv. destruct Iv as [Iv _]. eapply select_incl; eauto. }
  destruct G as [G1 G2]. split; [rewrite Forall_forall in *; intros v Iv; auto|]. intros x k Px Hk. destruct (VC x k Px Hk) as [vs [I1 [I2 I3]]]. exists vs. split; [intros v Iv; auto|auto].
Qed.

(** Example: the unit interval, one centre at 0: the step moves it to 1/2 and halves the fill distance *)
Definition u01 (x : vec) : Prop := length x = 1%nat /\ 0 <= vget x 0 <= 1.
Definition cc1 (V : mat) : vec := midrange 0 V [].
Lemma cc1_ok : cc_ok u01 [[1]] cc1.
Proof.
  intros V NE FV. rewrite Forall_forall in FV. assert (L1 : Forall (fun y => length y = 1%nat) V) by (apply Forall_forall; intros y Iy; apply FV; auto). destruct (midrange_exact 0%nat V [] NE L1) as [A B].
  assert (E : forall z, length z = 1%nat -> radius [[1]] V z = vmax (map (edist z) V)).
  { intros z Hz. unfold radius. f_equal. apply map_ext_in. intros v Iv. rewrite (vec1 z), (vec1 v) by (auto; apply FV; auto). rewrite Ld1, edist1. auto. }
  split.
  - split; auto. unfold cc1, midrange. destruct (vmax_map_at vec (fun y => vget y 0) V NE) as [a [Ia Ea]]. destruct (vmin_map_at vec (fun y => vget y 0) V NE) as [b [Ib Eb]]. unfold vget at 1 4. cbn [nth]. rewrite Ea, Eb. destruct (FV a Ia), (FV b Ib). lra.
  - intros z [Lz _]. rewrite !E by auto. auto.
Qed.
Lemma cover01 : vor_cover u01 [[1]] [[0]] [[0]; [1]].
Proof.
  split; [repeat (apply Forall_cons; [split; [reflexivity|unfold vget; simpl; lra]|]); apply Forall_nil|]. intros x k [Lx Hx] [Hk _]. destruct k; [|simpl in Hk; lia]. exists [[0]; [1]]. split; [apply incl_refl|]. split.
  - intros v _. split; [simpl; lia|]. intros z [<-|[]]. simpl. lra.
  - exists [1 - vget x 0; vget x 0]. split; [reflexivity|]. split; [repeat (apply Forall_cons; [lra|]); apply Forall_nil|]. split; [unfold vsum; simpl; lra|]. rewrite (vec1 x) at 1 by auto. cbn [map]. rewrite !mv11. cbn. f_equal. ring.
Qed.
Example ex_lloyd : lloyd_step [[1]] (fun _ => [[0]; [1]]) cc1 [[0]] = [[1/2]] /\ forall x, u01 x -> mind [[1]] (lloyd_step [[1]] (fun _ => [[0]; [1]]) cc1 [[0]]) x <= (1 + rtol) * 1 + atol.
Proof.
  split.
  - unfold lloyd_step. cbn [length seq map]. assert (E : owned [[1]] [[0]] [[0]; [1]] 0 = [[0]; [1]]).
    { unfold owned. cbn [filter nth]. unfold mind. cbn [map]. unfold vmin. cbn [fold_left]. rewrite !np_close_refl. reflexivity. }
    rewrite E. unfold cc1, midrange. cbn [map]. unfold vget. cbn [nth]. unfold vmax, vmin. cbn [fold_left]. minmax. do 2 f_equal. lra.
  - apply (lloyd_step_fill u01 [[1]] (fun _ => [[0]; [1]]) cc1 [[0]] 1 cc1_ok); [discriminate|repeat (apply Forall_cons; [split; [reflexivity|unfold vget; simpl; lra]|]); apply Forall_nil|exact cover01|].
    intros x [Lx Hx]. unfold mind. cbn [map]. unfold vmin. cbn [fold_left]. rewrite (vec1 x) by auto. rewrite Ld1. apply Rabs_le. lra.
Qed.

(* ------------------------------------------------------------------ *)
(** * minimax_scale *)
Definition convex (P : vec -> Prop) : Prop := forall x y t, P x -> P y -> 0 <= t <= 1 -> P (vadd (vscale t (vsub x y)) y).
(** the scaled design has as many points, all in the domain, when the scale found lies in [0,1] *)
Theorem scale_inside : forall P L verts c Xhat npoints brent, convex P -> P c -> Forall P Xhat -> (0 < npoints)%nat -> (forall br a, brent br = Some a -> 0 <= a <= 1) ->
  let D := minimax_scale L verts c Xhat npoints brent in length D = length Xhat /\ Forall P D.
Proof.
  intros P L verts c Xhat npoints brent HP Pc FX Hn HB D. unfold D, minimax_scale. set (av := linspace (1 / 2) 1 npoints). set (k := argmin_idx (map (score_full L verts c Xhat) av)).
  set (alpha := if Nat.ltb (S k) npoints then _ else _).
  assert (LA : length av = npoints) by (unfold av, linspace; rewrite map_length, seq_length; auto).
  assert (HK : (k < npoints)%nat). { unfold k. destruct (argmin_spec (map (score_full L verts c Xhat) av)) as [Q _]; [intro E; apply map_eq_nil in E; rewrite E in LA; simpl in LA; lia|]. rewrite map_length, LA in Q. auto. }
  assert (AK : 0 <= vget av k <= 1).
  { unfold av, linspace. rewrite vget_map_seq by auto. destruct (Nat.eq_dec npoints 1) as [->|N1].
    - assert (k = 0)%nat by lia. rewrite H. simpl. lra.
    - assert (P0 : 0 < INR (npoints - 1)) by (apply lt_0_INR; lia). assert (INR k <= INR (npoints - 1)) by (apply le_INR; lia). pose proof (pos_INR k). 
      replace (INR k * ((1 - 1 / 2) / INR (npoints - 1))) with (/ 2 * (INR k / INR (npoints - 1))) by (field; lra). assert (0 <= INR k / INR (npoints - 1) <= 1); [|lra]. split; [apply Rmult_le_pos; [lra|left; apply Rinv_0_lt_compat; lra]|]. apply Rmult_le_reg_r with (INR (npoints - 1)); [lra|]. unfold Rdiv. rewrite Rmult_assoc, Rinv_l by lra. lra. }
  assert (HA : 0 <= alpha <= 1). { unfold alpha. destruct (Nat.ltb (S k) npoints); auto. destruct (brent _) as [a|] eqn:E; auto. eapply HB; eauto. }
  unfold scale_design. rewrite map_length. split; auto. rewrite Forall_forall in *. intros y Iy. apply in_map_iff in Iy. destruct Iy as [x [<- Ix]]. apply HP; auto.
Qed.
Lemma list3_eq : forall a b c a' b' c' : R, a = a' -> b = b' -> c = c' -> [[a]; [b]; [c]] = [[a']; [b']; [c']]. Proof. intros; subst; auto. Qed.
Lemma list6_eq : forall a b c d e f a' b' c' d' e' f' : R, a = a' -> b = b' -> c = c' -> d = d' -> e = e' -> f = f' -> [[a]; [b]; [c]; [d]; [e]; [f]] = [[a']; [b']; [c']; [d']; [e']; [f']]. Proof. intros; subst; auto. Qed.
(** the score is not the fill distance of the scaled design: its vertices are those of the unscaled one *)
Theorem scale_score_refuted : exists Xhat alpha x, Forall u01 Xhat /\ 0 <= alpha <= 1 /\ u01 x /\
  score_full [[1]] (vverts1 0 1) [1/2] Xhat alpha < mind [[1]] (scale_design [1/2] Xhat alpha) x.
Proof.
  exists [[0]; [1/5]; [9/10]], (9/10), [109/200]. split; [repeat (apply Forall_cons; [split; [reflexivity|unfold vget; simpl; lra]|]); apply Forall_nil|]. split; [lra|]. split; [split; [reflexivity|unfold vget; simpl; lra]|].
  assert (ES : scale_design [1/2] [[0]; [1/5]; [9/10]] (9/10) = [[1/20]; [23/100]; [43/50]]).
  { unfold scale_design. cbn. apply list3_eq; lra. }
  assert (EV : vverts1 0 1 [[0]; [1/5]; [9/10]] = [[0]; [0]; [1/10]; [11/20]; [19/20]; [1]]).
  { unfold vverts1, vor1d. cbn [map app]. unfold vget. cbn [nth]. unfold rsort. cbn [fold_right rins].
    repeat (match goal with |- context [Rleb ?a ?b] => first [rewrite (proj2 (Rleb_true a b)) by lra | rewrite (proj2 (Rleb_false a b)) by lra] end; cbn [rins]).
    cbn [mids app map]. apply list6_eq; lra. }
  unfold score_full. rewrite ES, EV. unfold fill_dist, mind. cbn [map]. rewrite !Ld1. rabs. unfold vmax, vmin. cbn [fold_left]. minmax. lra.
Qed.
Example ex_scale : let D := minimax_scale [[1]] (vverts1 0 1) [1/2] [[0]; [1/5]; [9/10]] 20 (fun _ => Some (9/10)) in length D = 3%nat /\ Forall u01 D.
Proof.
  apply (scale_inside u01 [[1]] (vverts1 0 1)); [| | |lia|].
  - intros x y t [Lx Hx] [Ly Hy] Ht. rewrite (vec1 x), (vec1 y) by auto. split; [reflexivity|]. cbn. nra.
  - split; [reflexivity|]. cbn. lra.
  - repeat (apply Forall_cons; [split; [reflexivity|unfold vget; simpl; lra]|]); apply Forall_nil.
  - intros br a E. inversion E. lra.
Qed.
