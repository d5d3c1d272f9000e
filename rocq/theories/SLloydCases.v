(** The sampled Lloyd iteration on the unit square: perturbed starts leave the domain or skip the separating planes, so that vertices lie outside,
    nodes own no vertex and designs get worse. *)
Require Import Reals Lra Lia List Bool Arith ZArith.
From Verif Require Import RVec Num Sums DomModel DomSpec DomProofs DomMoreModel SweepProofs HullProofs HullIneqProofs LipModel LipProofs MatLib GrassLib SampModel PigeonLib LatinProofs PoissonProofs PoissonCases DesignProofs CoffeeProofs GeoModel GeoProofs VoronoiProofs WalkProofs SampMoreModel MinimaxProofs LloydProofs SLloydModel SLloydProofs.
Import ListNotations.
Local Open Scope R_scope.

Definition I2 : mat := [[1; 0]; [0; 1]].
(** the unit square *)
Definition qA : mat := [[1; 0]; [0; 1]; [-1; 0]; [0; -1]].
Definition qb : vec := [1; 1; 0; 0].
Definition square (x : vec) : Prop := inP 2 qA qb x.
Lemma square_iff : forall x y, square [x; y] <-> 0 <= x <= 1 /\ 0 <= y <= 1.
Proof.
  intros x y. unfold square, inP, sat, qA, qb. cbn [combine]. split.
  - intros [_ H]. pose proof (H [1;0] 1 ltac:(simpl; tauto)). pose proof (H [0;1] 1 ltac:(simpl; tauto)). pose proof (H [-1;0] 0 ltac:(simpl; tauto)). pose proof (H [0;-1] 0 ltac:(simpl; tauto)). rewrite !dot_cons, !dot_nil_l in *. lra.
  - intros H. split; [reflexivity|]. intros a c [E|[E|[E|[E|[]]]]]; injection E as <- <-; rewrite !dot_cons, !dot_nil_l; lra.
Qed.
Lemma square_form : forall x, square x -> exists a b, x = [a; b] /\ 0 <= a <= 1 /\ 0 <= b <= 1.
Proof. intros x H. pose proof H as [Lx _]. destruct x as [|a [|b [|]]]; try discriminate. exists a, b. split; auto. apply square_iff. auto. Qed.
(** an economic QR factorization in the plane: one column is normalized, more columns are taken to span the plane *)
Definition qr2 (ns : mat) : mat := match ns with [v] => if Reqb (norm2 v) 0 then I2 else [vscale (/ norm2 v) v] | _ => I2 end.
Lemma I2_mv : forall a b, mv I2 [a; b] = [a; b].
Proof. intros. unfold mv, I2. cbn [map]. rewrite !dot_cons, !dot_nil_l. f_equal; [ring|f_equal; ring]. Qed.
Lemma I2_ltl : forall a b, ltl 2 I2 [a; b] = [a; b].
Proof. intros. unfold ltl. rewrite I2_mv. unfold I2. cbn. f_equal; [ring|f_equal; ring]. Qed.
Lemma I2_dist : forall a b c d, Ldist I2 [a; b] [c; d] = sqrt ((a - c) * (a - c) + (b - d) * (b - d)).
Proof. intros. unfold Ldist. rewrite !I2_mv. unfold norm2, norm2sq. cbn [vsub vmap2]. rewrite !dot_cons, !dot_nil_l. f_equal. ring. Qed.
Lemma dist_le : forall a b r, 0 <= r -> a * a + b * b <= r * r -> sqrt (a * a + b * b) <= r.
Proof. intros a b r Hr H. rewrite <- (sqrt_square r) by auto. apply sqrt_le_1_alt. auto. Qed.
Lemma dist_lt : forall a b c d, 0 <= a * a + b * b < c * c + d * d -> sqrt (a * a + b * b) < sqrt (c * c + d * d).
Proof. intros. apply sqrt_lt_1; lra. Qed.
Lemma proj_I2 : forall p q, proj_out I2 [p; q] = [0; 0].
Proof. intros. unfold proj_out. rewrite I2_mv. unfold I2. cbn. f_equal; [ring|f_equal; ring]. Qed.
Lemma qr2_ok : forall ns, ns <> [] -> Forall (fun c => length c = 2%nat) ns -> qr_ok 2 ns (qr2 ns).
Proof.
  assert (HI : forall ns, Forall (fun c => length c = 2%nat) ns -> qr_ok 2 ns I2).
  { intros ns F. split; [repeat constructor|]. split.
    - intros i j Hi Hj. unfold I2 in *. cbn [length] in Hi, Hj. destruct i as [|[|i]]; [| |lia]; (destruct j as [|[|j]]; [| |lia]); cbn [nth Nat.eqb]; rewrite !dot_cons, !dot_nil_l; ring.
    - intros c Ic. rewrite Forall_forall in F. specialize (F c Ic). destruct c as [|a [|b [|]]]; try discriminate. rewrite I2_mv. unfold I2. cbn. f_equal; [ring|f_equal; ring]. }
  intros ns NE F. destruct ns as [|v [|w ns]]; [congruence| |apply HI; auto]. cbn [qr2]. destruct (Reqb (norm2 v) 0) eqn:Q; [apply HI; auto|]. apply Reqb_false in Q.
  pose proof (Forall_inv F) as Lv. cbv beta in Lv. destruct v as [|a [|b [|]]]; try discriminate. set (n := norm2 [a; b]) in *. assert (N : n * n = a * a + b * b) by (unfold n; rewrite norm2_sq; unfold norm2sq; rewrite !dot_cons, !dot_nil_l; ring).
  split; [repeat constructor|]. cbn [vscale map]. split.
  - intros i j Hi Hj. cbn [length] in Hi, Hj. assert (i = O) by lia. assert (j = O) by lia. subst. cbn [nth Nat.eqb]. rewrite !dot_cons, !dot_nil_l. replace (/ n * a * (/ n * a) + (/ n * b * (/ n * b) + 0)) with ((a * a + b * b) * / n * / n) by ring. rewrite <- N. field. auto.
  - intros c [<-|[]]. unfold mv. cbn. rewrite !dot_cons, !dot_nil_l. replace (/ n * a * a + (/ n * b * b + 0)) with ((a * a + b * b) * / n) by ring. rewrite <- N. f_equal; [field; auto|f_equal; field; auto].
Qed.

(** one face, for a direction with normal component ah and a distance r *)
Definition fa (ah r : R) : option R := if Reqb ah 0 then None else if Rleb (r / ah) 0 then None else Some (r / ah).
Lemma faces2 : forall x y p q, map (face_alpha [x; y] [p; q]) (combine qA qb) = [fa p (1 - x); fa q (1 - y); fa (- p) x; fa (- q) y].
Proof.
  intros. unfold qA, qb. cbn [combine map]. unfold face_alpha, fa. cbn [fst snd]. rewrite !dot_cons, !dot_nil_l.
  replace (1 * p + (0 * q + 0)) with p by ring. replace (0 * p + (1 * q + 0)) with q by ring. replace (-1 * p + (0 * q + 0)) with (- p) by ring. replace (0 * p + (-1 * q + 0)) with (- q) by ring.
  replace (1 - (1 * x + (0 * y + 0))) with (1 - x) by ring. replace (1 - (0 * x + (1 * y + 0))) with (1 - y) by ring. replace (0 - (-1 * x + (0 * y + 0))) with x by ring. replace (0 - (0 * x + (-1 * y + 0))) with y by ring. auto.
Qed.
Lemma fa_zero : forall r, fa 0 r = None.
Proof. intros. unfold fa. destruct (Reqb 0 0) eqn:Q; auto. apply Reqb_false in Q. lra. Qed.
Lemma fa_pos : forall a r, 0 < a -> 0 < r -> fa a r = Some (r / a).
Proof. intros a r Ha Hr. unfold fa. destruct (Reqb a 0) eqn:Q; [apply Reqb_true in Q; lra|]. assert (0 < r / a) by (apply Rdiv_lt_0_compat; auto). destruct (Rleb (r / a) 0) eqn:R; auto. apply Rleb_true in R. lra. Qed.
Lemma div_np : forall r a, 0 < a -> r <= 0 -> r / a <= 0.
Proof. intros. assert (0 < / a) by (apply Rinv_0_lt_compat; auto). unfold Rdiv. nra. Qed.
Lemma fa_none1 : forall a r, 0 < a -> r <= 0 -> fa a r = None.
Proof. intros a r Ha Hr. unfold fa. destruct (Reqb a 0); auto. destruct (Rleb (r / a) 0) eqn:R; auto. apply Rleb_false in R. pose proof (div_np r a Ha Hr). lra. Qed.
Lemma fa_none2 : forall a r, a < 0 -> 0 <= r -> fa a r = None.
Proof. intros a r Ha Hr. unfold fa. destruct (Reqb a 0); auto. destruct (Rleb (r / a) 0) eqn:R; auto. apply Rleb_false in R. pose proof (div_np (- r) (- a) ltac:(lra) ltac:(lra)). replace (- r / - a) with (r / a) in H by (field; lra). lra. Qed.
(** the plane of the site (s, t) is not seen *)
Lemma site_none : forall x y u v p q s t, Rabs ((s - u) * p + (t - v) * q) <= atol -> site_alpha I2 [x; y] [u; v] [p; q] [s; t] = None.
Proof.
  intros x y u v p q s t H. unfold site_alpha. cbn [vsub vmap2]. rewrite !I2_mv. rewrite !dot_cons, !dot_nil_l. replace ((s - u) * p + ((t - v) * q + 0)) with ((s - u) * p + (t - v) * q) by ring.
  assert (C : np_close (Rabs ((s - u) * p + (t - v) * q)) 0 = true) by (unfold np_close; apply Rleb_true; rewrite Rminus_0_r, Rabs_Rabsolu, Rabs_R0; lra). rewrite C. auto.
Qed.
Lemma site_past : forall x y u v p q s t, (s - u) * p + (t - v) * q < 0 -> (x - (s + u) / 2) * (s - u) + (y - (t + v) / 2) * (t - v) < 0 -> site_alpha I2 [x; y] [u; v] [p; q] [s; t] = None.
Proof.
  intros x y u v p q s t H1 H2. unfold site_alpha. cbn [vsub vadd vmap2]. rewrite !I2_mv. cbn [vscale map vsub vmap2]. rewrite !dot_cons, !dot_nil_l. replace ((s - u) * p + ((t - v) * q + 0)) with ((s - u) * p + (t - v) * q) by ring.
  destruct (np_close _ 0); auto. set (w := (s - u) * p + (t - v) * q) in *. replace (- ((x - 1 / 2 * (s + u)) * (s - u) + ((y - 1 / 2 * (t + v)) * (t - v) + 0))) with (- ((x - (s + u) / 2) * (s - u) + (y - (t + v) / 2) * (t - v))) by field.
  set (z := (x - (s + u) / 2) * (s - u) + (y - (t + v) / 2) * (t - v)) in *. assert (- z / w < 0). { replace (- z / w) with (- (z / w)) by (field; lra). assert (0 < z / w); [|lra]. replace (z / w) with ((- z) / (- w)) by (field; lra). apply Rdiv_lt_0_compat; lra. }
  destruct (Rltb (- z / w) 0) eqn:R; auto. apply Rltb_false in R. lra.
Qed.
Lemma close_no : forall a b, atol + rtol * Rabs b < Rabs (a - b) -> np_close a b = false.
Proof. intros a b H. unfold np_close. destruct (Rleb _ _) eqn:Q; auto. apply Rleb_true in Q. lra. Qed.
(** the faces of the square that are active at a point, and the sites on the same side of the test *)
Definition act2 (x y : R) : mat := map fst (filter (fun p => np_close (dot (fst p) [x; y]) (snd p)) (combine qA qb)).
Lemma act2_eq : forall x y, act2 x y = (if np_close x 1 then [[1; 0]] else []) ++ (if np_close y 1 then [[0; 1]] else []) ++ (if np_close (- x) 0 then [[-1; 0]] else []) ++ (if np_close (- y) 0 then [[0; -1]] else []).
Proof.
  intros. unfold act2, qA, qb. cbn [combine filter fst snd]. rewrite !dot_cons, !dot_nil_l. replace (1 * x + (0 * y + 0)) with x by ring. replace (0 * x + (1 * y + 0)) with y by ring. replace (-1 * x + (0 * y + 0)) with (- x) by ring. replace (0 * x + (-1 * y + 0)) with (- y) by ring.
  destruct (np_close x 1), (np_close y 1), (np_close (- x) 0), (np_close (- y) 0); reflexivity.
Qed.
Lemma not_small : forall p q r, / 10000000000 <= r -> r <= Rabs p -> small_dir [p; q] = false.
Proof. intros p q r H1 H2. unfold small_dir, vmax. cbn. destruct (Rltb _ _) eqn:Q; auto. apply Rltb_true in Q. pose proof (Rmax_l (Rabs p) (Rabs q)). lra. Qed.
(** at the corner (1,1) nothing moves any more *)
Lemma corner_h : forall Xhat ord g k, length (site Xhat ord 0) = 2%nat -> length g = 2%nat -> step_h 2 I2 qA qb [] Xhat qr2 true ord g k [1; 1] = [0; 0].
Proof.
  intros Xhat ord g k Ls Lg. unfold step_h, vv_dir. unfold vv_null. cbn [app]. fold (act2 1 1). rewrite act2_eq, !np_close_refl, !close_no by (rewrite ?Rabs_R0, (Rabs_left (- (1) - 0)); unfold atol; lra). cbn [app].
  destruct (site Xhat ord 0) as [|u [|v [|]]]; try discriminate. destruct g as [|g1 [|g2 [|]]]; try discriminate. cbn [vsub vmap2]. rewrite I2_ltl. cbn [qr2]. rewrite !proj_I2.
  destruct (np_close (norm2 [0; 0]) 0 && true)%bool; auto.
Qed.
Lemma corner_step : forall Xhat ord g k, length (site Xhat ord 0) = 2%nat -> length g = 2%nat ->
  (forall s, In s Xhat -> length s = 2%nat) -> vv_step 2 I2 qA qb [] Xhat qr2 true ord g k [1; 1] = [1; 1].
Proof.
  intros Xhat ord g k Ls Lg LX. rewrite vv_step_eq. pose proof (corner_h Xhat ord g k Ls Lg) as HH.
  unfold step_al. rewrite HH. unfold al, vv_alpha. assert (SD : small_dir [0; 0] = true) by (unfold small_dir, vmax; cbn; rewrite Rabs_R0, Rmax_left by lra; apply Rltb_true; lra). rewrite SD.
  match goal with |- vadd _ (vscale ?a _) = _ => cut (a = 0); [intros ->; cbn; f_equal; [ring|f_equal; ring]|] end.
  assert (HN : omin_list (map (site_alpha I2 [1; 1] (site Xhat ord 0) [0; 0]) Xhat) = None).
  { clear - Ls LX. destruct (site Xhat ord 0) as [|u [|v [|]]]; try discriminate. induction Xhat as [|s X IH]; [reflexivity|]. cbn [map omin_list fold_right]. unfold omin_list in IH. rewrite IH by (intros; apply LX; right; auto).
    pose proof (LX s ltac:(left; auto)) as Lz. destruct s as [|s [|t [|]]]; try discriminate. rewrite site_none; [reflexivity|]. rewrite !Rmult_0_r, Rplus_0_l, Rabs_R0. unfold atol. lra. }
  rewrite HN. reflexivity.
Qed.

Lemma vadd2 : forall a b c d, vadd [a; b] [c; d] = [a + c; b + d]. Proof. reflexivity. Qed.
(** ** a perturbed start outside the square *)
Definition ord1 (X : mat) (x : vec) : list nat := [O].
Definition wX : mat := [[0; 1 / 2]].
Definition wdraws (k : nat) : mat := repeat [-4; 1] 4.
Definition wvv (c : nat) (X S : mat) : mat := vv_rows 2 I2 qA qb [] qr2 ord1 (fun _ _ => [1; 0]) X S.
Lemma w_pre : walk_pre 2 I2 qA qb [] wX qr2 (ord1 wX) (fun _ => [1; 0]).
Proof.
  unfold walk_pre. split; [repeat constructor|]. split; [repeat constructor|]. split; [constructor|]. split; [discriminate|]. split; [repeat constructor|]. split; [reflexivity|]. split; [|apply qr2_ok].
  intros x _. unfold first_nearest, wX. split; [intros [|j] Hj; simpl in *; lia|]. intros z [<-|[]]. apply Rle_refl.
Qed.
(** the direction away from the site, when no face is active *)
Lemma dir_free : forall X ord g x y u v, act2 x y = [] -> site X ord 0 = [u; v] -> step_h 2 I2 qA qb [] X qr2 true ord g 0 [x; y] = [x - u; y - v].
Proof.
  intros X ord g x y u v HA HS. unfold step_h, vv_dir, vv_null. cbn [app]. fold (act2 x y). rewrite HA. cbn [app]. replace (Nat.min (0 + 1) (length X) - 1)%nat with O by lia. cbn [seq filter map]. rewrite HS. cbn [vsub vmap2]. apply I2_ltl.
Qed.
Lemma w_sites : forall x y z p q, omin_list (map (site_alpha I2 [x; y] (site wX (ord1 wX z) 0) [p; q]) wX) = None.
Proof.
  intros. change (omin_list [site_alpha I2 [x; y] [0; 1 / 2] [p; q] [0; 1 / 2]] = None). rewrite site_none; [reflexivity|]. replace ((0 - 0) * p + (1 / 2 - 1 / 2) * q) with 0 by lra. rewrite Rabs_R0. unfold atol. lra.
Qed.
Lemma w_first : vv_walk 2 0 2 I2 qA qb [] wX qr2 true (ord1 wX) (fun _ => [1; 0]) [1 / 2; 3 / 4] = [1; 1].
Proof.
  cbn [vv_walk]. replace (vv_step 2 I2 qA qb [] wX qr2 true (ord1 wX [1 / 2; 3 / 4]) [1; 0] 0 [1 / 2; 3 / 4]) with [1; 1].
  - apply corner_step; auto. intros s [<-|[]]. auto.
  - rewrite vv_step_eq. assert (HH : step_h 2 I2 qA qb [] wX qr2 true (ord1 wX [1 / 2; 3 / 4]) [1; 0] 0 [1 / 2; 3 / 4] = [1 / 2 - 0; 3 / 4 - 1 / 2]).
    { apply dir_free; [|reflexivity]. rewrite act2_eq. rewrite (close_no (1 / 2) 1), (close_no (3 / 4) 1), (close_no (- (1 / 2)) 0), (close_no (- (3 / 4)) 0); auto; rabs; unfold atol, rtol; lra. }
    unfold step_al. rewrite HH. replace [1 / 2 - 0; 3 / 4 - 1 / 2] with [1 / 2; 1 / 4] by (f_equal; [lra|f_equal; lra]). unfold al, vv_alpha. rewrite (not_small _ _ (1 / 2)) by (rabs; lra). rewrite faces2.
    rewrite (fa_pos (1 / 2)), (fa_pos (1 / 4)), (fa_none2 (- (1 / 2))), (fa_none2 (- (1 / 4))) by lra. rewrite w_sites. cbn [omin_list fold_right omin vscale map]. rewrite Rmin_left by lra. rewrite vadd2. f_equal; [lra|f_equal; lra].
Qed.
Lemma w_out : vv_walk 2 0 2 I2 qA qb [] wX qr2 true (ord1 wX) (fun _ => [1; 0]) [0 + / 10000000 * -4; 1 / 2 + / 10000000 * 1] = [-2; 1].
Proof.
  remember (/ 10000000) as e eqn:He. replace (0 + e * -4) with (- 4 * e) by ring. replace (1 / 2 + e * 1) with (1 / 2 + e) by ring.
  cbn [vv_walk]. replace (vv_step 2 I2 qA qb [] wX qr2 true (ord1 wX [- 4 * e; 1 / 2 + e]) [1; 0] 0 [- 4 * e; 1 / 2 + e]) with [-2; 1].
  - rewrite vv_step_eq. assert (HH : step_h 2 I2 qA qb [] wX qr2 true (ord1 wX [-2; 1]) [1; 0] 1 [-2; 1] = [-2; 0]).
    { unfold step_h, vv_dir, vv_null. cbn [app]. fold (act2 (-2) 1). rewrite act2_eq. rewrite (close_no (-2) 1) by (rabs; unfold atol, rtol; lra). rewrite (close_no (- -2) 0) by (rewrite Rabs_R0; rabs; unfold atol, rtol; lra). rewrite (close_no (- (1)) 0) by (rewrite Rabs_R0; rabs; unfold atol, rtol; lra). rewrite np_close_refl. cbn [app].
      change (length wX) with 1%nat. cbn [Nat.add Nat.min Nat.sub seq filter map app]. change (site wX (ord1 wX [-2; 1]) 0) with [0; 1 / 2]. cbn [vsub vmap2]. rewrite I2_ltl. cbn [qr2].
      assert (N1 : norm2 [0; 1] = 1) by (unfold norm2, norm2sq; rewrite !dot_cons, !dot_nil_l; replace (0 * 0 + (1 * 1 + 0)) with 1 by ring; apply sqrt_1). rewrite N1. destruct (Reqb 1 0) eqn:Q; [apply Reqb_true in Q; lra|].
      assert (EP : proj_out [vscale (/ 1) [0; 1]] [-2 - 0; 1 - 1 / 2] = [-2; 0]). { unfold proj_out, mv. cbn. rewrite !dot_cons, !dot_nil_l. f_equal; [lra|f_equal; lra]. }
      rewrite EP. assert (N2 : norm2 [-2; 0] = 2) by (unfold norm2, norm2sq; rewrite !dot_cons, !dot_nil_l; replace (-2 * -2 + (0 * 0 + 0)) with (2 * 2) by ring; apply sqrt_square; lra). rewrite N2, close_no by (rabs; unfold atol; lra). auto. }
    unfold step_al. rewrite HH. unfold al, vv_alpha. rewrite (not_small _ _ 2) by (rabs; lra). rewrite faces2, Ropp_0, !fa_zero, (fa_none2 (-2)), (fa_none1 (- -2)) by lra. rewrite w_sites. cbn [omin_list fold_right omin vscale map]. rewrite vadd2. f_equal; [lra|f_equal; lra].
  - rewrite vv_step_eq. assert (HH : step_h 2 I2 qA qb [] wX qr2 true (ord1 wX [- 4 * e; 1 / 2 + e]) [1; 0] 0 [- 4 * e; 1 / 2 + e] = [- 4 * e - 0; 1 / 2 + e - 1 / 2]).
    { apply dir_free; [|reflexivity]. rewrite act2_eq. rewrite (close_no (- 4 * e) 1), (close_no (1 / 2 + e) 1), (close_no (- (- 4 * e)) 0), (close_no (- (1 / 2 + e)) 0); auto; rewrite He; rabs; unfold atol, rtol; lra. }
    unfold step_al. rewrite HH. replace [- 4 * e - 0; 1 / 2 + e - 1 / 2] with [- 4 * e; e] by (f_equal; [lra|f_equal; lra]). unfold al, vv_alpha. rewrite (not_small _ _ (4 * e)) by (rewrite He; rabs; lra). rewrite faces2.
    rewrite (fa_none2 (- 4 * e)), (fa_pos e), (fa_none1 (- (- 4 * e))), (fa_none2 (- e)) by (rewrite He; lra). rewrite w_sites. cbn [omin_list fold_right omin vscale map]. rewrite vadd2. f_equal; [rewrite He; lra|f_equal; rewrite He; lra].
Qed.
Lemma mind1 : forall L c x, mind L [c] x = Ldist L c x. Proof. reflexivity. Qed.
Definition wV : mat := update_sample 2 I2 wvv wdraws wX [[1 / 2; 3 / 4]].
Lemma edist2 : forall a b c d, edist [a; b] [c; d] = sqrt ((a - c) * (a - c) + (b - d) * (b - d)).
Proof. intros. unfold edist, norm2, norm2sq. cbn [vsub vmap2]. rewrite !dot_cons, !dot_nil_l. f_equal. ring. Qed.
Lemma wV_in : forall v, In v wV <-> v = [1; 1] \/ v = [-2; 1].
Proof.
  assert (E0 : wvv 0 wX [[1 / 2; 3 / 4]] = [[1; 1]]) by (unfold wvv, vv_rows; cbn [length seq combine map Nat.sub fst snd]; rewrite w_first; auto).
  assert (E1 : wvv 1 wX (nudge (nth 0 wX []) (wdraws 0)) = repeat [-2; 1] 4).
  { unfold nudge, wdraws, wX at 2. cbn [nth repeat map vscale vadd vmap2]. unfold wvv, vv_rows. cbn [length seq combine map Nat.sub fst snd]. rewrite w_out. auto. }
  assert (EV : wV = uniq [[1; 1]; [-2; 1]; [-2; 1]; [-2; 1]; [-2; 1]]).
  { unfold wV, update_sample. rewrite E0. cbv zeta. change (uniq [[1; 1]]) with [[1; 1]]. change (length wX) with 1%nat. cbn [seq fold_left]. unfold add_for.
    assert (Q : Nat.ltb (length (owned I2 wX [[1; 1]] 0)) 2 = true). { apply Nat.ltb_lt. unfold owned. cbn [filter]. destruct (np_close _ _); simpl; lia. } rewrite Q, E1. reflexivity. }
  rewrite EV. intro v. split.
  - intro I. apply uniq_incl in I. simpl in I. intuition.
  - intro H. apply uniq_all; [|simpl; intuition].
    assert (D : atol < sqrt (3 * 3 + 0 * 0)). { replace (3 * 3 + 0 * 0) with (3 * 3) by ring. rewrite sqrt_square by lra. unfold atol. lra. }
    assert (G : forall x, In x [[1; 1]; [-2; 1]; [-2; 1]; [-2; 1]; [-2; 1]] -> x = [1; 1] \/ x = [-2; 1]) by (intros x I; simpl in I; intuition).
    intros x y Ix Iy. destruct (G x Ix) as [->| ->]; destruct (G y Iy) as [->| ->]; auto; right; rewrite edist2.
    + replace ((1 - -2) * (1 - -2) + (1 - 1) * (1 - 1)) with (3 * 3 + 0 * 0) by ring. auto.
    + replace ((-2 - 1) * (-2 - 1) + (1 - 1) * (1 - 1)) with (3 * 3 + 0 * 0) by ring. auto.
Qed.
Lemma w_owned : owned I2 wX wV 0 = wV.
Proof.
  unfold owned. rewrite (filter_ext _ (fun _ => true)); [induction wV as [|v V IH]; simpl; [auto|f_equal; auto]|]. intro v. unfold wX. cbn [nth]. rewrite mind1. apply np_close_refl.
Qed.
(** the exact solution of the program for the vertices found *)
Lemma w_opt : wV <> [] /\ square [0; 1] /\ forall z, square z -> radius I2 wV [0; 1] <= radius I2 wV z.
Proof.
  assert (NE : wV <> []) by (intro E; pose proof (proj2 (wV_in [1; 1]) (or_introl eq_refl)) as I; rewrite E in I; destruct I).
  split; auto. split; [apply square_iff; lra|]. intros z Hz. destruct (square_form z Hz) as [a [b [-> [Ha Hb]]]].
  apply Rle_trans with 2.
  - apply vmax_map_ub; auto. intros v Iv. apply wV_in in Iv. destruct Iv as [->| ->]; rewrite I2_dist; apply dist_le; lra.
  - apply Rle_trans with (Ldist I2 [a; b] [-2; 1]); [|apply (vmax_map_ge vec (Ldist I2 [a; b])); apply wV_in; auto]. rewrite I2_dist. rewrite <- (sqrt_square 2) at 1 by lra. apply sqrt_le_1_alt. nra.
Qed.
(** Started in the square, from a design in the square: a vertex outside, an estimate above the fill distance, and a next design that covers less *)
Theorem outside_refuted : exists (m : nat) L A b qr ords gs draws cc Xhat X0 F,
  (walk_pre m L A b [] Xhat qr (ords Xhat) gs) /\ Forall (inP m A b) Xhat /\ Forall (inP m A b) X0 /\ (forall k, length (draws k) = (2 * m)%nat /\ Forall (fun g => length g = m) (draws k)) /\
  (forall x, inP m A b x -> mind L Xhat x <= F) /\
  let V := update_sample m L (fun _ => vv_rows m L A b [] qr ords (fun _ => gs)) draws Xhat X0 in
  (exists v, In v V /\ ~ inP m A b v) /\ F < fill_dist L Xhat V /\
  (forall k, (k < length Xhat)%nat -> let W := owned L Xhat V k in W <> [] /\ inP m A b (cc W) /\ forall z, inP m A b z -> radius L W (cc W) <= radius L W z) /\
  exists Xn, sl_new m (length Xhat) L cc (fun x => x) Xhat V = Some Xn /\ Forall (inP m A b) Xn /\ exists x, inP m A b x /\ F < mind L Xn x.
Proof.
  exists 2%nat, I2, qA, qb, qr2, ord1, (fun _ => [1; 0]), wdraws, (fun _ => [0; 1]), wX, [[1 / 2; 3 / 4]], (sqrt (1 * 1 + 1 / 2 * (1 / 2))).
  split; [apply w_pre|]. split; [constructor; [apply square_iff; lra|constructor]|]. split; [constructor; [apply square_iff; lra|constructor]|]. split; [intro; split; [reflexivity|repeat constructor]|].
  split. { intros x Hx. destruct (square_form x Hx) as [a [b [-> [Ha Hb]]]]. unfold wX. rewrite mind1, I2_dist. apply sqrt_le_1_alt. nra. }
  fold wvv. change (update_sample 2 I2 (fun _ => vv_rows 2 I2 qA qb [] qr2 ord1 (fun _ _ => [1; 0])) wdraws wX [[1 / 2; 3 / 4]]) with wV. cbv zeta.
  destruct w_opt as [NE [O1 O2]].
  split. { exists [-2; 1]. split; [apply wV_in; auto|]. intro H. apply square_iff in H. lra. }
  split. { apply Rlt_le_trans with (mind I2 wX [-2; 1]); [|apply (vmax_map_ge vec (mind I2 wX)); apply wV_in; auto]. unfold wX. rewrite mind1, I2_dist. apply dist_lt. lra. }
  split. { intros k Hk. change (length wX) with 1%nat in Hk. assert (k = O) by lia. subst k. rewrite w_owned. auto. }
  exists [[0; 1]]. split. { change (length wX) with 1%nat. unfold sl_new. change (length wX) with 1%nat. cbn [Nat.ltb Nat.leb seq existsb map]. rewrite w_owned. destruct wV; [congruence|reflexivity]. }
  split; [constructor; [exact O1|constructor]|]. exists [1; 0]. split; [apply square_iff; lra|]. rewrite mind1, I2_dist. apply dist_lt. lra.
Qed.

(** ** planes that are not seen *)
Definition ord2 (X : mat) (x : vec) : list nat :=
  match X, x with
  | [[a1; a2]; [b1; b2]], [x1; x2] => if Rleb ((x1 - a1) * (x1 - a1) + (x2 - a2) * (x2 - a2)) ((x1 - b1) * (x1 - b1) + (x2 - b2) * (x2 - b2)) then [0; 1]%nat else [1; 0]%nat
  | _, _ => [0; 0]%nat
  end.
Definition pX : mat := [[1 / 2; 1 / 2]; [27 / 50; 27 / 50]].
Definition pdraws (k : nat) : mat := repeat [1; 1] 4.
Definition pvv (c : nat) (X S : mat) : mat := vv_rows 2 I2 qA qb [] qr2 ord2 (fun _ _ => [1; 0]) X S.
Lemma p_pre : walk_pre 2 I2 qA qb [] pX qr2 (ord2 pX) (fun _ => [1; 0]).
Proof.
  unfold walk_pre. split; [repeat constructor|]. split; [repeat constructor|]. split; [constructor|]. split; [discriminate|]. split; [repeat constructor|]. split; [reflexivity|]. split; [|apply qr2_ok].
  intros x [Lx _]. destruct x as [|x [|y [|]]]; try discriminate. unfold first_nearest, pX. cbn [ord2]. destruct (Rleb _ _) eqn:Q; [apply Rleb_true in Q|apply Rleb_false in Q];
    (split; [intros [|[|j]] Hj; simpl in *; lia|]); intros z [<-|[<-|[]]]; unfold site; cbn [nth]; rewrite !I2_dist; apply sqrt_le_1_alt; lra.
Qed.
Lemma p_sites : forall x y z p q, (forall s, In s pX -> site_alpha I2 [x; y] (site pX z 0) [p; q] s = None) -> omin_list (map (site_alpha I2 [x; y] (site pX z 0) [p; q]) pX) = None.
Proof. intros x y z p q H. cbn [map pX]. unfold pX in H at 1. rewrite (H [1 / 2; 1 / 2]), (H [27 / 50; 27 / 50]) by (simpl; auto). reflexivity. Qed.
(** along the diagonal to the corner *)
Lemma p_diag : forall x u o, 1 / 10 < x < 9 / 10 -> / 1000000000 < x - u -> 0 < u -> ord2 pX [x; x] = o -> site pX o 0 = [u; u] ->
  (forall s, In s pX -> site_alpha I2 [x; x] [u; u] [x - u; x - u] s = None) ->
  vv_walk 2 0 2 I2 qA qb [] pX qr2 true (ord2 pX) (fun _ => [1; 0]) [x; x] = [1; 1].
Proof.
  intros x u o Hx Hp Hu EO ES HS. cbn [vv_walk]. rewrite EO. replace (vv_step 2 I2 qA qb [] pX qr2 true o [1; 0] 0 [x; x]) with [1; 1].
  - apply corner_step; auto; [|intros s [<-|[<-|[]]]; auto]. unfold ord2, pX. destruct (Rleb _ _); reflexivity.
  - rewrite vv_step_eq. assert (HH : step_h 2 I2 qA qb [] pX qr2 true o [1; 0] 0 [x; x] = [x - u; x - u]).
    { apply dir_free; auto. rewrite act2_eq. rewrite (close_no x 1) by (rabs; unfold atol, rtol; lra). rewrite (close_no (- x) 0) by (rewrite Rabs_R0; rabs; unfold atol, rtol; lra). auto. }
    unfold step_al. rewrite HH. unfold al, vv_alpha. rewrite (not_small _ _ (x - u)) by (rabs; lra). rewrite p_sites by (rewrite ES; auto). rewrite faces2, (fa_pos (x - u)), (fa_none2 (- (x - u))) by lra.
    cbn [omin_list fold_right omin vscale map]. rewrite Rmin_left by lra. rewrite vadd2. assert (E : x + (1 - x) / (x - u) * (x - u) = 1) by (field; lra). rewrite E. auto.
Qed.
Lemma p_one : vv_walk 1 0 2 I2 qA qb [] pX qr2 true (ord2 pX) (fun _ => [1; 0]) [3 / 4; 3 / 4] = [1; 1] /\ step_h 2 I2 qA qb [] pX qr2 true (ord2 pX [3 / 4; 3 / 4]) [1; 0] 0 [3 / 4; 3 / 4] = [21 / 100; 21 / 100] /\ site pX (ord2 pX [3 / 4; 3 / 4]) 0 = [27 / 50; 27 / 50].
Proof.
  assert (EO : ord2 pX [3 / 4; 3 / 4] = [1; 0]%nat) by (unfold pX; cbn [ord2]; destruct (Rleb _ _) eqn:Q; auto; apply Rleb_true in Q; lra). cbn [vv_walk]. rewrite EO.
  assert (HH : step_h 2 I2 qA qb [] pX qr2 true [1; 0]%nat [1; 0] 0 [3 / 4; 3 / 4] = [21 / 100; 21 / 100]).
  { rewrite (dir_free _ _ _ _ _ (27 / 50) (27 / 50)); [|rewrite act2_eq; rewrite (close_no (3 / 4) 1) by (rabs; unfold atol, rtol; lra); rewrite (close_no (- (3 / 4)) 0) by (rewrite Rabs_R0; rabs; unfold atol, rtol; lra); auto|reflexivity]. replace (3 / 4 - 27 / 50) with (21 / 100) by lra. auto. }
  split; [|split; [exact HH|reflexivity]]. rewrite vv_step_eq. unfold step_al. rewrite HH. unfold al, vv_alpha. rewrite (not_small _ _ (21 / 100)) by (rabs; lra).
  rewrite p_sites. 2:{ change (site pX [1; 0]%nat 0) with [27 / 50; 27 / 50]. intros s [<-|[<-|[]]]; [apply site_past; lra|apply site_none; apply Rabs_le; unfold atol; lra]. }
  rewrite faces2, (fa_pos (21 / 100)), (fa_none2 (- (21 / 100))) by lra. cbn [omin_list fold_right omin vscale map]. rewrite Rmin_left by lra. rewrite vadd2. f_equal; [lra|f_equal; lra].
Qed.
Lemma p_walk0 : vv_walk 2 0 2 I2 qA qb [] pX qr2 true (ord2 pX) (fun _ => [1; 0]) [3 / 4; 3 / 4] = [1; 1].
Proof.
  apply (p_diag _ (27 / 50) [1; 0]%nat); try lra; auto.
  - unfold pX. cbn [ord2]. destruct (Rleb _ _) eqn:Q; auto. apply Rleb_true in Q. lra.
  - intros s [<-|[<-|[]]]; [apply site_past; lra|apply site_none]. replace ((27 / 50 - 27 / 50) * (3 / 4 - 27 / 50) + (27 / 50 - 27 / 50) * (3 / 4 - 27 / 50)) with 0 by lra. rewrite Rabs_R0. unfold atol. lra.
Qed.
Lemma p_walk1 : vv_walk 2 0 2 I2 qA qb [] pX qr2 true (ord2 pX) (fun _ => [1; 0]) [1 / 2 + / 10000000 * 1; 1 / 2 + / 10000000 * 1] = [1; 1].
Proof.
  apply (p_diag _ (1 / 2) [0; 1]%nat); try lra; auto.
  - unfold pX. cbn [ord2]. destruct (Rleb _ _) eqn:Q; auto. apply Rleb_false in Q. lra.
  - intros s [<-|[<-|[]]]; apply site_none; apply Rabs_le; unfold atol; lra.
Qed.
Lemma p_walk2 : vv_walk 2 0 2 I2 qA qb [] pX qr2 true (ord2 pX) (fun _ => [1; 0]) [27 / 50 + / 10000000 * 1; 27 / 50 + / 10000000 * 1] = [1; 1].
Proof.
  apply (p_diag _ (27 / 50) [1; 0]%nat); try lra; auto.
  - unfold pX. cbn [ord2]. destruct (Rleb _ _) eqn:Q; auto. apply Rleb_true in Q. lra.
  - intros s [<-|[<-|[]]]; apply site_none; apply Rabs_le; unfold atol; lra.
Qed.
Definition pV : mat := update_sample 2 I2 pvv pdraws pX [[3 / 4; 3 / 4]].
Lemma pV_in : forall v, In v pV -> v = [1; 1].
Proof.
  intros v I. apply uniq_incl in I. apply add_fold_inv in I. destruct I as [I|[k [Ik [_ I]]]].
  - apply uniq_incl in I. unfold pvv, vv_rows in I. cbn [length seq combine map Nat.sub fst snd] in I. rewrite p_walk0 in I. simpl in I. intuition.
  - change (length pX) with 2%nat in Ik. apply in_seq in Ik. unfold pvv, vv_rows, nudge, pdraws in I. destruct k as [|[|k]]; [| |lia].
    + change (nth 0 pX []) with [1 / 2; 1 / 2] in I. cbn [repeat map vscale vadd vmap2 length seq combine Nat.sub fst snd] in I. rewrite p_walk1 in I. simpl in I. intuition.
    + change (nth 1 pX []) with [27 / 50; 27 / 50] in I. cbn [repeat map vscale vadd vmap2 length seq combine Nat.sub fst snd] in I. rewrite p_walk2 in I. simpl in I. intuition.
Qed.
Lemma p_unowned : owned I2 pX pV 0 = [].
Proof.
  destruct (owned I2 pX pV 0) as [|v O'] eqn:E; auto. exfalso. assert (I : In v (owned I2 pX pV 0)) by (rewrite E; left; auto). unfold owned in I. apply filter_In in I. destruct I as [I C]. apply pV_in in I. subst v.
  assert (M : mind I2 pX [1; 1] <= sqrt (23 / 50 * (23 / 50) + 23 / 50 * (23 / 50))) by (eapply Rle_trans; [apply (mind_le I2 pX [1; 1] [27 / 50; 27 / 50]); simpl; auto|]; rewrite I2_dist; apply sqrt_le_1_alt; lra).
  assert (M0 : 0 <= mind I2 pX [1; 1]) by (destruct (mind_at I2 pX [1; 1] ltac:(discriminate)) as [c [_ ->]]; apply Ldist_nonneg).
  change (nth 0 pX []) with [1 / 2; 1 / 2] in C. rewrite I2_dist in C. unfold np_close in C. apply Rleb_true in C. rewrite (Rabs_right (mind I2 pX [1; 1])) in C by lra.
  assert (S1 : 7 / 10 < sqrt ((1 / 2 - 1) * (1 / 2 - 1) + (1 / 2 - 1) * (1 / 2 - 1))). { rewrite <- (sqrt_square (7 / 10)) at 1 by lra. apply sqrt_lt_1; lra. }
  assert (S2 : sqrt (23 / 50 * (23 / 50) + 23 / 50 * (23 / 50)) <= 66 / 100). { rewrite <- (sqrt_square (66 / 100)) by lra. apply sqrt_le_1_alt. lra. }
  pose proof (Rle_abs (sqrt ((1 / 2 - 1) * (1 / 2 - 1) + (1 / 2 - 1) * (1 / 2 - 1)) - mind I2 pX [1; 1])). unfold atol, rtol in C. lra.
Qed.
(** all starts and perturbed starts in the domain and in the cells of their nodes, and yet a node without a vertex: the iteration has no next design *)
Theorem unowned_refuted : exists (m : nat) L A b qr ords gs draws Xhat X0,
  walk_pre m L A b [] Xhat qr (ords Xhat) gs /\ Forall (inP m A b) Xhat /\ Forall (inP m A b) X0 /\ (forall k, length (draws k) = (2 * m)%nat) /\
  (forall k s, (k < length Xhat)%nat -> In s (nudge (nth k Xhat []) (draws k)) -> inP m A b s /\ nearest L Xhat k s) /\
  let V := update_sample m L (fun _ => vv_rows m L A b [] qr ords (fun _ => gs)) draws Xhat X0 in
  (exists k, (k < length Xhat)%nat /\ owned L Xhat V k = []) /\ forall cc store, sl_new m (length Xhat) L cc store Xhat V = None.
Proof.
  exists 2%nat, I2, qA, qb, qr2, ord2, (fun _ => [1; 0]), pdraws, pX, [[3 / 4; 3 / 4]].
  split; [apply p_pre|]. split; [constructor; [apply square_iff; lra|constructor; [apply square_iff; lra|constructor]]|]. split; [constructor; [apply square_iff; lra|constructor]|]. split; [reflexivity|].
  split. { intros k s Hk I. change (length pX) with 2%nat in Hk. unfold nudge in I. apply in_map_iff in I. destruct I as [g [<- Ig]]. apply repeat_spec in Ig. subst g.
    split; [destruct k as [|[|k]]; [| |lia]; cbn [pX nth vscale map vadd vmap2]; apply square_iff; lra|].
    split; [exact Hk|]. intros z Iz. destruct k as [|[|k]]; [| |lia]; cbn [pX nth vscale map vadd vmap2]; destruct Iz as [<-|[<-|[]]]; rewrite !I2_dist; apply sqrt_le_1_alt; lra. }
  change (update_sample 2 I2 (fun _ => vv_rows 2 I2 qA qb [] qr2 ord2 (fun _ _ => [1; 0])) pdraws pX [[3 / 4; 3 / 4]]) with pV. cbv zeta.
  split; [exists O; split; [simpl; lia|apply p_unowned]|]. intros cc store. unfold sl_new. change (length pX) with 2%nat. cbn [Nat.ltb Nat.leb seq existsb]. rewrite p_unowned. reflexivity.
Qed.

(** ** arrays of integers, and more rows than nodes *)
Definition corners4 : mat := [[0; 0]; [0; 1]; [1; 0]; [1; 1]].
Lemma trunc_half : truncr (1 / 2) = 0.
Proof.
  unfold truncr. destruct (Rltb (1 / 2) 0) eqn:Q; [apply Rltb_true in Q; lra|]. assert (E : up (1 / 2) = 1%Z) by (symmetry; apply tech_up; simpl; lra). rewrite E. reflexivity.
Qed.
Lemma centre_opt : forall z, square z -> radius I2 corners4 [1 / 2; 1 / 2] <= radius I2 corners4 z.
Proof.
  intros z Hz. destruct (square_form z Hz) as [a [b [-> [Ha Hb]]]]. apply Rle_trans with (sqrt (1 / 2 * (1 / 2) + 1 / 2 * (1 / 2))).
  - apply vmax_map_ub; [discriminate|]. intros v Iv. simpl in Iv. destruct Iv as [<-|[<-|[<-|[<-|[]]]]]; rewrite I2_dist; apply sqrt_le_1_alt; lra.
  - assert (G : exists v, In v corners4 /\ sqrt (1 / 2 * (1 / 2) + 1 / 2 * (1 / 2)) <= Ldist I2 [a; b] v).
    { destruct (Rle_or_lt a (1 / 2)) as [A1|A1]; destruct (Rle_or_lt b (1 / 2)) as [B1|B1].
      - exists [1; 1]. split; [simpl; auto|]. rewrite I2_dist. apply sqrt_le_1_alt. nra.
      - exists [1; 0]. split; [simpl; auto|]. rewrite I2_dist. apply sqrt_le_1_alt. nra.
      - exists [0; 1]. split; [simpl; auto|]. rewrite I2_dist. apply sqrt_le_1_alt. nra.
      - exists [0; 0]. split; [simpl; auto|]. rewrite I2_dist. apply sqrt_le_1_alt. nra. }
    destruct G as [v [Iv Hv]]. eapply Rle_trans; [exact Hv|]. apply (vmax_map_ge vec (Ldist I2 [a; b])). auto.
Qed.
Lemma owned_single : forall L c V, owned L [c] V 0 = V.
Proof. intros. unfold owned. cbn [nth]. induction V as [|v V IH]; [reflexivity|]. cbn [filter]. rewrite mind1, np_close_refl. f_equal. auto. Qed.
(** a design of integers never moves although its circumcentre does: the result depends on the type of the array given *)
Theorem integer_refuted : exists (P : vec -> Prop) m L V cc Xhat F, Forall P Xhat /\ Forall P V /\
  (let W := owned L Xhat V 0 in P (cc W) /\ forall z, P z -> radius L W (cc W) <= radius L W z) /\
  (forall n upd xtol V0, n <> O -> 0 < xtol -> (forall it X V, upd it X V = corners4) -> exists es, sl_loop n 0 m 1 L upd cc store_int xtol Xhat V0 = Some (Xhat, es)) /\
  (exists Xn, sl_new m 1 L cc (fun x => x) Xhat V = Some Xn /\ (forall x, P x -> mind L Xn x <= F)) /\ exists x, P x /\ F < mind L Xhat x.
Proof.
  exists square, 2%nat, I2, corners4, (fun _ => [1 / 2; 1 / 2]), [[0; 0]], (sqrt (1 / 2 * (1 / 2) + 1 / 2 * (1 / 2))).
  split; [constructor; [apply square_iff; lra|constructor]|]. split; [unfold corners4; repeat (constructor; [apply square_iff; lra|]); constructor|].
  split. { cbv zeta. rewrite owned_single. split; [apply square_iff; lra|apply centre_opt]. }
  split.
  { intros n upd xtol V0 Hn Hx HU. destruct n as [|n]; [congruence|]. cbn [sl_loop]. cbv zeta. rewrite HU. unfold sl_new. cbn [length Nat.ltb Nat.leb seq existsb map]. rewrite owned_single. cbn [corners4 orb store_int map]. rewrite trunc_half.
    assert (Z : lloyd_dx [[0; 0]] [[0; 0]] = 0). { unfold lloyd_dx. cbn [combine map fst snd vmax fold_left]. rewrite edist2. replace ((0 - 0) * (0 - 0) + (0 - 0) * (0 - 0)) with 0 by ring. apply sqrt_0. }
    rewrite Z. pose proof (proj2 (Rltb_true 0 xtol) Hx) as T. rewrite T. eexists. reflexivity. }
  split.
  { exists [[1 / 2; 1 / 2]]. split; [unfold sl_new; cbn [length Nat.ltb Nat.leb seq existsb map]; rewrite owned_single; reflexivity|]. intros x Hx. destruct (square_form x Hx) as [a [b [-> [Ha Hb]]]]. rewrite mind1, I2_dist. apply sqrt_le_1_alt. nra. }
  exists [1; 1]. split; [apply square_iff; lra|]. rewrite mind1, I2_dist. apply dist_lt. lra.
Qed.
(** M = 1 with a design of two rows: the second row becomes the origin, which need not be in the domain *)
Theorem rows_refuted : exists (P : vec -> Prop) m M L V cc Xhat Xn, (M < length Xhat)%nat /\ Forall P Xhat /\ Forall P V /\ (forall W, P (cc W)) /\
  sl_new m M L cc (fun x => x) Xhat V = Some Xn /\ ~ Forall P Xn.
Proof.
  exists (fun x => exists a b, x = [a; b] /\ 1 <= a <= 2 /\ 1 <= b <= 2), 2%nat, 1%nat, I2, [[1; 1]], (fun _ => [3 / 2; 3 / 2]), [[1; 1]; [2; 2]], [[3 / 2; 3 / 2]; [0; 0]].
  split; [simpl; lia|]. split; [repeat constructor; do 2 eexists; (split; [reflexivity|lra])|]. split; [repeat constructor; do 2 eexists; (split; [reflexivity|lra])|]. split; [intro; do 2 eexists; (split; [reflexivity|lra])|].
  split.
  - unfold sl_new. cbn [length Nat.ltb Nat.leb seq existsb map]. assert (I : In [1; 1] (owned I2 [[1; 1]; [2; 2]] [[1; 1]] 0)).
    { apply owned_nearest; [left; auto|]. split; [simpl; lia|]. intros z Iz. cbn [nth]. replace (Ldist I2 [1; 1] [1; 1]) with 0; [apply Ldist_nonneg|]. rewrite I2_dist. replace ((1 - 1) * (1 - 1) + (1 - 1) * (1 - 1)) with 0 by ring. rewrite sqrt_0. auto. }
    destruct (owned I2 [[1; 1]; [2; 2]] [[1; 1]] 0); [destruct I|reflexivity].
  - intro F. pose proof (Forall_inv (Forall_inv_tail F)) as [a [b [E [Ha Hb]]]]. injection E as E1 E2. lra.
Qed.

(** ** the hypotheses of the positive theorems *)
(** the walk from (1/2, 3/4) sees everything; all vertices, designs and nodes of an update with inner starts *)
Example ex_owns : forall k, (k < 1)%nat -> owned I2 wX wV k <> [].
Proof. intros k Hk. assert (k = O) by lia. subst. rewrite w_owned. apply w_opt. Qed.
Example ex_estimate : fill_dist I2 [[0; 0]] corners4 <= sqrt (1 * 1 + 1 * 1).
Proof.
  apply (estimate_le square); [discriminate|unfold corners4; repeat (constructor; [apply square_iff; lra|]); constructor|]. intros x Hx. destruct (square_form x Hx) as [a [b [-> [Ha Hb]]]]. rewrite mind1, I2_dist. apply sqrt_le_1_alt. nra.
Qed.
Example ex_nudge : nearest I2 pX 0 (vadd [1 / 2; 1 / 2] (vscale (/ 10000000) [1; 1])).
Proof.
  apply (nudge_nearest 2 I2 pX 0 [1; 1]); [repeat constructor|simpl; lia|reflexivity|]. intros z [<-|[<-|[]]]; [left; auto|right]. rewrite I2_mv. change (nth 0 pX []) with [1 / 2; 1 / 2]. rewrite I2_dist. unfold norm2, norm2sq. rewrite !dot_cons, !dot_nil_l.
  assert (sqrt (1 * 1 + (1 * 1 + 0)) <= 2) by (rewrite <- (sqrt_square 2) by lra; apply sqrt_le_1_alt; lra).
  assert (1 / 25 <= sqrt ((1 / 2 - 27 / 50) * (1 / 2 - 27 / 50) + (1 / 2 - 27 / 50) * (1 / 2 - 27 / 50))) by (rewrite <- (sqrt_square (1 / 25)) at 1 by lra; apply sqrt_le_1_alt; lra). lra.
Qed.
(** two nodes, a walk that sees the plane between them *)
Example ex_keeps : nearest I2 pX 1 (vv_walk 2 0 2 I2 qA qb [] pX qr2 true (ord2 pX) (fun _ => [1; 0]) [3 / 4; 3 / 4]).
Proof.
  apply walk_keeps; [apply p_pre|apply square_iff; lra| |].
  - destruct p_one as [E1 [E2 E3]]. intros i Hi z Iz. destruct i as [|[|i]]; [| |lia]; cbv zeta.
    + change (vv_walk 0 0 2 I2 qA qb [] pX qr2 true (ord2 pX) (fun _ => [1; 0]) [3 / 4; 3 / 4]) with [3 / 4; 3 / 4]. rewrite E2, E3. destruct Iz as [<-|[<-|[]]]; cbn [vsub vmap2]; rewrite !I2_mv, !dot_cons, !dot_nil_l; [right|left; lra]. rewrite Rabs_left by lra. unfold atol. lra.
    + rewrite E1. left. rewrite corner_h; [|unfold ord2, pX; destruct (Rleb _ _); reflexivity|reflexivity]. assert (Ez : exists s t, vsub z (site pX (ord2 pX [1; 1]) 0) = [s; t]).
      { assert (Es : exists u v, site pX (ord2 pX [1; 1]) 0 = [u; v]) by (unfold ord2, pX; destruct (Rleb _ _); do 2 eexists; reflexivity). destruct Es as [u [v ->]]. destruct Iz as [<-|[<-|[]]]; do 2 eexists; reflexivity. }
      destruct Ez as [s [t ->]]. rewrite !I2_mv, !dot_cons, !dot_nil_l. ring.
  - split; [simpl; lia|]. intros z [<-|[<-|[]]]; cbn [pX nth]; rewrite !I2_dist; apply sqrt_le_1_alt; lra.
Qed.
Example ex_found : exists Xn, sl_new 2 1 I2 (fun _ => [1 / 2; 1 / 2]) (fun x => x) [[0; 0]] corners4 = Some Xn /\ Xn = [[1 / 2; 1 / 2]] /\ fill_dist I2 Xn corners4 < fill_dist I2 [[0; 0]] corners4.
Proof.
  exists [[1 / 2; 1 / 2]]. split; [unfold sl_new; cbn [length Nat.ltb Nat.leb seq existsb map]; rewrite owned_single; reflexivity|]. split; auto.
  apply Rle_lt_trans with (sqrt (1 / 2 * (1 / 2) + 1 / 2 * (1 / 2))).
  - apply vmax_map_ub; [discriminate|]. intros v Iv. simpl in Iv. destruct Iv as [<-|[<-|[<-|[<-|[]]]]]; rewrite mind1, I2_dist; apply sqrt_le_1_alt; lra.
  - apply Rlt_le_trans with (mind I2 [[0; 0]] [1; 1]); [rewrite mind1, I2_dist; apply dist_lt; lra|apply (vmax_map_ge vec (mind I2 [[0; 0]])); simpl; auto].
Qed.
(** one node in the corner, one iteration: the estimate is the distance from the corner, whatever the walks give *)
Example ex_estimates : forall vv draws, exists es,
  sl_loop 1 0 2 1 I2 (fun _ _ _ => corners4) (fun _ => [1 / 2; 1 / 2]) (fun x => x) 1 [[0; 0]] [] = Some ([[1 / 2; 1 / 2]], es) /\ es = [fill_dist I2 [[0; 0]] corners4] /\
  minimax_lloyd None FullTrue 1 2 1 I2 (fun _ => corners4) vv draws (fun _ => [1 / 2; 1 / 2]) (fun x => x) 1 [[0; 0]] [] = Some [[1 / 2; 1 / 2]].
Proof.
  intros vv draws. exists [fill_dist I2 [[0; 0]] corners4]. assert (E : sl_new 2 1 I2 (fun _ => [1 / 2; 1 / 2]) (fun x => x) [[0; 0]] corners4 = Some [[1 / 2; 1 / 2]]) by (unfold sl_new; cbn [length Nat.ltb Nat.leb seq existsb map]; rewrite owned_single; reflexivity).
  assert (S : sl_loop 1 0 2 1 I2 (fun _ _ _ => corners4) (fun _ => [1 / 2; 1 / 2]) (fun x => x) 1 [[0; 0]] [] = Some ([[1 / 2; 1 / 2]], [fill_dist I2 [[0; 0]] corners4])) by (cbn [sl_loop]; cbv zeta; rewrite E; destruct (Rltb _ 1); reflexivity).
  split; auto. split; auto. unfold minimax_lloyd. cbn [pick_update]. cbv zeta. rewrite S. auto.
Qed.
