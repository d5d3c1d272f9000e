(** Concrete cases for C134. *)
Require Import Reals Lra Lia List Bool Arith.
From Verif Require Import RVec Num Sums DomMoreModel MatLib LipModel LipProofs LipMoreProofs PigeonLib ShadowUncModel ShadowUncProofs.
Import ListNotations.
Local Open Scope R_scope.

(** the interval [0, 1] *)
Definition su_P (x : vec) : Prop := exists t, x = [t] /\ 0 <= t <= 1.
Definition su_c (p : vec) : vec := if Rltb 0 (vget p 0) then [1] else [0].
Definition su_st (y : R) : mat := [[y]].
Definition su_mm (y : R) (f : vec -> vec) (x0 : vec) : vec := x0.
Lemma su_c1 : su_c [1] = [1].
Proof. unfold su_c. cbn [vget nth]. destruct (Rltb 0 1) eqn:Q; auto. apply Rltb_false in Q. lra. Qed.
Lemma su_c2 : su_c (vscale (-1) [1]) = [0].
Proof. unfold su_c, vscale, vget. cbn [map nth]. destruct (Rltb 0 (-1 * 1)) eqn:Q; auto. apply Rltb_true in Q. lra. Qed.
Lemma d1 : forall a b : R, dot [a] [b] = a * b.
Proof. intros. rewrite dot_cons, dot_nil_l. ring. Qed.
Lemma su_C1 : corner_of su_P su_c [1].
Proof. unfold corner_of. rewrite su_c1. split; [exists 1; split; [auto|lra]|]. intros x [t [-> H]]. rewrite !d1. lra. Qed.
Lemma su_C2 : corner_of su_P su_c (vscale (-1) [1]).
Proof. unfold corner_of. rewrite su_c2. split; [exists 0; split; [auto|lra]|]. intros x [t [-> H]]. unfold vscale. cbn [map]. rewrite !d1. lra. Qed.
Lemma ld2 : forall a b : R, Ldist [[2]] [a] [b] = 2 * Rabs (a - b).
Proof. intros. unfold Ldist, mv, vsub. cbn [map vmap2]. rewrite !d1, norm2_1. replace (2 * a - 2 * b) with (2 * (a - b)) by ring. rewrite Rabs_mult, (Rabs_right 2) by lra. auto. Qed.
Lemma unc_dom1 : forall z v t, unc_domain (su_mm t) [[2]] [([z], v)] (su_st t) = Some (v - 2 * Rabs (t - z), v + 2 * Rabs (t - z)).
Proof.
  intros. unfold unc_domain, su_st, su_mm, lowerb, upperb, vscale, vmin, vmax. cbn [map fold_left fst snd]. pose proof (ld2 t z) as E. unfold Ldist in E. rewrite E. do 2 f_equal. ring.
Qed.
Lemma unc_pt1 : forall z v t, unc1 [[2]] None [([z], v)] [t] = (Fin (v - 2 * Rabs (t - z)), Fin (v + 2 * Rabs (t - z))).
Proof. intros. rewrite unc_low by discriminate. unfold low, upp, vmin, vmax. cbn [map fold_left fst snd]. rewrite ld2. auto. Qed.
Lemma su_three : forall eps z v, shadow_unc su_c su_st su_mm [[2]] eps [([z], v)] [1] 3 =
  Some ([0; 1/2; 1], [unc1 [[2]] eps [([z], v)] [0]; (Fin (v - 2 * Rabs (1/2 - z)), Fin (v + 2 * Rabs (1/2 - z))); unc1 [[2]] eps [([z], v)] [1]]).
Proof.
  intros. unfold shadow_unc. rewrite su_c1, su_c2, !d1. destruct (Rltb (1 * 0) (1 * 1)) eqn:Q; [|apply Rltb_false in Q; lra].
  assert (E : linspace (1 * 0) (1 * 1) 3 = [0; 1/2; 1]) by (unfold linspace; cbn [map seq Nat.sub]; rewrite ?INR_IZR_INZ; cbn; f_equal; [lra|f_equal; [lra|f_equal; lra]]).
  rewrite E. cbn [tl firstn su_interior]. rewrite unc_dom1. reflexivity.
Qed.
(** one value 5 at 0, slope bound 2 on [0,1], three grid points: [5,5], [4,6], [3,7] *)
Example su_case : corner_of su_P su_c [1] /\ corner_of su_P su_c (vscale (-1) [1]) /\ (forall y, su_st y <> []) /\ (forall y f x0, between su_P [1] y -> In x0 (su_st y) -> su_P (su_mm y f x0) /\ dot [1] (su_mm y f x0) = y) /\
  exists b, shadow_unc su_c su_st su_mm [[2]] None [([0], 5)] [1] 3 = Some ([0; 1/2; 1], b) /\ b = [(Fin 5, Fin 5); (Fin 4, Fin 6); (Fin 3, Fin 7)].
Proof.
  split; [apply su_C1|]. split; [apply su_C2|]. split; [discriminate|]. split.
  - intros y f x0 Hy [<-|[]]. assert (HY : 0 <= y <= 1) by (destruct Hy as (a & b & [t [-> Ht]] & [t' [-> Ht']] & H); rewrite !d1 in H; lra). unfold su_mm. split; [exists y; auto|]. rewrite d1. ring.
  - eexists. split; [apply su_three|]. rewrite !unc_pt1. replace (0 - 0) with 0 by ring. replace (1/2 - 0) with (1/2) by ring. replace (1 - 0) with 1 by ring. rewrite Rabs_R0, !Rabs_right by lra.
    repeat (apply f_equal2; [apply f_equal2; apply f_equal; lra|]). reflexivity.
Qed.
(** the hypotheses of the enclosure theorem in the same case, for f(x) = 5 + 2 x *)
Example su_encloses_case : (forall x, su_P x -> dot [1] x = dot [1] (su_c [1]) -> mv [[2]] x = mv [[2]] (su_c [1])) /\
  (forall x, su_P x -> dot [1] x = dot [1] (su_c (vscale (-1) [1])) -> mv [[2]] x = mv [[2]] (su_c (vscale (-1) [1]))) /\
  (forall i z, (0 < i < 2)%nat -> su_P z -> dot [1] z = nth i [0; 1/2; 1] 0 ->
     (exists x0, In x0 (su_st (nth i [0; 1/2; 1] 0)) /\ vmax (lowerb [[2]] [([0], 5)] (su_mm (nth i [0; 1/2; 1] 0) (lowerb [[2]] [([0], 5)]) x0)) <= vmax (lowerb [[2]] [([0], 5)] z)) /\
     (exists x0, In x0 (su_st (nth i [0; 1/2; 1] 0)) /\ vmax (upperb [[2]] [([0], 5)] (su_mm (nth i [0; 1/2; 1] 0) (upperb [[2]] [([0], 5)]) x0)) <= vmax (upperb [[2]] [([0], 5)] z))) /\
  consistent su_P [[2]] [([0], 5)] (fun x => 5 + 2 * vget x 0).
Proof.
  split; [|split; [|split]].
  - intros x [t [-> Ht]]. rewrite su_c1, !d1. intro H. replace t with 1 by lra. auto.
  - intros x [t [-> Ht]]. rewrite su_c2, !d1. intro H. replace t with 0 by lra. auto.
  - intros i z Hi [t [-> Ht]] Ez. rewrite d1 in Ez. assert (T : t = nth i [0; 1/2; 1] 0) by lra. rewrite <- T. unfold su_st, su_mm. split; exists [t]; split; (left; reflexivity) || apply Rle_refl.
  - intros x d [t [-> Ht]] [<-|[]]. cbn [fst snd]. rewrite ld2. unfold vget. cbn [nth]. replace (5 + 2 * t - 5) with (2 * (t - 0)) by ring. rewrite Rabs_mult, (Rabs_right 2) by lra. lra.
Qed.
(** the square [0, 1]^2, u = (1, 0): the slice at y = 0 is an edge, but only one of its points is used *)
Definition sq_P (x : vec) : Prop := exists s t, x = [s; t] /\ 0 <= s <= 1 /\ 0 <= t <= 1.
Definition sq_c (p : vec) : vec := [if Rltb 0 (vget p 0) then 1 else 0; 0].
Lemma d2 : forall a b c e : R, dot [a; b] [c; e] = a * c + b * e.
Proof. intros. rewrite !dot_cons, dot_nil_l. ring. Qed.
Theorem su_endpoint_refuted : exists P corner starts mmx L D u n ys bs f i x, corner_of P corner u /\ corner_of P corner (vscale (-1) u) /\ (forall y, between P u y -> starts y <> []) /\ D <> [] /\
  shadow_unc corner starts mmx L None D u (S (S n)) = Some (ys, bs) /\
  (forall i z, (0 < i < S n)%nat -> P z -> dot u z = nth i ys 0 ->
     (exists x0, In x0 (starts (nth i ys 0)) /\ vmax (lowerb L D (mmx (nth i ys 0) (lowerb L D) x0)) <= vmax (lowerb L D z)) /\
     (exists x0, In x0 (starts (nth i ys 0)) /\ vmax (upperb L D (mmx (nth i ys 0) (upperb L D) x0)) <= vmax (upperb L D z))) /\
  consistent P L D f /\ (i < S (S n))%nat /\ P x /\ dot u x = nth i ys 0 /\ nleb (Fin (f x)) (snd (nth i bs (NInf, PInf))) = false.
Proof.
  set (I2 := [[1; 0]; [0; 1]]). set (D := [([0; 0], 0)]).
  assert (E1 : sq_c [1; 0] = [1; 0]) by (unfold sq_c; cbn [vget nth]; destruct (Rltb 0 1) eqn:Q; auto; apply Rltb_false in Q; lra).
  assert (E2 : sq_c (vscale (-1) [1; 0]) = [0; 0]) by (unfold sq_c, vscale, vget; cbn [map nth]; destruct (Rltb 0 (-1 * 1)) eqn:Q; auto; apply Rltb_true in Q; lra).
  exists sq_P, sq_c, (fun y => [[y; 0]]), (fun _ _ x0 => x0), I2, D, [1; 0], 0%nat, [0; 1], [unc1 I2 None D [0; 0]; unc1 I2 None D [1; 0]], (fun x => Ldist I2 x [0; 0]), 0%nat, [0; 1].
  split. { unfold corner_of. rewrite E1. split; [exists 1, 0; split; [auto|lra]|]. intros x (s & t & -> & Hs & Ht). rewrite !d2. lra. }
  split. { unfold corner_of. rewrite E2. split; [exists 0, 0; split; [auto|lra]|]. intros x (s & t & -> & Hs & Ht). unfold vscale. cbn [map]. rewrite !d2. lra. }
  split; [discriminate|]. split; [discriminate|]. split.
  { unfold shadow_unc. rewrite E1, E2, !d2. destruct (Rltb (1 * 0 + 0 * 0) (1 * 1 + 0 * 0)) eqn:Q; [|apply Rltb_false in Q; lra]. cbn [firstn su_interior].
    assert (E : linspace (1 * 0 + 0 * 0) (1 * 1 + 0 * 0) 2 = [0; 1]) by (unfold linspace; cbn [map seq Nat.sub INR]; f_equal; [lra|f_equal; lra]). rewrite E. reflexivity. }
  split; [intros i z Hi; lia|]. split.
  { intros x d Px [<-|[]]. cbn [fst snd]. rewrite Rminus_0_r, Rabs_right by (apply Rle_ge; apply sqrt_pos). lra. }
  split; [lia|]. split; [exists 0, 1; split; [auto|lra]|]. split; [rewrite d2; cbn [nth]; ring|]. cbn [nth]. rewrite unc_low by discriminate. cbn [snd nleb].
  assert (A : Ldist I2 [0; 1] [0; 0] = 1). { unfold Ldist, I2, mv, vsub, norm2, norm2sq. cbn [map vmap2]. rewrite !d2. replace ((1 * 0 + 0 * 1 - (1 * 0 + 0 * 0)) * (1 * 0 + 0 * 1 - (1 * 0 + 0 * 0)) + (0 * 0 + 1 * 1 - (0 * 0 + 1 * 0)) * (0 * 0 + 1 * 1 - (0 * 0 + 1 * 0))) with 1 by ring. apply sqrt_1. }
  assert (B : upp I2 D [0; 0] = 0). { unfold upp, D, vmin. cbn [map fold_left fst snd]. unfold Ldist, I2, mv, vsub, norm2, norm2sq. cbn [map vmap2]. rewrite !d2. replace ((1 * 0 + 0 * 0 - (1 * 0 + 0 * 0)) * (1 * 0 + 0 * 0 - (1 * 0 + 0 * 0)) + (0 * 0 + 1 * 0 - (0 * 0 + 1 * 0)) * (0 * 0 + 1 * 0 - (0 * 0 + 1 * 0))) with 0 by ring. rewrite sqrt_0. ring. }
  rewrite A, B. apply Rleb_false. lra.
Qed.
(** with one grid point the bounds at the largest u.x are reported for the smallest *)
Theorem su_single_refuted : exists P corner starts mmx L D u y b f x, corner_of P corner u /\ corner_of P corner (vscale (-1) u) /\
  (forall x, P x -> dot u x = dot u (corner u) -> mv L x = mv L (corner u)) /\ (forall x, P x -> dot u x = dot u (corner (vscale (-1) u)) -> mv L x = mv L (corner (vscale (-1) u))) /\
  shadow_unc corner starts mmx L None D u 1 = Some ([y], [b]) /\ consistent P L D f /\ P x /\ dot u x = y /\ nleb (Fin (f x)) (snd b) = false.
Proof.
  exists su_P, su_c, su_st, su_mm, [[2]], [([1], 5)], [1], 0, (unc1 [[2]] None [([1], 5)] [1]), (fun x => 5 + 2 * (1 - vget x 0)), [0].
  split; [apply su_C1|]. split; [apply su_C2|]. split; [apply su_encloses_case|]. split; [apply su_encloses_case|]. split.
  { unfold shadow_unc. rewrite su_c1, su_c2, !d1. destruct (Rltb (1 * 0) (1 * 1)) eqn:Q; [|apply Rltb_false in Q; lra]. unfold linspace. cbn [map seq Nat.sub INR]. do 3 f_equal. lra. }
  split. { intros x d [t [-> Ht]] [<-|[]]. cbn [fst snd]. rewrite ld2. unfold vget. cbn [nth]. replace (5 + 2 * (1 - t) - 5) with (2 * - (t - 1)) by ring. rewrite Rabs_mult, (Rabs_right 2), Rabs_Ropp by lra. lra. }
  split; [exists 0; split; [auto|lra]|]. split; [rewrite d1; ring|]. rewrite unc_pt1. replace (1 - 1) with 0 by ring. rewrite Rabs_R0. unfold vget. cbn [snd nleb nth]. apply Rleb_false. lra.
Qed.
(** with a noise level epsilon the bounds at the ends are widened, those inside are not *)
Theorem su_epsilon_refuted : exists P corner starts mmx L e D u ys bs f i x, 0 < e /\ corner_of P corner u /\ corner_of P corner (vscale (-1) u) /\
  (forall y f x0, between P u y -> In x0 (starts y) -> forall z, P z -> dot u z = y -> z = mmx y f x0) /\
  shadow_unc corner starts mmx L (Some e) D u 3 = Some (ys, bs) /\ (forall x d, P x -> In d D -> Rabs (f x - snd d) <= Ldist L x (fst d) + e) /\
  (i < 3)%nat /\ P x /\ dot u x = nth i ys 0 /\ nleb (Fin (f x)) (snd (nth i bs (NInf, PInf))) = false.
Proof.
  exists su_P, su_c, su_st, su_mm, [[2]], 1, [([0], 5)], [1]. eexists. eexists. exists (fun x => 6 + 2 * vget x 0), 1%nat, [1/2].
  split; [lra|]. split; [apply su_C1|]. split; [apply su_C2|]. split. { intros y f x0 _ [<-|[]] z [t [-> Ht]] Ez. unfold su_mm. rewrite d1 in Ez. f_equal. lra. }
  split; [apply su_three|]. split. { intros x d [t [-> Ht]] [<-|[]]. cbn [fst snd]. rewrite ld2. unfold vget. cbn [nth]. replace (6 + 2 * t - 5) with (1 + 2 * t) by ring. rewrite !Rabs_right; lra. }
  split; [lia|]. split; [exists (1/2); split; [auto|lra]|]. split; [rewrite d1; cbn [nth]; lra|]. cbn [nth snd nleb vget]. replace (1/2 - 0) with (1/2) by ring. rewrite Rabs_right by lra. apply Rleb_false. lra.
Qed.
