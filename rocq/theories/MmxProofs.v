(** Properties of the high-level minimax designs. *)
Require Import Reals Lra Lia List Bool Arith ZArith.
From Verif Require Import RVec Num Sums DomModel DomMoreModel HullIneqProofs LipModel LipProofs MatLib SampModel PigeonLib SweepProofs DesignProofs CoffeeProofs GeoModel GeoProofs SampMoreModel MinimaxProofs MmxModel.
Import ListNotations.
Local Open Scope R_scope.

(** * minimax_design *)
Definition metric_1d (m : nat) (L : option mat) (a : vec) : Prop := (L = None /\ m = 1%nat /\ a = [1]) \/ L = Some [a].
(** for a one-dimensional domain without L, or one row in L, the design is the best one of its size *)
Theorem design_exact : forall (P : vec -> Prop) m L a corner cluster N, (0 < N)%nat -> convexP P -> metric_1d m L a -> corners P a (corner a) (corner (vscale (-1) a)) ->
  exists X, minimax_design m L corner cluster N = DDesign X /\ length X = N /\ Forall P X /\
    forall Y F, length Y = N -> (forall x, P x -> exists y, In y Y /\ Ldist [a] x y <= F) -> forall x, P x -> exists y, In y X /\ Ldist [a] x y <= F.
Proof.
  intros P m L a corner cluster N HN HC HM HK. destruct (minimax_1d_optimal P a (corner a) (corner (vscale (-1) a)) N HN HC HK) as [X [E [LX [FX [HU HL]]]]]. exists X. split; [|split; [exact LX|split; [exact FX|]]].
  - unfold minimax_design, try_1d. destruct HM as [[-> [-> ->]] | ->].
    + replace (vscale (-1) [1]) with [-1] in E by (unfold vscale; cbn [map]; f_equal; ring). cbn [Nat.eqb]. rewrite E. auto.
    + cbn [length Nat.eqb concat]. rewrite app_nil_r, E. auto.
  - intros Y F LY HY x Px. destruct (HU x Px) as [y [Iy Hy]]. exists y. split; auto. destruct (HL Y LY) as [x' [Px' Hx']]. destruct (HY x' Px') as [y' [Iy' Hy']]. pose proof (Hx' y' Iy'). lra.
Qed.
(** otherwise the clustering is used, whatever the metric *)
Theorem design_cluster : forall m L corner cluster N, (L = None /\ m <> 1%nat) \/ (exists M, L = Some M /\ length M <> 1%nat) -> minimax_design m L corner cluster N = cluster.
Proof.
  intros m L corner cluster N [[-> H]|[M [-> H]]]; unfold minimax_design, try_1d; [destruct (Nat.eqb_spec m 1)|destruct (Nat.eqb_spec (length M) 1)]; congruence.
Qed.
(** no points: the division by N raises, and the clustering is not tried *)
Theorem design_zero : forall m L a corner cluster, metric_1d m L a -> minimax_design m L corner cluster 0 = DRaise.
Proof. intros m L a corner cluster [[-> [-> _]] | ->]; reflexivity. Qed.

Definition unit_iv (x : vec) : Prop := length x = 1%nat /\ 0 <= vget x 0 <= 1.
Lemma Ld_two_rows : forall a b, Ldist [[1]; [0]] [a] [b] = Rabs (a - b).
Proof.
  intros a b. unfold Ldist, mv, vsub. cbn [map vmap2]. rewrite !dot_cons, !dot_nil_l. unfold norm2, norm2sq. rewrite !dot_cons, !dot_nil_l.
  replace ((1 * a + 0 - (1 * b + 0)) * (1 * a + 0 - (1 * b + 0)) + ((0 * a + 0 - (0 * b + 0)) * (0 * a + 0 - (0 * b + 0)) + 0)) with (Rsqr (a - b)) by (unfold Rsqr; ring). apply sqrt_Rsqr_abs.
Qed.
(** a one-dimensional domain with a metric of two rows: the exact solution exists and is not used, and clustering one point returns the point it started from *)
Theorem design_1d_refuted : exists (P : vec -> Prop) L corner X x0 y, convexP P /\ corners P [1] (corner [1]) (corner [-1]) /\ Forall P X /\ In x0 X /\
  (forall maxiter xtol center, minimax_design 1 (Some L) corner (DDesign (minimax_cluster maxiter L X 1 xtol center [x0])) 1 = DDesign [x0]) /\
  P y /\ exists F, (forall x, P x -> Ldist L x y <= F) /\ exists x, P x /\ F < Ldist L x x0.
Proof.
  exists unit_iv, [[1]; [0]], (fun a => if Rltb 0 (vget a 0) then [1] else [0]), [[0]; [1 / 2]; [3 / 4]; [1 / 4]], [0], [1 / 2].
  split. { intros x y t [Lx Hx] [Ly Hy] Ht. unfold seg. destruct x as [|a [|]]; try discriminate. destruct y as [|b [|]]; try discriminate. unfold vget in Hx, Hy. cbn [nth] in Hx, Hy. split; [reflexivity|]. unfold vget. cbn. nra. }
  split. { unfold vget. cbn [nth]. rewrite (proj2 (Rltb_true 0 1)) by lra. rewrite (proj2 (Rltb_false 0 (-1))) by lra. split; [split; [reflexivity|unfold vget; simpl; lra]|]. split; [split; [reflexivity|unfold vget; simpl; lra]|]. split; [reflexivity|].
    intros x [Lx Hx]. destruct x as [|a [|]]; try discriminate. unfold vget in Hx. cbn [nth] in Hx. rewrite !dot_cons, !dot_nil_l. lra. }
  split; [repeat (apply Forall_cons; [split; [reflexivity|unfold vget; simpl; lra]|]); apply Forall_nil|]. split; [left; auto|].
  split. { intros maxiter xtol center. rewrite design_cluster by (right; eexists; split; [reflexivity|discriminate]). rewrite cluster_single. auto. }
  split; [split; [reflexivity|unfold vget; simpl; lra]|]. exists (1 / 2). split.
  - intros x [Lx Hx]. destruct x as [|a [|]]; try discriminate. unfold vget in Hx. cbn [nth] in Hx. rewrite Ld_two_rows. apply Rabs_le. lra.
  - exists [1]. split; [split; [reflexivity|unfold vget; simpl; lra]|]. rewrite Ld_two_rows. rewrite Rabs_right; lra.
Qed.

(** * minimax_optimal_cover *)
Definition symmetric (m : nat) (L : mat) : Prop := mT m L = L.
(** whatever is returned covers the samples within r in the metric of the transpose *)
Theorem cover_transposed : forall m M X design r vol ball det D, optimal_cover m (Some M) X design r vol ball det = Some D -> X <> [] -> D <> [] -> forall x, In x X -> exists c, In c D /\ Ldist (mT m M) c x <= r.
Proof.
  intros m M X design r vol ball det D E NX ND x Ix. assert (H : cover_dist m M X D <= r).
  { unfold optimal_cover in E. set (n0 := cover_num m 1 r vol ball det) in *. set (n1 := cover_num m 3 r vol ball det) in *. cbv zeta in E. destruct (Z.leb n0 0); [discriminate|]. set (f := fun n => r - cover_dist m M X (design n)) in *.
    destruct (Z_lt_le_dec n0 n1) as [H1|H1]; [|rewrite int_bisect_asserts in E by auto; discriminate]. destruct (Rlt_le_dec (f n0 * f n1) 0) as [H2|H2]; [|rewrite int_bisect_asserts in E by auto; discriminate].
    destruct (int_bisect_correct f n0 n1 H1 H2) as [n [EB [Hn [S1 S2]]]]. rewrite EB in E. destruct (Rltb 0 (f n0)) eqn:Q.
    - apply Rltb_true in Q. injection E as <-. assert (0 < f n) by nra. unfold f in H. lra.
    - apply Rltb_false in Q. injection E as <-. assert (f n0 < 0) by (destruct Q as [Q|Q]; auto; rewrite Q in S1; lra). assert (G : 0 <= f (n + 1)%Z) by nra. unfold f in G. lra. }
  destruct (cluster_dist (mT m M) D X ND NX) as [A _]. destruct (A x Ix) as [c [Ic Hc]]. exists c. split; auto. unfold cover_dist in H. lra.
Qed.
(** for a symmetric metric and clusterings that improve with their size: covers within r, with the smallest size in the range searched *)
Theorem cover_smallest_partial : forall m M X design r vol ball det, symmetric m M -> let n0 := cover_num m 1 r vol ball det in let n1 := cover_num m 3 r vol ball det in
  (1 <= n0 < n1)%Z -> (forall a b, (n0 <= a <= b)%Z -> (b <= n1)%Z -> mm_dist M (design b) X <= mm_dist M (design a) X) -> r < mm_dist M (design n0) X -> mm_dist M (design n1) X < r ->
  exists n, optimal_cover m (Some M) X design r vol ball det = Some (design n) /\ (n0 <= n <= n1)%Z /\ mm_dist M (design n) X <= r /\ forall k, (n0 <= k <= n1)%Z -> mm_dist M (design k) X <= r -> (n <= k)%Z.
Proof.
  intros m M X design r vol ball det HS n0 n1 Hn MON H0 H1. unfold optimal_cover. fold n0 n1. rewrite (proj2 (Z.leb_gt n0 0)) by lia. unfold cover_dist. rewrite HS.
  destruct (int_bisect_increasing (fun n => r - mm_dist M (design n) X) n0 n1) as [n [E [Hr [Hf HM]]]]; [lia|lra|lra|intros a b A B; pose proof (MON a b A B); lra|]. rewrite E. exists n. split; [auto|]. split; [auto|]. split; [lra|]. intros k Hk Hd. apply HM; auto. lra.
Qed.
(** the default metric has no transpose *)
Theorem cover_default : forall m X design r vol ball det, optimal_cover m None X design r vol ball det = None.
Proof. reflexivity. Qed.

Lemma Int_part_1 : Int_part 1 = 1%Z. Proof. change 1 with (INR 1). rewrite Int_part_INR. reflexivity. Qed.
Lemma Int_part_9 : Int_part 9 = 9%Z. Proof. replace 9 with (INR 9) by (simpl; lra). rewrite Int_part_INR. reflexivity. Qed.
Lemma num_small : forall k, cover_num 2 k 2 (4 * PI) PI 1 = Int_part (k * k).
Proof. intros k. unfold cover_num. f_equal. rewrite Rabs_R1. pose proof PI_RGT_0. simpl. field. lra. Qed.
Definition shear : mat := [[1; 5]; [0; 1]].
Definition nine : mat := [0; 0] :: [1; 0] :: map (fun y => [0; y]) [1; / 10; 2 / 10; 3 / 10; 4 / 10; 5 / 10; 6 / 10].
Lemma mT_shear : mT 2 shear = [[1; 0]; [5; 1]]. Proof. reflexivity. Qed.
Lemma Ld22 : forall p q s t a b c d, Ldist [[p; q]; [s; t]] [a; b] [c; d] = sqrt ((p * (a - c) + q * (b - d)) ^ 2 + (s * (a - c) + t * (b - d)) ^ 2).
Proof. intros. unfold Ldist, mv, vsub. cbn [map vmap2]. rewrite !dot_cons, !dot_nil_l. unfold norm2, norm2sq. rewrite !dot_cons, !dot_nil_l. f_equal. ring. Qed.
Lemma sqrt_le_num : forall x y, 0 <= y -> x <= y ^ 2 -> sqrt x <= y.
Proof. intros x y Hy H. rewrite <- (sqrt_pow2 y) by auto. apply sqrt_le_1_alt. auto. Qed.
Lemma sqrt_gt_num : forall x y, 0 <= y -> y ^ 2 < x -> y < sqrt x.
Proof. intros x y Hy H. rewrite <- (sqrt_pow2 y) by auto. apply sqrt_lt_1_alt. split; auto. apply pow2_ge_0. Qed.
(** the design returned can leave a sample farther than r from every centre, because the distances are measured with the transpose *)
Theorem cover_metric_refuted : exists m M X design r vol ball det D, ball = PI /\ det = 1 /\ (forall n, (1 <= n <= 9)%Z -> Z.of_nat (length (design n)) = n /\ incl (design n) X) /\
  optimal_cover m (Some M) X design r vol ball det = Some D /\ exists x, In x X /\ forall c, In c D -> r < Ldist M c x.
Proof.
  exists 2%nat, shear, nine, (fun n => firstn (Z.to_nat n) nine), 2, (4 * PI), PI, 1, [[0; 0]; [1; 0]]. split; [auto|]. split; [auto|]. split; [|split].
  - intros n Hn. split; [rewrite firstn_length; change (length nine) with 9%nat; lia|]. intros x I. rewrite <- (firstn_skipn (Z.to_nat n) nine). apply in_or_app. auto.
  - unfold optimal_cover. rewrite !num_small. replace (1 * 1) with 1 by ring. replace (3 * 3) with 9 by ring. rewrite Int_part_1, Int_part_9. cbn [Z.leb Z.compare]. set (f := fun n => 2 - cover_dist 2 shear nine (firstn (Z.to_nat n) nine)).
    assert (F1 : f 1%Z < 0).
    { unfold f, cover_dist. rewrite mT_shear. change (firstn (Z.to_nat 1) nine) with [[0; 0]]. assert (Ldist [[1; 0]; [5; 1]] [0; 0] [1; 0] <= mm_dist [[1; 0]; [5; 1]] [[0; 0]] nine).
      { unfold mm_dist. eapply Rle_trans; [|apply (vmax_map_ge vec (mind [[1; 0]; [5; 1]] [[0; 0]]) nine [1; 0]); right; left; auto]. unfold mind. cbn [map]. unfold vmin. cbn [fold_left]. lra. }
      rewrite Ld22 in H. assert (2 < sqrt ((1 * (0 - 1) + 0 * (0 - 0)) ^ 2 + (5 * (0 - 1) + 1 * (0 - 0)) ^ 2)) by (apply sqrt_gt_num; [lra|simpl; lra]). lra. }
    assert (F2 : forall n, (2 <= n)%Z -> 0 < f n).
    { intros n Hn. unfold f, cover_dist. rewrite mT_shear. assert (H : mm_dist [[1; 0]; [5; 1]] (firstn (Z.to_nat n) nine) nine <= 1); [|lra].
      replace (Z.to_nat n) with (S (S (Z.to_nat n - 2))) by lia. unfold nine at 1. cbn [firstn]. set (rest := firstn (Z.to_nat n - 2) _). unfold mm_dist. apply vmax_map_ub; [discriminate|]. intros x I. destruct I as [<-|[<-|I]].
      - eapply Rle_trans; [apply (mind_le _ _ _ [0; 0]); left; auto|]. rewrite Ld22. apply sqrt_le_num; [lra|simpl; lra].
      - eapply Rle_trans; [apply (mind_le _ _ _ [1; 0]); right; left; auto|]. rewrite Ld22. apply sqrt_le_num; [lra|simpl; lra].
      - eapply Rle_trans; [apply (mind_le _ _ _ [0; 0]); left; auto|]. simpl in I. repeat (destruct I as [<-|I]; [rewrite Ld22; apply sqrt_le_num; [lra|simpl; lra]|]). destruct I. }
    pose proof (F2 9%Z ltac:(lia)) as F9. destruct (int_bisect_correct f 1 9 ltac:(lia) ltac:(nra)) as [n [E [Hn [S1 _]]]]. rewrite E. rewrite (proj2 (Rltb_false _ _)) by lra.
    assert (n = 1%Z) by (destruct (Z_lt_le_dec n 2); [lia|pose proof (F2 n ltac:(lia)); nra]). subst n. reflexivity.
  - exists [0; 1]. split; [simpl; auto|]. intros c [<-|[<-|[]]]; unfold shear; rewrite Ld22; apply sqrt_gt_num; try lra; simpl; lra.
Qed.
(** a large radius, or samples covered by the smallest design tried, raise although one point covers all samples *)
Theorem cover_raises_refuted : exists m M X vol ball det, symmetric m M /\
  (exists r, (forall design, optimal_cover m (Some M) X design r vol ball det = None) /\ exists c, In c X /\ forall x, In x X -> Ldist M c x <= r) /\
  (exists r, (1 <= cover_num m 1 r vol ball det)%Z /\ (forall design, (forall n, In (nth 0 X []) (design n)) -> optimal_cover m (Some M) X design r vol ball det = None) /\ exists c, In c X /\ forall x, In x X -> Ldist M c x < r).
Proof.
  exists 2%nat, [[1; 0]; [0; 1]], [[0; 0]; [1; 0]], (4 * PI), PI, 1. split; [reflexivity|]. pose proof PI_RGT_0. split.
  - exists 4. split.
    + intros design. unfold optimal_cover. assert (E : cover_num 2 1 4 (4 * PI) PI 1 = 0%Z).
      { unfold cover_num. rewrite Rabs_R1. replace ((1 / 4) ^ 2 * (4 * PI / PI) * 1) with (/ 4) by (field; lra). unfold Int_part. replace (up (/ 4)) with 1%Z; [lia|]. apply tech_up; simpl; lra. }
      rewrite E. reflexivity.
    + exists [0; 0]. split; [left; auto|]. intros x [<-|[<-|[]]]; rewrite Ld22; apply sqrt_le_num; simpl; lra.
  - exists 2. split; [rewrite num_small; replace (1 * 1) with 1 by ring; rewrite Int_part_1; lia|]. split.
    + intros design HD. unfold optimal_cover. destruct (Z.leb _ 0); auto.
      assert (P : forall n, 0 < 2 - cover_dist 2 [[1; 0]; [0; 1]] [[0; 0]; [1; 0]] (design n)).
      { intros n. change (mT 2 [[1; 0]; [0; 1]]) with [[1; 0]; [0; 1]] || idtac. unfold cover_dist. change (mT 2 [[1; 0]; [0; 1]]) with [[1; 0]; [0; 1]]. assert (mm_dist [[1; 0]; [0; 1]] (design n) [[0; 0]; [1; 0]] <= 1); [|lra].
        unfold mm_dist. apply vmax_map_ub; [discriminate|]. intros x I. eapply Rle_trans; [apply (mind_le _ _ _ [0; 0]); exact (HD n)|]. destruct I as [<-|[<-|[]]]; rewrite Ld22; apply sqrt_le_num; simpl; lra. }
      rewrite int_bisect_asserts; auto. right. apply Rmult_le_pos; apply Rlt_le, P.
    + exists [0; 0]. split; [left; auto|]. intros x I. apply Rle_lt_trans with 1; [|lra]. destruct I as [<-|[<-|[]]]; rewrite Ld22; apply sqrt_le_num; simpl; lra.
Qed.

(** instances of the hypotheses *)
Example design_exact_case : convexP unit_iv /\ metric_1d 1 None [1] /\ corners unit_iv [1] [1] [0].
Proof.
  split; [intros x y t [Lx Hx] [Ly Hy] Ht; unfold seg; destruct x as [|a [|]]; try discriminate; destruct y as [|b [|]]; try discriminate; unfold vget in Hx, Hy; cbn [nth] in Hx, Hy; split; [reflexivity|]; unfold vget; cbn; nra|].
  split; [left; auto|]. split; [split; [reflexivity|unfold vget; simpl; lra]|]. split; [split; [reflexivity|unfold vget; simpl; lra]|]. split; [reflexivity|]. intros x [Lx Hx]. destruct x as [|a [|]]; try discriminate. unfold vget in Hx. cbn [nth] in Hx. rewrite !dot_cons, !dot_nil_l. lra.
Qed.
Example cover_case : let M := [[1; 0]; [0; 1]] in let X := [[0; 0]; [3; 0]] in let design := fun n => if Z.leb n 1 then [[0; 0]] else X in
  symmetric 2 M /\ cover_num 2 1 2 (4 * PI) PI 1 = 1%Z /\ cover_num 2 3 2 (4 * PI) PI 1 = 9%Z /\ (forall a b, (1 <= a <= b)%Z -> (b <= 9)%Z -> mm_dist M (design b) X <= mm_dist M (design a) X) /\ 2 < mm_dist M (design 1%Z) X /\ mm_dist M (design 9%Z) X < 2.
Proof.
  intros M X design. assert (D1 : 2 < mm_dist M [[0; 0]] X).
  { unfold mm_dist. eapply Rlt_le_trans; [|apply (vmax_map_ge vec (mind M [[0; 0]]) X [3; 0]); right; left; auto]. unfold mind. cbn [map]. unfold vmin. cbn [fold_left]. unfold M. rewrite Ld22. apply sqrt_gt_num; simpl; lra. }
  assert (D2 : mm_dist M X X <= 0).
  { unfold mm_dist. apply vmax_map_ub; [discriminate|]. intros x I. eapply Rle_trans; [apply (mind_le _ _ _ x); auto|]. destruct I as [<-|[<-|[]]]; unfold M; rewrite Ld22; apply sqrt_le_num; simpl; lra. }
  split; [reflexivity|]. split; [rewrite num_small; replace (1 * 1) with 1 by ring; apply Int_part_1|]. split; [rewrite num_small; replace (3 * 3) with 9 by ring; apply Int_part_9|].
  split; [|unfold design; cbn [Z.leb Z.compare Pos.compare Pos.compare_cont]; split; lra]. intros a b Hab Hb. unfold design. destruct (Z.leb_spec b 1); destruct (Z.leb_spec a 1); try lra; lia.
Qed.
