(** The intrinsic dimension reported by domains. *)
Require Import Reals Lra Lia List Bool Arith ZArith Psatz.
From Verif Require Import RVec Num Sums DomModel DomSpec DomProofs DomMoreModel SweepProofs HullProofs TensorModel TensorProofs ArnoldiMoreProofs MatLib SpecProofs LipModel SdpProofs GrassLib GpProofs Compact LinLs Spectral HullConvModel HullConvMore HullBasis GnStep KindModel KindProofs.
Import ListNotations.
Local Open Scope R_scope.

Lemma coord_le : forall z i, Rabs (vget z i) <= norm2 z.
Proof.
  intros z i. unfold norm2. apply Rsqr_incr_0; [|apply Rabs_pos|apply sqrt_pos]. rewrite <- Rsqr_abs, Rsqr_sqrt by apply norm2sq_nonneg. unfold norm2sq, Rsqr. revert i. induction z as [|a z IH]; intros i.
  - unfold vget. destruct i; cbn [nth]; rewrite dot_nil_l; lra.
  - rewrite dot_cons. pose proof (norm2sq_nonneg z) as P. unfold norm2sq in P. destruct i as [|i]; unfold vget; cbn [nth]; [nra|]. specialize (IH i). unfold vget in IH. nra.
Qed.
Lemma dot_le : forall a z, length a = length z -> dot a z <= norm2 a * norm2 z.
Proof. exact cauchy_schwarz. Qed.
Lemma norm2_cons : forall a z, norm2 (a :: z) <= Rabs a + norm2 z.
Proof.
  intros a z. unfold norm2 at 1, norm2sq. rewrite dot_cons. pose proof (norm2_nonneg z) as P. pose proof (Rabs_pos a) as Q. rewrite <- (sqrt_square (Rabs a + norm2 z)) by lra. apply sqrt_le_1_alt. pose proof (norm2_sq z) as E. unfold norm2sq in E. rewrite <- E.
  assert (A : a * a = Rabs a * Rabs a) by (rewrite <- Rabs_mult; rewrite Rabs_right; [ring|apply Rle_ge; nra]). rewrite A. nra.
Qed.
Lemma mv_bound : forall m L, Forall (fun a => length a = m) L -> exists K, 0 <= K /\ forall z, length z = m -> norm2 (mv L z) <= K * norm2 z.
Proof.
  intros m L F. induction F as [|a L La F (K & PK & HK)].
  - exists 0. split; [lra|]. intros z _. cbn [mv map]. unfold norm2, norm2sq. rewrite dot_nil_l, sqrt_0. lra.
  - exists (norm2 a + K). split; [pose proof (norm2_nonneg a); lra|]. intros z Lz. cbn [mv map]. eapply Rle_trans; [apply norm2_cons|]. fold (mv L z). specialize (HK z Lz). assert (D : Rabs (dot a z) <= norm2 a * norm2 z).
    { apply Rabs_le. split; [|apply cauchy_schwarz; lia]. pose proof (cauchy_schwarz (vscale (-1) a) z) as C. rewrite vscale_length, dot_vscale_l, norm2_vscale in C. replace (Rabs (-1)) with 1 in C by (rewrite Rabs_left; lra). specialize (C ltac:(lia)). lra. }
    lra.
Qed.
(** some ball around x0 satisfies P *)
Definition near (m : nat) (x0 : vec) (P : vec -> Prop) : Prop := exists e, 0 < e /\ forall y, length y = m -> norm2 (vsub y x0) <= e -> P y.
Lemma near_and : forall m x0 P Q, near m x0 P -> near m x0 Q -> near m x0 (fun y => P y /\ Q y).
Proof. intros m x0 P Q (e & Pe & He) (f & Pf & Hf). exists (Rmin e f). split; [apply Rmin_glb_lt; auto|]. intros y Ly Hy. split; [apply He; auto; pose proof (Rmin_l e f); lra|apply Hf; auto; pose proof (Rmin_r e f); lra]. Qed.
Lemma near_all : forall {A : Type} m x0 (l : list A) (P : A -> vec -> Prop), (forall a, In a l -> near m x0 (P a)) -> near m x0 (fun y => forall a, In a l -> P a y).
Proof.
  intros A m x0 l P. induction l as [|a l IH]; intros H; [exists 1; split; [lra|intros y _ _ b []]|]. assert (H2 : near m x0 (fun y => forall a, In a l -> P a y)) by (apply IH; intros b I; apply H; right; auto). destruct (near_and m x0 (P a) _ (H a (or_introl eq_refl)) H2) as (e & Pe & He). exists e. split; auto. intros y Ly Hy b I. destruct (He y Ly Hy) as [A1 A2]. destruct I as [<-|I]; [exact A1|apply A2; auto].
Qed.
(** x0 satisfies the equalities and all other constraints of d with slack s *)
Definition inner (d : dom) (s : R) (x0 : vec) : Prop := length x0 = dim d /\ sat_bounds (lb d) (ub d) (- s) x0 /\ sat_ineq (dA d) (db d) (- s) x0 /\ sat_eq0 (dAeq d) (dbeq d) x0 /\ sat_quad (quads d) (- s) x0.
Definition rows_wf (d : dom) : Prop := Forall (fun a => length a = dim d) (dA d) /\ Forall (fun a => length a = dim d) (dAeq d) /\ length (dAeq d) = length (dbeq d) /\ (forall q, In q (quads d) -> Forall (fun a => length a = dim d) (qL q) /\ length (qy q) = dim d).
Lemma inner_near : forall d s x0, rows_wf d -> 0 < s -> inner d s x0 -> near (dim d) x0 (fun y => sat_bounds (lb d) (ub d) 0 y /\ sat_ineq (dA d) (db d) 0 y /\ sat_quad (quads d) 0 y).
Proof.
  intros d s x0 (WA & _ & _ & WQ) Ps (L0 & B & I & _ & Q). apply near_and; [|apply near_and].
  - exists s. split; auto. intros y Ly Hy i. pose proof (coord_le (vsub y x0) i) as C. rewrite vsub_get in C by lia. destruct (B i) as [B1 B2]. pose proof (Rle_abs (vget y i - vget x0 i)) as C1. pose proof (Rle_abs (- (vget y i - vget x0 i))) as C2. rewrite Rabs_Ropp in C2. split; intros v Hv; [specialize (B1 v Hv); lra|specialize (B2 v Hv); lra].
  - destruct (near_all (dim d) x0 (combine (dA d) (db d)) (fun ac y => dot (fst ac) y <= snd ac + 0)) as (e & Pe & He).
    + intros [a c] Iac. cbn [fst snd]. apply (In_nth_error) in Iac. destruct Iac as [k Hk]. assert (Ha : nth_error (dA d) k = Some a /\ nth_error (db d) k = Some c).
      { clear -Hk. revert k Hk. generalize (db d). induction (dA d) as [|a' A IH]; intros [|c' b] [|k] Hk; try discriminate; cbn in *; [injection Hk as -> ->; auto|auto]. }
      destruct Ha as [Ha Hc]. specialize (I k a c Ha Hc). assert (La : length a = dim d) by (rewrite Forall_forall in WA; apply WA; eapply nth_error_In; eauto). pose proof (norm2_nonneg a) as NA.
      exists (s / (norm2 a + 1)). split; [apply Rdiv_lt_0_compat; lra|]. intros y Ly Hy. pose proof (cauchy_schwarz a (vsub y x0)) as C. rewrite vsub_length in C by lia. specialize (C ltac:(lia)). rewrite dot_vsub_r in C by lia.
      assert (T : norm2 a * norm2 (vsub y x0) <= norm2 a * (s / (norm2 a + 1))) by (apply Rmult_le_compat_l; auto). assert (U : norm2 a * (s / (norm2 a + 1)) <= s). { replace (norm2 a * (s / (norm2 a + 1))) with (s * (norm2 a / (norm2 a + 1))) by (field; lra). rewrite <- (Rmult_1_r s) at 2. apply Rmult_le_compat_l; [lra|]. apply (Rmult_le_reg_r (norm2 a + 1)); [lra|]. unfold Rdiv. rewrite Rmult_assoc, Rinv_l by lra. lra. } lra.
    + exists e. split; auto. intros y Ly Hy k a c Ha Hc. apply (He y Ly Hy (a, c)). apply nth_error_In with (n := k). clear -Ha Hc. revert k Ha Hc. generalize (db d). induction (dA d) as [|a' A IH]; intros [|c' b] [|k] Ha Hc; try discriminate; cbn in *; [congruence|auto].
  - apply (near_all (dim d) x0 (quads d) (fun q y => norm2 (mv (qL q) (vsub y (qy q))) <= qrho q + 0)). intros q Iq. destruct (WQ q Iq) as [FL LQ]. destruct (mv_bound (dim d) (qL q) FL) as (K & PK & HK). specialize (Q q Iq).
    exists (s / (K + 1)). split; [apply Rdiv_lt_0_compat; lra|]. intros y Ly Hy. assert (LV : length (vsub y x0) = dim d) by (rewrite vsub_length; lia). assert (LW : length (vsub x0 (qy q)) = dim d) by (rewrite vsub_length; lia).
    replace (vsub y (qy q)) with (vadd (vsub x0 (qy q)) (vsub y x0)). 2:{ apply vec_ext; [rewrite vadd_length, !vsub_length; lia|]. intros i Hi. rewrite vadd_get, !vsub_get by lia. ring. }
    rewrite mv_vadd by lia. eapply Rle_trans; [apply norm2_triangle; rewrite !mv_length; auto|]. specialize (HK (vsub y x0) LV). assert (T : K * norm2 (vsub y x0) <= K * (s / (K + 1))) by (apply Rmult_le_compat_l; auto). assert (U : K * (s / (K + 1)) <= s). { replace (K * (s / (K + 1))) with (s * (K / (K + 1))) by (field; lra). rewrite <- (Rmult_1_r s) at 2. apply Rmult_le_compat_l; [lra|]. apply (Rmult_le_reg_r (K + 1)); [lra|]. unfold Rdiv. rewrite Rmult_assoc, Rinv_l by lra. lra. } lra.
Qed.
(** the dimension reported is a lower bound of the dimension, and exact if and only if no equality row is redundant *)
Theorem intrinsic_leaf : forall d s x0, rows_wf d -> 0 < s -> inner d s x0 ->
  exists n z, dims (member d) (dim d) n /\ intrinsic (KLeaf (KLin d)) = Some z /\ (z <= Z.of_nat n)%Z /\ (z = Z.of_nat n <-> irr (dim d) (dAeq d)).
Proof.
  intros d s x0 W Ps I. destruct (inner_near d s x0 W Ps I) as (e & Pe & He). destruct W as (WA & WE & LE & WQ). destruct I as (L0 & B & I & E & Q).
  destruct (affine_dims (dim d) (dAeq d) (dbeq d) _ x0 e WE LE L0 E Pe He) as (n & D & LN & IR). exists n, (Z.of_nat (dim d) - Z.of_nat (length (dAeq d)))%Z. split; [|split; [reflexivity|]].
  - eapply dims_ext; [|exact D]. intro x. unfold member. tauto.
  - split; [lia|]. rewrite <- IR. lia.
Qed.
(** * products *)
Definition times (m : nat) (P P' : vec -> Prop) (x : vec) : Prop := P (firstn m x) /\ P' (skipn m x).
Lemma dot_pad_l : forall q m' w, dot (q ++ repeat 0 m') w = dot q (firstn (length q) w).
Proof.
  intros q m' w. revert w. induction q as [|a q IH]; intros [|b w]; cbn [app length firstn].
  - rewrite !dot_nil_l. rewrite dot_comm. apply dot_nil_l.
  - rewrite dot_nil_l. rewrite dot_comm. clear. revert m'. generalize (b :: w). intros l. induction l as [|c l IH]; intros [|m']; cbn [repeat]; rewrite ?dot_nil_l; auto; try (rewrite dot_comm; apply dot_nil_l). rewrite dot_cons, IH. ring.
  - rewrite !(dot_comm _ []). rewrite !dot_nil_l. auto.
  - rewrite !dot_cons, IH. auto.
Qed.
Lemma dot_pad_r : forall q m w, dot (repeat 0 m ++ q) w = dot q (skipn m w).
Proof.
  intros q m. induction m as [|m IH]; intros [|b w]; cbn [repeat app skipn]; auto.
  - rewrite !(dot_comm _ []). rewrite !dot_nil_l. auto.
  - rewrite dot_cons, IH. ring.
Qed.
Lemma vsub_split : forall m x y, firstn m (vsub x y) = vsub (firstn m x) (firstn m y) /\ skipn m (vsub x y) = vsub (skipn m x) (skipn m y).
Proof.
  intros m x y. revert x y. induction m as [|m IH]; intros x y; [auto|]. destruct x as [|a x]; [split; reflexivity|]. destruct y as [|b y]; [split; [reflexivity|]; cbn [skipn]; change (vsub (a :: x) []) with (@nil R); destruct (skipn m x); reflexivity|].
  change (vsub (a :: x) (b :: y)) with (Rminus a b :: vsub x y). cbn [firstn skipn]. destruct (IH x y) as [-> ->]. split; reflexivity.
Qed.
Lemma vadd_split : forall m x y, firstn m (vadd x y) = vadd (firstn m x) (firstn m y) /\ skipn m (vadd x y) = vadd (skipn m x) (skipn m y).
Proof.
  intros m x y. revert x y. induction m as [|m IH]; intros x y; [auto|]. destruct x as [|a x]; [split; reflexivity|]. destruct y as [|b y]; [split; [reflexivity|]; cbn [skipn]; change (vadd (a :: x) []) with (@nil R); destruct (skipn m x); reflexivity|].
  change (vadd (a :: x) (b :: y)) with (Rplus a b :: vadd x y). cbn [firstn skipn]. destruct (IH x y) as [-> ->]. split; reflexivity.
Qed.
Lemma dot_app_split : forall m x w, length x = length w -> dot x w = dot (firstn m x) (firstn m w) + dot (skipn m x) (skipn m w).
Proof.
  induction m as [|m IH]; intros x w L; [cbn [firstn skipn]; rewrite dot_nil_l; ring|]. destruct x as [|a x], w as [|b w]; try discriminate; cbn [firstn skipn]; [rewrite !dot_nil_l; ring|]. rewrite !dot_cons, (IH x w) by (simpl in L; lia). ring.
Qed.
Theorem dims_times : forall P P' m m' d d', dims P m d -> dims P' m' d' -> dims (times m P P') (m + m') (d + d').
Proof.
  intros P P' m m' d d' [x [Q [Px [Lx [LQ [FQ [OQ [LP [SQ EQ]]]]]]]]] [x' [Q' [Px' [Lx' [LQ' [FQ' [OQ' [LP' [SQ' EQ']]]]]]]]].
  assert (F1 : firstn m (x ++ x') = x) by (rewrite firstn_app, Lx, Nat.sub_diag, <- Lx, firstn_all; apply app_nil_r). assert (S1 : skipn m (x ++ x') = x') by (rewrite skipn_app, Lx, Nat.sub_diag, <- Lx, skipn_all; auto).
  set (B := map (fun q => q ++ repeat 0 m') Q ++ map (fun q => repeat 0 m ++ q) Q'). rewrite Forall_forall in FQ, FQ'.
  exists (x ++ x'), B. split; [unfold times; rewrite F1, S1; auto|]. split; [rewrite app_length; lia|]. split; [unfold B; rewrite app_length, !map_length; lia|]. split.
  { apply Forall_forall. intros v I. unfold B in I. apply in_app_or in I. destruct I as [I|I]; apply in_map_iff in I; destruct I as [q [<- I]]; rewrite app_length, repeat_length; [rewrite (FQ q I)|rewrite (FQ' q I)]; auto. }
  split.
  { apply orth_app.
    - intros i j Hi Hj. rewrite map_length in Hi, Hj. rewrite !(nth_indep (map _ Q) [] ([] ++ repeat 0 m')) by (rewrite map_length; auto). rewrite !(map_nth (fun q => q ++ repeat 0 m')). rewrite dot_pad_l, (FQ (nth i Q [])) by (apply nth_In; auto). rewrite firstn_app, (FQ (nth j Q [])) by (apply nth_In; auto). rewrite Nat.sub_diag. cbn [firstn]. rewrite app_nil_r, firstn_all2 by (rewrite (FQ (nth j Q [])) by (apply nth_In; auto); auto). apply OQ; auto.
    - intros i j Hi Hj. rewrite map_length in Hi, Hj. rewrite !(nth_indep (map _ Q') [] (repeat 0 m ++ [])) by (rewrite map_length; auto). rewrite !(map_nth (fun q => repeat 0 m ++ q)). rewrite dot_pad_r, skipn_app, repeat_length, Nat.sub_diag. rewrite skipn_all2 by (rewrite repeat_length; auto). apply OQ'; auto.
    - intros u w Iu Iw. apply in_map_iff in Iu, Iw. destruct Iu as [q [<- Iq]], Iw as [q' [<- Iq']]. rewrite dot_pad_l, (FQ q Iq). rewrite firstn_app, repeat_length, Nat.sub_diag. cbn [firstn]. rewrite app_nil_r, firstn_all2 by (rewrite repeat_length; auto). rewrite dot_comm. rewrite <- (app_nil_r (repeat 0 m)), dot_pad_r. apply dot_nil_l. }
  split. { intros z [A A']. apply LP in A. apply LP' in A'. rewrite firstn_length in A. rewrite skipn_length in A'. destruct m'; [|lia]. assert (length z <= m \/ m < length z)%nat as [|] by lia; lia. }
  split.
  - intros z w [A A'] Lw H. assert (Lz : length z = (m + m')%nat). { pose proof (LP _ A) as B1. pose proof (LP' _ A') as B2. rewrite firstn_length in B1. rewrite skipn_length in B2. lia. }
    rewrite (dot_app_split m) by (rewrite vsub_length; rewrite ?app_length; lia). destruct (vsub_split m z (x ++ x')) as [-> ->]. rewrite F1, S1. rewrite SQ, SQ'; auto; [ring|rewrite skipn_length; lia| |rewrite firstn_length; lia|].
    + intros q Iq. rewrite <- (dot_pad_r q m w). apply H. unfold B. apply in_or_app. right. apply in_map_iff. eauto.
    + intros q Iq. rewrite <- (FQ q Iq), <- (dot_pad_l q m' w). apply H. unfold B. apply in_or_app. left. apply in_map_iff. eauto.
  - intros v I. unfold B in I. apply in_app_or in I. unfold times. assert (ZV : forall e k, vscale e (repeat 0 k) = repeat 0 k) by (intros e k; induction k; cbn; [auto|unfold vscale in IHk; rewrite IHk, Rmult_0_r; auto]).
    assert (AZ : forall k y, length y = k -> vadd y (repeat 0 k) = y). { induction k as [|k IH]; intros [|a y] L; try discriminate; cbn; auto. unfold vadd in IH. rewrite IH by (simpl in L; lia). rewrite Rplus_0_r. auto. }
    assert (SA : forall e (a b : vec), vscale e (a ++ b) = vscale e a ++ vscale e b) by (intros; unfold vscale; apply map_app).
    destruct I as [I|I]; apply in_map_iff in I; destruct I as [q [<- I]]; [destruct (EQ q I) as [e [Ne Pe]]|destruct (EQ' q I) as [e [Ne Pe]]]; exists e; (split; [auto|]); destruct (vadd_split m (x ++ x') (vscale e (q ++ repeat 0 m'))) as [E1 E2]; destruct (vadd_split m (x ++ x') (vscale e (repeat 0 m ++ q))) as [E3 E4].
    + rewrite E1, E2, F1, S1, SA, ZV. assert (Lq : length (vscale e q) = m) by (rewrite vscale_length; auto). rewrite firstn_app, skipn_app, Lq, Nat.sub_diag. cbn [firstn skipn]. rewrite app_nil_r, firstn_all2, skipn_all2 by lia. cbn [app]. rewrite AZ by auto. auto.
    + rewrite E3, E4, F1, S1, SA, ZV. rewrite firstn_app, skipn_app, repeat_length, Nat.sub_diag. cbn [firstn skipn]. rewrite app_nil_r, firstn_all2, skipn_all2 by (rewrite repeat_length; auto). cbn [app]. rewrite AZ by auto. auto.
Qed.
(** a product reports the sum, which is exact when it is for every factor *)
Theorem intrinsic_prod : forall ks, ks <> [] -> intrinsic (KProd ks) = Some (fold_right Z.add 0%Z (map (fun k => Z.of_nat (klen1 k) - Z.of_nat (length (dAeq (kcon k))))%Z ks)).
Proof.
  intros ks NE. destruct ks as [|k ks]; [congruence|]. cbn [intrinsic]. f_equal. generalize (k :: ks). clear. intros ks. induction ks as [|k ks IH]; auto. cbn [klen fold_right map concat] in *. rewrite app_length. lia.
Qed.
Theorem intrinsic_prod_exact : forall ks, ks <> [] -> (forall k, In k ks -> exists n, dims (kmember1 k) (klen1 k) n /\ intrinsic (KLeaf k) = Some (Z.of_nat n)) ->
  exists n, dims (kmember (KProd ks)) (klen (KProd ks)) n /\ intrinsic (KProd ks) = Some (Z.of_nat n).
Proof.
  intros ks NE H. rewrite intrinsic_prod by auto. clear NE. induction ks as [|k ks IH].
  - exists O. split; auto. exists [], []. cbn. split; auto. split; auto. split; auto. split; auto. split; [intros i j Hi; simpl in Hi; lia|]. split; [intros x ->; auto|]. split; [intros x w -> _ _; apply dot_nil_l|intros q []].
  - destruct (IH (fun k I => H k (or_intror I))) as [n [D E]]. destruct (H k (or_introl eq_refl)) as [n1 [D1 E1]]. exists (n1 + n)%nat. split; [apply (dims_times _ _ _ _ _ _ D1 D)|]. cbn [map fold_right]. cbn [intrinsic] in E1. injection E1 as E1. injection E as E. rewrite E1, E. f_equal. lia.
Qed.
(** redundant rows, bounds that meet, and hulls of fewer points: the number reported is not the dimension, and can be negative *)
Theorem intrinsic_refuted : (exists d, rows_wf d /\ dims (member d) (dim d) 0 /\ intrinsic (KLeaf (KLin d)) = Some (-1)%Z) /\
  (exists x, length x = 2%nat /\ dims (member (mkDom Point 2 (map Fin x) (map Fin x) [] [] [] [] [])) 2 0 /\ intrinsic (KLeaf (KLin (mkDom Point 2 (map Fin x) (map Fin x) [] [] [] [] []))) = Some 2%Z) /\
  (exists h, hX h <> [] /\ dims (hull_member h) 1 0 /\ intrinsic (KLeaf (KHull h)) = Some 1%Z).
Proof.
  assert (ZR : forall (P : vec -> Prop) m x0, P x0 -> length x0 = m -> (forall x, P x -> x = x0) -> dims P m 0).
  { intros P m x0 P0 L0 H. exists x0, []. split; auto. split; auto. split; auto. split; auto. split; [intros i j Hi; simpl in Hi; lia|]. split; [intros x Px; rewrite (H x Px); auto|]. split; [|intros q []]. intros x w Px Lw _. rewrite (H x Px). rewrite dot_vsub_l by auto. ring. }
  split; [|split].
  - exists (mkDom LinQuad 1 [NInf] [PInf] [] [] [[1]; [1]] [0; 0] []). split; [split; [constructor|]; split; [repeat constructor|]; split; [auto|intros q []]|]. split; [|reflexivity]. apply (ZR _ 1%nat [0]); auto.
    + split; auto. split; [intros [|[|i]]; split; intros v Hv; discriminate|]. split; [intros [|] a c Ha; discriminate|]. split; [|intros q []]. intros [|[|[|k]]] a c Ha Hc; try discriminate; cbn in Ha, Hc; injection Ha as <-; injection Hc as <-; rewrite dot_cons, dot_nil_l; ring.
    + intros x [Lx [_ [_ [E _]]]]. destruct x as [|a [|]]; try discriminate. specialize (E 0%nat [1] 0 eq_refl eq_refl). rewrite dot_cons, dot_nil_l in E. f_equal. lra.
  - exists [3; 4]. split; auto. split; [|reflexivity]. apply (ZR _ 2%nat [3; 4]); auto.
    + split; auto. split; [intros [|[|[|i]]]; split; intros v Hv; try discriminate; cbn in Hv; injection Hv as <-; unfold vget; cbn; lra|]. split; [intros [|] a c Ha; discriminate|]. split; [intros [|] a c Ha; discriminate|intros q []].
    + intros x [Lx [B _]]. destruct x as [|a [|b [|]]]; try discriminate. destruct (B 0%nat) as [A1 A2], (B 1%nat) as [B1 B2]. specialize (A1 3 eq_refl). specialize (A2 3 eq_refl). specialize (B1 4 eq_refl). specialize (B2 4 eq_refl). unfold vget in *. cbn in *. f_equal; [lra|f_equal; lra].
  - exists (mkHull [[5]] (mkDom LinQuad 1 [NInf] [PInf] [] [] [] [] [])). split; [discriminate|]. split; [|reflexivity]. apply (ZR _ 1%nat [5]); auto.
    + split; [exists [1]; repeat split; auto; [repeat constructor; lra|unfold vsum; cbn; lra|unfold lincomb; cbn; f_equal; lra]|]. split; auto. split; [intros [|[|i]]; split; intros v Hv; discriminate|]. split; [intros [|] a c Ha; discriminate|]. split; [intros [|] a c Ha; discriminate|intros q []].
    + intros x [[al [La [_ [Sa ->]]]] _]. destruct al as [|a [|]]; try discriminate. unfold vsum in Sa. cbn in Sa. unfold lincomb. cbn. f_equal. lra.
Qed.
(** a domain with an inner point and an independent row: the unit disc on the line x = y *)
Example ex_intrinsic : let d := mkDom LinQuad 2 [NInf; NInf] [PInf; Fin 2] [[1; 1]] [1] [[1; -1]] [0] [mkQuad [[1; 0]; [0; 1]] [0; 0] 1] in
  rows_wf d /\ inner d 1 [0; 0] /\ irr 2 (dAeq d) /\ intrinsic (KLeaf (KLin d)) = Some 1%Z.
Proof.
  intro d. split; [split; [repeat constructor|]; split; [repeat constructor|]; split; [auto|]; intros q [<-|[]]; split; [repeat constructor|auto]|]. split; [|split; [|reflexivity]].
  - split; auto. split; [intros [|[|[|i]]]; split; intros v Hv; try discriminate; cbn in Hv; injection Hv as <-; unfold vget; cbn; lra|]. split; [intros [|[|k]] a c Ha Hc; try discriminate; cbn in Ha, Hc; injection Ha as <-; injection Hc as <-; rewrite !dot_cons, dot_nil_l; lra|].
    split; [intros [|[|k]] a c Ha Hc; try discriminate; cbn in Ha, Hc; injection Ha as <-; injection Hc as <-; rewrite !dot_cons, dot_nil_l; lra|]. intros q [<-|[]]. cbn [qL qy qrho mv map vsub vmap2]. unfold norm2, norm2sq. rewrite !dot_cons, !dot_nil_l. match goal with |- sqrt ?a <= _ => replace a with 0 by ring end. rewrite sqrt_0. lra.
  - split; [exact I|]. exists [1; 0]. split; auto. split; [intros a []|]. rewrite !dot_cons, dot_nil_l. lra.
Qed.
Example ex_box : is_box (KProd [KLin (mkDom Box 1 [Fin 0] [Fin 1] [] [] [] [] []); KLin (mkDom Box 1 [Fin 2] [PInf] [] [] [] [] [])]) = true /\ Forall bounds_wf (kleaves (KProd [KLin (mkDom Box 1 [Fin 0] [Fin 1] [] [] [] [] []); KLin (mkDom Box 1 [Fin 2] [PInf] [] [] [] [] [])])).
Proof. split; [reflexivity|]. repeat constructor. Qed.
