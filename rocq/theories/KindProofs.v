(** Kinds of domains and the intrinsic dimension. *)
Require Import Reals Lra Lia List Bool Arith ZArith Psatz.
From Verif Require Import RVec Num Sums DomModel DomSpec DomProofs DomMoreModel SweepProofs HullProofs TensorModel TensorProofs ArnoldiMoreProofs MatLib SpecProofs LipModel SdpProofs GrassLib GpProofs Compact LinLs Spectral HullConvModel HullConvMore HullBasis GnStep KindModel.
Import ListNotations.
Local Open Scope R_scope.

(** the points of a domain *)
Definition kmember1 (k : kleaf) (x : vec) : Prop := match k with KLin d => member d x | KHull h => hull_member h x end.
Fixpoint kprod (ks : list kleaf) (x : vec) : Prop := match ks with [] => x = [] | k :: r => kmember1 k (firstn (klen1 k) x) /\ kprod r (skipn (klen1 k) x) end.
Definition kmember (k : kdom) (x : vec) : Prop := match k with KLeaf k => kmember1 k x | KProd ks => kprod ks x end.
Definition kleaves (k : kdom) : list kleaf := match k with KLeaf k => [k] | KProd ks => ks end.
Definition bounds_wf (k : kleaf) : Prop := length (lb (kcon k)) = klen1 k /\ length (ub (kcon k)) = klen1 k.

(** * kinds *)
Lemma leaf_box_sound : forall k x, leaf_box k = true -> (kmember1 k x <-> length x = klen1 k /\ sat_bounds (lb (kcon k)) (ub (kcon k)) 0 x).
Proof.
  intros [d|h] x E; [|discriminate]. cbn in E. apply andb_true_iff in E. destruct E as [E E3]. apply andb_true_iff in E. destruct E as [E1 E2]. apply Nat.eqb_eq in E1, E2, E3. apply length_zero_iff_nil in E1, E2, E3.
  cbn [kmember1 klen1 kcon]. unfold member. rewrite E1, E2, E3. split; [intros [A [B _]]; auto|]. intros [A B]. split; auto. split; auto. split; [intros k a c _ H; destruct k; discriminate|]. split; [intros k a c _ H; destruct k; discriminate|intros q []].
Qed.
Theorem box_sound : forall k x, is_box k = true -> Forall bounds_wf (kleaves k) -> (kmember k x <-> length x = klen k /\ sat_bounds (klb k) (kub k) 0 x).
Proof.
  intros [k|ks] x E W; [apply leaf_box_sound; auto|]. cbn [is_box kall kleaves kmember klen klb kub] in *. unfold is_box in E. cbn [kall] in E. revert x E. induction W as [|k ks [W1 W2] W IH]; intros x E.
  - cbn. split; [intros ->; split; auto; intros i; split; intros v H; destruct i; discriminate|]. intros [H _]. destruct x; auto; discriminate.
  - cbn [forallb] in E. apply andb_true_iff in E. destruct E as [E1 E2]. cbn [kprod fold_right map concat]. rewrite leaf_box_sound by auto. rewrite (IH (skipn (klen1 k) x) E2). set (n := fold_right (fun k n => (klen1 k + n)%nat) O ks) in *.
    assert (LL : length (concat (map (fun k => lb (kcon k)) ks)) = n /\ length (concat (map (fun k => ub (kcon k)) ks)) = n).
    { unfold n. clear -W. induction W as [|k ks [A B] W [I1 I2]]; cbn [map concat fold_right length]; auto. rewrite !app_length. lia. }
    destruct LL as [L1 L2]. split.
    + intros [[A B] [C D]]. rewrite firstn_length in A. rewrite skipn_length in C. split; [lia|]. rewrite <- (firstn_skipn (klen1 k) x). apply sat_bounds_app; rewrite ?firstn_length, ?skipn_length; try lia. auto.
    + intros [A B]. rewrite <- (firstn_skipn (klen1 k) x) in B. apply sat_bounds_app in B; rewrite ?firstn_length, ?skipn_length in *; try lia. destruct B as [B1 B2]. split; split; auto; lia.
Qed.
(** the kinds are nested *)
Theorem kinds_nested : forall k, (is_box k = true -> is_linineq k = true) /\ (is_linineq k = true -> is_linquad k = true).
Proof.
  intro k. split; [|destruct k as [k|ks]; intros _; [reflexivity|]; unfold is_linquad; cbn [kall]; apply forallb_forall; auto].
  assert (L : forall k, leaf_box k = true -> leaf_linineq k = true). { intros [d|h] E; [|discriminate]. cbn in E. apply andb_true_iff in E. destruct E as [E _]. apply andb_true_iff in E. destruct E as [E _]. exact E. }
  destruct k as [k|ks]; unfold is_box, is_linineq; cbn [kall]; auto. rewrite !forallb_forall. auto.
Qed.
(** a domain reported as linear, not a hull, has no other constraints *)
Theorem linineq_sound : forall k x, is_linineq k = true -> (forall h, ~ In (KHull h) (kleaves k)) -> (kmember k x <-> kmember (match k with KLeaf k => KLeaf (KLin (mkDom LinIneq (klen1 k) (lb (kcon k)) (ub (kcon k)) (dA (kcon k)) (db (kcon k)) (dAeq (kcon k)) (dbeq (kcon k)) []))
  | KProd ks => KProd (map (fun k => KLin (mkDom LinIneq (klen1 k) (lb (kcon k)) (ub (kcon k)) (dA (kcon k)) (db (kcon k)) (dAeq (kcon k)) (dbeq (kcon k)) [])) ks) end) x).
Proof.
  assert (L : forall k x, leaf_linineq k = true -> (forall h, k <> KHull h) -> (kmember1 k x <-> kmember1 (KLin (mkDom LinIneq (klen1 k) (lb (kcon k)) (ub (kcon k)) (dA (kcon k)) (db (kcon k)) (dAeq (kcon k)) (dbeq (kcon k)) [])) x)).
  { intros [d|h] x E N; [|exfalso; apply (N h); auto]. unfold leaf_linineq in E. cbn [kcon] in E. apply Nat.eqb_eq, length_zero_iff_nil in E. cbn [kmember1 kcon klen1]. unfold member. cbn [dim lb ub dA db dAeq dbeq quads]. rewrite E. reflexivity. }
  intros [k|ks] x E N; cbn [kmember kleaves] in *; unfold is_linineq in E; cbn [kall] in E.
  - apply L; auto. intros h ->. apply (N h). left. auto.
  - revert x E. induction ks as [|k ks IH]; intros x E; [reflexivity|]. cbn [forallb] in E. apply andb_true_iff in E. destruct E as [E1 E2]. cbn [kprod map]. rewrite <- (IH (fun h I => N h (or_intror I)) (skipn (klen1 k) x) E2). rewrite (L k (firstn (klen1 k) x)) by (auto; intros h ->; apply (N h); left; auto). reflexivity.
Qed.
(** every domain is reported as linear-quadratic, a hull without quadratic constraints as linear, although its constraint attributes do not describe it *)
Theorem hull_kind_refuted : (forall k, is_linquad k = true) /\ exists h x, is_linineq (KLeaf (KHull h)) = true /\ member (hcon h) x /\ ~ hull_member h x.
Proof.
  split. { intros [k|ks]; [reflexivity|]. apply forallb_forall. auto. }
  exists (mkHull [[0]; [1]] (mkDom LinQuad 1 [NInf] [PInf] [] [] [] [] [])), [2]. split; [reflexivity|]. split.
  - split; [reflexivity|]. split; [intros [|[|i]]; split; intros v H; discriminate|]. split; [intros [|] a c H; discriminate|]. split; [intros [|] a c H; discriminate|intros q []].
  - intros [[al [La [Fa [Sa E]]]] _]. destruct al as [|a [|b [|]]]; try discriminate. unfold vsum in Sa. cbn in Sa. inversion Fa as [|? ? A0 F2]; subst. inversion F2; subst. unfold lincomb in E. cbn in E. injection E as E. lra.
Qed.

(** * dimension *)
(** P is a set of dimension d in R^m: its differences are in the span of d orthonormal directions, all of which occur *)
Definition dims (P : vec -> Prop) (m d : nat) : Prop := exists x0 Q, P x0 /\ length x0 = m /\ length Q = d /\ Forall (fun q => length q = m) Q /\ orthonormal Q /\
  (forall x, P x -> length x = m) /\ (forall x w, P x -> length w = m -> (forall q, In q Q -> dot q w = 0) -> dot (vsub x x0) w = 0) /\ (forall q, In q Q -> exists e, e <> 0 /\ P (vadd x0 (vscale e q))).
Lemma dims_le : forall P m d d', dims P m d -> dims P m d' -> (d' <= d)%nat.
Proof.
  intros P m d d' [x [Q [Px [Lx [LQ [FQ [OQ [LP [SQ EQ]]]]]]]]] [x' [Q' [Px' [Lx' [LQ' [FQ' [OQ' [_ [SQ' EQ']]]]]]]]].
  assert (IN : forall q' w, In q' Q' -> length w = m -> (forall q, In q Q -> dot q w = 0) -> dot q' w = 0).
  { intros q' w I Lw H. destruct (EQ' q' I) as [e [Ne PE]]. assert (Lq : length q' = m) by (rewrite Forall_forall in FQ'; auto). pose proof (SQ _ w PE Lw H) as A. pose proof (SQ _ w Px' Lw H) as B.
    rewrite dot_vsub_l, dot_vadd_l, dot_vscale_l in A by (rewrite ?vscale_length, ?vadd_length; rewrite ?vscale_length; lia). rewrite dot_vsub_l in B by lia. assert (C : e * dot q' w = 0) by lra. apply Rmult_integral in C. tauto. }
  rewrite <- LQ, <- LQ'. replace (length Q') with (length (map (mv Q) Q')) by apply map_length. apply orthonormal_count.
  - apply Forall_forall. intros v I. apply in_map_iff in I. destruct I as [q [<- _]]. apply mv_length.
  - intros i j Hi Hj. rewrite map_length in Hi, Hj. rewrite !(nth_indep (map (mv Q) Q') [] (mv Q [])) by (rewrite map_length; auto). rewrite !map_nth. rewrite <- (OQ' i j) by auto. set (a := nth i Q' []). set (b := nth j Q' []).
    assert (La : length a = m) by (rewrite Forall_forall in FQ'; apply FQ', nth_In; auto). assert (Lb : length b = m) by (rewrite Forall_forall in FQ'; apply FQ', nth_In; auto).
    rewrite (dot_comm a b), (proj_out_dot m Q b a) by auto. rewrite (dot_comm (proj_out Q b) a), (IN a (proj_out Q b)); [|apply nth_In; auto|apply proj_out_length; auto|intros q I; eapply proj_out_perp; eauto].
    rewrite (dot_rs (length Q)) by (rewrite mv_length; auto). rewrite Rplus_0_l. apply rsum_ext. intros k Hk. rewrite !mv_get by auto. ring.
Qed.
Theorem dims_unique : forall P m d d', dims P m d -> dims P m d' -> d = d'.
Proof. intros P m d d' A B. apply Nat.le_antisymm; eapply dims_le; eauto. Qed.
(** each row removes a direction left by the rows after it *)
Fixpoint irr (m : nat) (A : mat) : Prop := match A with [] => True | c :: C => irr m C /\ exists w, length w = m /\ (forall a, In a C -> dot a w = 0) /\ dot c w <> 0 end.
Lemma rank_exists : forall m C, Forall (fun c => length c = m) C -> exists Q, orth_sp m C Q /\ (length Q <= length C)%nat /\ (length Q = length C <-> irr m C).
Proof.
  intros m C F. induction F as [|c C Lc F IH].
  - exists []. split; [split; auto; split; [intros i j Hi; simpl in Hi; lia|]; intros w Lw; split; intros H q []|]. cbn. split; [auto|split; auto].
  - destruct IH as (Q & (FQ & OQ & E) & LE & IR). set (r := proj_out Q c). assert (Lr : length r = m) by (apply proj_out_length; auto). assert (PR : forall q, In q Q -> dot q r = 0) by (intros q I; eapply proj_out_perp; eauto).
    assert (DW : forall w, length w = m -> (forall q, In q Q -> dot q w = 0) -> dot c w = dot r w). { intros w Lw H. rewrite (proj_out_dot m Q c w) by auto. fold r. rewrite rsum_zero by (intros k Hk; rewrite (H (nth k Q [])) by (apply nth_In; auto); ring). ring. }
    destruct (Req_EM_T (dot r r) 0) as [Z|NZ].
    + assert (R0 : forall i, vget r i = 0) by (intro i; apply LocalLinProofs.norm2sq_0_get; auto). assert (RW : forall w, length w = m -> dot r w = 0) by (intros w Lw; rewrite (dot_rs m) by auto; apply rsum_zero; intros i Hi; rewrite R0; ring).
      exists Q. split; [split; auto; split; auto; intros w Lw; rewrite <- (E w Lw); split; [intros H q I; apply H; right; auto|]; intros H q [<-|I]; [|auto]; rewrite DW by (auto; apply E; auto); auto|]. split; [cbn; lia|]. split; [cbn; lia|].
      intros [_ (w & Lw & W & NW)]. exfalso. apply NW. rewrite DW by (auto; apply E; auto). auto.
    + assert (P : 0 < dot r r) by (pose proof (norm2sq_nonneg r); unfold norm2sq in *; lra). set (n := sqrt (dot r r)). assert (NP : 0 < n) by (apply sqrt_lt_R0; auto). assert (NN : n * n = dot r r) by (apply sqrt_sqrt; lra). exists (Q ++ [vscale (/ n) r]). split; [|rewrite app_length; cbn [length irr]; split; [lia|]].
      * split; [apply Forall_app; split; auto; constructor; auto; rewrite vscale_length; auto|]. split.
        { apply orth_app; auto; [|intros u v Iu [<-|[]]; rewrite dot_vscale_r, PR by auto; ring]. intros i j Hi Hj. simpl in Hi, Hj. assert (i = 0 /\ j = 0)%nat as [-> ->] by lia. cbn [nth Nat.eqb]. rewrite dot_vscale_l, dot_vscale_r, <- NN. field. lra. }
        intros w Lw. split.
        { intros H q I. assert (QW : forall q, In q Q -> dot q w = 0) by (apply E; auto; intros c' I'; apply H; right; auto). apply in_app_or in I. destruct I as [I|[<-|[]]]; auto. assert (K := H c (or_introl eq_refl)). rewrite DW in K by auto. rewrite dot_vscale_l, K. ring. }
        { intros H. assert (QW : forall q, In q Q -> dot q w = 0) by (intros q I; apply H, in_or_app; auto). intros c' [<-|I]; [|apply E; auto]. rewrite DW by auto.
          assert (K : dot (vscale (/ n) r) w = 0) by (apply H, in_or_app; right; left; auto). rewrite dot_vscale_l in K. apply Rmult_integral in K. destruct K as [K|K]; [exfalso; assert (0 < / n) by (apply Rinv_0_lt_compat; auto); lra|lra]. }
      * split.
        { intros EL. split; [apply IR; lia|]. exists r. split; auto. split; [apply E; auto|]. rewrite DW by auto. auto. }
        { intros [I _]. apply IR in I. lia. }
Qed.
(** an orthonormal system of m vectors leaves nothing *)
Lemma full_zero : forall m B r w, Forall (fun q => length q = m) B -> orthonormal B -> length B = m -> length r = m -> (forall q, In q B -> dot q r = 0) -> dot r w = 0.
Proof.
  intros m B r w F O LB Lr H. assert (Z : dot r r = 0).
  { destruct (Req_dec (dot r r) 0) as [|NZ]; auto. exfalso. assert (NR : norm2 r <> 0) by (intro Q; apply NZ; change (dot r r) with (norm2sq r); rewrite <- norm2_sq, Q; ring).
    destruct (orth_snoc m B (vscale (/ norm2 r) r)) as [F' O']; auto.
    - rewrite vscale_length. auto.
    - rewrite dot_vscale_l, dot_vscale_r. pose proof (norm2_sq r) as Q. unfold norm2sq in Q. rewrite <- Q. field. auto.
    - intros k Hk. rewrite dot_vscale_r, H by (apply nth_In; auto). ring.
    - pose proof (orthonormal_count m _ F' O') as C. rewrite app_length in C. cbn in C. lia. }
  assert (R0 : forall i, vget r i = 0) by (intro i; apply LocalLinProofs.norm2sq_0_get; auto).  clear -R0. revert w. induction r as [|a r IH]; intros w; [apply dot_nil_l|]. destruct w as [|b w]; [rewrite dot_comm; apply dot_nil_l|]. rewrite dot_cons, IH by (intro i; apply (R0 (S i))). pose proof (R0 O) as A. unfold vget in A. cbn in A. rewrite A. ring.
Qed.
(** * sets given by equations and constraints not tight at some point *)
Theorem affine_dims : forall m A b (C : vec -> Prop) x0 e, Forall (fun a => length a = m) A -> length A = length b -> length x0 = m -> sat_eq0 A b x0 -> 0 < e -> (forall y, length y = m -> norm2 (vsub y x0) <= e -> C y) ->
  exists d, dims (fun x => length x = m /\ sat_eq0 A b x /\ C x) m d /\ (m <= d + length A)%nat /\ ((d + length A)%nat = m <-> irr m A).
Proof.
  intros m A b C x0 e FA LAb L0 E0 Pe HC. destruct (rank_exists m A FA) as (Q & (FQ & OQ & EQ) & LE & IR). pose proof (orthonormal_count m Q FQ OQ) as LQ. destruct (extend_to m m Q FQ OQ ltac:(lia)) as (vs & LV & FV & OV). rewrite app_length in LV.
  exists (length vs). split; [|split; [lia|rewrite <- IR; lia]]. pose proof FV as FV'. apply Forall_app in FV'. destruct FV' as [_ Fvs]. assert (Bk : forall k, (k < length vs)%nat -> nth k vs [] = nth (length Q + k) (Q ++ vs) []) by (intros k Hk; rewrite app_nth2 by lia; f_equal; lia).
  assert (OVS : orthonormal vs). { intros i j Hi Hj. rewrite !Bk by auto. rewrite OV by (rewrite app_length; lia). destruct (Nat.eqb_spec (length Q + i) (length Q + j)), (Nat.eqb_spec i j); auto; lia. }
  assert (QV : forall q v, In q Q -> In v vs -> dot q v = 0). { intros q v Iq Iv. apply (In_nth _ _ []) in Iq, Iv. destruct Iq as (i & Hi & <-), Iv as (j & Hj & <-). rewrite Bk by auto. rewrite <- (app_nth1 Q vs []) by auto. rewrite OV by (rewrite app_length; lia). destruct (Nat.eqb_spec i (length Q + j)); [lia|auto]. }
  assert (EQD : forall x, length x = m -> sat_eq0 A b x -> forall a, In a A -> dot a (vsub x x0) = 0).
  { intros x Lx Ex a Ia. apply In_nth_error in Ia. destruct Ia as [k Hk]. destruct (nth_error b k) as [c|] eqn:Hc. 2:{ apply nth_error_None in Hc. assert (k < length A)%nat by (apply nth_error_Some; congruence). lia. } rewrite dot_vsub_r by lia. rewrite (Ex k a c Hk Hc), (E0 k a c Hk Hc). ring. }
  exists x0, vs. split. { split; auto. split; auto. apply HC; auto. replace (vsub x0 x0) with (vscale 0 x0); [rewrite norm2_vscale, Rabs_R0; lra|]. apply vec_ext; [rewrite vscale_length, vsub_length; auto|]. intros i Hi. rewrite vscale_get, vsub_get by auto. ring. }
  split; auto. split; auto. split; auto. split; auto. split; [tauto|]. split.
  - intros x w [Lx [Ex _]] Lw Hw. set (y := vsub x x0). assert (Ly : length y = m) by (unfold y; rewrite vsub_length; lia).
    assert (YQ : forall q, In q Q -> dot q y = 0) by (apply (EQ y Ly); intros a Ia; apply EQD; auto). rewrite (proj_out_dot m (Q ++ vs) y w) by auto.
    rewrite (full_zero m (Q ++ vs) (proj_out (Q ++ vs) y) w); auto; [|rewrite app_length; lia|apply proj_out_length; auto|intros q I; eapply proj_out_perp; eauto].
    rewrite rsum_zero; [ring|]. intros k Hk. assert (I : In (nth k (Q ++ vs) []) (Q ++ vs)) by (apply nth_In; auto). apply in_app_or in I. destruct I as [I|I]; [rewrite YQ by auto; ring|rewrite (Hw _ I); ring].
  - intros v Iv. assert (Lv : length v = m) by (rewrite Forall_forall in Fvs; auto). exists e. split; [lra|]. assert (LL : length (vadd x0 (vscale e v)) = m) by (rewrite vadd_length; rewrite ?vscale_length; lia). split; auto. split.
    + intros k a c Ha Hc. rewrite dot_vadd_r by (rewrite vscale_length; lia). rewrite dot_vscale_r. assert (Z : dot a v = 0). { apply (proj2 (EQ v Lv)); [intros q Iq; apply QV; auto|]. eapply nth_error_In; eauto. } rewrite Z, (E0 k a c Ha Hc). ring.
    + apply HC; auto. replace (vsub (vadd x0 (vscale e v)) x0) with (vscale e v). 2:{ apply vec_ext; [rewrite vscale_length, vsub_length; lia|]. intros i Hi. rewrite vsub_get, vadd_get by (rewrite ?vscale_length; lia). ring. }
      rewrite norm2_vscale. apply (In_nth _ _ []) in Iv. destruct Iv as (k & Hk & <-). assert (N1 : norm2 (nth k vs []) = 1). { unfold norm2, norm2sq. rewrite OVS, Nat.eqb_refl by auto. apply sqrt_1. } rewrite N1, Rabs_right by lra. lra.
Qed.
Lemma dims_ext : forall (P P' : vec -> Prop) m d, (forall x, P x <-> P' x) -> dims P m d -> dims P' m d.
Proof. intros P P' m d H [x0 [Q [A [B [C [D [E [F [G I]]]]]]]]]. exists x0, Q. rewrite <- H. repeat (split; auto). - intros x Hx. apply F, H. auto. - intros x w Hx. apply G, H. auto. - intros q Iq. destruct (I q Iq) as [e [Ne Pe]]. exists e. rewrite <- H. auto. Qed.
