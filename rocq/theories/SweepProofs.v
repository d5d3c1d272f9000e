(** sweep and sample_grid (C11, C12). *)
Require Import Reals Lra Lia List Bool Arith.
From Verif Require Import RVec Num DomModel DomSpec DomProofs DomOpsProofs DomExamples DomMoreModel.
Import ListNotations.
Local Open Scope R_scope.

Lemma linspace_length : forall a b n, length (linspace a b n) = n.
Proof. intros. unfold linspace. rewrite map_length, seq_length. auto. Qed.
Lemma linspace_get : forall a b n k, (k < n)%nat -> vget (linspace a b n) k = a + INR k * ((b - a) / INR (n - 1)).
Proof.
  intros a b n k H. unfold linspace, vget.
  rewrite nth_indep with (d' := (fun k => a + INR k * ((b - a) / INR (n - 1))) O) by (rewrite map_length, seq_length; auto).
  rewrite map_nth with (f := fun k => a + INR k * ((b - a) / INR (n - 1))). rewrite seq_nth by auto. auto.
Qed.
Lemma linspace_ends : forall a b n, (2 <= n)%nat -> vget (linspace a b n) 0 = a /\ vget (linspace a b n) (n - 1) = b.
Proof.
  intros a b n H. rewrite !linspace_get by lia. simpl INR. split; [lra|].
  assert (0 < INR (n - 1)) by (apply lt_0_INR; lia). field. lra.
Qed.
Lemma linspace_range : forall a b n v, a <= b -> (2 <= n)%nat -> In v (linspace a b n) -> a <= v <= b.
Proof.
  intros a b n v H Hn I. unfold linspace in I. apply in_map_iff in I. destruct I as [k [E K]]. apply in_seq in K.
  assert (P : 0 < INR (n - 1)) by (apply lt_0_INR; lia).
  assert (Q : 0 <= INR k <= INR (n - 1)) by (split; [apply pos_INR|apply le_INR; lia]).
  subst v. replace (INR k * ((b - a) / INR (n - 1))) with ((INR k / INR (n - 1)) * (b - a)) by (field; lra).
  assert (0 <= INR k / INR (n - 1) <= 1).
  { split; [apply Rmult_le_pos; [lra|left; apply Rinv_0_lt_compat; lra]|].
    apply Rmult_le_reg_r with (INR (n - 1)); auto. unfold Rdiv. rewrite Rmult_assoc, Rinv_l by lra. lra. }
  nra.
Qed.

(* ------------------------------------------------------------------ *)
(** * Convexity of the constraint set *)
Definition seg (x y : vec) (t : R) : vec := vadd (vscale (1 - t) x) (vscale t y).

Lemma seg_length : forall x y t, length x = length y -> length (seg x y t) = length x.
Proof. intros. unfold seg. rewrite vadd_length; rewrite ?vscale_length; auto. Qed.
Lemma seg_get : forall x y t i, length x = length y -> vget (seg x y t) i = (1 - t) * vget x i + t * vget y i.
Proof. intros. unfold seg. rewrite vadd_get by (rewrite !vscale_length; auto). rewrite !vscale_get. auto. Qed.
Lemma dot_seg : forall a x y t, length x = length y -> dot a (seg x y t) = (1 - t) * dot a x + t * dot a y.
Proof. intros. unfold seg. rewrite dot_vadd_r by (rewrite !vscale_length; auto). rewrite !dot_vscale_r. auto. Qed.

Lemma member_convex : forall d x y t, dom_wf d -> member d x -> member d y -> 0 <= t <= 1 -> member d (seg x y t).
Proof.
  intros d x y t W [X1 [X2 [X3 [X4 X5]]]] [Y1 [Y2 [Y3 [Y4 Y5]]]] T.
  assert (L : length x = length y) by congruence.
  split; [rewrite seg_length; auto|]. split; [|split; [|split]].
  - intro i. rewrite seg_get by auto. destruct (X2 i) as [A B], (Y2 i) as [C D]. split; intros v Hv.
    + specialize (A v Hv). specialize (C v Hv). nra.
    + specialize (B v Hv). specialize (D v Hv). nra.
  - intros k a c Ha Hc. rewrite dot_seg by auto. specialize (X3 k a c Ha Hc). specialize (Y3 k a c Ha Hc). nra.
  - intros k a c Ha Hc. rewrite dot_seg by auto. specialize (X4 k a c Ha Hc). specialize (Y4 k a c Ha Hc). nra.
  - intros q Hq. specialize (X5 q Hq). specialize (Y5 q Hq).
    assert (Q : quad_wf (dim d) q). { destruct W as [_ [_ [_ [_ [_ [_ [W _]]]]]]]. rewrite Forall_forall in W. auto. }
    destruct Q as [_ [Q2 _]].
    assert (E : vsub (seg x y t) (qy q) = vadd (vscale (1 - t) (vsub x (qy q))) (vscale t (vsub y (qy q)))).
    { apply vec_ext.
      - rewrite vsub_length by (rewrite seg_length; congruence). rewrite seg_length by auto.
        rewrite vadd_length; rewrite ?vscale_length, ?vsub_length; try congruence. 
      - intros i _. rewrite vsub_get by (rewrite seg_length; congruence). rewrite seg_get by auto.
        rewrite vadd_get by (rewrite !vscale_length, !vsub_length; congruence).
        rewrite !vscale_get, !vsub_get by congruence. ring. }
    rewrite E, mv_vadd by (rewrite !vscale_length, !vsub_length; congruence). rewrite !mv_vscale.
    eapply Rle_trans; [apply norm2_triangle; rewrite !vscale_length, !mv_length; auto|].
    rewrite !norm2_vscale. rewrite !Rabs_right by lra. nra.
Qed.

(* ------------------------------------------------------------------ *)
(** * The projected direction *)
Lemma lincomb_length : forall m Q c, Forall (fun q => length q = m) Q -> length (lincomb m Q c) = m.
Proof.
  intros m Q c H. revert c. induction H as [|q Q Hq H IH]; intro c; simpl; [apply repeat_length|].
  destruct c as [|a c]; [apply repeat_length|]. rewrite vadd_length; rewrite vscale_length; auto. rewrite IH; auto.
Qed.
Lemma dot_lincomb : forall m Q c p, Forall (fun q => length q = m) Q -> dot p (lincomb m Q c) = dot c (mv Q p).
Proof.
  intros m Q c p H. revert c. induction H as [|q Q Hq H IH]; intro c; simpl.
  - unfold mv; simpl. rewrite dot_zero_r, dot_nil_r. auto.
  - destruct c as [|a c]; [rewrite dot_zero_r, dot_nil_l; auto|].
    change (mv (q :: Q) p) with (dot q p :: mv Q p). rewrite dot_cons.
    rewrite dot_vadd_r by (rewrite vscale_length, lincomb_length; auto). rewrite dot_vscale_r, IH, (dot_comm p q). auto.
Qed.

(** contract of scipy.linalg.orth(A_eq.T): orthonormal columns spanning the rows of A_eq, so every
    row is reproduced by Q Q^T *)
Definition orth_contract (m : nat) (Aeq Q : mat) : Prop :=
  Forall (fun q => length q = m) Q /\ forall a, In a Aeq -> a = lincomb m Q (mv Q a).

Lemma proj_out_length : forall m Q p, Forall (fun q => length q = m) Q -> length p = m -> length (proj_out Q p) = m.
Proof. intros m Q p H Hp. unfold proj_out. rewrite vsub_length; auto. rewrite Hp, lincomb_length; auto. Qed.

Lemma proj_out_kept : forall d Q p, orth_contract (dim d) (dAeq d) Q -> length p = dim d -> eq_kept d (proj_out Q p).
Proof.
  intros d Q p [H1 H2] Hp a Ha. unfold proj_out. rewrite Hp.
  rewrite dot_vsub_r by (rewrite lincomb_length; auto). rewrite dot_lincomb by auto.
  rewrite (H2 a Ha) at 1. rewrite (dot_comm (lincomb _ _ _)). rewrite dot_lincomb by auto. rewrite (dot_comm (mv Q a)). ring.
Qed.

(* ------------------------------------------------------------------ *)
(** * sweep *)
Lemma along_neg : forall x p a, along x (vscale (-1) p) a = along x p (- a).
Proof. intros. unfold along. f_equal. unfold vscale. rewrite map_map. apply map_ext. intros. ring. Qed.

Lemma seg_along : forall x p a b t, length x = length p -> seg (along x p a) (along x p b) t = along x p ((1 - t) * a + t * b).
Proof.
  intros x p a b t H. apply vec_ext.
  - rewrite seg_length; rewrite !along_length; auto.
  - intros i _. rewrite seg_get by (rewrite !along_length; auto). rewrite !along_get by auto. ring.
Qed.

Lemma vsub_along : forall x p a b, length x = length p -> vsub (along x p a) (along x p b) = vscale (a - b) p.
Proof.
  intros x p a b H. apply vec_ext.
  - rewrite vsub_length; rewrite ?along_length, ?vscale_length; auto.
  - intros i _. rewrite vsub_get by (rewrite !along_length; auto). rewrite !along_get by auto. rewrite vscale_get. ring.
Qed.

Lemma sweep_points_nth : forall c1 c2 n k, (k < n)%nat -> nth k (sweep_points c1 c2 n) [] = seg c1 c2 (INR k / INR (n - 1)).
Proof.
  intros c1 c2 n k H. unfold sweep_points.
  rewrite nth_indep with (d' := seg c1 c2 0) by (rewrite map_length, linspace_length; auto).
  change (map _ (linspace 0 1 n)) with (map (seg c1 c2) (linspace 0 1 n)). rewrite map_nth.
  f_equal. fold (vget (linspace 0 1 n) k). rewrite linspace_get by auto. unfold Rdiv. ring.
Qed.

Lemma sweep_points_length : forall c1 c2 n, length (sweep_points c1 c2 n) = n.
Proof. intros. unfold sweep_points. rewrite map_length, linspace_length. auto. Qed.

Theorem sweep_correct : forall d tol stol Q n x p X y,
  dom_wf d -> proper d -> dcls d <> Point -> 0 < tol -> 0 < stol -> length p = dim d -> member d x ->
  orth_contract (dim d) (dAeq d) Q ->
  let p' := proj_out Q p in
  ineq_leaves_free d x p' -> quad_leaves_free d x p' ->
  ineq_leaves_free d x (vscale (-1) p') -> quad_leaves_free d x (vscale (-1) p') ->
  sweep d tol stol Q n x p = Some (X, y) ->
  length X = n /\ (2 <= n)%nat /\ exists a1 a2, 0 <= a1 /\ 0 <= a2 /\
    (forall t, member d (along x p' t) <-> - a2 <= t <= a1) /\
    (forall k, (k < n)%nat -> nth k X [] = along x p' (a1 - INR k / INR (n - 1) * (a1 + a2)) /\ member d (nth k X [])) /\
    (0 < (a1 + a2) * norm2 p' -> exists ys, y = Some ys /\ length ys = n /\
       forall k, (k < n)%nat -> vget ys k = vget ys 0 + INR k / INR (n - 1) * ((a1 + a2) * norm2 p')).
Proof.
  intros d tol stol Q n x p X y W P NP Ht Hs Hp M OC p' F1 F2 F3 F4 S.
  assert (HL : length p' = dim d) by (apply proj_out_length; [apply OC|auto]).
  assert (LX : length x = length p') by (destruct M as [M _]; congruence).
  assert (K : eq_kept d p') by (apply proj_out_kept; auto).
  assert (K2 : eq_kept d (vscale (-1) p')). { intros a Ha. rewrite dot_vscale_r, (K a Ha). ring. }
  destruct (extent_correct d tol stol x p' W P NP Ht Hs HL M K F1 F2) as [e1 [E1 S1]].
  destruct (extent_correct d tol stol x (vscale (-1) p') W P NP Ht Hs) as [e2 [E2 S2]]; auto.
  { rewrite vscale_length; auto. }
  unfold sweep in S. fold p' in S. rewrite E1, E2 in S.
  destruct e1 as [a1| | |]; try discriminate. destruct e2 as [a2| | |]; try discriminate.
  destruct (Nat.leb_spec 2 n) as [Hn|Hn]; [|discriminate].
  injection S as HX HY.
  assert (Z : along x p' 0 = x).
  { apply vec_ext; [rewrite along_length; auto|]. intros. rewrite along_get by auto. ring. }
  assert (A1 : 0 <= a1).
  { destruct (S1 0 ltac:(lra)) as [S _]. rewrite Z in S. specialize (S M). simpl in S. apply Rleb_true in S. auto. }
  assert (A2 : 0 <= a2).
  { destruct (S2 0 ltac:(lra)) as [S _]. rewrite along_neg, Ropp_0, Z in S. specialize (S M). simpl in S. apply Rleb_true in S. auto. }
  assert (HP : 0 < INR (n - 1)) by (apply lt_0_INR; lia).
  split; [rewrite <- HX; apply sweep_points_length|]. split; auto. exists a1, a2. split; auto. split; auto.
  assert (MM : forall t, member d (along x p' t) <-> - a2 <= t <= a1).
  { intro t. destruct (Rle_dec 0 t) as [T|T].
    - rewrite S1 by auto. simpl. rewrite Rleb_true. lra.
    - replace t with (- (- t)) at 1 by ring. rewrite <- along_neg. rewrite S2 by lra. simpl. rewrite Rleb_true. lra. }
  split; [exact MM|].
  change (vadd x (vscale a1 p')) with (along x p' a1) in HX.
  change (vadd x (vscale (- a2) p')) with (along x p' (- a2)) in HX.
  assert (XN : forall k, (k < n)%nat -> nth k X [] = along x p' (a1 - INR k / INR (n - 1) * (a1 + a2))).
  { intros k Hk. rewrite <- HX, sweep_points_nth by auto. rewrite seg_along by auto. f_equal. ring. }
  split.
  - intros k Hk. split; [auto|]. rewrite (XN k Hk). apply MM.
    assert (Hk2 : 0 <= INR k <= INR (n - 1)) by (split; [apply pos_INR|apply le_INR; lia]).
    assert (0 <= INR k / INR (n - 1) <= 1).
    { split; [apply Rmult_le_pos; [lra|left; apply Rinv_0_lt_compat; lra]|].
      apply Rmult_le_reg_r with (INR (n - 1)); auto. unfold Rdiv. rewrite Rmult_assoc, Rinv_l by lra. lra. }
    nra.
  - intro POS. 
    change (vadd x (vscale a1 p')) with (along x p' a1) in HY.
    change (vadd x (vscale (- a2) p')) with (along x p' (- a2)) in HY. rewrite HX in HY.
    assert (LXn : length X = n) by (rewrite <- HX; apply sweep_points_length).
    destruct X as [|x0 [|x1 X']] eqn:EX; simpl in LXn; try lia. rewrite <- EX in *.
    assert (X0 : x0 = along x p' (a1 - INR 0 / INR (n - 1) * (a1 + a2))). { rewrite <- (XN O) by lia. subst X; reflexivity. }
    assert (X1 : x1 = along x p' (a1 - INR 1 / INR (n - 1) * (a1 + a2))). { rewrite <- (XN 1%nat) by lia. subst X; reflexivity. }
    assert (D : vsub x1 x0 = vscale (- (1 / INR (n - 1) * (a1 + a2))) p').
    { rewrite X0, X1, vsub_along by auto. f_equal. simpl INR. unfold Rdiv. ring. }
    assert (Np : 0 <= norm2 p') by apply norm2_nonneg.
    assert (Pp : 0 < norm2 p' /\ 0 < a1 + a2).
    { split; [destruct (Rle_lt_or_eq_dec _ _ Np) as [?|E]; [auto|rewrite <- E in POS; lra]|].
      destruct (Rle_lt_or_eq_dec 0 (a1 + a2) ltac:(lra)) as [?|E]; [auto|rewrite <- E in POS; lra]. }
    set (h := 1 / INR (n - 1) * (a1 + a2)) in *.
    assert (Hh : 0 < h). { unfold h. apply Rmult_lt_0_compat; [|lra]. unfold Rdiv. rewrite Rmult_1_l. apply Rinv_0_lt_compat; auto. }
    assert (ND : norm2 (vsub x1 x0) = h * norm2 p').
    { rewrite D, norm2_vscale. rewrite Rabs_Ropp, Rabs_right by lra. auto. }
    unfold sweep_pos in HY. rewrite EX in HY. rewrite ND in HY.
    destruct (Req_EM_T (h * norm2 p') 0) as [E0|_]; [exfalso; assert (0 < h * norm2 p') by (apply Rmult_lt_0_compat; lra); lra|].
    rewrite <- EX in HY. eexists. split; [symmetry; exact HY|]. split; [rewrite mv_length; subst X; simpl; lia|].
    assert (G : forall k, (k < n)%nat -> vget (mv X (vscale (/ (h * norm2 p')) (vsub x1 x0))) k =
        / (h * norm2 p') * (- h) * (dot x p' + (a1 - INR k * h) * (norm2 p' * norm2 p'))).
    { intros k Hk. unfold vget, mv. rewrite nth_indep with (d' := (fun a => dot a (vscale (/ (h * norm2 p')) (vsub x1 x0))) [])
        by (rewrite map_length; subst X; simpl; lia).
      rewrite (map_nth (fun a => dot a (vscale (/ (h * norm2 p')) (vsub x1 x0)))). rewrite (XN k Hk).
      rewrite D, !dot_vscale_r. unfold along. rewrite dot_vadd_l by (rewrite vscale_length; auto). rewrite dot_vscale_l.
      fold (norm2sq p'). rewrite <- norm2_sq. unfold h. unfold Rdiv. ring. }
    intros k Hk. rewrite (G k Hk), (G O) by lia. simpl INR. unfold h. field. repeat split; lra.
Qed.

(** sweeping between two members keeps all points in the domain (corner = True) *)
Theorem sweep_points_member : forall d c1 c2 n, dom_wf d -> member d c1 -> member d c2 -> (2 <= n)%nat ->
  length (sweep_points c1 c2 n) = n /\ Forall (member d) (sweep_points c1 c2 n) /\
  nth 0 (sweep_points c1 c2 n) [] = c1 /\ nth (n - 1) (sweep_points c1 c2 n) [] = c2.
Proof.
  intros d c1 c2 n W M1 M2 Hn. split; [apply sweep_points_length|]. split.
  - apply Forall_forall. intros x I. unfold sweep_points in I. apply in_map_iff in I. destruct I as [t [E I]]. subst x.
    apply linspace_range in I; auto; try lra. apply member_convex; auto.
  - assert (L : length c1 = length c2) by (destruct M1, M2; congruence).
    assert (0 < INR (n - 1)) by (apply lt_0_INR; lia).
    rewrite !sweep_points_nth by lia. split; apply vec_ext; rewrite ?seg_length by auto; auto; intros i _; rewrite seg_get by auto.
    + simpl INR. unfold Rdiv. ring.
    + field. lra.
Qed.

(** witness: on an active inequality the sweep runs through it *)
Definition ex_sweep : dom := mkDom LinIneq 1 [NInf] [PInf] [[1]; [1]; [-1]] [1; 5; 5] [] [] [].
Lemma sweep_refuted : exists d tol stol n x p X y, dom_wf d /\ proper d /\ dcls d <> Point /\ 0 < tol /\ 0 < stol /\
  length p = dim d /\ member d x /\ sweep d tol stol [] n x p = Some (X, y) /\
  exists z, In z X /\ ~ relaxed d 1 z.
Proof.
  assert (W : dom_wf ex_sweep) by (unfold ex_sweep; wf).
  assert (Me : member ex_sweep [1]).
  { unfold ex_sweep. split; [reflexivity|]. split; [|split; [|split]].
    - intro i; split; intros v; destruct i as [|i]; simpl; try discriminate; destruct i; discriminate.
    - intros k a c. destruct k as [|[|[|k]]]; simpl; intros Ha Hc; try (inversion Ha; inversion Hc; subst; vc; lra).
      destruct k; discriminate.
    - intros k a c. destruct k; discriminate.
    - intros q []. }
  exists ex_sweep, (1/100), (1/100), 2%nat, [1], [1].
  do 2 eexists. split; auto. split; [unfold proper; simpl; repeat constructor|]. split; [discriminate|].
  split; [lra|]. split; [lra|]. split; [reflexivity|]. split; auto. split.
  - unfold sweep.
    assert (I1 : inside1 ex_sweep [1] (1/100) = true). { apply inside1_spec; auto; [discriminate|]. apply member_relaxed1; auto; lra. }
    assert (P1 : proj_out [] [1] = [1]).
    { unfold proj_out. simpl. unfold vzero; simpl. unfold vsub; simpl. rewrite Rminus_0_r. auto. }
    rewrite P1. unfold extent. rewrite I1.
    assert (E1 : extent_ ex_sweep (1/100) [1] [1] = Fin 4).
    { unfold extent_, ex_sweep; simpl. unfold extent_bounds, extent_ineq; simpl. unfold hits, min_pos; simpl. vc. unfold ndivr; rb.
      all: repeat (match goal with |- context [nltb _ _] => unfold nltb | |- context [nmin] => unfold nmin end; simpl; rb). 
      all: try (f_equal; lra). }
    assert (E2 : extent_ ex_sweep (1/100) [1] (vscale (-1) [1]) = Fin 6).
    { unfold extent_, ex_sweep; simpl. unfold extent_bounds, extent_ineq; simpl. unfold hits, min_pos; simpl. vc. unfold ndivr; rb.
      all: repeat (match goal with |- context [nltb _ _] => unfold nltb | |- context [nmin] => unfold nmin end; simpl; rb).
      all: try (f_equal; lra). }
    rewrite E1, E2. cbn [Nat.leb]. reflexivity.
  - exists (nth 0 (sweep_points (vadd [1] (vscale 4 [1])) (vadd [1] (vscale (- (6)) [1])) 2) []).
    split.
    + apply nth_In. rewrite sweep_points_length. lia.
    + rewrite sweep_points_nth by lia. intros [_ [_ [I _]]]. specialize (I O [1] 1 eq_refl eq_refl).
      unfold seg in I. vc. lra.
Qed.

(** concrete instance of [sweep_correct]: a triangle with an equality-free direction *)
Definition ex_tri : dom := mkDom LinIneq 2 [Fin 0; Fin 0] [Fin 2; Fin 2] [[1; 1]] [3] [] [] [].
Lemma ex_sweep_case : dom_wf ex_tri /\ proper ex_tri /\ dcls ex_tri <> Point /\ member ex_tri [1; 1] /\
  orth_contract (dim ex_tri) (dAeq ex_tri) [] /\
  (let p' := proj_out [] [1; 1/2] in
   ineq_leaves_free ex_tri [1;1] p' /\ quad_leaves_free ex_tri [1;1] p' /\
   ineq_leaves_free ex_tri [1;1] (vscale (-1) p') /\ quad_leaves_free ex_tri [1;1] (vscale (-1) p')).
Proof.
  split; [unfold ex_tri; wf|]. split; [unfold proper; simpl; repeat constructor|]. split; [discriminate|].
  split; [memb|]. split; [split; [constructor|intros a []]|]. simpl.
  split; [|split; [intros q []|split; [|intros q []]]].
  - intros k a c Ha Hc. left. rows k; vc; lra.
  - intros k a c Ha Hc. left. rows k; vc; lra.
Qed.

(* ------------------------------------------------------------------ *)
(** * sample_grid *)
Lemma cart_in : forall xs x, In x (cart xs) <-> Forall2 (fun a ax => In a ax) x xs.
Proof.
  induction xs as [|ax xs IH]; intro x; simpl.
  - split; [intros [E|[]]; subst; constructor|]. intro F; inversion F; auto.
  - rewrite in_flat_map. split.
    + intros [a [Ha Hx]]. apply in_map_iff in Hx. destruct Hx as [y [E Hy]]. subst x. constructor; auto. apply IH; auto.
    + intro F. inversion F as [|a y ? ? Ha Hy]; subst. exists a. split; auto. apply in_map, IH; auto.
Qed.

Lemma mask_in : forall (A : Type) (f : A -> bool) X x, In x (mask (map f X) X) <-> In x X /\ f x = true.
Proof.
  intros A f. induction X as [|a X IH]; intro x; simpl; [tauto|].
  destruct (f a) eqn:E; simpl; rewrite IH; intuition; subst; auto; congruence.
Qed.
Lemma mask_filter : forall (A : Type) (f : A -> bool) X, mask (map f X) X = filter f X.
Proof. intros A f. induction X as [|a X IH]; simpl; auto. destruct (f a); rewrite IH; auto. Qed.

Lemma cart_length : forall xs x, In x (cart xs) -> length x = length xs.
Proof. intros xs x H. apply cart_in in H. induction H; simpl; auto. Qed.

Lemma isinside_map : forall d X tol, dom_wf d -> dcls d <> Point -> Forall (fun x => length x = dim d) X ->
  isinside d (Arr2 (dim d) X) tol = BArr (map (fun x => inside1 d x tol) X).
Proof.
  intros d X tol W N F. destruct (isinside_arr2 d X tol (dim d) W N F) as [l [E [L S]]]. rewrite E. f_equal. clear E F.
  revert l L S. induction X as [|x X IH]; intros l L S; destruct l as [|v l]; simpl in L; try lia; auto. simpl. f_equal.
  - destruct (S O x eq_refl) as [w [E1 E2]]. simpl in E1. injection E1 as ->. apply Bool.eq_true_iff_eq.
    rewrite E2. rewrite inside1_spec by auto. tauto.
  - apply IH; [lia|]. intros i y H. apply (S (Datatypes.S i) y H).
Qed.

(** coordinate [v] is one of the [n] equally spaced values from [l] to [u] *)
Definition on_grid (l u : R) (n : nat) (v : R) : Prop :=
  exists k, (k < n)%nat /\ v * INR (n - 1) = l * INR (n - 1 - k) + u * INR k /\ (n = 1%nat -> v = l).

Lemma linspace_on_grid : forall a b n v, In v (linspace a b n) <-> on_grid a b n v.
Proof.
  intros a b n v. unfold linspace, on_grid. rewrite in_map_iff. split.
  - intros [k [E K]]. apply in_seq in K. exists k. split; [lia|]. split.
    + rewrite (minus_INR (n - 1) k) by lia. subst v. destruct (Nat.eq_dec n 1) as [->|Hn].
      * replace k with O by lia. simpl. ring.
      * field. apply Rgt_not_eq, lt_0_INR. lia.
    + intros ->. replace k with O in E by lia. simpl INR in E. lra.
  - intros [k [K [E E1]]]. exists k. split; [|apply in_seq; lia]. destruct (Nat.eq_dec n 1) as [->|Hn].
    + replace k with O by lia. simpl INR. rewrite E1 by auto. ring.
    + assert (0 < INR (n - 1)) by (apply lt_0_INR; lia). rewrite (minus_INR (n - 1) k) in E by lia.
      apply Rmult_eq_reg_r with (INR (n - 1)); [|lra]. rewrite E. field. lra.
Qed.

Lemma grid_axes_in : forall l u n x, length l = length u ->
  (Forall2 (fun a ax => In a ax) x (zipw (fun a b => linspace (fin_val a) (fin_val b) n) (map Fin l) (map Fin u))
   <-> length x = length l /\ forall i, (i < length l)%nat -> on_grid (vget l i) (vget u i) n (vget x i)).
Proof.
  induction l as [|a l IH]; intros u n x H; destruct u as [|b u]; simpl in H; try lia; simpl.
  - split; [intro F; inversion F; split; [auto|intros i Hi; inversion Hi]|]. intros [E _]. destruct x; [constructor|discriminate].
  - split.
    + intro F. inversion F as [|c x' ? ? Hc F']; subst. apply IH in F'; [|lia]. destruct F' as [E G]. split; [simpl; lia|].
      intros i Hi. destruct i as [|i]; [apply linspace_on_grid; auto|]. apply (G i). simpl in Hi. lia.
    + intros [E G]. destruct x as [|c x]; [discriminate|]. constructor.
      * apply linspace_on_grid. apply (G O). simpl; lia.
      * apply IH; [lia|]. simpl in E. split; [lia|]. intros i Hi. apply (G (Datatypes.S i)). simpl; lia.
Qed.

Theorem sample_grid_exact : forall d l u n tol, dom_wf d -> dcls d <> Point -> lb d = map Fin l -> ub d = map Fin u ->
  exists X, sample_grid d n tol = Some X /\
    forall x, In x X <-> (length x = dim d /\ (forall i, (i < dim d)%nat -> on_grid (vget l i) (vget u i) n (vget x i)) /\ relaxed d tol x).
Proof.
  intros d l u n tol W N Hl Hu.
  assert (L : length l = dim d) by (destruct W as [W _]; rewrite Hl, map_length in W; auto).
  assert (U : length u = dim d) by (destruct W as [_ [W _]]; rewrite Hu, map_length in W; auto).
  assert (FF : forall x, forallb is_fin (map Fin x) = true) by (induction x; simpl; auto).
  unfold sample_grid. rewrite Hl, Hu, !FF. simpl andb. cbn iota.
  rewrite isinside_map; auto.
  - eexists. split; [reflexivity|]. intro x. rewrite mask_in, cart_in, grid_axes_in by congruence. rewrite L.
    rewrite inside1_spec by auto. tauto.
  - apply Forall_forall. intros x Hx. apply cart_length in Hx. rewrite Hx. rewrite zipw_length; rewrite !map_length; congruence.
Qed.

Lemma cart_count : forall xs n, Forall (fun ax : vec => length ax = n) xs -> length (cart xs) = (n ^ length xs)%nat.
Proof.
  intros xs n F. induction F as [|ax xs H F IH]; simpl; auto. rewrite <- IH, <- H. clear.
  induction ax; simpl; auto. rewrite app_length, map_length. lia.
Qed.
Lemma cart_nodup : forall xs : list vec, Forall (fun ax => NoDup ax) xs -> NoDup (cart xs).
Proof.
  intros xs F. induction F as [|ax xs H F IH]; simpl; [constructor; [intros []|constructor]|].
  induction H as [|a ax Ha H IH2]; simpl; [constructor|].
  assert (D : forall x, In x (map (cons a) (cart xs)) -> ~ In x (flat_map (fun a0 => map (cons a0) (cart xs)) ax)).
  { intros x H1 H2. apply in_map_iff in H1. destruct H1 as [y [E1 _]]. apply in_flat_map in H2. destruct H2 as [b [Hb H2]].
    apply in_map_iff in H2. destruct H2 as [z [E2 _]]. subst x. injection E2 as -> ->. auto. }
  assert (NM : NoDup (map (cons a) (cart xs))).
  { clear - IH. induction IH as [|y ys Hy IH IH2]; simpl; constructor; auto. intro I. apply in_map_iff in I.
    destruct I as [z [E I]]. injection E as ->. auto. }
  clear - D NM IH2. induction NM as [|y ys Hy NM IHy]; simpl; auto. constructor.
  - rewrite in_app_iff. intros [I|I]; [auto|]. apply (D y); simpl; auto.
  - apply IHy. intros x I. apply D. simpl; auto.
Qed.
Lemma NoDup_map_inj : forall (A B : Type) (f : A -> B) l, (forall x y, In x l -> In y l -> f x = f y -> x = y) ->
  NoDup l -> NoDup (map f l).
Proof.
  intros A B f l H N. induction N as [|a l Ha N IH]; simpl; constructor.
  - intro I. apply in_map_iff in I. destruct I as [x [E I]]. apply H in E; simpl; auto. subst; auto.
  - apply IH. intros; apply H; simpl; auto.
Qed.
Lemma linspace_nodup : forall a b n, a < b -> NoDup (linspace a b n).
Proof.
  intros a b n H. unfold linspace. apply NoDup_map_inj.
  - intros i j Hi Hj E. apply in_seq in Hi, Hj. destruct (Nat.eq_dec n 1) as [->|Hn]; [lia|].
    apply INR_eq. assert (P : 0 < INR (n - 1)) by (apply lt_0_INR; lia).
    assert (Q : (b - a) / INR (n - 1) <> 0) by (apply Rmult_integral_contrapositive; split; [lra|apply Rinv_neq_0_compat; lra]).
    apply Rmult_eq_reg_r with ((b - a) / INR (n - 1)); auto. lra.
  - apply seq_NoDup.
Qed.

(** all grid points of a box are returned, n^m of them and pairwise distinct *)
Theorem sample_grid_box : forall l u n tol, length l = length u -> 0 < tol -> (forall i, (i < length l)%nat -> vget l i < vget u i) ->
  exists X, sample_grid (box_of l u) n tol = Some X /\ length X = (n ^ length l)%nat /\ NoDup X.
Proof.
  intros l u n tol H Ht HL.
  assert (FF : forall x, forallb is_fin (map Fin x) = true) by (induction x; simpl; auto).
  unfold sample_grid. cbn [lb ub box_of]. rewrite !FF. simpl andb. cbn iota.
  set (xs := zipw _ _ _).
  assert (Lx : length xs = length l) by (unfold xs; rewrite zipw_length; rewrite !map_length; auto).
  assert (W : dom_wf (box_of l u)) by (apply box_of_wf; auto).
  rewrite isinside_map; auto; [|discriminate|].
  2:{ apply Forall_forall. intros x Hx. apply cart_length in Hx. rewrite Hx, Lx. reflexivity. }
  eexists. split; [reflexivity|]. rewrite mask_filter.
  assert (A : forall x, In x (cart xs) -> inside1 (box_of l u) x tol = true).
  { intros x Hx. apply cart_in in Hx. unfold xs in Hx. apply grid_axes_in in Hx; auto. destruct Hx as [E G].
    apply inside1_spec; auto; [discriminate|]. apply member_relaxed1; auto. apply box_member; auto. split; auto.
    intros i Hi. specialize (G i Hi). specialize (HL i Hi). destruct G as [k [K [EQ E1]]].
    destruct (Nat.eq_dec n 1) as [->|Hn]; [rewrite E1 by auto; lra|].
    assert (P : 0 < INR (n - 1)) by (apply lt_0_INR; lia).
    assert (K0 : 0 <= INR k) by apply pos_INR. assert (K1 : 0 <= INR (n - 1 - k)) by apply pos_INR.
    assert (S1 : INR (n - 1) = INR (n - 1 - k) + INR k) by (rewrite (minus_INR (n - 1) k) by lia; ring).
    split; apply Rmult_le_reg_r with (INR (n - 1)); auto; rewrite EQ, S1; nra. }
  assert (FA : filter (fun x => inside1 (box_of l u) x tol) (cart xs) = cart xs).
  { clear - A. induction (cart xs) as [|x X IH]; simpl; auto. rewrite A by (simpl; auto). f_equal. apply IH. intros; apply A; simpl; auto. }
  rewrite FA. split.
  - rewrite <- Lx. apply cart_count. unfold xs. clear. revert u. induction l as [|a l IH]; intro u; destruct u; simpl; constructor; auto.
    apply linspace_length.
  - apply cart_nodup. unfold xs. clear - HL H. revert u H HL. induction l as [|a l IH]; intros u H HL; destruct u as [|b u]; simpl; constructor.
    + apply linspace_nodup. apply (HL O). simpl; lia.
    + apply IH; [simpl in H; lia|]. intros i Hi. apply (HL (Datatypes.S i)). simpl; lia.
Qed.
