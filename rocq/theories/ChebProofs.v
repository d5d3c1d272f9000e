(** The Chebyshev center of a polytope. *)
Require Import Reals Lra Lia List Bool Arith.
From Verif Require Import RVec Num Sums DomModel DomSpec DomProofs NormProofs DomOpsProofs DomExamples DomMoreModel HullProofs.
Import ListNotations.
Local Open Scope R_scope.

(** closed ball *)
Definition ball (x : vec) (r : R) (z : vec) : Prop := length z = length x /\ norm2 (vsub z x) <= r.

Lemma unit_row_length : forall m i, length (unit_row_ m i) = m.
Proof. intros. unfold unit_row_. rewrite map_length, seq_length. auto. Qed.
Lemma unit_row_dot : forall m i x, length x = m -> (i < m)%nat -> dot (unit_row_ m i) x = vget x i.
Proof.
  intros m i x L Hi. rewrite dot_rsum by (rewrite unit_row_length; auto). rewrite unit_row_length.
  rewrite (rsum_single m i); auto.
  - unfold unit_row_. rewrite vget_map_seq by auto. rewrite Nat.eqb_refl. ring.
  - intros j Hj N. unfold unit_row_. rewrite vget_map_seq by auto. destruct (Nat.eqb_spec j i); [congruence|ring].
Qed.
Lemma unit_row_norm : forall m i, (i < m)%nat -> norm2 (unit_row_ m i) = 1.
Proof.
  intros m i Hi. unfold norm2, norm2sq. rewrite unit_row_dot; auto; [|apply unit_row_length].
  unfold unit_row_. rewrite vget_map_seq by auto. rewrite Nat.eqb_refl. apply sqrt_1.
Qed.

Lemma map_rows : forall (T : Type) (f : T -> vec) (g : T -> R) l (P : vec -> R -> Prop),
  (forall k a c, nth_error (map f l) k = Some a -> nth_error (map g l) k = Some c -> P a c) <-> (forall t, In t l -> P (f t) (g t)).
Proof.
  intros T f g l P. split.
  - intros H t Ht. apply In_nth_error in Ht. destruct Ht as [k Hk]. apply (H k); rewrite nth_error_map, Hk; reflexivity.
  - intros H k a c H1 H2. rewrite nth_error_map in *. destruct (nth_error l k) as [t|] eqn:E; [|discriminate].
    simpl in *. injection H1 as <-. injection H2 as <-. apply H. eapply nth_error_In; eauto.
Qed.

Lemma fin_idx_in : forall l i, In i (fin_idx l) <-> exists v, nth_error l i = Some (Fin v).
Proof.
  intros l i. unfold fin_idx. rewrite filter_In, in_seq. split.
  - intros [[_ H1] H2]. simpl in H1. destruct (nth_error l i) as [a|] eqn:E; [|apply nth_error_None in E; lia].
    rewrite (nth_error_nth _ _ _ E) in H2. destruct a; try discriminate. eauto.
  - intros [v E]. assert (i < length l)%nat by (apply nth_error_Some; congruence). split; [lia|]. rewrite (nth_error_nth _ _ _ E). auto.
Qed.

Lemma aug_rows : forall d (P : vec -> R -> Prop), length (dA d) = length (db d) ->
  ((forall k a c, nth_error (A_aug d) k = Some a -> nth_error (b_aug d) k = Some c -> P a c) <->
   (forall k a c, nth_error (dA d) k = Some a -> nth_error (db d) k = Some c -> P a c) /\
   (forall i v, nth_error (lb d) i = Some (Fin v) -> P (vscale (-1) (unit_row_ (dim d) i)) (- v)) /\
   (forall i v, nth_error (ub d) i = Some (Fin v) -> P (unit_row_ (dim d) i) v)).
Proof.
  intros d P L. unfold A_aug, b_aug.
  rewrite (nth_error_app_rows _ _ _ _ P) by auto. rewrite (nth_error_app_rows _ _ _ _ P) by (rewrite !map_length; auto).
  rewrite (map_rows _ (fun i => vscale (-1) (unit_row_ (dim d) i)) _ _ P), (map_rows _ (unit_row_ (dim d)) _ _ P).
  split; intros [H1 [H2 H3]]; split; auto; split.
  - intros i v E. specialize (H2 i). rewrite (nth_error_nth _ _ _ E) in H2. apply H2. apply fin_idx_in. eauto.
  - intros i v E. specialize (H3 i). rewrite (nth_error_nth _ _ _ E) in H3. apply H3. apply fin_idx_in. eauto.
  - intros i Hi. apply fin_idx_in in Hi. destruct Hi as [v E]. rewrite (nth_error_nth _ _ _ E). apply H2; auto.
  - intros i Hi. apply fin_idx_in in Hi. destruct Hi as [v E]. rewrite (nth_error_nth _ _ _ E). apply H3; auto.
Qed.

Lemma bound_index : forall d i (v : num), dom_wf d -> (nth_error (lb d) i = Some v \/ nth_error (ub d) i = Some v) -> (i < dim d)%nat.
Proof.
  intros d i v W [E|E].
  - assert (i < length (lb d))%nat by (apply nth_error_Some; congruence). destruct W as [L _]. lia.
  - assert (i < length (ub d))%nat by (apply nth_error_Some; congruence). destruct W as [_ [L _]]. lia.
Qed.

(** membership of a polytope in terms of the augmented rows *)
Lemma aug_member : forall d x, dom_wf d -> quads d = [] -> length x = dim d ->
  (member d x <-> (forall k a c, nth_error (A_aug d) k = Some a -> nth_error (b_aug d) k = Some c -> dot a x <= c) /\ sat_eq0 (dAeq d) (dbeq d) x).
Proof.
  intros d x W Q L. assert (LA : length (dA d) = length (db d)) by apply W.
  rewrite (aug_rows d (fun a c => dot a x <= c)) by auto. unfold member. rewrite Q. split.
  - intros [_ [B [I [E _]]]]. split; auto. split; [|split].
    + intros k a c H1 H2. specialize (I k a c H1 H2). lra.
    + intros i v H. rewrite dot_vscale_l, unit_row_dot; auto; [|eapply bound_index; eauto]. destruct (B i) as [B1 _]. specialize (B1 v H). lra.
    + intros i v H. rewrite unit_row_dot; auto; [|eapply bound_index; eauto]. destruct (B i) as [_ B1]. specialize (B1 v H). lra.
  - intros [[I [B1 B2]] E]. split; auto. split; [|split; [|split; auto]].
    + intro i. split; intros v H.
      * specialize (B1 i v H). rewrite dot_vscale_l, unit_row_dot in B1; auto; [lra|eapply bound_index; eauto].
      * specialize (B2 i v H). rewrite unit_row_dot in B2; auto; [lra|eapply bound_index; eauto].
    + intros k a c H1 H2. specialize (I k a c H1 H2). lra.
    + intros q [].
Qed.

Lemma aug_width : forall d k a, dom_wf d -> nth_error (A_aug d) k = Some a -> length a = dim d.
Proof.
  intros d k a W H. apply nth_error_In in H. unfold A_aug in H. rewrite !in_app_iff in H. destruct H as [H|[H|H]].
  - assert (F : Forall (fun r => length r = dim d) (dA d)) by apply W. rewrite Forall_forall in F. auto.
  - apply in_map_iff in H. destruct H as [i [E _]]. subst a. rewrite vscale_length. apply unit_row_length.
  - apply in_map_iff in H. destruct H as [i [E _]]. subst a. apply unit_row_length.
Qed.

(** feasible pairs with non-negative radius: the part of the ball on the equality constraints is in the domain *)
Lemma cheb_ball : forall d x r z, dom_wf d -> quads d = [] -> cheb_feasible d x r -> ball x r z ->
  sat_eq0 (dAeq d) (dbeq d) z -> member d z.
Proof.
  intros d x r z W Q [L [H E]] [Lz B] Ez. apply aug_member; auto; [congruence|]. split; auto.
  intros k a c H1 H2. specialize (H k a c H1 H2). pose proof (aug_width d k a W H1) as La.
  assert (C : dot a (vsub z x) <= norm2 a * norm2 (vsub z x)) by (apply cauchy_schwarz; rewrite vsub_length; congruence).
  rewrite dot_vsub_r in C by auto. pose proof (norm2_nonneg a). nra.
Qed.

Theorem cheb_inside : forall d x r, dom_wf d -> quads d = [] -> cheb_returns d x r -> (exists y, member d y) ->
  0 <= r /\ member d x /\ forall z, ball x r z -> sat_eq0 (dAeq d) (dbeq d) z -> member d z.
Proof.
  intros d x r W Q [F M] [y Hy].
  assert (R0 : 0 <= r).
  { apply (M y). assert (Ly : length y = dim d) by apply Hy. pose proof Hy as Hy2. apply aug_member in Hy2; auto. destruct Hy2 as [H E].
    split; auto. split; auto. intros k a c H1 H2. specialize (H k a c H1 H2). lra. }
  split; auto. split; [|intros; eapply cheb_ball; eauto].
  apply (cheb_ball d x r); auto; [|destruct F as [_ [_ F]]; exact F]. split; auto.
  assert (E : vsub x x = vzero (length x)).
  { apply vec_ext; [rewrite vsub_length; auto; unfold vzero; rewrite repeat_length; auto|]. intros i _. rewrite vsub_get by auto. rewrite vzero_get. ring. }
  rewrite E. unfold norm2, norm2sq. rewrite dot_zero_l, sqrt_0. auto.
Qed.

Theorem cheb_largest : forall d x r y s, dom_wf d -> quads d = [] -> dAeq d = [] -> cheb_returns d x r -> 0 <= s ->
  length y = dim d -> (forall z, ball y s z -> member d z) -> s <= r.
Proof.
  intros d x r y s W Q EQ [F M] Hs Ly HB. apply (M y). split; auto. split; [|rewrite EQ; intros k a c H; destruct k; discriminate].
  intros k a c H1 H2. pose proof (aug_width d k a W H1) as La.
  destruct (Req_dec (norm2 a) 0) as [Z|NZ].
  - assert (My : member d y).
    { apply HB. split; auto.
      assert (E : vsub y y = vzero (length y)).
      { apply vec_ext; [rewrite vsub_length; auto; unfold vzero; rewrite repeat_length; auto|]. intros i _. rewrite vsub_get by auto. rewrite vzero_get. ring. }
      rewrite E. unfold norm2, norm2sq. rewrite dot_zero_l, sqrt_0. auto. }
    apply aug_member in My; auto. destruct My as [My _]. specialize (My k a c H1 H2). rewrite Z. lra.
  - pose proof (norm2_nonneg a) as N0. assert (N1 : 0 < norm2 a) by lra.
    set (z := vadd y (vscale (s / norm2 a) a)).
    assert (Lz : length z = length y) by (unfold z; rewrite vadd_length; auto; rewrite vscale_length; congruence).
    assert (Ez : vsub z y = vscale (s / norm2 a) a).
    { unfold z. rewrite vadd_comm. apply vadd_vsub. rewrite vscale_length. congruence. }
    assert (Mz : member d z).
    { apply HB. split; auto. rewrite Ez, norm2_vscale. rewrite Rabs_pos_eq by (unfold Rdiv; apply Rmult_le_pos; auto; apply Rlt_le, Rinv_0_lt_compat; auto). right. field. lra. }
    apply aug_member in Mz; auto; [|congruence]. destruct Mz as [Mz _]. specialize (Mz k a c H1 H2).
    unfold z in Mz. rewrite dot_vadd_r, dot_vscale_r in Mz by (rewrite vscale_length; congruence).
    pose proof (norm2_sq a) as NS. unfold norm2sq in NS. rewrite <- NS in Mz.
    replace (s / norm2 a * (norm2 a * norm2 a)) with (norm2 a * s) in Mz by (field; lra). auto.
Qed.

(** the linear program has no constraint r >= 0: an empty polytope yields a "center" *)
Definition ex_void : dom := mkDom LinIneq 1 [NInf] [PInf] [[1]; [-1]] [0; -1] [] [] [].

Lemma norm2_1 : forall a, norm2 [a] = Rabs a.
Proof. intro a. unfold norm2, norm2sq. rewrite dot_cons, dot_nil_l, Rplus_0_r. apply sqrt_Rsqr_abs. Qed.

Lemma cheb_empty_refuted : exists d x r, dom_wf d /\ quads d = [] /\ cheb_returns d x r /\ r < 0 /\ ~ member d x /\ forall y, ~ member d y.
Proof.
  exists ex_void, [1/2], (-1/2). split; [wf|]. split; auto.
  assert (N1 : norm2 [1] = 1) by (rewrite norm2_1; apply Rabs_R1).
  assert (N2 : norm2 [-1] = 1) by (rewrite norm2_1, Rabs_left; lra).
  assert (F : forall t s, cheb_feasible ex_void [t] s <-> t + s <= 0 /\ - t + s <= -1).
  { intros t s. split.
    - intros [_ [H _]]. pose proof (H 0%nat [1] 0 eq_refl eq_refl) as H0. pose proof (H 1%nat [-1] (-1) eq_refl eq_refl) as H1.
      rewrite N1, dot_cons, dot_nil_l in H0. rewrite N2, dot_cons, dot_nil_l in H1. lra.
    - intros [H0 H1]. split; auto. split.
      + intros k a c K1 K2. destruct k as [|[|k]]; simpl in K1, K2; try discriminate.
        * injection K1 as <-. injection K2 as <-. rewrite N1, dot_cons, dot_nil_l. lra.
        * injection K1 as <-. injection K2 as <-. rewrite N2, dot_cons, dot_nil_l. lra.
        * destruct k; discriminate.
      + intros k a c K1. destruct k; discriminate. }
  assert (NM : forall y, ~ member ex_void y).
  { intros y [L [_ [I _]]]. destruct y as [|t [|? ?]]; try discriminate.
    pose proof (I 0%nat [1] 0 eq_refl eq_refl) as H0. pose proof (I 1%nat [-1] (-1) eq_refl eq_refl) as H1.
    rewrite dot_cons, dot_nil_l in *. lra. }
  split; [|split; [lra|split; auto]]. split; [apply F; lra|].
  intros y s H. assert (L : length y = 1%nat) by apply H. destruct y as [|t [|? ?]]; try discriminate. apply F in H. lra.
Qed.

(** a box with a cut: [0,2] with x <= 1 *)
Definition ex_cut : dom := mkDom LinIneq 1 [Fin 0] [Fin 2] [[1]] [1] [] [] [].
Lemma ex_cheb : dom_wf ex_cut /\ quads ex_cut = [] /\ dAeq ex_cut = [] /\ cheb_returns ex_cut [1/2] (1/2) /\ member ex_cut [1].
Proof.
  split; [wf|]. split; auto. split; auto. split; [|memb].
  assert (N1 : norm2 [1] = 1) by (rewrite norm2_1; apply Rabs_R1).
  assert (N2 : norm2 [-1] = 1) by (rewrite norm2_1, Rabs_left; lra).
  assert (AU : A_aug ex_cut = [[1]; [-1 * 1]; [1]]) by reflexivity.
  assert (BU : b_aug ex_cut = [1; -0; 2]) by reflexivity.
  assert (N3 : norm2 [-1 * 1] = 1) by (replace (-1 * 1) with (-1) by ring; auto).
  split.
  - split; auto. split; [|intros k a c K1; destruct k; discriminate]. rewrite AU, BU.
    intros k a c K1 K2. destruct k as [|[|[|[|k]]]]; simpl in K1, K2; try discriminate; injection K1 as <-; injection K2 as <-;
      rewrite ?N1, ?N3, dot_cons, dot_nil_l; try lra.
  - intros y s [L [H _]]. destruct y as [|t [|? ?]]; try discriminate. rewrite AU, BU in H.
    pose proof (H 0%nat [1] 1 eq_refl eq_refl) as H0. pose proof (H 1%nat [-1 * 1] (-0) eq_refl eq_refl) as H1.
    rewrite N1, dot_cons, dot_nil_l in H0. rewrite N3, dot_cons, dot_nil_l in H1. lra.
Qed.
