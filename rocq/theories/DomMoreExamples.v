(** Concrete instances for the theorems on sampling, grids, quadrature. *)
Require Import Reals Lra Lia List Bool Arith ZArith.
From Verif Require Import RVec Num Sums DomModel DomSpec DomProofs NormProofs DomOpsProofs DomExamples DomMoreModel SweepProofs CvxProofs HullProofs BoxPredProofs SampleProofs QuadProofs TensorModel TensorProofs.
Require Import Permutation.
Import ListNotations.
Local Open Scope R_scope.

Lemma Rltb_t : forall a b, a < b -> Rltb a b = true.
Proof. intros. apply Rltb_true. auto. Qed.
Lemma Rltb_f : forall a b, b <= a -> Rltb a b = false.
Proof. intros. apply Rltb_false. auto. Qed.

Lemma ex_box_sample : box_sample_ [0; 1] [2; 1] [[1/2; 1/4]; [0; 0]] = Some [[1; 1]; [0; 1]] /\ box_sample_ [0; 1] [2; 0] [[1/2; 1/4]] = None.
Proof.
  unfold box_sample_. cbn [zipw existsb]. rewrite (Rltb_f 2 0), (Rltb_f 1 1), (Rltb_t 0 1) by lra. simpl. split; auto.
  unfold box_row, vadd, vmul, vsub. simpl. repeat f_equal; lra.
Qed.

Lemma ex_normal : normal_sample [1] [[2]] (Some 4) 5 (fun _ => [3]) (fun _ _ => [1]) 2 = Some [[3]; [3]] /\
  member (normal_dom [1] [[1/2]] (Some 4)) [3].
Proof.
  assert (E : normal_sample [1] [[2]] (Some 4) 5 (fun _ => [3]) (fun _ _ => [1]) 2 = Some [[3]; [3]]).
  { assert (B3 : bad_row 4 [3] = true) by (unfold bad_row, norm2sq; rewrite dot_cons, dot_nil_l; apply Rltb_t; lra).
    assert (B1 : bad_row 4 [1] = false) by (unfold bad_row, norm2sq; rewrite dot_cons, dot_nil_l; apply Rltb_f; lra).
    unfold normal_sample. cbn [seq map reject_loop forallb]. rewrite !B3. cbn [negb andb mapi forallb]. rewrite !B3. rewrite !B1. cbn [negb andb map].
    unfold mv, vadd. cbn [map vmap2]. rewrite !dot_cons, dot_nil_l. repeat f_equal; lra. }
  split; auto.
  destruct (normal_sample_inside [1] [[2]] [[1/2]] (Some 4) 5 (fun _ => [3]) (fun _ _ => [1]) 2 _ eq_refl
    ltac:(repeat constructor)
    ltac:(intros v Hv; destruct v as [|a [|? ?]]; try discriminate; unfold mv; simpl; rewrite !dot_cons, !dot_nil_l; apply (f_equal (fun t => [t])); field)
    ltac:(intros c Hc; injection Hc as <-; lra) ltac:(auto) ltac:(auto) E) as [_ F].
  inversion F; auto.
Qed.

Lemma ex_hitrun : exists X, euclid_sample (Some [1]) false (fun x => Some x) (fun _ _ => Some (Fin (1/2))) (fun _ => [1]) (fun _ => 1/4) 1 [1] [2; 0; 1]%nat None 1 = Some X /\ X = [[1/4]].
Proof.
  eexists. split; [|reflexivity]. unfold euclid_sample. cbn [Nat.mul Nat.add hr_many hit_and_run hr_loop].
  rewrite (Rltb_t (1/10000000) (1/2 - - (1/2))) by lra. cbn [hr_many hit_and_run hr_loop firstn map nth].
  unfold vadd, vscale. simpl. f_equal. f_equal. apply (f_equal (fun t => [t])). lra.
Qed.

(** hypotheses of the hit-and-run theorem on the unit interval: exact extents, identity projection *)
Lemma ex_hitrun_hyp : norm_ok [Fin 0] [Fin 1] (box_of [0] [1]) /\ dcls (box_of [0] [1]) <> Point /\
  closest_returns [Fin 0] [Fin 1] (box_of [0] [1]) (1/10) [[1]] [1/2] [1/2] /\ relaxed (box_of [0] [1]) (1/10) [1/2].
Proof.
  assert (M : member (box_of [0] [1]) [1/2]).
  { apply box_member; auto. split; auto. intros i Hi. destruct i; [unfold vget; simpl; lra|simpl in Hi; lia]. }
  assert (W : dom_wf (box_of [0] [1])) by (apply box_of_wf; auto).
  assert (Rl : relaxed (box_of [0] [1]) (1/10) [1/2]) by (apply member_relaxed1; auto; lra).
  split; [|split; [discriminate|split; auto]].
  - split; auto. split; [reflexivity|]. split; [reflexivity|]. split; [left; exists [0]; reflexivity|]. split; [left; exists [1]; reflexivity|].
    split; [|constructor]. intros i v w E1 E2. destruct i as [|[|i]]; simpl in E1, E2; try discriminate. injection E1 as <-. injection E2 as <-. lra.
  - unfold closest_returns. assert (B : inside1 (box_of [0] [1]) [1/2] (1/10) = true) by (apply inside1_spec; auto; discriminate).
    rewrite B. reflexivity.
Qed.

Lemma ex_tensor_rows : tensor_rows [[[1]; [2]]; [[3; 4]; [5; 6]]] 2 = [[1; 3; 4]; [2; 5; 6]].
Proof. reflexivity. Qed.

Lemma ex_grid : exists X, sample_grid ex_tri 3 (1/10) = Some X /\ In [1; 2] X /\ ~ In [2; 2] X /\ ~ In [1/2; 1/2] X.
Proof.
  assert (W : dom_wf ex_tri) by wf.
  destruct (sample_grid_exact ex_tri [0; 0] [2; 2] 3 (1/10) W ltac:(discriminate) eq_refl eq_refl) as [X [E H]].
  exists X. split; auto. split; [|split].
  - apply H. split; auto. split.
    + intros i Hi. destruct i as [|[|i]]; [| |simpl in Hi; lia]; unfold on_grid, vget; simpl.
      * exists 1%nat. simpl. split; [lia|]. split; [lra|discriminate].
      * exists 2%nat. simpl. split; [lia|]. split; [lra|discriminate].
    + apply member_relaxed1; [memb|lra].
  - intro I2. apply H in I2. destruct I2 as [_ [_ [_ [_ [Q _]]]]]. specialize (Q O [1; 1] 3 eq_refl eq_refl).
    rewrite !dot_cons, dot_nil_l in Q. lra.
  - intro I2. apply H in I2. destruct I2 as [_ [G _]]. destruct (G O ltac:(simpl; lia)) as [k [K1 [K2 _]]].
    unfold vget in K2. destruct k as [|[|[|k]]]; simpl in K2; try lra; lia.
Qed.

Lemma ex_grid_box : exists X, sample_grid (box_of [0; 1] [1; 3]) 3 (1/10) = Some X /\ length X = 9%nat /\ NoDup X.
Proof.
  apply (sample_grid_box [0; 1] [1; 3] 3 (1/10)); auto; [lra|].
  intros i Hi. destruct i as [|[|i]]; [| |simpl in Hi; lia]; unfold vget; simpl; lra.
Qed.

(** the two-point Gauss rule *)
Lemma ex_gauss2 : let g := gbeta 1 in let s := sqrt (1/2) in
  eigh_contract 2 (jacobi 2) [- g; g] [[s; - s]; [s; s]] /\ g * g = 1/3.
Proof.
  intros g s. assert (SS : s * s = 1/2) by (apply sqrt_sqrt; lra). 
  split.
  - split; auto. split; auto. split; [repeat constructor|]. split.
    + assert (J : jacobi 2 = [[0; g]; [g; 0]]) by reflexivity. rewrite J.
      intros j Hj. destruct j as [|[|j]]; [| |lia]; cbn [nth]; split; unfold mv, vget; simpl; rewrite ?dot_cons, ?dot_nil_l; try lra;
        unfold vscale; simpl; f_equal; try (apply (f_equal (fun t => [t]))); ring.
    + unfold vsum, vget. simpl. lra.
  - destruct (gbeta_sq 0) as [H _]. unfold g. rewrite H. simpl. field.
Qed.

Lemma ex_gauss2_rule : exists x w, length x = 2%nat /\ Forall (fun t => 3 <= t <= 5) x /\ vsum w = 2 /\ vget x 1 - vget x 0 = 2 * gbeta 1 /\ w = [1; 1].
Proof.
  destruct ex_gauss2 as [C _]. destruct (gauss_correct 2 _ _ 3 5 C ltac:(lra)) as [A1 [A2 [A3 [A4 A5]]]].
  exists (gauss_x [- gbeta 1; gbeta 1] 3 5), (gauss_w [[sqrt (1 / 2); - sqrt (1 / 2)]; [sqrt (1 / 2); sqrt (1 / 2)]] 3 5).
  split; auto. split; auto. split; [lra|]. split.
  - unfold gauss_x, vget. simpl. field.
  - unfold gauss_w, vget. simpl. assert (SS : sqrt (1/2) * sqrt (1/2) = 1/2) by (apply sqrt_sqrt; lra).
    rewrite SS. repeat f_equal; lra.
Qed.

Lemma ex_quad_box : exists rules res, quadrature_gauss 7 (box_of [3; 0] [5; 2]) (1/10) (fun _ => rules) 4 2 = Some res /\ length res = 4%nat /\
  vsum (map snd res) = 4 /\ Forall (fun pw => member (box_of [3; 0] [5; 2]) (fst pw)) res.
Proof.
  destruct ex_gauss2 as [C _]. set (ew := [- gbeta 1; gbeta 1]) in *. set (ev := [[sqrt (1 / 2); - sqrt (1 / 2)]; [sqrt (1 / 2); sqrt (1 / 2)]]) in *.
  exists [(gauss_x ew 3 5, gauss_w ev 3 5); (gauss_x ew 0 2, gauss_w ev 0 2)].
  assert (O : ordered [3; 0] [5; 2]).
  { split; auto. intros i Hi. destruct i as [|[|i]]; [| |simpl in Hi; lia]; unfold vget; simpl; lra. }
  set (rules := [(gauss_x ew 3 5, gauss_w ev 3 5); (gauss_x ew 0 2, gauss_w ev 0 2)]).
  assert (F2 : Forall2 (fun lu r => exists ew ev, eigh_contract 2 (jacobi 2) ew ev /\
     r = (gauss_x ew (fst lu) (snd lu), gauss_w ev (fst lu) (snd lu))) (combine [3; 0] [5; 2]) rules).
  { constructor; [exists ew, ev; split; auto|]. constructor; [exists ew, ev; split; auto|constructor]. }
  destruct (gauss_rules_facts _ _ _ _ O F2) as [X1 [X2 [X3 X4]]].
  exists (cart_w rules). assert (MM : forall pw, In pw (cart_w rules) -> member (box_of [3; 0] [5; 2]) (fst pw)).
  { intros [p w] H. apply cart_w_in in H. destruct H as [ws [W1 [W2 [W3 W4]]]]. apply box_member; [apply O|]. simpl.
    split; [simpl in *; lia|]. apply (X4 p ws); auto. }
  unfold quadrature_gauss.
  assert (A : quad_inside (box_of [3; 0] [5; 2]) (1/10) rules = cart_w rules).
  { apply filter_all. intros pw H. apply inside1_spec; [apply box_of_wf; apply O|discriminate|]. apply member_relaxed1; auto. lra. }
  rewrite A. rewrite (cart_w_length _ 2) by auto. split; [reflexivity|]. split; [reflexivity|]. split.
  - rewrite cart_w_sum; [rewrite X3; unfold vsub; simpl; lra|]. apply Forall_impl with (2 := X2). intros r [E1 E2]. congruence.
  - apply Forall_forall. auto.
Qed.

Lemma ex_logn : between (logn_lb 1 2 (Some (-1, 1))) (logn_ub 1 2 (Some (-1, 1))) (logn_sample 1 2 0) /\ logn_sample 1 2 0 = 3.
Proof. split; [apply logn_truncated; lra|]. unfold logn_sample. rewrite exp_0. ring. Qed.

Lemma ex_logn_pdf : is_logn_density 0 4 1 2 (logn_pdf 0 4 1 2) /\ ~ is_logn_density 0 4 0 1 (logn_pdf 0 4 0 1).
Proof. split; [apply logn_pdf_spec; lra|]. intro H. apply logn_pdf_spec in H; lra. Qed.
