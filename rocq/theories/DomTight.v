(** Extents along directions that leave the affine hull; bounds of normalized domains. *)
Require Import Reals List Bool Arith Lra Lia.
From Verif Require Import RVec Num DomModel DomSpec DomProofs DomOpsProofs NormProofs DomExamples.
Import ListNotations.
Local Open Scope R_scope.

(** a LinQuadDomain with equality constraints and a direction that leaves them by more than the tolerance: no step, exactly *)
Theorem extent_leaves_equality : forall d tol stol x p a, dom_wf d -> proper d -> dcls d = LinQuad -> 0 < tol -> 0 < stol -> length p = dim d -> member d x ->
  In a (dAeq d) -> stol <= Rabs (dot a p) ->
  extent d tol stol x p = Some (Fin 0) /\ forall al, 0 < al -> ~ member d (along x p al).
Proof.
  intros d tol stol x p a W P C Ht Hs Lp M Ia Hd. split.
  - unfold extent. replace (inside1 d x tol) with true by (symmetry; apply inside1_spec; auto; [congruence|apply member_relaxed; auto]).
    f_equal. unfold extent_. rewrite C. destruct (dAeq d) as [|r R] eqn:E; [contradiction|]. cbn [length Nat.eqb orb]. rewrite <- E in *.
    destruct (forallb _ _) eqn:Q; auto. rewrite forallb_forall in Q. assert (I : In (dot a p) (mv (dAeq d) p)) by (unfold mv; apply in_map_iff; eauto). specialize (Q _ I). apply Rltb_true in Q. lra.
  - intros al Hal MA. rewrite member_iff in M, MA. destruct M as [M1 [_ [_ [M4 _]]]]. destruct MA as [_ [_ [_ [A4 _]]]].
    destruct (In_nth_error _ _ Ia) as [k Hk]. destruct W as [_ [_ [_ [_ [_ [W6 _]]]]]].
    assert (exists c, nth_error (dbeq d) k = Some c) as [c Hc].
    { destruct (nth_error (dbeq d) k) eqn:N; eauto. apply nth_error_None in N. assert (nth_error (dAeq d) k <> None) by congruence. apply nth_error_Some in H. lia. }
    pose proof (M4 k a c Hk Hc) as E1. pose proof (A4 k a c Hk Hc) as E2. unfold along in E2. rewrite dot_vadd_r, dot_vscale_r in E2 by (rewrite vscale_length; congruence).
    assert (Z : al * dot a p = 0) by lra. apply Rmult_integral in Z. destruct Z as [Z|Z]; [lra|]. rewrite Z, Rabs_R0 in Hd. lra.
Qed.
(** infinite bounds stay infinite in the same direction *)
Theorem norm_bounds_infinite : forall a b l u i, length a = length b -> length l = length a -> length u = length a ->
  (forall v, nth_error l i = Some v -> is_fin v = false -> nth_error (lb_norm a b l) i = Some NInf) /\
  (forall v, nth_error u i = Some v -> is_fin v = false -> nth_error (ub_norm a b u) i = Some PInf).
Proof.
  intros a b l u i H Hl Hu. assert (N : forall w, length w = length a -> length (normalizeN a b w) = length a).
  { intros w _. apply normalizeN_length; auto. }
  split; intros v Hv F.
  - unfold lb_norm. assert (i < length l)%nat by (apply nth_error_Some; congruence). destruct (nth_error (normalizeN a b l) i) as [n|] eqn:E; [|apply nth_error_None in E; rewrite N in E by auto; lia].
    apply zipw_nth_error. exists n, v. rewrite F. auto.
  - unfold ub_norm. assert (i < length u)%nat by (apply nth_error_Some; congruence). destruct (nth_error (normalizeN a b u) i) as [n|] eqn:E; [|apply nth_error_None in E; rewrite N in E by auto; lia].
    apply zipw_nth_error. exists n, v. rewrite F. auto.
Qed.
(** a normalized box with uniform bounds has bounds again: no NaN, no lower bound of plus infinity *)
Theorem norm_bounds_proper : forall d, dom_wf d -> uniform (lb d) -> uniform (ub d) -> proper (normalized_domain (lb d) (ub d) d).
Proof.
  intros d W Ul Uu. assert (Ll : length (lb d) = dim d) by apply W. assert (Lu : length (ub d) = dim d) by apply W.
  assert (K : forall w, length w = dim d -> length (normalizeN (lb d) (ub d) w) = dim d) by (intros w Hw; rewrite normalizeN_length by congruence; auto).
  assert (F1 : forall x, length x = dim d -> Forall (fun v => is_fin v = true) (normalizeN (lb d) (ub d) (map Fin x))).
  { intros x Hx. rewrite normalizeN_fin by congruence. apply Forall_forall. intros v Iv. apply in_map_iff in Iv. destruct Iv as [r [<- _]]. auto. }
  assert (Z : forall (dflt : num) (f w : list num), length f = length w -> Forall (fun v : num => v = dflt \/ In v f) (zipw (fun v x => if is_fin x then v else dflt) f w)).
  { intros dflt f. induction f as [|a f IH]; intros [|b w] H; simpl; auto. constructor.
    - destruct (is_fin b); auto.
    - specialize (IH w ltac:(simpl in H; lia)). eapply Forall_impl; [|exact IH]. intros v [E|E]; auto. }
  assert (EL : lb (normalized_domain (lb d) (ub d) d) = lb_norm (lb d) (ub d) (lb d)) by (unfold normalized_domain; destruct (dcls d); auto).
  assert (EU : ub (normalized_domain (lb d) (ub d) d) = ub_norm (lb d) (ub d) (ub d)) by (unfold normalized_domain; destruct (dcls d); auto).
  split; [rewrite EL|rewrite EU].
  - apply Forall_forall. intros v Iv. destruct Ul as [[x E]|Ul].
    + assert (length x = dim d) by (rewrite E, map_length in Ll; auto). unfold lb_norm in Iv. pose proof (Z NInf (normalizeN (lb d) (ub d) (lb d)) (lb d) ltac:(rewrite K; congruence)) as Q. rewrite Forall_forall in Q. specialize (Q v Iv). destruct Q as [->|Q]; [exact I|].
      pose proof (F1 x H) as G. rewrite <- E in G. rewrite Forall_forall in G. specialize (G v Q). destruct v; try discriminate. exact I.
    + apply In_nth_error in Iv. destruct Iv as [i Hi]. destruct (nth_error (lb d) i) as [w|] eqn:N.
      * rewrite Forall_forall in Ul. pose proof (Ul w (nth_error_In _ _ N)) as Fw. destruct (norm_bounds_infinite (lb d) (ub d) (lb d) (ub d) i ltac:(congruence) eq_refl ltac:(congruence)) as [Q _]. rewrite (Q w N Fw) in Hi. injection Hi as <-. exact I.
      * unfold lb_norm in Hi. apply zipw_nth_error in Hi. destruct Hi as [p [q [_ [H _]]]]. congruence.
  - apply Forall_forall. intros v Iv. destruct Uu as [[x E]|Uu].
    + assert (length x = dim d) by (rewrite E, map_length in Lu; auto). unfold ub_norm in Iv. pose proof (Z PInf (normalizeN (lb d) (ub d) (ub d)) (ub d) ltac:(rewrite K; congruence)) as Q. rewrite Forall_forall in Q. specialize (Q v Iv). destruct Q as [->|Q]; [exact I|].
      pose proof (F1 x H) as G. rewrite <- E in G. rewrite Forall_forall in G. specialize (G v Q). destruct v; try discriminate. exact I.
    + apply In_nth_error in Iv. destruct Iv as [i Hi]. destruct (nth_error (ub d) i) as [w|] eqn:N.
      * rewrite Forall_forall in Uu. pose proof (Uu w (nth_error_In _ _ N)) as Fw. destruct (norm_bounds_infinite (lb d) (ub d) (lb d) (ub d) i ltac:(congruence) ltac:(congruence) ltac:(congruence)) as [_ Q]. rewrite (Q w N Fw) in Hi. injection Hi as <-. exact I.
      * unfold ub_norm in Hi. apply zipw_nth_error in Hi. destruct Hi as [p [q [_ [H _]]]]. congruence.
Qed.
(** the segment x + y = 1 in the unit square, left along the first axis *)
Definition ex_seg : dom := mkDom LinQuad 2 [Fin 0; Fin 0] [Fin 1; Fin 1] [] [] [[1; 1]] [1] [].
Example extent_leaves_case : dom_wf ex_seg /\ proper ex_seg /\ member ex_seg [1/2; 1/2] /\ (1/1000) <= Rabs (dot [1; 1] [1; 0]) /\ extent ex_seg (1/1000) (1/1000) [1/2; 1/2] [1; 0] = Some (Fin 0).
Proof.
  assert (W : dom_wf ex_seg) by wf. assert (P : proper ex_seg) by (split; repeat constructor). assert (M : member ex_seg [1/2; 1/2]) by memb.
  assert (D : (1/1000) <= Rabs (dot [1; 1] [1; 0])) by (rewrite !dot_cons, !dot_nil_l; rewrite Rabs_right; lra).
  split; auto. split; auto. split; auto. split; auto. apply (extent_leaves_equality ex_seg (1/1000) (1/1000) [1/2; 1/2] [1; 0] [1; 1]); auto; try lra. left. auto.
Qed.
Example norm_bounds_case : lb_norm [Fin 0; NInf] [Fin 4; PInf] [Fin 0; NInf] <> [] /\ nth_error (lb_norm [Fin 0; NInf] [Fin 4; PInf] [Fin 0; NInf]) 1 = Some NInf /\ proper (normalized_domain (lb ex_half) (ub ex_half) ex_half).
Proof.
  split; [discriminate|]. split.
  - apply (norm_bounds_infinite [Fin 0; NInf] [Fin 4; PInf] [Fin 0; NInf] [Fin 4; PInf] 1 eq_refl eq_refl eq_refl) with (v := NInf); reflexivity.
  - apply norm_bounds_proper; [apply ex_half_wf| |]; apply ex_half_case.
Qed.
