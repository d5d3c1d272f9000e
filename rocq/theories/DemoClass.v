(** From gradients of the problem functions to the gradient returned by the Function objects in normalized coordinates. *)
Require Import Reals Lra Lia List Bool Arith.
From Verif Require Import RVec Num Sums DomModel NormProofs DomMoreModel SweepProofs HullProofs ChebProofs VecTac Deriv FunModel FunProofs DemoDeriv DemoModel.
Import ListNotations.
Local Open Scope R_scope.

(** the normalized domain [-1,1]^m *)
Definition unit_cube (m : nat) (z : vec) : Prop := length z = m /\ forall i, (i < m)%nat -> -1 <= vget z i <= 1.

Lemma unnormalize_in_box : forall lb ub z, length lb = length ub -> (forall i, (i < length lb)%nat -> vget lb i < vget ub i) ->
  unit_cube (length lb) z -> in_box lb ub (unnormalize (map Fin lb) (map Fin ub) z).
Proof.
  intros lb ub z L O [Lz B]. split; [rewrite unnormalize_length; rewrite ?map_length; auto|]. intros i Hi.
  rewrite unnormalize_get by (rewrite ?map_length; auto).
  rewrite (nth_indep _ NaN (Fin 0)) by (rewrite map_length; auto). rewrite (nth_indep (map Fin ub) NaN (Fin 0)) by (rewrite map_length; lia).
  rewrite !map_nth. fold (vget lb i). fold (vget ub i). specialize (O i Hi). specialize (B i Hi).
  unfold uslope, center_i. destruct (Req_EM_T (vget ub i) (vget lb i)); [lra|]. nra.
Qed.

Definition rows_within (eps : R) (Rw G : mat) : Prop :=
  length Rw = length G /\ forall k, (k < length G)%nat -> length (nth k Rw []) = length (nth k G []) /\
  forall j, (j < length (nth k G []))%nat -> Rabs (vget (nth k Rw []) j - vget (nth k G []) j) <= eps * Rabs (vget (nth k G []) j).

Lemma gradient_within_exact : forall eps f x g, 0 <= eps -> gradient_at f x g -> gradient_within eps f x g.
Proof.
  intros eps f x g P H. exists g. repeat split; auto; try apply H. intros i _. rewrite Rminus_diag_eq by auto. rewrite Rabs_R0.
  pose proof (Rabs_pos (vget g i)). nra.
Qed.

Lemma mv_diag_within : forall d eps r g, length r = length d -> length g = length d ->
  (forall j, (j < length g)%nat -> Rabs (vget r j - vget g j) <= eps * Rabs (vget g j)) ->
  length (mv (diag d) r) = length (mv (diag d) g) /\
  forall j, (j < length (mv (diag d) g))%nat -> Rabs (vget (mv (diag d) r) j - vget (mv (diag d) g) j) <= eps * Rabs (vget (mv (diag d) g) j).
Proof.
  intros d eps r g Lr Lg H. rewrite !mv_diag by auto. assert (L1 : length (vmul d r) = length d) by (apply vmul_length; auto). assert (L2 : length (vmul d g) = length d) by (apply vmul_length; auto).
  split; [congruence|]. intros j Hj. rewrite L2 in Hj. rewrite !vmul_get by auto.
  replace (vget d j * vget r j - vget d j * vget g j) with (vget d j * (vget r j - vget g j)) by ring.
  rewrite !Rabs_mult. specialize (H j ltac:(lia)). pose proof (Rabs_pos (vget d j)). nra.
Qed.

(** If every gradient function is right up to a relative error eps at the point of the box, then so is the gradient of the Function object in
    the normalized domain. *)
Theorem demo_class_at : forall eps lb ub fs gs kw0 kw z, length lb = length ub -> (forall i, (i < length lb)%nat -> vget lb i < vget ub i) ->
  length fs = length gs ->
  (forall k f g, nth_error fs k = Some f -> nth_error gs k = Some g ->
     gradient_within eps (f (merge kw0 kw)) (unnormalize (map Fin lb) (map Fin ub) z) (g (merge kw0 kw) (unnormalize (map Fin lb) (map Fin ub) z))) ->
  unit_cube (length lb) z ->
  exists G Rw, jacobian (eval1 (demo_fun lb ub fs gs kw0) kw) z G /\ length G = length fs /\ rows_within eps Rw G /\
    (length fs = 1%nat -> grad_vec (demo_fun lb ub fs gs kw0) (demo_gv gs) kw true [z] = Some (T1 (nth 0 Rw []))) /\
    (length fs <> 1%nat -> grad_vec (demo_fun lb ub fs gs kw0) (demo_gv gs) kw true [z] = Some (T2 Rw)).
Proof.
  intros eps lb ub fs gs kw0 kw z L O Lfg H Hz.
  pose proof (unnormalize_in_box lb ub z L O Hz) as HB. set (x := unnormalize (map Fin lb) (map Fin ub) z) in *.
  assert (Lx : length x = length lb) by apply HB.
  set (k0 := merge kw0 kw) in *.
  assert (CH : exists Gs : mat, length Gs = length gs /\ forall k f g, nth_error fs k = Some f -> nth_error gs k = Some g ->
     gradient_at (f k0) x (nth k Gs []) /\ length (g k0 x) = length (nth k Gs []) /\ forall j, (j < length (nth k Gs []))%nat -> Rabs (vget (g k0 x) j - vget (nth k Gs []) j) <= eps * Rabs (vget (nth k Gs []) j)).
  { clear - Lfg H. revert gs Lfg H. induction fs as [|f fs IH]; intros [|g gs] Lfg H; try discriminate.
    - exists []. split; auto. intros [|k] f g E; discriminate.
    - destruct (H 0%nat f g eq_refl eq_refl) as [G0 [A B]]. destruct (IH gs) as [Gs [LG HG]]; [simpl in Lfg; lia| |].
      + intros k f' g' E1 E2. apply (H (Datatypes.S k)); auto.
      + exists (G0 :: Gs). split; [simpl; lia|]. intros [|k] f' g' E1 E2; simpl in E1, E2.
        * injection E1 as <-. injection E2 as <-. simpl. auto.
        * simpl. apply HG; auto. }
  destruct CH as [Gs [LG HG]].
  set (F := demo_fun lb ub fs gs kw0).
  pose (Fe := mkFun (map Fin lb) (map Fin ub) (map (fun f kw y => [f kw y]) fs) (Some (map (fun (r : vec) (_ : kwd) (_ : vec) => [r]) Gs)) None false kw0).
  destruct (grad_chain_rule Fe (map (fun (r : vec) (_ : kwd) (_ : vec) => [r]) Gs) kw z) as [G [J [G1 G2]]]; auto.
  - cbn. rewrite !map_length. auto.
  - cbn. rewrite map_length. apply Hz.
  - cbn. rewrite !map_length. congruence.
  - intros a f g E1 E2. cbn in E1. rewrite nth_error_map in E1, E2. destruct (nth_error fs a) as [f0|] eqn:F0; [|discriminate]. destruct (nth_error Gs a) as [g0|] eqn:G0; [|discriminate].
    cbn in E1, E2. injection E1 as <-. injection E2 as <-. cbn [f_lb f_ub f_kw Fe]. fold x. fold k0.
    assert (Ha : (a < length gs)%nat) by (rewrite <- Lfg; apply nth_error_Some; congruence).
    destruct (nth_error gs a) as [g1|] eqn:G1; [|apply nth_error_None in G1; lia].
    destruct (HG a f0 g1 F0 G1) as [A _]. rewrite (nth_error_nth _ _ _ G0) in A.
    split; [intros; reflexivity|]. intros k Hk. cbn in Hk. replace k with 0%nat by lia. cbn [nth].
    apply gradient_partials in A. destruct A as [A B]. split; auto.
  - (* the exact rows are G *)
    assert (EG : grad Fe kw true [z] = shape_grad (fdim Fe) 1 true [map (mv (diag (uslopes (map Fin lb) (map Fin ub)))) Gs]).
    { unfold grad. cbn [f_fd f_grads f_lb f_ub f_kw Fe]. cbn [map length]. unfold chain. cbn [map]. rewrite map_map. 
      replace (concat (map (fun r : vec => [r]) Gs)) with Gs; auto. clear. induction Gs; simpl; congruence. }
    set (D := diag (uslopes (map Fin lb) (map Fin ub))) in *.
    assert (EGM : G = map (mv D) Gs).
    { rewrite EG in G1, G2. unfold shape_grad in G1, G2. cbn [map hd concat] in G1, G2. rewrite app_nil_r in G1, G2. rewrite map_length in G1, G2.
      destruct (Nat.eq_dec (length G) 1) as [E|E].
      - specialize (G1 E). destruct (Nat.eqb_spec (length Gs) 1) as [E'|E'].
        + destruct Gs as [|r [|]]; try discriminate. cbn [map] in *. destruct G as [|g [|]]; try discriminate. cbn [nth] in G1. congruence.
        + rewrite Nat.eqb_refl in G1. discriminate.
      - specialize (G2 E). destruct (Nat.eqb_spec (length Gs) 1) as [E'|E'].
        + destruct Gs as [|r [|]]; try discriminate. 
        + rewrite Nat.eqb_refl in G2. congruence. }
    exists G, (map (fun g => mv D (g k0 x)) gs). split; [exact J|]. split; [rewrite EGM, map_length; congruence|].
    assert (Ld : length (uslopes (map Fin lb) (map Fin ub)) = length x) by (rewrite uslopes_length; rewrite !map_length; auto).
    split; [|split].
    + split; [rewrite EGM, !map_length; auto|]. intros k Hk. rewrite EGM in *. rewrite map_length in Hk.
      assert (Hk1 : (k < length gs)%nat) by lia. assert (Hk2 : (k < length fs)%nat) by lia.
      destruct (nth_error fs k) as [f0|] eqn:F0; [|apply nth_error_None in F0; lia]. destruct (nth_error gs k) as [g0|] eqn:G0; [|apply nth_error_None in G0; lia].
      destruct (HG k f0 g0 F0 G0) as [[A _] [B C]].
      rewrite (nth_indep (map (mv D) Gs) [] (mv D [])) by (rewrite map_length; auto). rewrite map_nth.
      assert (EN : nth_error (map (fun g => mv D (g k0 x)) gs) k = Some (mv D (g0 k0 x))) by (rewrite nth_error_map, G0; auto). rewrite (nth_error_nth _ _ [] EN).
      apply mv_diag_within; [congruence|congruence|exact C].
    + intro E. unfold grad_vec. cbn [f_lb f_ub f_kw demo_fun F map length]. fold x. fold k0. fold D. unfold transpose01, chain, demo_gv. cbn [seq map]. rewrite !map_map. cbn [nth].
      unfold shape_grad. cbn [hd concat]. rewrite map_length. destruct gs as [|g [|]]; simpl in Lfg; try lia. reflexivity.
    + intro E. unfold grad_vec. cbn [f_lb f_ub f_kw demo_fun F map length]. fold x. fold k0. fold D. unfold transpose01, chain, demo_gv. cbn [seq map]. rewrite !map_map. cbn [nth map].
      unfold shape_grad. cbn [hd concat]. rewrite map_length. destruct (Nat.eqb_spec (length gs) 1); [lia|]. rewrite app_nil_r, map_length, Nat.eqb_refl. reflexivity.
Qed.

(** The gradient of the Function object [F], whose gradient functions are [gv] on all rows at once, called with the keyword arguments [kw], is right at
    the normalized point [z] of m coordinates up to a relative error [eps]; n is the number of components. *)
Definition stores (F : func) (gv : list (kwd -> mat -> mat)) : Prop := exists gs, f_grads F = Some (map (fun g kw x => [g kw x]) gs) /\ gv = demo_gv gs.
Definition object_gradient_at (eps : R) (F : func) (gv : list (kwd -> mat -> mat)) (kw : kwd) (n : nat) (z : vec) : Prop :=
  stores F gv /\ exists G Rw, jacobian (eval1 F kw) z G /\ length G = n /\ rows_within eps Rw G /\
    grad_vec F gv kw true [z] = Some (if Nat.eqb n 1 then T1 (nth 0 Rw []) else T2 Rw).
(** the same on the whole normalized domain *)
Definition object_gradient (eps : R) (F : func) (gv : list (kwd -> mat -> mat)) (kw : kwd) (m n : nat) : Prop :=
  forall z, unit_cube m z -> object_gradient_at eps F gv kw n z.

Lemma demo_class_point : forall eps lb ub fs gs kw0 kw z, length lb = length ub -> (forall i, (i < length lb)%nat -> vget lb i < vget ub i) ->
  length fs = length gs ->
  (forall x, in_box lb ub x -> x = unnormalize (map Fin lb) (map Fin ub) z -> forall k f g, nth_error fs k = Some f -> nth_error gs k = Some g ->
     gradient_within eps (f (merge kw0 kw)) x (g (merge kw0 kw) x)) ->
  unit_cube (length lb) z -> object_gradient_at eps (demo_fun lb ub fs gs kw0) (demo_gv gs) kw (length fs) z.
Proof.
  intros eps lb ub fs gs kw0 kw z L O Lfg H Hz.
  destruct (demo_class_at eps lb ub fs gs kw0 kw z L O Lfg) as [G [Rw [J [LG [W [A B]]]]]]; auto.
  - apply H; auto. apply unnormalize_in_box; auto.
  - split; [exists gs; split; reflexivity|]. exists G, Rw. repeat (split; auto). destruct (Nat.eqb_spec (length fs) 1); auto.
Qed.
Lemma demo_class : forall eps lb ub fs gs kw0 kw, length lb = length ub -> (forall i, (i < length lb)%nat -> vget lb i < vget ub i) ->
  length fs = length gs ->
  (forall x, in_box lb ub x -> forall k f g, nth_error fs k = Some f -> nth_error gs k = Some g ->
     gradient_within eps (f (merge kw0 kw)) x (g (merge kw0 kw) x)) ->
  object_gradient eps (demo_fun lb ub fs gs kw0) (demo_gv gs) kw (length lb) (length fs).
Proof. intros eps lb ub fs gs kw0 kw L O Lfg H z Hz. apply demo_class_point; auto. intros x Hx _. apply H. auto. Qed.
(** with relative error 0 the rows are the Jacobian *)
Lemma object_gradient_exact : forall F gv kw n z, object_gradient_at 0 F gv kw n z ->
  exists G, jacobian (eval1 F kw) z G /\ length G = n /\ grad_vec F gv kw true [z] = Some (if Nat.eqb n 1 then T1 (nth 0 G []) else T2 G).
Proof.
  intros F gv kw n z [_ [G [Rw [J [LG [[L W] E]]]]]]. assert (Q : Rw = G).
  { apply (nth_ext _ _ [] []); auto. intros k Hk. rewrite L in Hk. destruct (W k Hk) as [A B]. apply vec_ext; auto. intros j Hj.
    rewrite A in Hj. specialize (B j Hj). rewrite Rmult_0_l in B. pose proof (Rabs_pos (vget (nth k Rw []) j - vget (nth k G []) j)).
    apply Rminus_diag_uniq. destruct (Req_dec (vget (nth k Rw []) j - vget (nth k G []) j) 0) as [Z|Z]; auto. apply Rabs_pos_lt in Z. lra. }
  subst. exists G. auto.
Qed.
