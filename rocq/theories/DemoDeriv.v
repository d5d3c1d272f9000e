(** Derivative rules and a tactic for the test problems; gradients in the sense of curves. *)
Require Import Reals QArith_base Lra Lia List Bool Arith.
From Verif Require Import RVec Num Sums DomModel NormProofs DomMoreModel SweepProofs HullProofs ChebProofs VecTac Deriv FunModel FunProofs.
Import ListNotations.
Local Open Scope nat_scope.
Local Open Scope R_scope.

(** [g] is the gradient of [f] at [x]: along every curve through x that is differentiable there, the derivative of f is the
    inner product of g with the velocity *)
Definition gradient_at (f : vec -> R) (x g : vec) : Prop :=
  length g = length x /\
  forall (c : nat -> R -> R) (v : vec), length v = length x ->
  (forall i, (i < length x)%nat -> c i 0 = vget x i /\ derivable_pt_lim (c i) 0 (vget v i)) ->
  derivable_pt_lim (fun t => f (map (fun i => c i t) (seq 0 (length x)))) 0 (dot g v).

(** [g] is the gradient of [f] at [x] up to a relative error [eps] in every coordinate *)
Definition gradient_within (eps : R) (f : vec -> R) (x g : vec) : Prop :=
  exists G, gradient_at f x G /\ length g = length G /\ forall i, (i < length G)%nat -> Rabs (vget g i - vget G i) <= eps * Rabs (vget G i).

(** the points of a box *)
Definition in_box (lb ub x : vec) : Prop := length x = length lb /\ forall i, (i < length lb)%nat -> vget lb i <= vget x i <= vget ub i.

(** partial derivatives are a special case *)
Lemma gradient_partials : forall f x g, gradient_at f x g -> partials f x g.
Proof.
  intros f x g [L H]. split; auto. intros j Hj.
  pose proof (unit_row_length (length x) j) as UL.
  specialize (H (fun i t => vget x i + t * (if Nat.eqb i j then 1 else 0)) (unit_row_ (length x) j) UL).
  eapply d_ext; [| |apply H].
  - intro t. cbv beta. f_equal. apply vec_ext.
    + rewrite map_length, seq_length, vadd_length; auto. rewrite vscale_length; auto.
    + intros i Hi. rewrite map_length, seq_length in Hi. rewrite vget_map_seq by auto. rewrite vadd_get by (rewrite vscale_length; auto).
      rewrite vscale_get. unfold unit_row_. rewrite vget_map_seq by auto. reflexivity.
  - rewrite dot_rsum by lia. unfold unit_row_. rewrite (rsum_ext _ _ (fun i => if Nat.eqb i j then vget g i else 0)).
    + rewrite (rsum_single _ j); [rewrite Nat.eqb_refl; auto|lia|]. intros i _ N. apply Nat.eqb_neq in N. rewrite N. auto.
    + intros i Hi. rewrite vget_map_seq by lia. destruct (Nat.eqb i j); ring.
  - intros i Hi. simpl. split; [ring|]. unfold unit_row_. rewrite vget_map_seq by auto.
    apply d_ext with (f := fun t => vget x i + (if Nat.eqb i j then 1 else 0) * t) (l := 0 + (if Nat.eqb i j then 1 else 0) * 1); [intro; ring|ring|].
    apply d_plus; [apply d_const|apply d_scal, d_id].
Qed.

Lemma d_inv_ : forall f x a, f x <> 0 -> derivable_pt_lim f x a -> derivable_pt_lim (fun t => / f t) x (- a / (f x * f x)).
Proof.
  intros f x a N H. eapply d_ext; [| |apply (derivable_pt_lim_div (fun _ => 1) f x 0 a (d_const 1 x) H N)].
  - intros t. unfold div_fct. unfold Rdiv. ring.
  - unfold Rsqr. field. auto.
Qed.
Lemma d_div : forall f g x a b, g x <> 0 -> derivable_pt_lim f x a -> derivable_pt_lim g x b ->
  derivable_pt_lim (fun t => f t / g t) x ((a * g x - f x * b) / (g x * g x)).
Proof.
  intros f g x a b N Hf Hg. eapply d_ext; [| |apply (derivable_pt_lim_div f g x a b Hf Hg N)]; [reflexivity|].
  unfold Rsqr. field. auto.
Qed.
Lemma d_sqrt : forall f x a, 0 < f x -> derivable_pt_lim f x a -> derivable_pt_lim (fun t => sqrt (f t)) x (a / (2 * sqrt (f x))).
Proof.
  intros f x a P H. eapply d_ext; [reflexivity| |apply (d_comp sqrt f x _ _ H (derivable_pt_lim_sqrt _ P))].
  field. apply Rgt_not_eq, sqrt_lt_R0. auto.
Qed.
Lemma d_ln : forall f x a, 0 < f x -> derivable_pt_lim f x a -> derivable_pt_lim (fun t => ln (f t)) x (a / f x).
Proof. intros f x a P H. eapply d_ext; [reflexivity| |apply (d_comp ln f x _ _ H (derivable_pt_lim_ln _ P))]. field. lra. Qed.
Lemma d_exp : forall f x a, derivable_pt_lim f x a -> derivable_pt_lim (fun t => exp (f t)) x (a * exp (f x)).
Proof. intros f x a H. eapply d_ext; [reflexivity| |apply (d_comp exp f x _ _ H (derivable_pt_lim_exp _))]. ring. Qed.
Lemma d_sin : forall f x a, derivable_pt_lim f x a -> derivable_pt_lim (fun t => sin (f t)) x (a * cos (f x)).
Proof. intros f x a H. eapply d_ext; [reflexivity| |apply (d_comp sin f x _ _ H (derivable_pt_lim_sin _))]. ring. Qed.
Lemma d_cos : forall f x a, derivable_pt_lim f x a -> derivable_pt_lim (fun t => cos (f t)) x (- (a * sin (f x))).
Proof. intros f x a H. eapply d_ext; [reflexivity| |apply (d_comp cos f x _ _ H (derivable_pt_lim_cos _))]. ring. Qed.
Lemma d_pow : forall f n x a, derivable_pt_lim f x a -> derivable_pt_lim (fun t => f t ^ n) x (INR n * f x ^ pred n * a).
Proof. intros f n x a H. apply (d_comp (fun y => y ^ n) f x _ _ H (derivable_pt_lim_pow _ n)). Qed.
Lemma d_Rpower : forall f c x a, 0 < f x -> derivable_pt_lim f x a -> derivable_pt_lim (fun t => Rpower (f t) c) x (c * Rpower (f x) c / f x * a).
Proof.
  intros f c x a P H. unfold Rpower. eapply d_ext; [reflexivity| |apply (d_exp (fun t => c * ln (f t)) x (c * (a / f x))), d_scal, d_ln; auto].
  cbv beta. field. lra.
Qed.
Lemma d_sinh : forall f x a, derivable_pt_lim f x a -> derivable_pt_lim (fun t => sinh (f t)) x (a * cosh (f x)).
Proof. intros f x a H. eapply d_ext; [reflexivity| |apply (d_comp sinh f x _ _ H (derivable_pt_lim_sinh _))]. ring. Qed.
Lemma d_cosh : forall f x a, derivable_pt_lim f x a -> derivable_pt_lim (fun t => cosh (f t)) x (a * sinh (f x)).
Proof. intros f x a H. eapply d_ext; [reflexivity| |apply (d_comp cosh f x _ _ H (derivable_pt_lim_cosh _))]. ring. Qed.
Lemma cosh_pos : forall x, 0 < cosh x.
Proof. intro x. unfold cosh. pose proof (exp_pos x). pose proof (exp_pos (- x)). lra. Qed.
Lemma d_tanh : forall f x a, derivable_pt_lim f x a -> derivable_pt_lim (fun t => tanh (f t)) x (a * (1 - tanh (f x) ^ 2)).
Proof.
  intros f x a H. unfold tanh. pose proof (cosh_pos (f x)) as P.
  eapply d_ext; [reflexivity| |apply (d_div (fun t => sinh (f t)) (fun t => cosh (f t)) x _ _ (Rgt_not_eq _ _ P) (d_sinh _ _ _ H) (d_cosh _ _ _ H))].
  cbv beta. field. lra.
Qed.

(** derivative of an expression, structurally; side conditions are left *)
Ltac der :=
  cbv beta;
  lazymatch goal with
  | |- derivable_pt_lim (fun _ => ?c) _ _ => apply d_const
  | |- derivable_pt_lim (fun t => t) _ _ => apply d_id
  | |- derivable_pt_lim (fun t => @?f t + @?g t) ?x _ => eapply (d_plus f g x); der
  | |- derivable_pt_lim (fun t => @?f t - @?g t) ?x _ => eapply (d_minus f g x); der
  | |- derivable_pt_lim (fun t => @?f t * @?g t) ?x _ => eapply (d_mult f g x); der
  | |- derivable_pt_lim (fun t => @?f t / @?g t) ?x _ => eapply (d_div f g x); [|der|der]
  | |- derivable_pt_lim (fun t => / @?f t) ?x _ => eapply (d_inv_ f x); [|der]
  | |- derivable_pt_lim (fun t => - @?f t) ?x _ => eapply (d_opp f x); der
  | |- derivable_pt_lim (fun t => @?f t ^ ?n) ?x _ => eapply (d_pow f n x); der
  | |- derivable_pt_lim (fun t => sqrt (@?f t)) ?x _ => eapply (d_sqrt f x); [|der]
  | |- derivable_pt_lim (fun t => ln (@?f t)) ?x _ => eapply (d_ln f x); [|der]
  | |- derivable_pt_lim (fun t => exp (@?f t)) ?x _ => eapply (d_exp f x); der
  | |- derivable_pt_lim (fun t => sin (@?f t)) ?x _ => eapply (d_sin f x); der
  | |- derivable_pt_lim (fun t => cos (@?f t)) ?x _ => eapply (d_cos f x); der
  | |- derivable_pt_lim (fun t => sinh (@?f t)) ?x _ => eapply (d_sinh f x); der
  | |- derivable_pt_lim (fun t => tanh (@?f t)) ?x _ => eapply (d_tanh f x); der
  | |- derivable_pt_lim (fun t => Rpower (@?f t) ?c) ?x _ => eapply (d_Rpower f c x); [|der]
  | |- _ => eassumption
  end.

(** gradients at literal points, one statement per dimension *)
Lemma grad_lit2 : forall f x0 x1 g0 g1,
  (forall (c0 c1 : R -> R) v0 v1, c0 0 = x0 -> derivable_pt_lim c0 0 v0 -> c1 0 = x1 -> derivable_pt_lim c1 0 v1 ->
   derivable_pt_lim (fun t => f [c0 t; c1 t]) 0 (g0 * v0 + g1 * v1)) ->
  gradient_at f [x0; x1] [g0; g1].
Proof.
  intros f x0 x1 g0 g1 K. split; [reflexivity|]. intros c v Lv H. cbn [length] in Lv.
  destruct v as [|v0 [|v1 [|]]]; try discriminate.
  destruct (H 0%nat ltac:(cbn [length]; lia)) as [X0 D0]; cbn [vget nth] in X0, D0.
  destruct (H 1%nat ltac:(cbn [length]; lia)) as [X1 D1]; cbn [vget nth] in X1, D1.
  cbn [length map seq]. eapply d_ext; [reflexivity| |apply (K (c 0%nat) (c 1%nat) v0 v1); auto].
  rewrite !dot_cons, dot_nil_l. ring.
Qed.
Lemma grad_lit4 : forall f x0 x1 x2 x3 g0 g1 g2 g3,
  (forall (c0 c1 c2 c3 : R -> R) v0 v1 v2 v3, c0 0 = x0 -> derivable_pt_lim c0 0 v0 -> c1 0 = x1 -> derivable_pt_lim c1 0 v1 -> c2 0 = x2 -> derivable_pt_lim c2 0 v2 -> c3 0 = x3 -> derivable_pt_lim c3 0 v3 ->
   derivable_pt_lim (fun t => f [c0 t; c1 t; c2 t; c3 t]) 0 (g0 * v0 + g1 * v1 + g2 * v2 + g3 * v3)) ->
  gradient_at f [x0; x1; x2; x3] [g0; g1; g2; g3].
Proof.
  intros f x0 x1 x2 x3 g0 g1 g2 g3 K. split; [reflexivity|]. intros c v Lv H. cbn [length] in Lv.
  destruct v as [|v0 [|v1 [|v2 [|v3 [|]]]]]; try discriminate.
  destruct (H 0%nat ltac:(cbn [length]; lia)) as [X0 D0]; cbn [vget nth] in X0, D0.
  destruct (H 1%nat ltac:(cbn [length]; lia)) as [X1 D1]; cbn [vget nth] in X1, D1.
  destruct (H 2%nat ltac:(cbn [length]; lia)) as [X2 D2]; cbn [vget nth] in X2, D2.
  destruct (H 3%nat ltac:(cbn [length]; lia)) as [X3 D3]; cbn [vget nth] in X3, D3.
  cbn [length map seq]. eapply d_ext; [reflexivity| |apply (K (c 0%nat) (c 1%nat) (c 2%nat) (c 3%nat) v0 v1 v2 v3); auto].
  rewrite !dot_cons, dot_nil_l. ring.
Qed.
Lemma grad_lit6 : forall f x0 x1 x2 x3 x4 x5 g0 g1 g2 g3 g4 g5,
  (forall (c0 c1 c2 c3 c4 c5 : R -> R) v0 v1 v2 v3 v4 v5, c0 0 = x0 -> derivable_pt_lim c0 0 v0 -> c1 0 = x1 -> derivable_pt_lim c1 0 v1 -> c2 0 = x2 -> derivable_pt_lim c2 0 v2 -> c3 0 = x3 -> derivable_pt_lim c3 0 v3 -> c4 0 = x4 -> derivable_pt_lim c4 0 v4 -> c5 0 = x5 -> derivable_pt_lim c5 0 v5 ->
   derivable_pt_lim (fun t => f [c0 t; c1 t; c2 t; c3 t; c4 t; c5 t]) 0 (g0 * v0 + g1 * v1 + g2 * v2 + g3 * v3 + g4 * v4 + g5 * v5)) ->
  gradient_at f [x0; x1; x2; x3; x4; x5] [g0; g1; g2; g3; g4; g5].
Proof.
  intros f x0 x1 x2 x3 x4 x5 g0 g1 g2 g3 g4 g5 K. split; [reflexivity|]. intros c v Lv H. cbn [length] in Lv.
  destruct v as [|v0 [|v1 [|v2 [|v3 [|v4 [|v5 [|]]]]]]]; try discriminate.
  destruct (H 0%nat ltac:(cbn [length]; lia)) as [X0 D0]; cbn [vget nth] in X0, D0.
  destruct (H 1%nat ltac:(cbn [length]; lia)) as [X1 D1]; cbn [vget nth] in X1, D1.
  destruct (H 2%nat ltac:(cbn [length]; lia)) as [X2 D2]; cbn [vget nth] in X2, D2.
  destruct (H 3%nat ltac:(cbn [length]; lia)) as [X3 D3]; cbn [vget nth] in X3, D3.
  destruct (H 4%nat ltac:(cbn [length]; lia)) as [X4 D4]; cbn [vget nth] in X4, D4.
  destruct (H 5%nat ltac:(cbn [length]; lia)) as [X5 D5]; cbn [vget nth] in X5, D5.
  cbn [length map seq]. eapply d_ext; [reflexivity| |apply (K (c 0%nat) (c 1%nat) (c 2%nat) (c 3%nat) (c 4%nat) (c 5%nat) v0 v1 v2 v3 v4 v5); auto].
  rewrite !dot_cons, dot_nil_l. ring.
Qed.
Lemma grad_lit7 : forall f x0 x1 x2 x3 x4 x5 x6 g0 g1 g2 g3 g4 g5 g6,
  (forall (c0 c1 c2 c3 c4 c5 c6 : R -> R) v0 v1 v2 v3 v4 v5 v6, c0 0 = x0 -> derivable_pt_lim c0 0 v0 -> c1 0 = x1 -> derivable_pt_lim c1 0 v1 -> c2 0 = x2 -> derivable_pt_lim c2 0 v2 -> c3 0 = x3 -> derivable_pt_lim c3 0 v3 -> c4 0 = x4 -> derivable_pt_lim c4 0 v4 -> c5 0 = x5 -> derivable_pt_lim c5 0 v5 -> c6 0 = x6 -> derivable_pt_lim c6 0 v6 ->
   derivable_pt_lim (fun t => f [c0 t; c1 t; c2 t; c3 t; c4 t; c5 t; c6 t]) 0 (g0 * v0 + g1 * v1 + g2 * v2 + g3 * v3 + g4 * v4 + g5 * v5 + g6 * v6)) ->
  gradient_at f [x0; x1; x2; x3; x4; x5; x6] [g0; g1; g2; g3; g4; g5; g6].
Proof.
  intros f x0 x1 x2 x3 x4 x5 x6 g0 g1 g2 g3 g4 g5 g6 K. split; [reflexivity|]. intros c v Lv H. cbn [length] in Lv.
  destruct v as [|v0 [|v1 [|v2 [|v3 [|v4 [|v5 [|v6 [|]]]]]]]]; try discriminate.
  destruct (H 0%nat ltac:(cbn [length]; lia)) as [X0 D0]; cbn [vget nth] in X0, D0.
  destruct (H 1%nat ltac:(cbn [length]; lia)) as [X1 D1]; cbn [vget nth] in X1, D1.
  destruct (H 2%nat ltac:(cbn [length]; lia)) as [X2 D2]; cbn [vget nth] in X2, D2.
  destruct (H 3%nat ltac:(cbn [length]; lia)) as [X3 D3]; cbn [vget nth] in X3, D3.
  destruct (H 4%nat ltac:(cbn [length]; lia)) as [X4 D4]; cbn [vget nth] in X4, D4.
  destruct (H 5%nat ltac:(cbn [length]; lia)) as [X5 D5]; cbn [vget nth] in X5, D5.
  destruct (H 6%nat ltac:(cbn [length]; lia)) as [X6 D6]; cbn [vget nth] in X6, D6.
  cbn [length map seq]. eapply d_ext; [reflexivity| |apply (K (c 0%nat) (c 1%nat) (c 2%nat) (c 3%nat) (c 4%nat) (c 5%nat) (c 6%nat) v0 v1 v2 v3 v4 v5 v6); auto].
  rewrite !dot_cons, dot_nil_l. ring.
Qed.
Lemma grad_lit8 : forall f x0 x1 x2 x3 x4 x5 x6 x7 g0 g1 g2 g3 g4 g5 g6 g7,
  (forall (c0 c1 c2 c3 c4 c5 c6 c7 : R -> R) v0 v1 v2 v3 v4 v5 v6 v7, c0 0 = x0 -> derivable_pt_lim c0 0 v0 -> c1 0 = x1 -> derivable_pt_lim c1 0 v1 -> c2 0 = x2 -> derivable_pt_lim c2 0 v2 -> c3 0 = x3 -> derivable_pt_lim c3 0 v3 -> c4 0 = x4 -> derivable_pt_lim c4 0 v4 -> c5 0 = x5 -> derivable_pt_lim c5 0 v5 -> c6 0 = x6 -> derivable_pt_lim c6 0 v6 -> c7 0 = x7 -> derivable_pt_lim c7 0 v7 ->
   derivable_pt_lim (fun t => f [c0 t; c1 t; c2 t; c3 t; c4 t; c5 t; c6 t; c7 t]) 0 (g0 * v0 + g1 * v1 + g2 * v2 + g3 * v3 + g4 * v4 + g5 * v5 + g6 * v6 + g7 * v7)) ->
  gradient_at f [x0; x1; x2; x3; x4; x5; x6; x7] [g0; g1; g2; g3; g4; g5; g6; g7].
Proof.
  intros f x0 x1 x2 x3 x4 x5 x6 x7 g0 g1 g2 g3 g4 g5 g6 g7 K. split; [reflexivity|]. intros c v Lv H. cbn [length] in Lv.
  destruct v as [|v0 [|v1 [|v2 [|v3 [|v4 [|v5 [|v6 [|v7 [|]]]]]]]]]; try discriminate.
  destruct (H 0%nat ltac:(cbn [length]; lia)) as [X0 D0]; cbn [vget nth] in X0, D0.
  destruct (H 1%nat ltac:(cbn [length]; lia)) as [X1 D1]; cbn [vget nth] in X1, D1.
  destruct (H 2%nat ltac:(cbn [length]; lia)) as [X2 D2]; cbn [vget nth] in X2, D2.
  destruct (H 3%nat ltac:(cbn [length]; lia)) as [X3 D3]; cbn [vget nth] in X3, D3.
  destruct (H 4%nat ltac:(cbn [length]; lia)) as [X4 D4]; cbn [vget nth] in X4, D4.
  destruct (H 5%nat ltac:(cbn [length]; lia)) as [X5 D5]; cbn [vget nth] in X5, D5.
  destruct (H 6%nat ltac:(cbn [length]; lia)) as [X6 D6]; cbn [vget nth] in X6, D6.
  destruct (H 7%nat ltac:(cbn [length]; lia)) as [X7 D7]; cbn [vget nth] in X7, D7.
  cbn [length map seq]. eapply d_ext; [reflexivity| |apply (K (c 0%nat) (c 1%nat) (c 2%nat) (c 3%nat) (c 4%nat) (c 5%nat) (c 6%nat) (c 7%nat) v0 v1 v2 v3 v4 v5 v6 v7); auto].
  rewrite !dot_cons, dot_nil_l. ring.
Qed.
Lemma grad_lit10 : forall f x0 x1 x2 x3 x4 x5 x6 x7 x8 x9 g0 g1 g2 g3 g4 g5 g6 g7 g8 g9,
  (forall (c0 c1 c2 c3 c4 c5 c6 c7 c8 c9 : R -> R) v0 v1 v2 v3 v4 v5 v6 v7 v8 v9, c0 0 = x0 -> derivable_pt_lim c0 0 v0 -> c1 0 = x1 -> derivable_pt_lim c1 0 v1 -> c2 0 = x2 -> derivable_pt_lim c2 0 v2 -> c3 0 = x3 -> derivable_pt_lim c3 0 v3 -> c4 0 = x4 -> derivable_pt_lim c4 0 v4 -> c5 0 = x5 -> derivable_pt_lim c5 0 v5 -> c6 0 = x6 -> derivable_pt_lim c6 0 v6 -> c7 0 = x7 -> derivable_pt_lim c7 0 v7 -> c8 0 = x8 -> derivable_pt_lim c8 0 v8 -> c9 0 = x9 -> derivable_pt_lim c9 0 v9 ->
   derivable_pt_lim (fun t => f [c0 t; c1 t; c2 t; c3 t; c4 t; c5 t; c6 t; c7 t; c8 t; c9 t]) 0 (g0 * v0 + g1 * v1 + g2 * v2 + g3 * v3 + g4 * v4 + g5 * v5 + g6 * v6 + g7 * v7 + g8 * v8 + g9 * v9)) ->
  gradient_at f [x0; x1; x2; x3; x4; x5; x6; x7; x8; x9] [g0; g1; g2; g3; g4; g5; g6; g7; g8; g9].
Proof.
  intros f x0 x1 x2 x3 x4 x5 x6 x7 x8 x9 g0 g1 g2 g3 g4 g5 g6 g7 g8 g9 K. split; [reflexivity|]. intros c v Lv H. cbn [length] in Lv.
  destruct v as [|v0 [|v1 [|v2 [|v3 [|v4 [|v5 [|v6 [|v7 [|v8 [|v9 [|]]]]]]]]]]]; try discriminate.
  destruct (H 0%nat ltac:(cbn [length]; lia)) as [X0 D0]; cbn [vget nth] in X0, D0.
  destruct (H 1%nat ltac:(cbn [length]; lia)) as [X1 D1]; cbn [vget nth] in X1, D1.
  destruct (H 2%nat ltac:(cbn [length]; lia)) as [X2 D2]; cbn [vget nth] in X2, D2.
  destruct (H 3%nat ltac:(cbn [length]; lia)) as [X3 D3]; cbn [vget nth] in X3, D3.
  destruct (H 4%nat ltac:(cbn [length]; lia)) as [X4 D4]; cbn [vget nth] in X4, D4.
  destruct (H 5%nat ltac:(cbn [length]; lia)) as [X5 D5]; cbn [vget nth] in X5, D5.
  destruct (H 6%nat ltac:(cbn [length]; lia)) as [X6 D6]; cbn [vget nth] in X6, D6.
  destruct (H 7%nat ltac:(cbn [length]; lia)) as [X7 D7]; cbn [vget nth] in X7, D7.
  destruct (H 8%nat ltac:(cbn [length]; lia)) as [X8 D8]; cbn [vget nth] in X8, D8.
  destruct (H 9%nat ltac:(cbn [length]; lia)) as [X9 D9]; cbn [vget nth] in X9, D9.
  cbn [length map seq]. eapply d_ext; [reflexivity| |apply (K (c 0%nat) (c 1%nat) (c 2%nat) (c 3%nat) (c 4%nat) (c 5%nat) (c 6%nat) (c 7%nat) (c 8%nat) (c 9%nat) v0 v1 v2 v3 v4 v5 v6 v7 v8 v9); auto].
  rewrite !dot_cons, dot_nil_l. ring.
Qed.
Ltac curves := intros;
  repeat match goal with H : ?c 0 = ?x |- _ => is_var c; is_var x; revert H end; intros;
  eapply d_ext; [reflexivity| |der].
(** decimal literals as fractions of integers *)
Ltac decs := unfold Q2R; cbn [QArith_base.Qnum QArith_base.Qden]; repeat match goal with |- context[Z.pow_pos ?a ?b] => let v := eval vm_compute in (Z.pow_pos a b) in change (Z.pow_pos a b) with v end.
Ltac at0 := cbv beta; repeat match goal with H : _ 0 = _ |- _ => rewrite ?H; clear H end.
Ltac box_lit x H :=
  let L := fresh "L" in let B := fresh "B" in
  destruct H as [L B]; cbn [length] in L;
  repeat (destruct x as [|? x]; [discriminate|]); destruct x; [|discriminate].
