(** The derivative checks: what their result says about the gradient, Jacobian or Hessian given. *)
Require Import Reals Lra Lia List Bool Arith.
From Verif Require Import RVec Num Sums DomModel DomMoreModel HullProofs ChebProofs FunModel FunProofs Deriv LipModel ChkModel.
Import ListNotations.
Local Open Scope R_scope.

Lemma Rabs_le_inv : forall x a, Rabs x <= a -> - a <= x <= a.
Proof. intros x a H. unfold Rabs in H. destruct (Rcase_abs x); lra. Qed.

(* ------------------------------------------------------------------ the loops *)
Lemma pymax_fin : forall a b, pymax (Fin a) (Fin b) = Fin (Rmax a b).
Proof.
  intros a b. unfold pymax. simpl. unfold Rltb. destruct (Rlt_dec a b); f_equal; [rewrite Rmax_right; lra|rewrite Rmax_left; lra].
Qed.

Lemma chk_loop_fold : forall e r l m, (forall i, In i l -> e i = Some (Fin (r i))) ->
  fold_left (chk_step e) l (Some (Fin m)) = Some (Fin (fold_left (fun a i => Rmax (r i) a) l m)).
Proof.
  induction l as [|i l IH]; intros m H; simpl; auto. rewrite H by (simpl; auto). rewrite pymax_fin.
  apply IH. intros j Hj. apply H. simpl. auto.
Qed.

Lemma fold_rmax_spec : forall (r : nat -> R) l m, let v := fold_left (fun a i => Rmax (r i) a) l m in
  m <= v /\ (forall i, In i l -> r i <= v) /\ (v = m \/ exists i, In i l /\ v = r i).
Proof.
  induction l as [|i l IH]; intros m v; simpl in v.
  - repeat split; [right; reflexivity|intros i []|left; reflexivity].
  - destruct (IH (Rmax (r i) m)) as (A & B & C). fold v in A, B, C. pose proof (Rmax_l (r i) m). pose proof (Rmax_r (r i) m).
    repeat split; [lra| |].
    + intros j [E|E]; [subst; lra|auto].
    + destruct C as [C|[j [J C]]]; [|right; exists j; simpl; auto].
      unfold Rmax in C at 1. destruct (Rle_dec (r i) m); [left; auto|right; exists i; simpl; auto].
Qed.

Lemma chk_loop_spec : forall e r n, (forall i, (i < n)%nat -> e i = Some (Fin (r i))) ->
  exists v, chk_loop e (seq 0 n) = Some (Fin v) /\ 0 <= v /\ (forall i, (i < n)%nat -> r i <= v) /\
            (v = 0 \/ exists i, (i < n)%nat /\ v = r i).
Proof.
  intros e r n H. unfold chk_loop. rewrite (chk_loop_fold e r).
  - destruct (fold_rmax_spec r (seq 0 n) 0) as (A & B & C). eexists. split; [reflexivity|]. repeat split; auto.
    + intros i Hi. apply B. apply in_seq. lia.
    + destruct C as [C|[i [Hi C]]]; [left; auto|right; exists i; split; auto]. apply in_seq in Hi. lia.
  - intros i Hi. apply in_seq in Hi. apply H. lia.
Qed.

Lemma npmin_spec : forall (A : Type) (f : A -> R) (l : list A), l <> [] ->
  exists v, npmin (map (fun a => Fin (f a)) l) = Some (Fin v) /\ (forall a, In a l -> v <= f a) /\ exists a, In a l /\ v = f a.
Proof.
  intros A f l N. destruct l as [|a0 l]; [congruence|]. clear N. simpl.
  assert (G : forall l m, exists v, fold_left nmin (map (fun a => Fin (f a)) l) (Fin m) = Fin v /\ v <= m /\ (forall a, In a l -> v <= f a) /\
     (v = m \/ exists a, In a l /\ v = f a)).
  { clear. induction l as [|a l IH]; intros m; simpl.
    - exists m. repeat split; auto; [lra|intros a []].
    - assert (E : nmin (Fin m) (Fin (f a)) = Fin (Rmin m (f a))).
      { simpl. unfold Rleb. destruct (Rle_dec m (f a)); [rewrite Rmin_left; auto|rewrite Rmin_right; auto; lra]. }
      simpl in E. rewrite E. destruct (IH (Rmin m (f a))) as (v & V & V1 & V2 & V3).
      pose proof (Rmin_l m (f a)). pose proof (Rmin_r m (f a)). exists v. split; auto. split; [lra|]. split.
      + intros b [B|B]; [subst; lra|auto].
      + destruct V3 as [V3|[b [B V3]]]; [|right; exists b; auto]. unfold Rmin in V3. destruct (Rle_dec m (f a)); [left; auto|right; exists a; auto]. }
  destruct (G l (f a0)) as (v & V & V1 & V2 & V3). exists v. rewrite V. split; auto. split.
  - intros b [B|B]; [subst; auto|auto].
  - destruct V3 as [V3|[b [B V3]]]; [exists a0; auto|exists b; auto].
Qed.

Lemma pyminl_npmin : forall (A : Type) (f : A -> R) (l : list A),
  pyminl (map (fun a => Fin (f a)) l) = npmin (map (fun a => Fin (f a)) l).
Proof.
  intros A f l. destruct l as [|a0 l]; auto. simpl. f_equal. generalize (f a0). induction l as [|a l IH]; intro m; simpl; auto.
  replace (if Rltb (f a) m then Fin (f a) else Fin m) with (if Rleb m (f a) then Fin m else Fin (f a));
    [destruct (Rleb m (f a)); apply IH|].
  unfold Rleb, Rltb. destruct (Rle_dec m (f a)), (Rlt_dec (f a) m); auto; lra.
Qed.

(* ------------------------------------------------------------------ coordinate lines *)
(** the function along coordinate i through x *)
Definition line (f : vec -> R) (x : vec) (i : nat) (t : R) : R := f (vadd x (vscale t (unit_row_ (length x) i))).

Lemma step_up_length : forall x i h, length (step_up x i h) = length x.
Proof. intros. unfold step_up. apply move_length. Qed.
Lemma step_dn_up : forall x i h, step_dn x i h = step_up x i (- h).
Proof.
  intros x i h. unfold step_dn, step_up. apply vec_ext.
  - rewrite vsub_length, vadd_length; auto; rewrite vscale_length, unit_row_length; auto.
  - intros k _. rewrite vsub_get, vadd_get by (rewrite vscale_length, unit_row_length; auto). rewrite !vscale_get. ring.
Qed.
Lemma step_up_0 : forall x i, step_up x i 0 = x.
Proof.
  intros. unfold step_up. apply vec_ext; [rewrite vadd_length; auto; rewrite vscale_length, unit_row_length; auto|].
  intros k Hk. rewrite vadd_get by (rewrite vscale_length, unit_row_length; auto). rewrite vscale_get. ring.
Qed.

(** the central difference quotient of the specification *)
Definition cdiff (f : vec -> R) (x : vec) (i : nat) (h : R) : R := (line f x i h - line f x i (- h)) / (2 * h).

Lemma deriv_err_fin : forall obj g x i h, h <> 0 -> deriv_err obj g x i h = Fin (Rabs (cdiff obj x i h - vget g i)).
Proof.
  intros obj g x i h N. unfold deriv_err. rewrite step_dn_up. simpl. destruct (Req_EM_T (2 * h) 0); [lra|].
  simpl. reflexivity.
Qed.

(** the result is the largest over the coordinates of the least deviation over the steps *)
Theorem check_derivative_value : forall x obj grad hvec, hvec <> [] -> (forall h, In h hvec -> h <> 0) ->
  exists v, check_derivative x obj grad hvec = Some (Fin v) /\ 0 <= v /\
    (forall i, (i < length x)%nat -> exists h, In h hvec /\ Rabs (cdiff obj x i h - vget (grad x) i) <= v) /\
    (v = 0 \/ exists i, (i < length x)%nat /\ forall h, In h hvec -> v <= Rabs (cdiff obj x i h - vget (grad x) i)).
Proof.
  intros x obj grad hvec NE NZ. unfold check_derivative.
  set (dev := fun i h => Rabs (cdiff obj x i h - vget (grad x) i)).
  assert (M : forall i, map (deriv_err obj (grad x) x i) hvec = map (fun h => Fin (dev i h)) hvec).
  { intro i. apply map_ext_in. intros h Hh. apply deriv_err_fin. auto. }
  assert (W : forall i, { v | npmin (map (fun h => Fin (dev i h)) hvec) = Some (Fin v) }).
  { intro i. destruct (npmin (map (fun h => Fin (dev i h)) hvec)) as [[r| | |]|] eqn:E; [exists r; auto| | | |];
      exfalso; destruct (npmin_spec _ (dev i) hvec NE) as [v [V _]]; rewrite E in V; discriminate. }
  destruct (chk_loop_spec (fun i => npmin (map (deriv_err obj (grad x) x i) hvec)) (fun i => proj1_sig (W i)) (length x)) as (v & V & P & U & L).
  { intros i Hi. rewrite M. destruct (W i) as [w Hw]. simpl. auto. }
  exists v. split; [exact V|]. split; [exact P|]. split.
  - intros i Hi. specialize (U i Hi). destruct (W i) as [w Hw]. simpl in U.
    destruct (npmin_spec _ (dev i) hvec NE) as (w' & E & _ & h & Hh & E'). rewrite Hw in E. injection E as <-. exists h. split; auto. unfold dev in *. lra.
  - destruct L as [L|[i [Hi L]]]; [left; auto|right]. exists i. split; auto. intros h Hh. destruct (W i) as [w Hw]. simpl in L.
    destruct (npmin_spec _ (dev i) hvec NE) as (w' & E & B & _). rewrite Hw in E. injection E as <-. rewrite L. apply B. auto.
Qed.

(* ------------------------------------------------------------------ accuracy of central differences *)
Lemma mono_neg : forall (f df : R -> R) h, (forall t, 0 <= t <= h -> derivable_pt_lim f t (df t)) ->
  (forall t, 0 <= t <= h -> df t <= 0) -> f 0 <= 0 -> forall t, 0 <= t <= h -> f t <= 0.
Proof.
  intros f df h D N Z t Ht. destruct (Req_dec t 0) as [->|Nt]; auto.
  destruct (MVT_cor2 f df 0 t ltac:(lra) ltac:(intros; apply D; lra)) as [c [E Hc]].
  specialize (N c ltac:(lra)). assert (df c * (t - 0) <= 0).
  { replace (df c * (t - 0)) with (- ((- df c) * t)) by ring. assert (0 <= (- df c) * t) by (apply Rmult_le_pos; lra). lra. }
  lra.
Qed.

Lemma d_flip : forall f t l, derivable_pt_lim f (- t) l -> derivable_pt_lim (fun s => f (- s)) t (- l).
Proof.
  intros f t l H. apply d_ext with (f := fun s => f (- s)) (l := l * (- 1)); [reflexivity|ring|].
  apply (d_comp f (fun s => - s)); auto. apply d_opp, d_id.
Qed.

(** f is three times differentiable on [-H, H] with third derivative at most C and first derivative d at 0 *)
Definition smooth3 (f : R -> R) (H C d : R) : Prop :=
  exists f1 f2 f3, f1 0 = d /\ forall t, - H <= t <= H ->
    derivable_pt_lim f t (f1 t) /\ derivable_pt_lim f1 t (f2 t) /\ derivable_pt_lim f2 t (f3 t) /\ Rabs (f3 t) <= C.

Lemma smooth3_half : forall f H C d h, smooth3 f H C d -> 0 < h <= H -> f h - f (- h) - 2 * h * d <= C * (h * h * h) / 3.
Proof.
  intros f H C d h (f1 & f2 & f3 & E & S) Hh.
  set (e2 := fun t => f2 t - f2 (- t) - 2 * C * t).
  set (e1 := fun t => f1 t + f1 (- t) - 2 * d - C * (t * t)).
  set (e0 := fun t => f t - f (- t) - 2 * d * t - C / 3 * (t * (t * t))).
  assert (D2 : forall t, 0 <= t <= h -> derivable_pt_lim e2 t (f3 t + f3 (- t) - 2 * C)).
  { intros t Ht. destruct (S t ltac:(lra)) as (_ & _ & A & _). destruct (S (- t) ltac:(lra)) as (_ & _ & B & _).
    apply d_ext with (f := e2) (l := f3 t - (- f3 (- t)) - 2 * C * 1); [reflexivity|ring|].
    apply d_minus; [apply d_minus; [auto|apply d_flip; auto]|apply d_scal, d_id]. }
  assert (D1 : forall t, 0 <= t <= h -> derivable_pt_lim e1 t (e2 t)).
  { intros t Ht. destruct (S t ltac:(lra)) as (_ & A & _). destruct (S (- t) ltac:(lra)) as (_ & B & _).
    apply d_ext with (f := e1) (l := f2 t + (- f2 (- t)) - 0 - C * (1 * t + t * 1)); [reflexivity|unfold e2; ring|].
    apply d_minus; [apply d_minus; [apply d_plus; [auto|apply d_flip; auto]|apply d_const]|apply d_scal, d_mult; apply d_id]. }
  assert (D0 : forall t, 0 <= t <= h -> derivable_pt_lim e0 t (e1 t)).
  { intros t Ht. destruct (S t ltac:(lra)) as (A & _). destruct (S (- t) ltac:(lra)) as (B & _).
    apply d_ext with (f := e0) (l := f1 t - (- f1 (- t)) - 2 * d * 1 - C / 3 * (1 * (t * t) + t * (1 * t + t * 1))); [reflexivity|unfold e1; field|].
    apply d_minus; [apply d_minus; [apply d_minus; [auto|apply d_flip; auto]|apply d_scal, d_id]|].
    apply d_scal. apply (d_mult (fun t => t) (fun t => t * t)); [apply d_id|apply d_mult; apply d_id]. }
  assert (N3 : forall t, 0 <= t <= h -> f3 t + f3 (- t) - 2 * C <= 0).
  { intros t Ht. destruct (S t ltac:(lra)) as (_ & _ & _ & A). destruct (S (- t) ltac:(lra)) as (_ & _ & _ & B).
    apply Rabs_le_inv in A. apply Rabs_le_inv in B. lra. }
  pose proof (mono_neg e2 _ h D2 N3 ltac:(unfold e2; rewrite Ropp_0; lra)) as N2.
  pose proof (mono_neg e1 _ h D1 N2 ltac:(unfold e1; rewrite Ropp_0, E; lra)) as N1.
  pose proof (mono_neg e0 _ h D0 N1 ltac:(unfold e0; rewrite Ropp_0; lra)) as N0.
  specialize (N0 h ltac:(lra)). unfold e0 in N0. lra.
Qed.

Lemma smooth3_opp : forall f H C d, smooth3 f H C d -> smooth3 (fun t => - f t) H C (- d).
Proof.
  intros f H C d (f1 & f2 & f3 & E & S). exists (fun t => - f1 t), (fun t => - f2 t), (fun t => - f3 t). split; [lra|].
  intros t Ht. destruct (S t Ht) as (A & B & D & G). rewrite Rabs_Ropp. repeat split; auto; apply d_opp; auto.
Qed.

Lemma central_error : forall f H C d h, smooth3 f H C d -> 0 < h <= H -> Rabs ((f h - f (- h)) / (2 * h) - d) <= C * (h * h) / 6.
Proof.
  intros f H C d h S Hh. pose proof (smooth3_half f H C d h S Hh) as U. pose proof (smooth3_half _ H C _ h (smooth3_opp _ _ _ _ S) Hh) as L.
  simpl in L. replace ((f h - f (- h)) / (2 * h) - d) with ((f h - f (- h) - 2 * h * d) * / (2 * h)) by (field; lra).
  assert (P : 0 < / (2 * h)) by (apply Rinv_0_lt_compat; lra).
  replace (C * (h * h) / 6) with (C * (h * h * h) / 3 * / (2 * h)) by (field; lra).
  rewrite Rabs_mult, (Rabs_right (/ (2 * h))) by lra. apply Rmult_le_compat_r; [lra|]. apply Rabs_le. lra.
Qed.

(** the coordinate lines of f through x are smooth, with first derivatives G *)
Definition smooth_lines (f : vec -> R) (x : vec) (H C : R) (G : vec) : Prop :=
  forall i, (i < length x)%nat -> smooth3 (line f x i) H C (vget G i).

(** a correct gradient passes: the error reported is at most C h^2 / 6 for every step in the list *)
Theorem check_derivative_complete : forall x obj grad hvec H C h, smooth_lines obj x H C (grad x) ->
  (forall h, In h hvec -> 0 < h <= H) -> In h hvec -> 0 <= C ->
  exists v, check_derivative x obj grad hvec = Some (Fin v) /\ 0 <= v <= C * (h * h) / 6.
Proof.
  intros x obj grad hvec H C h S B Hh PC. destruct (check_derivative_value x obj grad hvec) as (v & V & P & _ & L).
  - intros ->; destruct Hh.
  - intros k Hk. specialize (B k Hk). lra.
  - exists v. split; auto. split; auto. destruct L as [->|[i [Hi L]]].
    + assert (0 <= C * (h * h)) by (apply Rmult_le_pos; auto; apply Rle_0_sqr). lra.
    + eapply Rle_trans; [apply (L h Hh)|]. apply (central_error _ H); auto.
Qed.

(** what a small result means: every entry is within the reported error plus C H^2 / 6 of the partial derivative *)
Theorem check_derivative_sound : forall x obj grad hvec H C G v, smooth_lines obj x H C G -> hvec <> [] ->
  (forall h, In h hvec -> 0 < h <= H) -> 0 <= C -> check_derivative x obj grad hvec = Some (Fin v) ->
  forall i, (i < length x)%nat -> Rabs (vget (grad x) i - vget G i) <= v + C * (H * H) / 6.
Proof.
  intros x obj grad hvec H C G v S NE B PC E i Hi. destruct (check_derivative_value x obj grad hvec NE) as (v' & V & P & U & _).
  - intros k Hk. specialize (B k Hk). lra.
  - rewrite E in V. injection V as <-. destruct (U i Hi) as (h & Hh & D). pose proof (B h Hh) as Bh.
    pose proof (central_error _ H C _ h (S i Hi) Bh) as T. fold (cdiff obj x i h) in T.
    assert (h * h <= H * H) by (apply Rmult_le_compat; lra). assert (C * (h * h) <= C * (H * H)) by (apply Rmult_le_compat_l; auto).
    apply Rabs_le_inv in D. apply Rabs_le_inv in T. apply Rabs_le. lra.
Qed.

(** with a third derivative of zero (quadratics) the result is the exact largest deviation *)
Theorem check_derivative_exact : forall x obj grad hvec H G, smooth_lines obj x H 0 G -> hvec <> [] ->
  (forall h, In h hvec -> 0 < h <= H) ->
  exists v, check_derivative x obj grad hvec = Some (Fin v) /\ 0 <= v /\
    (forall i, (i < length x)%nat -> Rabs (vget (grad x) i - vget G i) <= v) /\
    (v = 0 \/ exists i, (i < length x)%nat /\ v = Rabs (vget (grad x) i - vget G i)).
Proof.
  intros x obj grad hvec H G S NE B. destruct (check_derivative_value x obj grad hvec NE) as (v & V & P & U & L).
  - intros k Hk. specialize (B k Hk). lra.
  - assert (X : forall i h, (i < length x)%nat -> In h hvec -> Rabs (cdiff obj x i h - vget (grad x) i) = Rabs (vget (grad x) i - vget G i)).
    { intros i h Hi Hh. pose proof (central_error _ H 0 _ h (S i Hi) (B h Hh)) as T. fold (cdiff obj x i h) in T.
      replace (0 * (h * h) / 6) with 0 in T by field. apply Rabs_le_inv in T. rewrite <- Rabs_Ropp. f_equal. lra. }
    exists v. split; auto. split; auto. split.
    + intros i Hi. destruct (U i Hi) as (h & Hh & D). rewrite (X i h) in D; auto.
    + destruct L as [L|[i [Hi L]]]; [left; auto|right]. exists i. split; auto. apply Rle_antisym.
      * destruct hvec as [|h hv]; [congruence|]. rewrite <- (X i h); simpl; auto. apply L. simpl. auto.
      * destruct (U i Hi) as (h & Hh & D). rewrite (X i h) in D; auto.
Qed.
