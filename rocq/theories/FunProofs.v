(** Function wrapper: values, gradients, finite differences (C19, C20). *)
Require Import Reals Lra Lia List Bool Arith FunctionalExtensionality.
From Verif Require Import RVec Num Sums DomModel DomSpec NormProofs DomMoreModel SweepProofs HullProofs ChebProofs VecTac Deriv FunModel.
Import ListNotations.
Local Open Scope R_scope.

Ltac vlist := repeat (apply (f_equal2 (@cons R)); [try lra; try (field; lra)|]); try reflexivity.

Lemma merge_idem : forall s k, merge s (merge s k) = merge s k.
Proof. intros s k. apply functional_extensionality. intro x. unfold merge. destruct (k x); auto. destruct (s x); auto. Qed.
Lemma merge_nokw : forall s, merge s nokw = s.
Proof. intros. apply functional_extensionality. intro. reflexivity. Qed.

(** moving one normalized coordinate moves the application coordinate by the slope *)
Lemma unnormalize_move : forall a b z t j, length a = length b -> length z = length a -> (j < length a)%nat ->
  unnormalize a b (vadd z (vscale t (unit_row_ (length a) j))) =
  vadd (unnormalize a b z) (vscale (t * vget (uslopes a b) j) (unit_row_ (length a) j)).
Proof.
  intros a b z t j H Hz Hj. pose proof (unit_row_length (length a) j) as UL. apply vec_ext.
  - rewrite unnormalize_length by auto. rewrite vadd_length; rewrite unnormalize_length by auto; auto. rewrite vscale_length. auto.
  - intros i Hi. rewrite unnormalize_length in Hi by auto.
    rewrite unnormalize_get by (auto; vlen). rewrite !vadd_get by (rewrite ?unnormalize_length by auto; vlen).
    rewrite !vscale_get, unnormalize_get, uslopes_get by auto. unfold unit_row_. rewrite vget_map_seq by auto.
    destruct (Nat.eqb_spec i j); [subst|]; ring.
Qed.

(** values: evaluating at the normalized image of x is evaluating the functions at x *)
Theorem eval_normalized : forall F kw x, length (f_lb F) = length (f_ub F) -> length x = length (f_lb F) ->
  eval1 F kw (normalize (f_lb F) (f_ub F) x) = concat (map (fun f => f (merge (f_kw F) kw) x) (f_funs F)).
Proof. intros F kw x H Hx. unfold eval1. rewrite unnormalize_normalize; auto. Qed.

(** g is the gradient row of output k of f at x: all partial derivatives *)
Definition partials (f : vec -> R) (x g : vec) : Prop :=
  length g = length x /\ forall j, (j < length x)%nat ->
  derivable_pt_lim (fun t => f (vadd x (vscale t (unit_row_ (length x) j)))) 0 (vget g j).

(** rows [G] are the gradients of the components of the vector function [f] at x *)
Definition jacobian (f : vec -> vec) (x : vec) (G : mat) : Prop :=
  (forall y, length y = length x -> length (f y) = length G) /\
  forall k, (k < length G)%nat -> partials (fun y => vget (f y) k) x (nth k G []).

Lemma vget_app_l : forall a b k, (k < length a)%nat -> vget (a ++ b) k = vget a k.
Proof. intros. unfold vget. apply app_nth1. auto. Qed.
Lemma vget_app_r : forall a b k, (length a <= k)%nat -> vget (a ++ b) k = vget b (k - length a).
Proof. intros. unfold vget. apply app_nth2. auto. Qed.

Lemma derivable_ext : forall f g x l, (forall t, f t = g t) -> derivable_pt_lim f x l -> derivable_pt_lim g x l.
Proof. intros f g x l H D eps He. destruct (D eps He) as [d Hd]. exists d. intros h H1 H2. rewrite <- !H. auto. Qed.

Lemma move_length : forall x t j, length (vadd x (vscale t (unit_row_ (length x) j))) = length x.
Proof. intros. apply vadd_length. rewrite vscale_length, unit_row_length. auto. Qed.

Lemma jacobian_app : forall f g x G H, jacobian f x G -> jacobian g x H -> jacobian (fun y => f y ++ g y) x (G ++ H).
Proof.
  intros f g x G H [F1 F2] [G1 G2]. split.
  - intros y Hy. rewrite !app_length, F1, G1; auto.
  - intros k Hk. rewrite app_length in Hk. destruct (Nat.lt_ge_cases k (length G)) as [L|L].
    + rewrite app_nth1 by auto. destruct (F2 k L) as [A B]. split; auto. intros j Hj. eapply derivable_ext; [|apply B; auto].
      intro t. simpl. rewrite vget_app_l; auto. rewrite F1 by apply move_length. auto.
    + rewrite app_nth2 by auto. destruct (G2 (k - length G)%nat ltac:(lia)) as [A B]. split; auto. intros j Hj. eapply derivable_ext; [|apply B; auto].
      intro t. simpl. rewrite vget_app_r; rewrite F1 by apply move_length; auto.
Qed.

Lemma jacobian_concat : forall (fs : list (kwd -> vec -> vec)) (gs : list (kwd -> vec -> mat)) kw x, length fs = length gs ->
  (forall a f g, nth_error fs a = Some f -> nth_error gs a = Some g -> jacobian (f kw) x (g kw x)) ->
  jacobian (fun y => concat (map (fun f => f kw y) fs)) x (concat (map (fun g => g kw x) gs)).
Proof.
  induction fs as [|f fs IH]; intros gs kw x L H; destruct gs as [|g gs]; try discriminate; simpl.
  - split; [auto|]. simpl. intros; lia.
  - apply jacobian_app; [apply (H O f g); auto|]. apply IH; [simpl in L; lia|]. intros a f' g' E1 E2. apply (H (S a)); auto.
Qed.

(** chain rule through the unnormalization, one row *)
Lemma partials_chain : forall a b f z g, length a = length b -> length z = length a -> partials f (unnormalize a b z) g ->
  partials (fun y => f (unnormalize a b y)) z (mv (diag (uslopes a b)) g).
Proof.
  intros a b f z g H Hz [L P]. rewrite unnormalize_length in L by auto. split.
  - rewrite mv_length, diag_length, uslopes_length; congruence.
  - intros j Hj. rewrite Hz in *. specialize (P j). rewrite unnormalize_length in P by auto. specialize (P Hj).
    set (s := vget (uslopes a b) j). set (G := fun t => f (vadd (unnormalize a b z) (vscale t (unit_row_ (length a) j)))) in *.
    rewrite mv_diag by (rewrite uslopes_length; congruence). rewrite vmul_get by (rewrite uslopes_length; congruence). fold s.
    apply derivable_ext with (f := comp G (fun t => t * s)).
    { intro t. unfold comp, G. rewrite unnormalize_move by auto. reflexivity. }
    rewrite Rmult_comm. apply derivable_pt_lim_comp.
    + apply derivable_ext with (f := mult_real_fct s id); [intro t; unfold mult_real_fct, id; ring|].
      replace s with (s * 1) at 2 by ring. apply derivable_pt_lim_scal. apply derivable_pt_lim_id.
    + rewrite Rmult_0_l. exact P.
Qed.

Lemma jacobian_chain : forall a b f z G, length a = length b -> length z = length a -> jacobian f (unnormalize a b z) G ->
  jacobian (fun y => f (unnormalize a b y)) z (map (mv (diag (uslopes a b))) G).
Proof.
  intros a b f z G H Hz [J1 J2]. split.
  - intros y Hy. rewrite map_length. apply J1. rewrite !unnormalize_length; auto.
  - intros k Hk. rewrite map_length in Hk. specialize (J2 k Hk).
    assert (E : nth k (map (mv (diag (uslopes a b))) G) [] = mv (diag (uslopes a b)) (nth k G [])).
    { rewrite nth_indep with (d' := mv (diag (uslopes a b)) []) by (rewrite map_length; auto). apply map_nth. }
    rewrite E. apply (partials_chain a b (fun y => vget (f y) k)); auto.
Qed.

(** the gradient returned for one point is the gradient of eval in the normalized variable *)
Theorem grad_chain_rule : forall F gs kw z, length (f_lb F) = length (f_ub F) -> length z = length (f_lb F) ->
  f_fd F = false -> f_grads F = Some gs -> length (f_funs F) = length gs ->
  (forall a f g, nth_error (f_funs F) a = Some f -> nth_error gs a = Some g ->
     jacobian (f (merge (f_kw F) kw)) (unnormalize (f_lb F) (f_ub F) z) (g (merge (f_kw F) kw) (unnormalize (f_lb F) (f_ub F) z))) ->
  exists G, jacobian (eval1 F kw) z G /\
    (length G = 1%nat -> grad F kw true [z] = Some (T1 (nth 0 G []))) /\ (length G <> 1%nat -> grad F kw true [z] = Some (T2 G)).
Proof.
  intros F gs kw z H Hz FD FG L J.
  exists (map (mv (diag (uslopes (f_lb F) (f_ub F)))) (concat (map (fun g => g (merge (f_kw F) kw) (unnormalize (f_lb F) (f_ub F) z)) gs))).
  split; [|].
  - apply (jacobian_chain (f_lb F) (f_ub F) (fun x => concat (map (fun f => f (merge (f_kw F) kw) x) (f_funs F)))); auto.
    apply jacobian_concat; auto.
  - unfold grad. rewrite FD, FG. cbn [map length]. unfold chain, shape_grad. cbn [map hd concat]. rewrite app_nil_r.
    set (G := map _ _). split; intro N.
    + rewrite N. simpl. destruct G as [|r [|r2 G]]; try discriminate. reflexivity.
    + destruct (Nat.eqb_spec (length G) 1); [contradiction|]. rewrite Nat.eqb_refl. reflexivity.
Qed.

(** several points: row i of the result is the result for point i *)
Lemma grad_rows : forall F gs kw Z, f_fd F = false -> f_grads F = Some gs ->
  grad F kw false Z = shape_grad (fdim F) (length Z) false
    (map (fun z => map (mv (diag (uslopes (f_lb F) (f_ub F)))) (concat (map (fun g => g (merge (f_kw F) kw) (unnormalize (f_lb F) (f_ub F) z)) gs))) Z).
Proof. intros F gs kw Z FD FG. unfold grad. rewrite FD, FG. unfold chain. rewrite !map_map. reflexivity. Qed.

Theorem grad_scalar_rows : forall F gs kw Z, f_fd F = false -> f_grads F = Some gs -> Z <> [] ->
  (forall z, In z Z -> length (concat (map (fun g => g (merge (f_kw F) kw) (unnormalize (f_lb F) (f_ub F) z)) gs)) = 1%nat) ->
  exists A, grad F kw false Z = Some (T2 A) /\ length A = length Z /\ forall i, (i < length Z)%nat -> grad F kw true [nth i Z []] = Some (T1 (nth i A [])).
Proof.
  intros F gs kw Z FD FG NE H1. set (R1 := fun z => map (mv (diag (uslopes (f_lb F) (f_ub F)))) (concat (map (fun g => g (merge (f_kw F) kw) (unnormalize (f_lb F) (f_ub F) z)) gs))).
  assert (RL : forall z, In z Z -> length (R1 z) = 1%nat) by (intros z Hz; unfold R1; rewrite map_length; auto).
  assert (S1 : forall z, In z Z -> grad F kw true [z] = Some (T1 (nth 0 (R1 z) []))).
  { intros z Hz. unfold grad. rewrite FD, FG. unfold chain, shape_grad. cbn [map hd concat length]. rewrite app_nil_r. fold (R1 z).
    specialize (RL z Hz). destruct (R1 z) as [|r [|r2 G]]; try discriminate. reflexivity. }
  assert (CC : forall Y, (forall z, In z Y -> length (R1 z) = 1%nat) -> concat (map R1 Y) = map (fun z => nth 0 (R1 z) []) Y).
  { induction Y as [|y Y IH]; intro HY; simpl; auto. rewrite IH by (intros; apply HY; simpl; auto).
    specialize (HY y (or_introl eq_refl)). destruct (R1 y) as [|r [|r2 G]]; try discriminate. reflexivity. }
  exists (map (fun z => nth 0 (R1 z) []) Z). split; [|split].
  - rewrite (grad_rows F gs kw Z FD FG). fold R1. unfold shape_grad. destruct Z as [|z0 Z']; [contradiction|].
    cbn [map hd]. fold (R1 z0). rewrite (RL z0) by (simpl; auto). cbn [Nat.eqb].
    change (R1 z0 :: map R1 Z') with (map R1 (z0 :: Z')). rewrite CC by auto. rewrite map_length, Nat.eqb_refl. reflexivity.
  - apply map_length.
  - intros i Hi. rewrite (S1 (nth i Z [])) by (apply nth_In; auto).
    rewrite nth_indep with (l := map _ Z) (d' := nth 0 (R1 []) []) by (rewrite map_length; auto).
    rewrite (map_nth (fun z => nth 0 (R1 z) [])). reflexivity.
Qed.

(** __call__(z, return_grad = True) agrees with eval and grad *)
Theorem call_consistent : forall F rs kw z, f_fd F = false -> f_grads F = None -> f_ret F = Some rs ->
  map (fun f => f) (f_funs F) = map (fun r k x => fst (r k x)) rs ->
  call_ret F rs kw true [z] = match grad F kw true [z] with Some g => Some (T1 (eval1 F kw z), g) | None => None end.
Proof.
  intros F rs kw z FD FG FR E. rewrite map_id in E. unfold call_ret, grad. rewrite FD, FG, FR. cbn [map length concat].
  destruct (shape_grad _ _ _ _) as [g|]; auto. rewrite app_nil_r. unfold eval1. rewrite E, map_map. reflexivity.
Qed.
Theorem call_consistent_rows : forall F rs kw Z, f_fd F = false -> f_grads F = None -> f_ret F = Some rs ->
  map (fun f => f) (f_funs F) = map (fun r k x => fst (r k x)) rs ->
  call_ret F rs kw false Z = match grad F kw false Z with Some g => Some (T2 (eval2 F kw Z), g) | None => None end.
Proof.
  intros F rs kw Z FD FG FR E. rewrite map_id in E. unfold call_ret, grad, eval2. rewrite FD, FG, FR.
  destruct (shape_grad _ _ _ _) as [g|]; auto. rewrite map_map. do 3 f_equal. apply map_ext. intro z. unfold eval1. rewrite E, map_map. reflexivity.
Qed.

(** vectorized evaluation agrees with row by row evaluation *)
Theorem eval_vec_rows : forall F vf kw Z, length vf = length (f_funs F) ->
  (forall a v f, nth_error vf a = Some v -> nth_error (f_funs F) a = Some f -> forall k X, vrows (v k X) = map (f k) X) ->
  eval_vec F vf kw Z = Some (eval2 F kw Z).
Proof.
  intros F vf kw Z L H. unfold eval_vec, eval2. set (X := map (unnormalize (f_lb F) (f_ub F)) Z). set (k := merge (f_kw F) kw).
  assert (E : map (fun f => vrows (f k X)) vf = map (fun f => map (f k) X) (f_funs F)).
  { clear - L H. revert L H. generalize (f_funs F). induction vf as [|v vf IH]; intros fs L H; destruct fs as [|f fs]; try discriminate; auto.
    simpl. rewrite (H O v f); auto. f_equal. apply IH; [simpl in L; lia|]. intros a v' f' E1 E2. apply (H (S a)); auto. }
  rewrite E.
  assert (B : forallb (fun B : mat => Nat.eqb (length B) (length X)) (map (fun f => map (f k) X) (f_funs F)) = true).
  { apply forallb_forall. intros B HB. apply in_map_iff in HB. destruct HB as [f [<- _]]. rewrite map_length. apply Nat.eqb_refl. }
  rewrite B. f_equal. unfold hstack_rows. apply nth_ext with (d := []) (d' := []).
  - rewrite !map_length, seq_length. unfold X. apply map_length.
  - intros i Hi. rewrite map_length, seq_length in Hi. assert (Hz : (i < length Z)%nat) by (unfold X in Hi; rewrite map_length in Hi; auto).
    rewrite nth_indep with (l := map _ (seq _ _)) (d' := concat (map (fun B => nth 0 B []) (map (fun f => map (f k) X) (f_funs F)))) by (rewrite map_length, seq_length; auto).
    rewrite (map_nth (fun i => concat (map (fun B => nth i B []) (map (fun f => map (f k) X) (f_funs F))))). rewrite seq_nth by auto. cbn [plus].
    rewrite nth_indep with (l := map _ Z) (d' := eval1 F kw []) by (rewrite map_length; auto). rewrite map_nth. unfold eval1. fold k. rewrite map_map. f_equal.
    apply map_ext. intro f. rewrite nth_indep with (d' := f k (unnormalize (f_lb F) (f_ub F) [])) by (rewrite map_length; auto).
    rewrite map_nth. unfold X. rewrite map_nth. reflexivity.
Qed.

(** vectorized gradients with self._grads agree with the row by row gradients *)
Theorem grad_vec_rows : forall F gv gs kw one_d Z, f_fd F = false -> f_grads F = Some gs -> length gv = length gs ->
  (forall a v g, nth_error gv a = Some v -> nth_error gs a = Some g -> forall k X, length (v k X) = length X /\ forall i x, nth_error X i = Some x -> g k x = [nth i (v k X) []]) ->
  grad_vec F gv kw one_d Z = grad F kw one_d Z.
Proof.
  intros F gv gs kw one_d Z FD FG L H. unfold grad_vec, grad. rewrite FD, FG. do 2 f_equal.
  set (X := map (unnormalize (f_lb F) (f_ub F)) Z). set (k := merge (f_kw F) kw).
  replace (length Z) with (length X) by (unfold X; apply map_length). unfold transpose01.
  apply nth_ext with (d := []) (d' := []).
  - rewrite !map_length, seq_length. reflexivity.
  - intros i Hi. rewrite map_length, seq_length in Hi.
    rewrite nth_indep with (l := map _ (seq _ _)) (d' := map (fun g => nth 0 g []) (map (fun g => g k X) gv)) by (rewrite map_length, seq_length; auto).
    rewrite (map_nth (fun i => map (fun g => nth i g []) (map (fun g => g k X) gv))). rewrite seq_nth by auto. cbn [plus].
    rewrite nth_indep with (l := map _ X) (d' := concat (map (fun g => g k []) gs)) by (rewrite map_length; auto).
    rewrite (map_nth (fun x => concat (map (fun g => g k x) gs))). rewrite map_map.
    assert (NX : nth_error X i = Some (nth i X [])) by (apply nth_error_nth'; auto).
    clear - L H NX. revert gs L H. induction gv as [|v gv IH]; intros gs L H; destruct gs as [|g gs]; try discriminate; auto.
    simpl. destruct (H O v g eq_refl eq_refl k X) as [_ H0]. rewrite (H0 i _ NX). simpl. f_equal. apply IH; [simpl in L; lia|].
    intros a v' g' E1 E2. apply (H (S a)); auto.
Qed.

(* ---------------- finite differences ---------------- *)
Lemma fdh_pos : 0 < fdh.
Proof. unfold fdh. lra. Qed.

(** error of the finite difference entry for a function with bounded second derivative; base value and
    shifted value with the same keyword arguments *)
Theorem fd_grad_spec : forall F kw z g, merge (f_kw F) kw = f_kw F -> fd_grad F kw z = Some g ->
  length g = length z /\ forall i, (i < length z)%nat ->
  vget g i = (vget (eval1 F kw (vadd z (vscale fdh (unit_row_ (length z) i)))) 0 - vget (eval1 F kw z) 0) / fdh.
Proof.
  intros F kw z g HK E. unfold fd_grad in E. cbv zeta in E. destruct (forallb _ _) eqn:B; [|discriminate]. injection E as <-.
  split; [rewrite !map_length, seq_length; auto|]. intros i Hi. rewrite map_map.
  rewrite (vget_map_seq (fun i => vget (vsub (eval1 F (merge (f_kw F) kw) (vadd z (vscale fdh (unit_row_ (length z) i)))) (eval1 F nokw z)) 0 / fdh)) by auto.
  assert (K1 : eval1 F (merge (f_kw F) kw) = eval1 F kw) by (apply functional_extensionality; intro y; unfold eval1; rewrite merge_idem; auto).
  assert (K2 : eval1 F nokw = eval1 F kw) by (apply functional_extensionality; intro y; unfold eval1; rewrite merge_nokw, HK; auto).
  rewrite K1, K2. rewrite forallb_forall in B.
  specialize (B (vsub (eval1 F (merge (f_kw F) kw) (vadd z (vscale fdh (unit_row_ (length z) i)))) (eval1 F nokw z))). rewrite K1, K2 in B.
  assert (L1 : length (vsub (eval1 F kw (vadd z (vscale fdh (unit_row_ (length z) i)))) (eval1 F kw z)) = 1%nat).
  { apply Nat.eqb_eq. apply B. apply in_map_iff. exists i. split; auto. apply in_seq. lia. }
  destruct (eval1 F kw (vadd z _)) as [|a u]; [discriminate|]. destruct (eval1 F kw z) as [|b v]; [discriminate|]. reflexivity.
Qed.

(** exact on affine functions *)
Theorem fd_exact_affine : forall F kw z c d, length (f_lb F) = length (f_ub F) -> length z = length (f_lb F) -> length c = length z ->
  merge (f_kw F) kw = f_kw F -> (forall x, concat (map (fun f => f (f_kw F) x) (f_funs F)) = [dot c x + d]) ->
  fd_grad F kw z = Some (vmul (uslopes (f_lb F) (f_ub F)) c).
Proof.
  intros F kw z c d H Hz Hc HK HF.
  assert (EV : forall k y, merge (f_kw F) k = f_kw F -> eval1 F k y = [dot c (unnormalize (f_lb F) (f_ub F) y) + d]) by (intros k y Hk; unfold eval1; rewrite Hk; apply HF).
  assert (EX : exists g, fd_grad F kw z = Some g).
  { unfold fd_grad. cbv zeta. destruct (forallb _ _) eqn:B; [eauto|]. exfalso.
    assert (B' : forallb (fun c0 : vec => Nat.eqb (length c0) 1) (map (fun i => vsub (eval1 F (merge (f_kw F) kw) (vadd z (vscale fdh (unit_row_ (length z) i)))) (eval1 F nokw z)) (seq 0 (length z))) = true); [|congruence].
    apply forallb_forall. intros x Hx. apply in_map_iff in Hx. destruct Hx as [i [<- _]]. rewrite !EV by (rewrite ?merge_idem, ?merge_nokw; auto). reflexivity. }
  destruct EX as [g EX]. rewrite EX. f_equal. destruct (fd_grad_spec F kw z g HK EX) as [G1 G2].
  apply vec_ext; [rewrite vmul_length; rewrite uslopes_length; congruence|]. intros i Hi. rewrite G1 in Hi. rewrite G2 by auto.
  rewrite !EV by auto. unfold vget at 1 2. cbn [nth]. rewrite Hz in *. rewrite unnormalize_move by auto.
  rewrite dot_vadd_r by (rewrite unnormalize_length, vscale_length, unit_row_length; auto). rewrite dot_vscale_r, (dot_comm c (unit_row_ _ _)), unit_row_dot by auto.
  rewrite vmul_get by (rewrite uslopes_length; congruence). pose proof fdh_pos. field. lra.
Qed.

(** a one-sided difference is within C h / 2 of the derivative when the derivative is C-Lipschitz at 0 *)
Lemma fd_taylor : forall (f df : R -> R) (C h : R), 0 < h -> (forall t, 0 <= t <= h -> derivable_pt_lim f t (df t)) ->
  (forall t, 0 <= t <= h -> Rabs (df t - df 0) <= C * t) -> Rabs ((f h - f 0) / h - df 0) <= C / 2 * h.
Proof.
  assert (ONE : forall (f df : R -> R) (C h : R), 0 < h -> (forall t, 0 <= t <= h -> derivable_pt_lim f t (df t)) ->
    (forall t, 0 <= t <= h -> df t - df 0 <= C * t) -> f h - f 0 - h * df 0 <= C / 2 * (h * h)).
  { intros f df C h Hh D L.
    set (p := fun t => f t - (df 0 * t + C / 2 * (t * t))).
    assert (DP : forall t, 0 <= t <= h -> derivable_pt_lim p t (df t - (df 0 + C * t))).
    { intros t Ht. unfold p. apply d_ext with (f := p) (l := df t - (df 0 * 1 + C / 2 * (1 * t + t * 1))); [reflexivity|field|].
      unfold p. apply d_minus; [auto|]. apply d_plus; apply d_scal; [apply d_id|apply d_mult; apply d_id]. }
    destruct (MVT_cor2 p (fun t => df t - (df 0 + C * t)) 0 h Hh DP) as [c [E Hc]].
    specialize (L c ltac:(lra)). assert (N : p h - p 0 <= 0).
    { rewrite E. assert (0 <= (df 0 + C * c - df c) * h) by (apply Rmult_le_pos; lra). lra. }
    unfold p in N. lra. }
  intros f df C h Hh D L.
  pose proof (ONE f df C h Hh D ltac:(intros t Ht; specialize (L t Ht); revert L; unfold Rabs; destruct (Rcase_abs _); lra)) as U.
  pose proof (ONE (fun t => - f t) (fun t => - df t) C h Hh ltac:(intros t Ht; apply d_opp; auto)
    ltac:(intros t Ht; specialize (L t Ht); revert L; unfold Rabs; destruct (Rcase_abs _); lra)) as W.
  simpl in W. replace ((f h - f 0) / h - df 0) with ((f h - f 0 - h * df 0) * / h) by (field; lra).
  rewrite Rabs_mult, (Rabs_right (/ h)) by (left; apply Rinv_0_lt_compat; auto).
  apply Rmult_le_reg_r with h; auto. rewrite Rmult_assoc, Rinv_l by lra. rewrite Rmult_1_r.
  unfold Rabs. destruct (Rcase_abs _); lra.
Qed.

Theorem fd_error : forall F kw z g i df C, merge (f_kw F) kw = f_kw F -> fd_grad F kw z = Some g -> (i < length z)%nat ->
  let f := fun t => vget (eval1 F kw (vadd z (vscale t (unit_row_ (length z) i)))) 0 in
  (forall t, 0 <= t <= fdh -> derivable_pt_lim f t (df t)) -> (forall t, 0 <= t <= fdh -> Rabs (df t - df 0) <= C * t) ->
  Rabs (vget g i - df 0) <= C / 2 * / 10000000.
Proof.
  intros F kw z g i df C HK E Hi f D L. destruct (fd_grad_spec F kw z g HK E) as [_ G]. rewrite (G i Hi). pose proof fdh_pos as P.
  pose proof (fd_taylor f df C fdh P D L) as T. unfold f in T.
  replace (vadd z (vscale 0 (unit_row_ (length z) i))) with z in T; [exact T|].
  apply vec_ext; [rewrite vadd_length; auto; rewrite vscale_length, unit_row_length; auto|]. intros k Hk.
  rewrite vadd_get by (rewrite vscale_length, unit_row_length; auto). rewrite vscale_get. ring.
Qed.

(** findings *)
(** the base value ignores the keyword arguments of the call: a function constant in x gets slope 1e7 *)
Definition ex_kw1 : kwd := fun k => Some 1.
Definition ex_const : func := mkFun [Fin (-1)] [Fin 1] [fun k _ => [match k O with Some v => v | None => 0 end]] None None true nokw.
Theorem fd_kwargs_refuted : (forall kw z z', eval1 ex_const kw z = eval1 ex_const kw z') /\ fd_grad ex_const ex_kw1 [0] = Some [10000000].
Proof.
  split; [reflexivity|]. unfold fd_grad, eval1. simpl. unfold vget, vsub, merge, ex_kw1, nokw, fdh. simpl. do 2 f_equal. lra.
Qed.

(** several outputs: the assignment grad[i] = array raises *)
Theorem fd_multi_refuted : forall F kw z, z <> [] -> (forall k y, (2 <= length (eval1 F k y))%nat) -> fd_grad F kw z = None.
Proof.
  intros F kw z NE H. unfold fd_grad. cbv zeta. destruct z as [|z0 z]; [contradiction|]. cbn [length seq map forallb].
  assert (L : forall a b : vec, (2 <= length a)%nat -> (2 <= length b)%nat -> Nat.eqb (length (vsub a b)) 1 = false).
  { intros a b Ha Hb. destruct a as [|a1 [|a2 a]]; simpl in Ha; try lia. destruct b as [|b1 [|b2 b]]; simpl in Hb; try lia. reflexivity. }
  rewrite L by auto. reflexivity.
Qed.

(** the finite difference leaves the normalized domain at an upper bound *)
Theorem fd_outside_refuted : exists (z : vec) i, Forall (fun a => -1 <= a <= 1) z /\ (i < length z)%nat /\
  ~ Forall (fun a => -1 <= a <= 1) (vadd z (vscale fdh (unit_row_ (length z) i))).
Proof.
  exists [1], O. split; [constructor; [lra|constructor]|]. split; [simpl; lia|]. intro H. unfold vadd, vscale, unit_row_ in H. simpl in H.
  inversion H; subst. pose proof fdh_pos. lra.
Qed.

(** vectorized functions returning their gradient: grad and __call__ disagree (missing transposition) *)
Definition ex_rv : list (kwd -> mat -> vout * mat) := [fun _ X => (V1 (map (fun x => vget x 0) X), map (fun _ => [1; 0]) X)].
Definition ex_vecF : func := mkFun [Fin (-1); Fin (-1)] [Fin 1; Fin 1] [] None None false nokw.
Lemma ex_us : uslopes [Fin (-1); Fin (-1)] [Fin 1; Fin 1] = [1; 1].
Proof. unfold uslopes, uslope. simpl. destruct (Req_EM_T 1 (-1)); [lra|]. vlist. Qed.
Lemma ex_diag : mv (diag [1; 1]) [1; 0] = [1; 0].
Proof. rewrite mv_diag by auto. unfold vmul. simpl. vlist. Qed.
Theorem vec_grad_refuted : exists vals,
  grad_vec_ret ex_vecF ex_rv nokw false [[0; 0]; [1; 1]] = Some (T3 [[[1; 0]; [1; 0]]]) /\
  call_vec_ret ex_vecF ex_rv nokw false [[0; 0]; [1; 1]] = Some (vals, Some (T2 [[1; 0]; [1; 0]])).
Proof.
  eexists. split.
  - unfold grad_vec_ret, ex_vecF, ex_rv, fdim. cbn [f_lb f_ub f_kw map length snd]. rewrite ex_us. unfold chain. cbn [map]. rewrite ex_diag. reflexivity.
  - unfold call_vec_ret, ex_vecF, ex_rv, fdim. cbn [f_lb f_ub f_kw map length snd fst]. rewrite ex_us. unfold chain, transpose01. cbn [map seq nth]. rewrite ex_diag. reflexivity.
Qed.
(** and the values have the wrong shape: with two functions the 1-d results are concatenated end to end *)
Theorem vec_values_refuted : forall M (v w : vec), length v = M -> length w = M -> (2 <= M)%nat ->
  vhstack M [V1 v; V1 w] = Some (T1 (v ++ w)) /\ hstack_rows M (map vrows [V1 v; V1 w]) = map (fun i => [vget v i; vget w i]) (seq 0 M).
Proof.
  intros M v w Lv Lw H. split; [unfold vhstack; simpl; rewrite app_nil_r; reflexivity|]. unfold hstack_rows. apply map_ext_in. intros i Hi. apply in_seq in Hi.
  simpl. assert (E : forall u : vec, (i < length u)%nat -> nth i (map (fun a : R => [a]) u) [] = [vget u i]).
  { intros u Hu. rewrite nth_indep with (d' := [0]) by (rewrite map_length; auto). rewrite (map_nth (fun a => [a])). reflexivity. }
  rewrite !E by lia. reflexivity.
Qed.

(* ---------------- cases ---------------- *)
(** f(x, y) = (x y, x + a) with its Jacobian *)
Definition ex_f1 (k : kwd) (x : vec) : vec := [vget x 0 * vget x 1; vget x 0 + match k O with Some v => v | None => 0 end].
Definition ex_g1 (k : kwd) (x : vec) : mat := [[vget x 1; vget x 0]; [1; 0]].
Definition ex_fun : func := mkFun [Fin 0; NInf] [Fin 4; PInf] [ex_f1] (Some [ex_g1]) None false nokw.
Lemma derivable_lin : forall a b x, derivable_pt_lim (fun t => a * t + b) x a.
Proof.
  intros a b x eps He. exists (mkposreal 1 Rlt_0_1). intros h Hh _. replace ((a * (x + h) + b - (a * x + b)) / h - a) with 0 by (field; auto). rewrite Rabs_R0. auto.
Qed.
Example ex_jacobian : forall kw a b, jacobian (ex_f1 kw) [a; b] (ex_g1 kw [a; b]).
Proof.
  intros kw a b. split; [reflexivity|]. intros k Hk. simpl in Hk. assert (P : vget [a; b] 0 = a /\ vget [a; b] 1 = b) by (split; reflexivity).
  destruct P as [P0 P1].
  assert (X0 : forall t, vadd [a; b] (vscale t (unit_row_ 2 0)) = [a + t; b]) by (intro t; unfold vadd, vscale, unit_row_; simpl; vlist).
  assert (X1 : forall t, vadd [a; b] (vscale t (unit_row_ 2 1)) = [a; b + t]) by (intro t; unfold vadd, vscale, unit_row_; simpl; vlist).
  destruct k as [|[|k]]; [| |lia]; (split; [reflexivity|]); intros j Hj; simpl in Hj; destruct j as [|[|j]]; try lia; unfold ex_g1; rewrite ?P0, ?P1; cbn [nth length].
  - apply derivable_ext with (f := fun t => b * t + a * b); [|apply derivable_lin]. intro t. rewrite X0. unfold ex_f1, vget. simpl. ring.
  - apply derivable_ext with (f := fun t => a * t + a * b); [|apply derivable_lin]. intro t. rewrite X1. unfold ex_f1, vget. simpl. ring.
  - apply derivable_ext with (f := fun t => 1 * t + vget (ex_f1 kw [a; b]) 1); [|apply derivable_lin]. intro t. rewrite X0. unfold ex_f1, vget. simpl. ring.
  - apply derivable_ext with (f := fun t => 0 * t + vget (ex_f1 kw [a; b]) 1); [|apply derivable_lin]. intro t. rewrite X1. unfold ex_f1, vget. simpl. ring.
Qed.
Example ex_grad_case : grad ex_fun nokw true [[1/2; 3]] = Some (T2 [[6; 3]; [2; 0]]) /\ eval1 ex_fun nokw [1/2; 3] = [9; 3].
Proof.
  assert (U : uslopes [Fin 0; NInf] [Fin 4; PInf] = [2; 1]) by (unfold uslopes, uslope; simpl; destruct (Req_EM_T 4 0); [lra|]; vlist).
  assert (C : center [Fin 0; NInf] [Fin 4; PInf] = [2; 0]) by (unfold center, center_i; simpl; vlist).
  assert (X : unnormalize [Fin 0; NInf] [Fin 4; PInf] [1/2; 3] = [3; 3]).
  { unfold unnormalize. rewrite U, C, mv_diag by auto. unfold vadd, vmul. simpl. vlist. }
  split.
  - unfold grad, ex_fun, fdim. cbn [f_fd f_grads f_lb f_ub f_kw map length]. rewrite X, U. unfold chain, ex_g1. cbn [map concat app]. unfold vget. cbn [nth].
    rewrite !mv_diag by auto. unfold vmul. simpl. unfold shape_grad. simpl. do 2 f_equal. repeat (apply (f_equal2 (@cons vec)); [vlist|]). reflexivity.
  - unfold eval1, ex_fun. cbn [f_lb f_ub f_kw f_funs map concat app]. rewrite X. unfold ex_f1, vget, merge, nokw. simpl. vlist.
Qed.
(** an affine function with keyword argument *)
Definition ex_aff : func := mkFun [Fin 0; Fin 1] [Fin 4; Fin 1] [fun k x => [dot [3; 5] x + 7]] None None true nokw.
Example ex_fd_case : fd_grad ex_aff nokw [1/3; 1/5] = Some [6; 5].
Proof.
  rewrite (fd_exact_affine ex_aff nokw [1/3; 1/5] [3; 5] 7); auto.
  unfold ex_aff. cbn [f_lb f_ub]. unfold uslopes, uslope. simpl. destruct (Req_EM_T 4 0); [lra|]. destruct (Req_EM_T 1 1); [|lra].
  unfold vmul. simpl. f_equal. vlist.
Qed.

(** a quadratic function: the finite difference is off by exactly h for x^2 *)
Definition ex_sq : func := mkFun [Fin (-1)] [Fin 1] [fun k x => [vget x 0 * vget x 0]] None None true nokw.
Example ex_fd_err : exists g df, fd_grad ex_sq nokw [1/2] = Some g /\
  (forall t, 0 <= t <= fdh -> derivable_pt_lim (fun t => vget (eval1 ex_sq nokw (vadd [1/2] (vscale t (unit_row_ 1 0)))) 0) t (df t)) /\
  (forall t, 0 <= t <= fdh -> Rabs (df t - df 0) <= 2 * t) /\ vget g 0 - df 0 = fdh.
Proof.
  assert (E : forall t k, vget (eval1 ex_sq k (vadd [1/2] (vscale t (unit_row_ 1 0)))) 0 = (1/2 + t) * (1/2 + t)).
  { intros t k. unfold eval1, ex_sq. cbn [f_lb f_ub f_funs f_kw map concat app]. unfold vget at 1. cbn [nth].
    rewrite unnormalize_get by auto. unfold uslope, center_i. cbn [nth]. destruct (Req_EM_T 1 (-1)); [lra|].
    unfold vadd, vscale, unit_row_, vget. simpl. field. }
  assert (E0 : vget (eval1 ex_sq nokw [1/2]) 0 = 1/4).
  { specialize (E 0 nokw). replace (vadd [1/2] (vscale 0 (unit_row_ 1 0))) with [1/2] in E; [lra|]. unfold vadd, vscale, unit_row_; simpl; vlist. }
  destruct (fd_grad ex_sq nokw [1/2]) as [g|] eqn:G; [|unfold fd_grad in G; simpl in G; discriminate].
  exists g, (fun t => 1 + 2 * t). split; auto. split; [|split].
  - intros t Ht. apply derivable_ext with (f := fun t => (1/2 + t) * (1/2 + t)); [intro; rewrite E; auto|].
    apply d_ext with (f := fun t => (1/2 + t) * (1/2 + t)) (l := (0 + 1) * (1/2 + t) + (1/2 + t) * (0 + 1)); [reflexivity|field|].
    apply (d_mult (fun t => 1/2 + t)); apply d_plus; (apply d_const || apply d_id).
  - intros t Ht. replace (1 + 2 * t - (1 + 2 * 0)) with (2 * t) by ring. rewrite Rabs_right; lra.
  - destruct (fd_grad_spec ex_sq nokw [1/2] g (merge_nokw _) G) as [_ S]. rewrite (S O) by (simpl; lia). cbn [length]. rewrite E, E0. pose proof fdh_pos. field. lra.
Qed.

(** the finite difference only looks at z and at the points z + h e_i *)
Theorem fd_points : forall F G kw z, f_kw F = f_kw G ->
  (forall k y, y = z \/ (exists i, (i < length z)%nat /\ y = vadd z (vscale fdh (unit_row_ (length z) i))) -> eval1 F k y = eval1 G k y) ->
  fd_grad F kw z = fd_grad G kw z.
Proof.
  intros F G kw z HK H. unfold fd_grad. cbv zeta. rewrite HK, (H nokw z) by auto.
  replace (map (fun i => vsub (eval1 F (merge (f_kw G) kw) (vadd z (vscale fdh (unit_row_ (length z) i)))) (eval1 G nokw z)) (seq 0 (length z)))
    with (map (fun i => vsub (eval1 G (merge (f_kw G) kw) (vadd z (vscale fdh (unit_row_ (length z) i)))) (eval1 G nokw z)) (seq 0 (length z))); [reflexivity|].
  apply map_ext_in. intros i Hi. apply in_seq in Hi. rewrite (H _ (vadd z (vscale fdh (unit_row_ (length z) i)))); [reflexivity|]. right. exists i. split; [lia|auto].
Qed.
(** two functions that differ elsewhere, but not at these points *)
Example ex_fd_points : let F := fun f : R -> R => mkFun [Fin (-1)] [Fin 1] [fun _ x => [f (vget x 0)]] None None true nokw in
  forall kw, fd_grad (F (fun t => t)) kw [0] = fd_grad (F (fun t => if Rlt_dec t (1/2) then t else 0)) kw [0].
Proof.
  intros F kw. apply fd_points; [reflexivity|]. intros k y Hy. unfold eval1, F. cbn [f_lb f_ub f_funs f_kw map concat].
  assert (U : vget (unnormalize [Fin (-1)] [Fin 1] y) 0 < 1/2).
  { destruct Hy as [->|[i [Hi ->]]].
    - rewrite unnormalize_get by (simpl; lia). unfold uslope, center_i, vget; simpl; destruct (Req_EM_T 1 (-1)); lra.
    - simpl in Hi. assert (i = O) by lia. subst i. rewrite unnormalize_get by (simpl; lia). unfold uslope, center_i, vget; simpl; unfold fdh; destruct (Req_EM_T 1 (-1)); lra. }
  destruct (Rlt_dec _ _); [reflexivity|contradiction].
Qed.
