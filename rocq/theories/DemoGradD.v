(** Gradient of the wing weight function: the constants of the code are rounded to 15 digits. *)
Require Import Reals Lra Lia List Bool Arith.
From Verif Require Import RVec Num Sums Deriv DemoDeriv DemoModel DemoGradA DemoGradB DemoGradC.
Import ListNotations.
Local Open Scope R_scope.

Lemma Rpower_pred : forall x c d, 0 < x -> d = c - 1 -> Rpower x d = Rpower x c / x.
Proof.
  intros x c d P ->. unfold Rminus. rewrite Rpower_plus. rewrite Rpower_Ropp, Rpower_1 by auto. reflexivity.
Qed.

(** kappa = 100^(-0.3) = 10^(-3/5) *)
Definition kappa : R := Rpower 100 (- 0.3).
Lemma kappa_pos : 0 < kappa.
Proof. unfold kappa, Rpower. apply exp_pos. Qed.
Lemma kappa_pow5 : kappa ^ 5 = / 1000.
Proof.
  unfold kappa. rewrite <- Rpower_pow by (apply exp_pos). rewrite Rpower_mult.
  replace (- 0.3 * INR 5) with (- (3 / 2)) by (cbn [INR]; decs; lra).
  rewrite Rpower_Ropp. f_equal.
  replace 100 with (10 ^ 2) by lra. rewrite <- Rpower_pow by lra. rewrite Rpower_mult. 
  replace (INR 2 * (3 / 2)) with (INR 3) by (cbn [INR]; lra). rewrite Rpower_pow by lra. lra.
Qed.
Lemma kappa_bounds : 0.251188643150958011 <= kappa <= 0.251188643150958012.
Proof.
  pose proof kappa_pos as P. pose proof kappa_pow5 as E. split; apply Rnot_lt_le; intro N.
  - assert (H : kappa ^ 5 <= 0.251188643150958011 ^ 5) by (apply pow_incr; lra). rewrite E in H. revert H. decs. lra.
  - assert (H : 0.251188643150958012 ^ 5 <= kappa ^ 5) by (apply pow_incr; revert N; decs; lra). rewrite E in H. revert H. decs. lra.
Qed.

(** the exact gradient, in the form of the code *)
Lemma wing_exact : forall Sw Wfw A Lam q lam tc Nz Wdg Wp, 0 < Sw -> 0 < Wfw -> 0 < A -> 0 < cos (Lam * (PI / 180)) -> 0 < q -> 0 < lam -> 0 < tc -> 0 < Nz -> 0 < Wdg ->
  let ph := Lam * (PI / 180) in
  let X := Rpower Sw 0.758 * Rpower Wfw 0.0035 * Rpower (A / cos ph ^ 2) 0.6 * Rpower q 0.006 * Rpower lam 0.04 * Rpower (tc / cos ph) (- 0.3) * Rpower (Nz * Wdg) 0.49 in
  let K := 0.036 * kappa in
  gradient_at wing_weight [Sw; Wfw; A; Lam; q; lam; tc; Nz; Wdg; Wp]
    [0.758 * K * (X / Sw) + Wp; 0.0035 * K * (X / Wfw); 0.6 * K * (X / A); 0.9 * K * (PI / 180 * X * tan ph); 0.006 * K * (X / q); 0.04 * K * (X / lam);
     - 0.3 * K * (X / tc); 0.49 * K * (X / Nz); 0.49 * K * (X / Wdg); Sw].
Proof.
  intros Sw Wfw A Lam q lam tc Nz Wdg Wp P1 P2 P3 Pc P4 P5 P6 P7 P8 ph X K. unfold wing_weight, vget. cbn [nth]. unfold wing_weight_.
  fold ph in Pc. assert (PA : 0 < A / cos ph ^ 2) by pos. assert (PT : 0 < 100 * tc / cos ph) by pos. assert (PN : 0 < Nz * Wdg) by pos.
  assert (ET : Rpower (100 * tc / cos ph) (- 0.3) = kappa * Rpower (tc / cos ph) (- 0.3)).
  { replace (100 * tc / cos ph) with (100 * (tc / cos ph)) by (field; lra). rewrite <- Rpower_mult_distr; [reflexivity|lra|pos]. }
  apply grad_lit10. intros. cbn [nth]. curves; at0; fold ph; try lra; try nz; try exact PA; try exact PT; try exact PN.
  rewrite ET. unfold X, K, tan. cbn [pred INR].
  set (a1 := Rpower Sw _). set (a2 := Rpower Wfw _). set (a3 := Rpower (A / _) _). set (a4 := Rpower q _). set (a5 := Rpower lam _). set (a6 := Rpower (tc / _) _). set (a7 := Rpower (Nz * _) _).
  set (c := cos ph) in *. set (s := sin ph). clearbody a1 a2 a3 a4 a5 a6 a7 c s. clear - P1 P2 P3 Pc P4 P5 P6 P7 P8. pose proof PI_neq0.
  decs. field. repeat split; lra.
Qed.

Lemma lt10 : forall P : nat -> Prop, P 0%nat -> P 1%nat -> P 2%nat -> P 3%nat -> P 4%nat -> P 5%nat -> P 6%nat -> P 7%nat -> P 8%nat -> P 9%nat -> forall i, (i < 10)%nat -> P i.
Proof. intros P H0 H1 H2 H3 H4 H5 H6 H7 H8 H9 i Hi. destruct i as [|[|[|[|[|[|[|[|[|[|]]]]]]]]]]; auto. lia. Qed.

Lemma wing_gradient : forall Sw Wfw A Lam q lam tc Nz Wdg Wp, 0 < Sw -> 0 < Wfw -> 0 < A -> 0 < cos (Lam * (PI / 180)) -> 0 < q -> 0 < lam -> 0 < tc -> 0 < Nz -> 0 < Wdg -> 0 <= Wp ->
  gradient_within (/ 10 ^ 14) wing_weight [Sw; Wfw; A; Lam; q; lam; tc; Nz; Wdg; Wp] (wing_weight_grad [Sw; Wfw; A; Lam; q; lam; tc; Nz; Wdg; Wp]).
Proof.
  intros Sw Wfw A Lam q lam tc Nz Wdg Wp P1 P2 P3 Pc P4 P5 P6 P7 P8 P9.
  eexists. split; [apply wing_exact; auto|]. split; [reflexivity|].
  unfold wing_weight_grad, wing_weight_grad_. cbv zeta. unfold vget. cbn [nth length].
  rewrite (Rpower_pred Sw 0.758 (- 0.242)) by (auto; decs; lra). rewrite (Rpower_pred Wfw 0.0035 (- 0.9965)) by (auto; decs; lra).
  rewrite (Rpower_pred q 0.006 (- 0.994)) by (auto; decs; lra). rewrite (Rpower_pred lam 0.04 (- 0.96)) by (auto; decs; lra).
  set (ph := Lam * (PI / 180)) in *.
  assert (Q1 : 0 < Rpower Sw 0.758) by apply exp_pos. assert (Q2 : 0 < Rpower Wfw 0.0035) by apply exp_pos. assert (Q3 : 0 < Rpower (A / cos ph ^ 2) 0.6) by apply exp_pos.
  assert (Q4 : 0 < Rpower q 0.006) by apply exp_pos. assert (Q5 : 0 < Rpower lam 0.04) by apply exp_pos. assert (Q6 : 0 < Rpower (tc / cos ph) (- 0.3)) by apply exp_pos.
  assert (Q7 : 0 < Rpower (Nz * Wdg) 0.49) by apply exp_pos.
  set (a1 := Rpower Sw _) in *. set (a2 := Rpower Wfw _) in *. set (a3 := Rpower (A / _) _) in *. set (a4 := Rpower q _) in *. set (a5 := Rpower lam _) in *. set (a6 := Rpower (tc / _) _) in *. set (a7 := Rpower (Nz * _) _) in *.
  clearbody a1 a2 a3 a4 a5 a6 a7. set (X := a1 * a2 * a3 * a4 * a5 * a6 * a7).
  assert (PX : 0 < X) by (unfold X; pos). pose proof kappa_bounds as KB. pose proof kappa_pos as KP.
  apply lt10; cbn [nth].
  - match goal with |- Rabs (?g - _) <= _ => replace g with (0.00685443569430334 * (X / Sw) + Wp) by (unfold X; field; lra) end.
    assert (PY : 0 < X / Sw) by pos. set (Y := X / Sw) in *. clearbody Y.
    replace (0.00685443569430334 * Y + Wp - (0.758 * (0.036 * kappa) * Y + Wp)) with (0.00685443569430334 * Y - 0.758 * (0.036 * kappa) * Y) by ring.
    apply Rle_trans with (/ 10 ^ 14 * Rabs (0.758 * (0.036 * kappa) * Y)).
    + apply rounded_const. revert KB. decs. intro KB. split_Rabs; lra.
    + apply Rmult_le_compat_l; [lra|]. assert (0 < 0.758 * (0.036 * kappa) * Y) by (apply Rmult_lt_0_compat; auto; decs; lra).
      rewrite !Rabs_right by lra. lra.
  - match goal with |- Rabs (?g - ?G) <= _ => replace g with (0.0000316497690370207 * (X / Wfw)) by (unfold X; field; lra); replace G with (0.0035 * (0.036 * kappa) * (X / Wfw)) by (unfold Rdiv; ring) end.
    apply rounded_const. revert KB. decs. intro KB. split_Rabs; lra.
  - match goal with |- Rabs (?g - ?G) <= _ => replace g with (0.00542567469206069 * (X / A)) by (unfold X; field; lra); replace G with (0.6 * (0.036 * kappa) * (X / A)) by (unfold Rdiv; ring) end.
    apply rounded_const. revert KB. decs. intro KB. split_Rabs; lra.
  - match goal with |- Rabs (?g - ?G) <= _ => replace g with (0.00813851203809104 * (PI / 180 * X * tan ph)) by (unfold X; field; lra); replace G with (0.9 * (0.036 * kappa) * (PI / 180 * X * tan ph)) by (unfold Rdiv; ring) end.
    apply rounded_const. revert KB. decs. intro KB. split_Rabs; lra.
  - match goal with |- Rabs (?g - ?G) <= _ => replace g with (0.0000542567469206069 * (X / q)) by (unfold X; field; lra); replace G with (0.006 * (0.036 * kappa) * (X / q)) by (unfold Rdiv; ring) end.
    apply rounded_const. revert KB. decs. intro KB. split_Rabs; lra.
  - match goal with |- Rabs (?g - ?G) <= _ => replace g with (0.000361711646137379 * (X / lam)) by (unfold X; field; lra); replace G with (0.04 * (0.036 * kappa) * (X / lam)) by (unfold Rdiv; ring) end.
    apply rounded_const. revert KB. decs. intro KB. split_Rabs; lra.
  - match goal with |- Rabs (?g - ?G) <= _ => replace g with ((- 0.00271283734603035) * (X / tc)) by (unfold X; field; lra); replace G with ((- 0.3) * (0.036 * kappa) * (X / tc)) by (unfold Rdiv; ring) end.
    apply rounded_const. revert KB. decs. intro KB. split_Rabs; lra.
  - match goal with |- Rabs (?g - ?G) <= _ => replace g with (0.0044309676651829 * (X / Nz)) by (unfold X; field; lra); replace G with (0.49 * (0.036 * kappa) * (X / Nz)) by (unfold Rdiv; ring) end.
    apply rounded_const. revert KB. decs. intro KB. split_Rabs; lra.
  - match goal with |- Rabs (?g - ?G) <= _ => replace g with (0.0044309676651829 * (X / Wdg)) by (unfold X; field; lra); replace G with (0.49 * (0.036 * kappa) * (X / Wdg)) by (unfold Rdiv; ring) end.
    apply rounded_const. revert KB. decs. intro KB. split_Rabs; lra.
  - replace (Sw - Sw) with 0 by ring. rewrite Rabs_R0. pose proof (Rabs_pos Sw). nra.
Qed.
