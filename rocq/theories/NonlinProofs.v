(** measure_nonlinearity (nonlin.py 5-57). *)
Require Import Reals List Bool Arith ZArith Lia Lra Psatz.
From Verif Require Import RVec Num Sums DomMoreModel SweepProofs HullIneqProofs LipModel LipConstProofs SubModel LocalLinProofs.
Import ListNotations.
Local Open Scope R_scope.

(** specification: L is a Lipschitz constant of the data f + a.x *)
Definition lip_bound (X : mat) (fX : vec) (a : vec) (L : R) : Prop :=
  forall i j, (i < length X)%nat -> (j < length X)%nat ->
    Rabs (vget fX i + dot (nth i X []) a - (vget fX j + dot (nth j X []) a)) <= L * norm2 (vsub (nth i X []) (nth j X [])).
Definition distinct (X : mat) : Prop := forall i j, (i < j < length X)%nat -> norm2 (vsub (nth i X []) (nth j X [])) <> 0.

Lemma rabs_le : forall x b, - b <= x <= b <-> Rabs x <= b.
Proof. intros x b. unfold Rabs. destruct (Rcase_abs x); lra. Qed.
Lemma nl_in : forall X fX p d, In (p, d) (nl_diffs X fX) <-> exists i j, (i < j < length X)%nat /\ p = vsub (nth i X []) (nth j X []) /\ d = vget fX i - vget fX j.
Proof.
  intros X fX p d. unfold nl_diffs. rewrite in_map_iff. split.
  - intros [[i j] [E I]]. apply in_pairs in I. simpl in E. injection E as <- <-. exists i, j. auto.
  - intros [i [j [H [-> ->]]]]. exists (i, j). split; auto. apply in_pairs. auto.
Qed.
Lemma norm2_vsub_sym : forall x y, length x = length y -> norm2 (vsub x y) = norm2 (vsub y x).
Proof.
  intros x y L. unfold norm2, norm2sq. f_equal. rewrite !dot_vsub_l, !dot_vsub_r by (rewrite ?vsub_length; auto; lia). rewrite (dot_comm y x). ring.
Qed.
Lemma feasible_iff : forall m X fX a L, Forall (fun x => length x = m) X -> length a = m -> (nl_feasible X fX a L <-> lip_bound X fX a L).
Proof.
  intros m X fX a L FX La. rewrite Forall_forall in FX. assert (LX : forall i, (i < length X)%nat -> length (nth i X []) = m) by (intros; apply FX, nth_In; auto).
  assert (T : forall i j, (i < length X)%nat -> (j < length X)%nat -> vget fX i - vget fX j + dot (vsub (nth i X []) (nth j X [])) a = vget fX i + dot (nth i X []) a - (vget fX j + dot (nth j X []) a)).
  { intros i j Hi Hj. rewrite dot_vsub_l by (rewrite !LX; auto). ring. }
  split.
  - intros F. assert (B : forall i j, (i < j < length X)%nat -> Rabs (vget fX i + dot (nth i X []) a - (vget fX j + dot (nth j X []) a)) <= L * norm2 (vsub (nth i X []) (nth j X []))).
    { intros i j H. destruct (F (vsub (nth i X []) (nth j X [])) (vget fX i - vget fX j)) as [F1 F2]; [apply nl_in; exists i, j; auto|]. rewrite (T i j ltac:(lia) ltac:(lia)) in F1, F2. apply (proj1 (rabs_le _ _)). split; lra. }
    intros i j Hi Hj. destruct (lt_eq_lt_dec i j) as [[H|H]|H].
    + apply B. lia.
    + subst. rewrite Rminus_diag_eq by auto. rewrite Rabs_R0. unfold norm2, norm2sq. replace (dot (vsub (nth j X []) (nth j X [])) (vsub (nth j X []) (nth j X []))) with 0; [rewrite sqrt_0; lra|].
      rewrite dot_vsub_l by auto. ring.
    + rewrite norm2_vsub_sym by (rewrite !LX; auto). rewrite Rabs_minus_sym. apply B. lia.
  - intros B p d I. apply nl_in in I. destruct I as [i [j [H [-> ->]]]]. rewrite T by lia. specialize (B i j ltac:(lia) ltac:(lia)). apply (proj2 (rabs_le _ _)) in B. split; lra.
Qed.

(** the value is in [0, 1]; value * L0 is the smallest Lipschitz constant left after adding a linear function and a attains it *)
Theorem nl_measure : forall solve m X fX v a, Forall (fun x => length x = m) X -> length fX = length X -> distinct X -> (exists i j, (i < length X)%nat /\ (j < length X)%nat /\ vget fX i <> vget fX j) ->
  nl_solved m X fX (fst (solve X fX)) (snd (solve X fX)) -> measure_nonlinearity solve X fX = Some (v, a) ->
  0 <= v <= 1 /\ exists L0, 0 < L0 /\ lip_bound X fX (vzero m) L0 /\ (forall L', lip_bound X fX (vzero m) L' -> L0 <= L') /\
    lip_bound X fX a (v * L0) /\ forall a' L', length a' = m -> lip_bound X fX a' L' -> v * L0 <= L'.
Proof.
  intros solve m X fX v a FX Lf DX [i0 [j0 [Hi0 [Hj0 N0]]]] [La [FE OP]] E. destruct (solve X fX) as [a1 L1] eqn:ES. simpl fst in *. simpl snd in *.
  unfold measure_nonlinearity in E. rewrite ES in E. assert (EN : nl_diffs X fX <> []). { intros Z. unfold nl_diffs in Z. apply map_eq_nil in Z. assert (In (Nat.min i0 j0, Nat.max i0 j0) (pairs (length X))) by (apply in_pairs; assert (i0 <> j0) by congruence; lia). rewrite Z in H. auto. }
  destruct (nl_diffs X fX) as [|pd0 l0] eqn:ED; [congruence|]. injection E as Ev Ea. subst a1. rewrite <- ED in *. clear ED.
  set (ratios := map (fun pd => Rabs (snd pd) / norm2 (fst pd)) (nl_diffs X fX)). assert (RN : ratios <> []) by (unfold ratios; intros Z; apply map_eq_nil in Z; auto).
  destruct (vmax_spec ratios RN) as [V1 V2]. assert (EL : nl_L0 X fX = vmax ratios) by auto. rewrite EL in Ev. set (L0 := vmax ratios) in *.
  assert (PN : forall i j, (i < j < length X)%nat -> 0 < norm2 (vsub (nth i X []) (nth j X []))) by (intros i j H; pose proof (DX i j H); pose proof (norm2_nonneg (vsub (nth i X []) (nth j X []))); lra).
  assert (R1 : forall i j, (i < j < length X)%nat -> Rabs (vget fX i - vget fX j) <= L0 * norm2 (vsub (nth i X []) (nth j X []))).
  { intros i j H. pose proof (V1 (Rabs (vget fX i - vget fX j) / norm2 (vsub (nth i X []) (nth j X [])))) as Q. pose proof (PN i j H). apply Rmult_le_reg_r with (/ norm2 (vsub (nth i X []) (nth j X []))); [apply Rinv_0_lt_compat; auto|]. rewrite Rmult_assoc, Rinv_r, Rmult_1_r by lra. apply Q.
    unfold ratios. apply in_map_iff. exists (vsub (nth i X []) (nth j X []), vget fX i - vget fX j). split; auto. apply nl_in. exists i, j; auto. }
  assert (LP : 0 < L0). { assert (i0 <> j0) by congruence. pose proof (R1 (Nat.min i0 j0) (Nat.max i0 j0) ltac:(lia)) as Q. pose proof (PN (Nat.min i0 j0) (Nat.max i0 j0) ltac:(lia)).
    assert (0 < Rabs (vget fX (Nat.min i0 j0) - vget fX (Nat.max i0 j0))). { apply Rabs_pos_lt. destruct (Nat.le_ge_cases i0 j0); [rewrite Nat.min_l, Nat.max_r by auto; lra|rewrite Nat.min_r, Nat.max_l by auto; lra]. } nra. }
  assert (LZ : length (vzero m) = m) by apply vzero_length.
  assert (B0 : nl_feasible X fX (vzero m) L0). { intros p d I. apply nl_in in I. destruct I as [i [j [H [-> ->]]]]. rewrite dot_zero_r. pose proof (R1 i j H) as Q. apply (proj2 (rabs_le _ _)) in Q. split; lra. }
  assert (M0 : forall L', nl_feasible X fX (vzero m) L' -> L0 <= L'). { intros L' F. unfold ratios in V2. fold ratios in V2. apply in_map_iff in V2. destruct V2 as [[p d] [Q I]]. simpl in Q. pose proof I as I2. apply nl_in in I2. destruct I2 as [i [j [H [Ep Ed]]]]. destruct (F p d I) as [F1 F2]. rewrite dot_zero_r in F1, F2.
    fold L0 in Q. rewrite <- Q. pose proof (PN i j H) as P. rewrite <- Ep in P. apply Rmult_le_reg_r with (norm2 p); auto. unfold Rdiv. rewrite Rmult_assoc, Rinv_l, Rmult_1_r by lra. apply (proj1 (rabs_le _ _)). split; lra. }
  assert (L1P : 0 <= L1). { assert (i0 <> j0) by congruence. set (i := Nat.min i0 j0). set (j := Nat.max i0 j0). assert (H0 : (i < j < length X)%nat) by (unfold i, j; lia). destruct (FE (vsub (nth i X []) (nth j X [])) (vget fX i - vget fX j)) as [F1 F2]; [apply nl_in; exists i, j; auto|]. pose proof (PN i j H0). nra. }
  assert (LE : L1 <= L0) by (apply (OP (vzero m) L0); auto).
  assert (VL : v * L0 = L1) by (rewrite <- Ev; field; lra).
  split.
  - rewrite <- Ev. split; [apply Rmult_le_pos; [auto|left; apply Rinv_0_lt_compat; auto]|]. apply Rmult_le_reg_r with L0; auto. unfold Rdiv. rewrite Rmult_assoc, Rinv_l, Rmult_1_r, Rmult_1_l by lra. auto.
  - exists L0. split; auto. split; [apply (feasible_iff m); auto|]. split; [intros L' B; apply M0, (feasible_iff m); auto|]. rewrite VL. split; [apply (feasible_iff m); auto|]. intros a' L' La' B. apply (OP a' L'); auto. apply (feasible_iff m); auto.
Qed.
(** zero exactly for affine data; the returned a is then minus the slope *)
Theorem nl_affine : forall solve m X fX v a, Forall (fun x => length x = m) X -> length fX = length X -> distinct X -> (exists i j, (i < length X)%nat /\ (j < length X)%nat /\ vget fX i <> vget fX j) ->
  nl_solved m X fX (fst (solve X fX)) (snd (solve X fX)) -> measure_nonlinearity solve X fX = Some (v, a) ->
  (v = 0 <-> exists g c, length g = m /\ affine_data g c X fX) /\
  (forall g c, length g = m -> affine_data g c X fX -> spanning m X -> a = vscale (-1) g).
Proof.
  intros solve m X fX v a FX Lf DX NC SO E. destruct (nl_measure solve m X fX v a FX Lf DX NC SO E) as [[V0 V1] [L0 [LP [_ [_ [B OP]]]]]].
  assert (La : length a = m). { destruct SO as [La _]. unfold measure_nonlinearity in E. destruct (nl_diffs X fX); [discriminate|]. destruct (solve X fX) as [a1 L1]. injection E as _ <-. auto. }
  pose proof FX as FX'. rewrite Forall_forall in FX'. assert (LX : forall i, (i < length X)%nat -> length (nth i X []) = m) by (intros; apply FX', nth_In; auto).
  assert (Z0 : forall g c, length g = m -> affine_data g c X fX -> v = 0).
  { intros g c Lg [_ AD]. assert (v * L0 <= 0); [|nra]. apply (OP (vscale (-1) g) 0); [rewrite vscale_length; auto|]. intros i j Hi Hj. rewrite !AD by auto. rewrite !dot_vscale_r, (dot_comm g), (dot_comm g). rewrite Rmult_0_l.
    replace (_ - _) with 0 by ring. rewrite Rabs_R0. lra. }
  assert (K : v = 0 -> forall i j, (i < length X)%nat -> (j < length X)%nat -> vget fX i + dot (nth i X []) a = vget fX j + dot (nth j X []) a).
  { intros Z i j Hi Hj. specialize (B i j Hi Hj). rewrite Z, !Rmult_0_l in B. pose proof (Rabs_pos (vget fX i + dot (nth i X []) a - (vget fX j + dot (nth j X []) a))) as P. assert (Q : Rabs (vget fX i + dot (nth i X []) a - (vget fX j + dot (nth j X []) a)) = 0) by lra.
    destruct (Req_dec (vget fX i + dot (nth i X []) a - (vget fX j + dot (nth j X []) a)) 0) as [|N]; [lra|]. apply Rabs_no_R0 in N. lra. }
  split; [split|].
  - intros Z. exists (vscale (-1) a), (vget fX 0 + dot (nth 0 X []) a). split; [rewrite vscale_length; auto|]. split; auto. intros i Hi. rewrite dot_vscale_l, (dot_comm a). pose proof (K Z i 0%nat Hi ltac:(lia)). lra.
  - intros [g [c [Lg AD]]]. eapply Z0; eauto.
  - intros g c Lg AD SP. pose proof (Z0 g c Lg AD) as Z. pose proof (spanning_nonempty m X SP) as HN. destruct SP as [_ SP]. destruct AD as [_ AD]. destruct (SP (c - (vget fX 0 + dot (nth 0 X []) a)) (vadd g a)) as [_ V].
    + rewrite vadd_length; lia.
    + intros x Ix. apply In_nth with (d := []) in Ix. destruct Ix as [i [Hi <-]]. rewrite dot_vadd_l by lia. pose proof (K Z i 0%nat Hi ltac:(lia)) as Q. rewrite (AD i Hi) in Q. rewrite (dot_comm a). lra.
    + apply vec_ext; [rewrite vscale_length; lia|]. intros k Hk. assert (vget (vadd g a) k = 0) by (rewrite V; apply HullProofs.vzero_get). rewrite vadd_get in H by lia. rewrite vscale_get. lra.
Qed.
(** f = 2 x + 1 at 0, 1, 2: "coefficients corresponding to the best linear fit" come out as -2 *)
Lemma line3_distinct : distinct [[0]; [1]; [2]].
Proof.
  intros i j H Z. assert (Q : norm2sq (vsub (nth i [[0]; [1]; [2]] []) (nth j [[0]; [1]; [2]] [])) = 0) by (rewrite <- norm2_sq, Z; ring). simpl in H. unfold norm2sq in Q.
  destruct i as [|[|[|i]]], j as [|[|[|j]]]; try lia; unfold vsub, zipw in Q; simpl in Q; rewrite dot_cons, dot_nil_l in Q; lra.
Qed.
Lemma line3_solved : nl_solved 1 [[0]; [1]; [2]] [1; 3; 5] [-2] 0.
Proof.
  split; auto. assert (F : Forall (fun x : vec => length x = 1%nat) [[0]; [1]; [2]]) by (repeat constructor). split.
  - apply (feasible_iff 1); auto. intros i j Hi Hj. rewrite Rmult_0_l. apply (proj1 (rabs_le _ _)). simpl in Hi, Hj.
    destruct i as [|[|[|i]]], j as [|[|[|j]]]; try lia; unfold vget; simpl; rewrite ?dot_cons, ?dot_nil_l; lra.
  - intros a' L' La' FE. apply (feasible_iff 1) in FE; auto. specialize (FE 0%nat 1%nat ltac:(simpl; lia) ltac:(simpl; lia)). pose proof (line3_distinct 0%nat 1%nat ltac:(simpl; lia)) as N. pose proof (norm2_nonneg (vsub (nth 0 [[0]; [1]; [2]] []) (nth 1 [[0]; [1]; [2]] []))) as P.
    match type of FE with Rabs ?e <= _ => pose proof (Rabs_pos e) end. nra.
Qed.
Example nl_case : exists solve, nl_solved 1 [[0]; [1]; [2]] [1; 3; 5] (fst (solve [[0]; [1]; [2]] [1; 3; 5])) (snd (solve [[0]; [1]; [2]] [1; 3; 5])) /\ distinct [[0]; [1]; [2]] /\
  exists v a, measure_nonlinearity solve [[0]; [1]; [2]] [1; 3; 5] = Some (v, a).
Proof. exists (fun _ _ => ([-2], 0)). split; [apply line3_solved|]. split; [apply line3_distinct|]. eexists _, _. reflexivity. Qed.
Theorem nl_sign_refuted : exists m X fX g c, length g = m /\ affine_data g c X fX /\ spanning m X /\ distinct X /\ (exists i j, (i < length X)%nat /\ (j < length X)%nat /\ vget fX i <> vget fX j) /\
  (exists a L, nl_solved m X fX a L) /\
  forall solve, nl_solved m X fX (fst (solve X fX)) (snd (solve X fX)) -> exists v a, measure_nonlinearity solve X fX = Some (v, a) /\ a = vscale (-1) g /\ a <> g.
Proof.
  exists 1%nat, [[0]; [1]; [2]], [1; 3; 5], [2], 1. split; auto. split; [apply line3_affine|]. split; [apply line3_span|]. split; [apply line3_distinct|].
  assert (NC : exists i j, (i < length [[0]; [1]; [2]])%nat /\ (j < length [[0]; [1]; [2]])%nat /\ vget [1; 3; 5] i <> vget [1; 3; 5] j) by (exists 0%nat, 1%nat; simpl; split; [lia|split; [lia|unfold vget; simpl; lra]]).
  split; auto. split; [exists [-2], 0; apply line3_solved|]. intros solve SO.
  assert (E : exists v a, measure_nonlinearity solve [[0]; [1]; [2]] [1; 3; 5] = Some (v, a)). { unfold measure_nonlinearity. destruct (solve [[0]; [1]; [2]] [1; 3; 5]) as [a L]. simpl. eauto. }
  destruct E as [v [a E]]. exists v, a. split; auto.
  destruct (nl_affine solve 1 [[0]; [1]; [2]] [1; 3; 5] v a ltac:(repeat constructor) eq_refl line3_distinct NC SO E) as [_ A]. rewrite (A [2] 1 eq_refl line3_affine line3_span). split; auto.
  unfold vscale. simpl. intros Q. injection Q. lra.
Qed.
