(** The design domain of the nozzle, continued: points, dropped rows, layers, stringers, baffles, product. *)
Require Import Reals Lra Lia List Bool Arith.
From Verif Require Import RVec Num Sums DomMoreModel ChebProofs NozModel NozProofs NozMore NozCases NozData NozDomain.
Import ListNotations.
Local Open Scope R_scope.

(* ------------------------------------------------------------------ wall: points inside and outside *)
(** the coefficients given in the file, by number of design variable *)
Definition wall_nominal : vec := [575/1000; 115/100; 17262/10000; 12/100; 14/100; 17/100; 7/10; 115/100; 16/10; 18/10; 6/10; 7/10; 8/10; 85/100; 16/10; 3/10; 29/100; 26/100].
Lemma wall_nominal_design : design wall1_v wall1_x (firstn 6 wall_nominal) = wall1_x /\ design wall2_v wall2_x (firstn 14 wall_nominal) = wall2_x /\ design wall3_v wall3_x wall_nominal = wall3_x.
Proof. repeat split. Qed.
Theorem wall_nominal_outside : exists A b, wall_system = Some (A, b) /\ ~ sat A b wall_nominal.
Proof.
  destruct (wall_iff wall_nominal eq_refl) as (A & b & E & S). exists A, b. split; auto. rewrite S. intros ((_ & H & _) & _).
  specialize (H 3%nat ltac:(lia)). cbn in H. lra.
Qed.
Definition wall_point : vec := [6/10; 1; 15/10; 1/10; 1/10; 1/10; 6/10; 1; 14/10; 18/10; 48/100; 56/100; 7/10; 8/10; 15/10; 38/100; 29/100; 25/100].
Lemma wall_point_ok : wall_ok wall_point.
Proof.
  unfold wall_ok. repeat match goal with |- _ /\ _ => split end;
  try (intros i Hi; cases_i i; cbn; lra); try (unfold slopes_in; intros i Hi; cases_i i; cbn; lra); cbn; lra.
Qed.
(** none of the three curves can satisfy the rows computed for it: fixed points violate the distance 0.2, the limit 2.3 (all) *)
Theorem wall_rows_unsatisfiable : exists A1 b1 A2 b2 A3 b3, wall1 = Done A1 b1 /\ wall2 = Done A2 b2 /\ wall3 = Done A3 b3 /\
  (forall z, length z = 6%nat -> ~ sat A1 b1 z) /\ (forall z, length z = 14%nat -> ~ sat A2 b2 z) /\ (forall z, length z = 18%nat -> ~ sat A3 b3 z).
Proof.
  destruct wall_returns as (A1 & b1 & A2 & b2 & A3 & b3 & E1 & E2 & E3). exists A1, b1, A2, b2, A3, b3. split; [auto|split; [auto|split; [auto|split; [|split]]]]; intros z Lz S.
  - apply (bspline_spec _ _ _ _ _ _ _ _ _ _ _ _ _ 9%nat A1 b1 z E1 eq_refl ltac:(lia) ltac:(lia) Lz) in S. destruct S as (_ & _ & H & _). specialize (H _ eq_refl). cbn in H. lra.
  - apply (bspline_spec _ _ _ _ _ _ _ _ _ _ _ _ _ 9%nat A2 b2 z E2 eq_refl ltac:(lia) ltac:(lia) Lz) in S. destruct S as (_ & _ & H & _). specialize (H _ eq_refl). cbn in H. lra.
  - apply (bspline_spec _ _ _ _ _ _ _ _ _ _ _ _ _ 8%nat A3 b3 z E3 eq_refl ltac:(lia) ltac:(lia) Lz) in S. destruct S as (_ & _ & H & _). specialize (H _ eq_refl). cbn in H. lra.
Qed.

(** the bounds taken from the corners do not cut the domain.  [corner] is assumed to return a point of the domain that is largest in the given direction. *)
Definition is_corner (A : mat) (b : vec) (n : nat) (p y : vec) : Prop := length y = n /\ sat A b y /\ forall z, length z = n -> sat A b z -> dot p z <= dot p y.
Lemma dot_unit_row : forall m i z, (i < m)%nat -> length z = m -> dot (unit_row_ m i) z = vget z i.
Proof.
  intros m i z Hi Lz. rewrite dot_rsum by (rewrite unit_row_length; auto). rewrite unit_row_length. unfold unit_row_.
  rewrite (rsum_single _ i) by (auto; intros j Hj N; rewrite vget_map_seq by auto; apply Nat.eqb_neq in N; rewrite N; ring).
  rewrite vget_map_seq by auto. rewrite Nat.eqb_refl. ring.
Qed.
Theorem wall_bounds_redundant : forall corner A b, wall_system = Some (A, b) ->
  (forall i, (i < 18)%nat -> is_corner A b 18 (unit_row_ 18 i) (corner (unit_row_ 18 i)) /\ is_corner A b 18 (vscale (-1) (unit_row_ 18 i)) (corner (vscale (-1) (unit_row_ 18 i)))) ->
  forall z, length z = 18%nat -> (in_wall corner z <-> wall_ok z).
Proof.
  intros corner A b E C z Lz. destruct (wall_iff z Lz) as (A' & b' & E' & S). rewrite E in E'. injection E' as <- <-.
  unfold in_wall, in_lin. rewrite E, S. split; [intros [H _]; auto|]. intro H. split; auto. split; [unfold wall_lb; rewrite map_length, seq_length; auto|].
  intros i Hi. unfold wall_lb, wall_ub. rewrite !vget_map_seq by lia. rewrite Lz in Hi. destruct (C i Hi) as [(L1 & S1 & M1) (L2 & S2 & M2)].
  apply S in H. specialize (M1 z Lz H). specialize (M2 z Lz H). rewrite !dot_unit_row in M1 by auto. rewrite !dot_vscale_l, !dot_unit_row in M2 by auto. lra.
Qed.

(* ------------------------------------------------------------------ layers *)
Definition layer_rows : list constr := pba_rows 3 4 (-2/10) (2/10) (Some 0) (Some 1) (15/100) (Some 60) (Some (1/100)).
Lemma plain_layer : Forall (plain layer_v) layer_rows. Proof. apply plain_all; [reflexivity|]. nonzero. Qed.
Lemma layer_system_rows : forall t z, length z = 13%nat -> exists A b, layer_system t = Some (A, b) /\
  (sat A b z <-> rows_ok (filter (live layer_v) layer_rows) (design layer_v (layer_loc ++ layer_ang ++ layer_values t) z)).
Proof.
  intros t z Lz. destruct (proj2 (proj1 (pba_returns layer_loc layer_ang (layer_values t) layer_v (-2/10) (2/10) (Some 0) (Some 1) (15/100) (Some 60) (Some (1/100)) ltac:(simpl; lia) ltac:(simpl; lia)))) as (A & b & E).
  { cbn. repeat split; lia. }
  unfold layer_system. rewrite E.
  change (finish 100 19 layer_v (layer_loc ++ layer_ang ++ layer_values t) layer_rows = Done A b) in E.
  apply (clean1_sat layer_v 100 19 _ layer_rows z A b E); auto. apply plain_layer.
Qed.
Definition Lx (z : vec) (i : nat) : R := match i with O => 0 | S O => vget z 0 | _ => 1 end.
Definition Lz (z : vec) (i j : nat) : R := vget z (1 + j * 3 + i).
(** a layer: the middle location keeps 0.15 from the ends, slopes along the axis and differences around it are limited; the rows on
    the fixed ends and angles are dropped *)
Theorem layer_iff : forall t z, length z = 13%nat -> exists A b, layer_system t = Some (A, b) /\
  (sat A b z <-> gaps (Lx z) (15/100) 1 2 /\ axial_slopes 3 4 (-2/10) (2/10) (Lx z) (Lz z) /\ radial_close 3 4 (Some (1/100)) (Lz z)).
Proof.
  intros t z L. destruct (layer_system_rows t z L) as (A & b & E & S). exists A, b. split; auto. rewrite S. clear S E.
  do 13 (destruct z as [|? z]; [discriminate L|]). destruct z; [|discriminate L].
  let l := eval cbn in (filter (live layer_v) layer_rows) in change (filter (live layer_v) layer_rows) with l. each_row.
  unfold gaps, axial_slopes, radial_close. split.
  - intro H. cbn in H. decompose [and] H. clear H. split; [|split].
    + intros i Hi. destruct i as [|[|[|i]]]; try (exfalso; lia); cbn; lra.
    + intros i j Hi Hj. destruct i as [|[|[|i]]]; try (exfalso; lia); destruct j as [|[|[|[|j]]]]; try (exfalso; lia); cbn; lra.
    + intros d i j Q Hi Hj. injection Q as <-. apply Rabs_le_iff. destruct i as [|[|[|i]]]; try (exfalso; lia); destruct j as [|[|[|[|j]]]]; try (exfalso; lia); cbn; lra.
  - intros (G & SL & RC).
    pose proof (G 1%nat ltac:(lia)). pose proof (G 2%nat ltac:(lia)). clear G.
    assert (SL' : forall j, (j < 4)%nat -> (-2/10 * (Lx [r; r0; r1; r2; r3; r4; r5; r6; r7; r8; r9; r10; r11] 1 - Lx [r; r0; r1; r2; r3; r4; r5; r6; r7; r8; r9; r10; r11] 0) <= Lz [r; r0; r1; r2; r3; r4; r5; r6; r7; r8; r9; r10; r11] 1 j - Lz [r; r0; r1; r2; r3; r4; r5; r6; r7; r8; r9; r10; r11] 0 j <= 2/10 * (Lx [r; r0; r1; r2; r3; r4; r5; r6; r7; r8; r9; r10; r11] 1 - Lx [r; r0; r1; r2; r3; r4; r5; r6; r7; r8; r9; r10; r11] 0)) /\
      (-2/10 * (Lx [r; r0; r1; r2; r3; r4; r5; r6; r7; r8; r9; r10; r11] 2 - Lx [r; r0; r1; r2; r3; r4; r5; r6; r7; r8; r9; r10; r11] 1) <= Lz [r; r0; r1; r2; r3; r4; r5; r6; r7; r8; r9; r10; r11] 2 j - Lz [r; r0; r1; r2; r3; r4; r5; r6; r7; r8; r9; r10; r11] 1 j <= 2/10 * (Lx [r; r0; r1; r2; r3; r4; r5; r6; r7; r8; r9; r10; r11] 2 - Lx [r; r0; r1; r2; r3; r4; r5; r6; r7; r8; r9; r10; r11] 1))).
    { intros j Hj. split; [apply (SL 1%nat j ltac:(lia) Hj)|apply (SL 2%nat j ltac:(lia) Hj)]. }
    clear SL. pose proof (SL' 0%nat ltac:(lia)). pose proof (SL' 1%nat ltac:(lia)). pose proof (SL' 2%nat ltac:(lia)). pose proof (SL' 3%nat ltac:(lia)). clear SL'.
    assert (RC' : forall i j, (i < 3)%nat -> (j < 4)%nat -> Lz [r; r0; r1; r2; r3; r4; r5; r6; r7; r8; r9; r10; r11] i j - Lz [r; r0; r1; r2; r3; r4; r5; r6; r7; r8; r9; r10; r11] i (Nat.modulo (j + 1) 4) <= 1/100 /\ - (Lz [r; r0; r1; r2; r3; r4; r5; r6; r7; r8; r9; r10; r11] i j - Lz [r; r0; r1; r2; r3; r4; r5; r6; r7; r8; r9; r10; r11] i (Nat.modulo (j + 1) 4)) <= 1/100).
    { intros i j Hi Hj. apply Rabs_le_iff. apply RC; auto. }
    clear RC. pose proof (RC' 0%nat 0%nat ltac:(lia) ltac:(lia)). pose proof (RC' 0%nat 1%nat ltac:(lia) ltac:(lia)). pose proof (RC' 0%nat 2%nat ltac:(lia) ltac:(lia)). pose proof (RC' 0%nat 3%nat ltac:(lia) ltac:(lia)).
    pose proof (RC' 1%nat 0%nat ltac:(lia) ltac:(lia)). pose proof (RC' 1%nat 1%nat ltac:(lia) ltac:(lia)). pose proof (RC' 1%nat 2%nat ltac:(lia) ltac:(lia)). pose proof (RC' 1%nat 3%nat ltac:(lia) ltac:(lia)).
    pose proof (RC' 2%nat 0%nat ltac:(lia) ltac:(lia)). pose proof (RC' 2%nat 1%nat ltac:(lia) ltac:(lia)). pose proof (RC' 2%nat 2%nat ltac:(lia) ltac:(lia)). pose proof (RC' 2%nat 3%nat ltac:(lia) ltac:(lia)).
    clear RC'. cbn in *. repeat match goal with H : _ /\ _ |- _ => destruct H end. repeat split; lra.
Qed.
