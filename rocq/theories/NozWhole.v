(** The design domain of the nozzle as a whole: redundant constraints, a point inside, dimensions; the random domain. *)
Require Import Reals Lra Lia List Bool Arith.
From Verif Require Import RVec Num Sums DomMoreModel ChebProofs NozModel NozProofs NozMore NozCases NozData NozDomain NozParts.
Import ListNotations.
Local Open Scope R_scope.

Lemma vget_repeat : forall (a : R) n i, (i < n)%nat -> vget (repeat a n) i = a.
Proof. intros a n i H. rewrite <- (repeat_length a n) in H. apply (nth_In _ 0) in H. apply repeat_spec in H. auto. Qed.
Lemma layer_box : forall lo hi z, in_box_ (8/10 * (5/10) :: repeat lo 12) (12/10 * (5/10) :: repeat hi 12) z <->
  length z = 13%nat /\ 4/10 <= vget z 0 <= 6/10 /\ forall i j, (i < 3)%nat -> (j < 4)%nat -> lo <= Lz z i j <= hi.
Proof.
  intros lo hi z. unfold in_box_. cbn [length]. rewrite repeat_length. split.
  - intros [L H]. split; auto. split.
    + specialize (H 0%nat ltac:(lia)). unfold vget in *. simpl in H. lra.
    + intros i j Hi Hj. unfold Lz. specialize (H (S (j * 3 + i)) ltac:(lia)). pose proof (vget_repeat lo 12 (j * 3 + i) ltac:(lia)) as E1. pose proof (vget_repeat hi 12 (j * 3 + i) ltac:(lia)) as E2.
      change (1 + j * 3 + i)%nat with (S (j * 3 + i)). unfold vget in *. cbn [nth] in H. rewrite E1, E2 in H. auto.
  - intros (L & H0 & H). split; auto. intros i Hi. rewrite L in Hi. destruct i as [|i].
    + unfold vget in *. simpl. lra.
    + assert (D : i = (i / 3 * 3 + i mod 3)%nat) by (pose proof (Nat.div_mod i 3 ltac:(lia)); lia).
      assert (M : (i mod 3 < 3)%nat) by (apply Nat.mod_upper_bound; lia). assert (Q : (i / 3 < 4)%nat) by (apply Nat.div_lt_upper_bound; lia).
      specialize (H (i mod 3)%nat (i / 3)%nat M Q). unfold Lz in H. replace (1 + i / 3 * 3 + i mod 3)%nat with (S i) in H by lia.
      pose proof (vget_repeat lo 12 i ltac:(lia)) as E1. pose proof (vget_repeat hi 12 i ltac:(lia)) as E2. unfold vget in *. cbn [nth]. rewrite E1, E2. auto.
Qed.
(** the slope limits and the distances of the location never restrict a layer whose thickness range is at most 0.08 *)
Theorem layer_reduced : forall t lo hi z, hi - lo <= 8/100 ->
  (in_layer t lo hi z <-> length z = 13%nat /\ 4/10 <= vget z 0 <= 6/10 /\ (forall i j, (i < 3)%nat -> (j < 4)%nat -> lo <= Lz z i j <= hi) /\ radial_close 3 4 (Some (1/100)) (Lz z)).
Proof.
  intros t lo hi z D. unfold in_layer, in_lin. split.
  - intro H. destruct (layer_system t) as [[A b]|] eqn:E; [|contradiction]. destruct H as [S B]. apply layer_box in B. destruct B as (L & B0 & B).
    destruct (layer_iff t z L) as (A' & b' & E' & I). rewrite E in E'. injection E' as <- <-. apply I in S. destruct S as (_ & _ & RC). auto.
  - intros (L & B0 & B & RC). destruct (layer_iff t z L) as (A & b & E & I). rewrite E. split; [|apply layer_box; auto]. apply I. split; [|split; auto].
    + intros i Hi. destruct i as [|[|[|i]]]; try (exfalso; lia); cbn; lra.
    + intros i j Hi Hj. pose proof (B i j ltac:(lia) Hj) as B1. pose proof (B (i - 1)%nat j ltac:(lia) Hj) as B2. destruct i as [|[|[|i]]]; try (exfalso; lia); cbn [Nat.sub Lx] in *; lra.
Qed.
(** a range of at most 0.01 leaves the box: this is the case of all three load layers *)
Theorem layer_is_box : forall t lo hi z, hi - lo <= 1/100 ->
  (in_layer t lo hi z <-> length z = 13%nat /\ 4/10 <= vget z 0 <= 6/10 /\ forall i j, (i < 3)%nat -> (j < 4)%nat -> lo <= Lz z i j <= hi).
Proof.
  intros t lo hi z D. rewrite layer_reduced by lra. split; [tauto|]. intros (L & B0 & B). repeat split; auto; try apply B; auto; try lra.
  intros d i j Q Hi Hj. injection Q as <-. pose proof (B i j Hi Hj). pose proof (B i (Nat.modulo (j + 1) 4) Hi ltac:(apply Nat.mod_upper_bound; lia)). apply Rabs_le. lra.
Qed.
Theorem load_layers : forall z, (in_load1 z <-> in_box_ (4/10 :: repeat (1/1000) 12) (6/10 :: repeat (6/1000) 12) z) /\
  (in_load2 z <-> in_box_ (4/10 :: repeat (64/10000) 12) (6/10 :: repeat (159/10000) 12) z) /\ (in_load3 z <-> in_box_ (4/10 :: repeat (1/1000) 12) (6/10 :: repeat (6/1000) 12) z).
Proof.
  assert (G : forall lo hi z, in_box_ (4/10 :: repeat lo 12) (6/10 :: repeat hi 12) z <-> in_box_ (8/10 * (5/10) :: repeat lo 12) (12/10 * (5/10) :: repeat hi 12) z).
  { intros lo hi z. replace (8/10 * (5/10)) with (4/10) by lra. replace (12/10 * (5/10)) with (6/10) by lra. tauto. }
  intro z. rewrite !G, !layer_box. unfold in_load1, in_load2, in_load3. rewrite !layer_is_box by lra. tauto.
Qed.
(** the thermal layer is not a box: thicknesses at neighbouring angles are coupled *)
Definition th_bad : vec := [1/2; 1/100; 1/100; 1/100; 5/100; 5/100; 5/100; 5/100; 5/100; 5/100; 5/100; 5/100; 5/100].
Theorem thermal_coupled : exists z, in_box_ (4/10 :: repeat (1/100) 12) (6/10 :: repeat (5/100) 12) z /\ ~ in_thermal z.
Proof.
  exists th_bad. split.
  - split; [reflexivity|]. intros i Hi. cbn in Hi. do 13 (destruct i as [|i]; [cbn; lra|]). exfalso. lia.
  - unfold in_thermal. rewrite layer_reduced by lra. intros (_ & _ & _ & RC). specialize (RC _ 0%nat 0%nat eq_refl ltac:(lia) ltac:(lia)). apply Rabs_le_iff in RC. cbn in RC. lra.
Qed.

(** the thermal layer and the air gap in numbers *)
Theorem thermal_gap : (forall z, in_thermal z <-> length z = 13%nat /\ 4/10 <= vget z 0 <= 6/10 /\ (forall i, (1 <= i < 13)%nat -> 1/100 <= vget z i <= 5/100) /\
    forall i j, (i < 3)%nat -> (j < 4)%nat -> Rabs (vget z (1 + j * 3 + i) - vget z (1 + (Nat.modulo (j + 1) 4) * 3 + i)) <= 1/100) /\
  (forall z, in_gap z <-> exists g, z = [g] /\ 3/1000 <= g <= 5/100).
Proof.
  split; intro z.
  - unfold in_thermal. rewrite layer_reduced by lra. split; intros (L & B0 & B & RC); split; auto; split; auto; split.
    + intros i Hi. specialize (B ((i - 1) mod 3)%nat ((i - 1) / 3)%nat ltac:(apply Nat.mod_upper_bound; lia) ltac:(apply Nat.div_lt_upper_bound; lia)). unfold Lz in B.
      pose proof (Nat.div_mod (i - 1) 3 ltac:(lia)) as D. replace (1 + (i - 1) / 3 * 3 + (i - 1) mod 3)%nat with i in B by lia. exact B.
    + intros i j Hi Hj. exact (RC _ i j eq_refl Hi Hj).
    + intros i j Hi Hj. apply B. lia.
    + intros d i j Q Hi Hj. injection Q as <-. exact (RC i j Hi Hj).
  - unfold in_gap, in_box_. split.
    + intros [L H]. destruct z as [|g [|? ?]]; cbn in L; try discriminate. exists g. split; auto. specialize (H 0%nat ltac:(cbn; lia)). unfold vget in H. cbn in H. lra.
    + intros (g & -> & H). split; [reflexivity|]. intros i Hi. cbn in Hi. destruct i as [|i]; [|lia]. unfold vget. cbn. lra.
Qed.

(* ------------------------------------------------------------------ stringers and baffles *)
Definition str_rows : list constr := pba_rows 6 2 (-2/10) (2/10) (Some 0) (Some 1) (1/10) None None.
Lemma plain_str : Forall (plain str_v) str_rows. Proof. apply plain_all; [reflexivity|]. nonzero. Qed.
Definition Sx (z : vec) (i : nat) : R := match i with O => 0 | S i' => if Nat.ltb i' 4 then vget z i' else 1 end.
Definition Sz (z : vec) (i j : nat) : R := vget z (4 + j * 6 + i).
Theorem stringers_iff : forall z, length z = 16%nat -> exists A b, str_system = Some (A, b) /\
  (sat A b z <-> gaps (Sx z) (1/10) 1 5 /\ axial_slopes 6 2 (-2/10) (2/10) (Sx z) (Sz z)).
Proof.
  intros z L. destruct (proj2 (proj1 (pba_returns str_loc [90; 270] (repeat (1/100) 12) str_v (-2/10) (2/10) (Some 0) (Some 1) (1/10) None None ltac:(simpl; lia) ltac:(simpl; lia)))) as (A & b & E).
  { cbn. repeat split; lia. }
  unfold str_system. rewrite E.
  change (finish 100 20 str_v (str_loc ++ [90; 270] ++ repeat (1/100) 12) str_rows = Done A b) in E.
  destruct (clean1_sat str_v 100 20 _ str_rows z A b E L plain_str) as (A' & b' & E' & S). exists A', b'. split; auto. rewrite S. clear S E E'.
  do 16 (destruct z as [|? z]; [discriminate L|]). destruct z; [|discriminate L].
  let l := eval cbn in (filter (live str_v) str_rows) in change (filter (live str_v) str_rows) with l. each_row.
  unfold gaps, axial_slopes. split.
  - intro H. cbn in H. decompose [and] H. clear H. split.
    + intros i Hi. do 6 (destruct i as [|i]; [try (exfalso; lia); cbn; lra|]). exfalso; lia.
    + intros i j Hi Hj. destruct j as [|[|j]]; try (exfalso; lia); (do 6 (destruct i as [|i]; [try (exfalso; lia); cbn; lra|]); exfalso; lia).
  - intros (G & SL). pose proof (G 1%nat ltac:(lia)). pose proof (G 2%nat ltac:(lia)). pose proof (G 3%nat ltac:(lia)). pose proof (G 4%nat ltac:(lia)). pose proof (G 5%nat ltac:(lia)). clear G.
    pose proof (SL 1%nat 0%nat ltac:(lia) ltac:(lia)). pose proof (SL 2%nat 0%nat ltac:(lia) ltac:(lia)). pose proof (SL 3%nat 0%nat ltac:(lia) ltac:(lia)). pose proof (SL 4%nat 0%nat ltac:(lia) ltac:(lia)). pose proof (SL 5%nat 0%nat ltac:(lia) ltac:(lia)).
    pose proof (SL 1%nat 1%nat ltac:(lia) ltac:(lia)). pose proof (SL 2%nat 1%nat ltac:(lia) ltac:(lia)). pose proof (SL 3%nat 1%nat ltac:(lia) ltac:(lia)). pose proof (SL 4%nat 1%nat ltac:(lia) ltac:(lia)). pose proof (SL 5%nat 1%nat ltac:(lia) ltac:(lia)).
    clear SL. cbn in *. repeat match goal with H : _ /\ _ |- _ => destruct H end. repeat split; lra.
Qed.
(** the slope limits are implied by the bounds and the distances *)
Theorem stringers_reduced : forall z, in_stringers z <-> in_box_ (map (fun c => c - 2/10) str_center ++ repeat (2/1000) 12) (map (fun c => c + 2/10) str_center ++ repeat (1/100) 12) z /\ gaps (Sx z) (1/10) 1 5.
Proof.
  intro z. unfold in_stringers, in_lin. split.
  - intro H. destruct str_system as [[A b]|] eqn:E; [|contradiction]. destruct H as [S B]. split; auto. destruct B as [L B]. destruct (stringers_iff z L) as (A' & b' & E' & I). rewrite E in E'. injection E' as <- <-. apply I in S. apply S.
  - intros [B G]. pose proof B as [L B']. destruct (stringers_iff z L) as (A & b & E & I). rewrite E. split; auto. apply I. split; auto.
    intros i j Hi Hj. specialize (G i ltac:(lia)).
    assert (Bz : forall i', (i' < 6)%nat -> 2/1000 <= Sz z i' j <= 1/100).
    { intros i' Hi'. unfold Sz. specialize (B' (4 + j * 6 + i')%nat ltac:(rewrite L; cbn; lia)). unfold vget in *. rewrite !app_nth2 in B' by (cbn; lia).
      rewrite !map_length in B'. change (length str_center) with 4%nat in B'. replace (4 + j * 6 + i' - 4)%nat with (j * 6 + i')%nat in B' by lia.
      pose proof (vget_repeat (2/1000) 12 (j * 6 + i') ltac:(lia)) as E1. pose proof (vget_repeat (1/100) 12 (j * 6 + i') ltac:(lia)) as E2. unfold vget in E1, E2. rewrite E1, E2 in B'. auto. }
    pose proof (Bz i ltac:(lia)). pose proof (Bz (i - 1)%nat ltac:(lia)). lra.
Qed.
Definition baf_rows : list constr := baffle_rows 5 (1/10) (26/100).
Lemma plain_baf : Forall (plain baf_v) baf_rows. Proof. apply plain_all; [reflexivity|]. nonzero. Qed.
Definition Bx (z : vec) (i : nat) : R := match i with O => 0 | S i' => vget z i' end.
Theorem baffles_iff : forall z, length z = 9%nat -> exists A b, baf_system = Some (A, b) /\
  (sat A b z <-> forall i, (1 <= i <= 4)%nat -> 1/10 <= Bx z i - Bx z (i - 1) <= 26/100).
Proof.
  intros z L. destruct (baffles_returns baf_loc (repeat (1/100) 5) baf_v (1/10) (26/100) ltac:(simpl; lia) eq_refl) as (A & b & E & _).
  unfold baf_system. rewrite E.
  change (finish 8 10 baf_v (baf_loc ++ repeat (1/100) 5) baf_rows = Done A b) in E.
  destruct (clean1_sat baf_v 8 10 _ baf_rows z A b E L plain_baf) as (A' & b' & E' & S). exists A', b'. split; auto. rewrite S. clear S E E'.
  do 9 (destruct z as [|? z]; [discriminate L|]). destruct z; [|discriminate L].
  let l := eval cbn in (filter (live baf_v) baf_rows) in change (filter (live baf_v) baf_rows) with l. each_row. split.
  - intro H. cbn in H. decompose [and] H. clear H. intros i Hi. do 5 (destruct i as [|i]; [try (exfalso; lia); cbn; lra|]). exfalso; lia.
  - intro G. pose proof (G 1%nat ltac:(lia)). pose proof (G 2%nat ltac:(lia)). pose proof (G 3%nat ltac:(lia)). pose proof (G 4%nat ltac:(lia)). clear G. cbn in *. repeat split; lra.
Qed.

(* ------------------------------------------------------------------ the whole domain *)
Definition part_dims (corner : vec -> vec) : list nat := map fst (design_parts corner).
Lemma in_product_length : forall (ds : list (nat * (vec -> Prop))) z, (forall n D z', In (n, D) ds -> D z' -> length z' = n) -> in_product ds z -> length z = fold_right plus 0%nat (map fst ds).
Proof.
  induction ds as [|[n D] ds IH]; intros z H P; simpl in *; [subst; auto|]. destruct P as [P1 P2].
  specialize (IH _ (fun n0 D0 z' I => H n0 D0 z' (or_intror I)) P2). specialize (H n D _ (or_introl eq_refl) P1). rewrite firstn_length in H. rewrite skipn_length in IH. lia.
Qed.
Theorem design_dimension : forall corner z, in_design corner z -> length z = 96%nat.
Proof.
  intros corner z H. change 96%nat with (fold_right plus 0%nat (map fst (design_parts corner))). apply in_product_length; auto.
  intros n D z' HI HD. repeat (destruct HI as [HI|HI]; [injection HI as <- <-|]); try contradiction.
  - unfold in_wall, in_lin in HD. destruct wall_system as [[A b]|]; [|contradiction]. destruct HD as [_ [L _]]. rewrite L. reflexivity.
  - apply layer_reduced in HD; [apply HD|lra].
  - destruct HD as [L _]. rewrite L. reflexivity.
  - apply layer_reduced in HD; [apply HD|lra].
  - apply layer_reduced in HD; [apply HD|lra].
  - apply layer_reduced in HD; [apply HD|lra].
  - apply stringers_reduced in HD. destruct HD as [[L _] _]. rewrite L. reflexivity.
  - unfold in_baffles, in_lin in HD. destruct baf_system as [[A b]|]; [|contradiction]. destruct HD as [_ [L _]]. rewrite L. reflexivity.
Qed.
(** a design: the wall point above and the nominal values of the file elsewhere *)
Definition design_point : vec := wall_point ++ (5/10 :: repeat (3/100) 12) ++ [254/10000] ++ (5/10 :: repeat (2/1000) 12) ++ (5/10 :: repeat (13/1000) 12) ++ (5/10 :: repeat (2/1000) 12) ++
  ([2/10; 4/10; 6/10; 8/10] ++ repeat (1/100) 12) ++ ([2/10; 4/10; 6/10; 8/10] ++ repeat (1/100) 5).
Lemma layer_nominal : forall t lo hi, lo <= t <= hi -> hi - lo <= 8/100 -> in_layer t lo hi (5/10 :: repeat t 12).
Proof.
  intros t lo hi T D. apply layer_reduced; auto. split; [reflexivity|]. split; [unfold vget; simpl; lra|].
  assert (V : forall i j, (i < 3)%nat -> (j < 4)%nat -> Lz (5/10 :: repeat t 12) i j = t).
  { intros i j Hi Hj. unfold Lz. change (vget (5/10 :: repeat t 12) (S (j * 3 + i)) = t). unfold vget. cbn [nth]. apply (vget_repeat t 12). lia. }
  split.
  - intros i j Hi Hj. rewrite V by auto. lra.
  - intros d i j Q Hi Hj. injection Q as <-. rewrite !V by (auto; apply Nat.mod_upper_bound; lia). rewrite Rminus_diag_eq by auto. rewrite Rabs_R0. lra.
Qed.
Theorem design_inhabited : forall corner A b, wall_system = Some (A, b) ->
  (forall i, (i < 18)%nat -> is_corner A b 18 (unit_row_ 18 i) (corner (unit_row_ 18 i)) /\ is_corner A b 18 (vscale (-1) (unit_row_ 18 i)) (corner (vscale (-1) (unit_row_ 18 i)))) ->
  in_design corner design_point.
Proof.
  intros corner A b E C. unfold in_design, design_parts.
  assert (FA : forall (a c : vec) n, length a = n -> firstn n (a ++ c) = a /\ skipn n (a ++ c) = c).
  { intros a c n L. subst. split; [rewrite firstn_app, firstn_all, Nat.sub_diag; simpl; apply app_nil_r|rewrite skipn_app, skipn_all, Nat.sub_diag; auto]. }
  unfold design_point. cbn [in_product].
  destruct (FA wall_point ((5/10 :: repeat (3/100) 12) ++ [254/10000] ++ (5/10 :: repeat (2/1000) 12) ++ (5/10 :: repeat (13/1000) 12) ++ (5/10 :: repeat (2/1000) 12) ++
     ([2/10; 4/10; 6/10; 8/10] ++ repeat (1/100) 12) ++ ([2/10; 4/10; 6/10; 8/10] ++ repeat (1/100) 5)) 18%nat eq_refl) as [F S]. rewrite F, S. clear F S.
  split; [apply (wall_bounds_redundant corner A b E C wall_point eq_refl); apply wall_point_ok|].
  match goal with |- _ (firstn 13 (?a ++ ?c)) /\ _ => destruct (FA a c 13%nat eq_refl) as [F S]; rewrite F, S; clear F S end.
  split; [apply layer_nominal; lra|].
  match goal with |- _ (firstn 1 (?a ++ ?c)) /\ _ => destruct (FA a c 1%nat eq_refl) as [F S]; rewrite F, S; clear F S end.
  split; [split; [reflexivity|]; intros i Hi; destruct i; [cbn; lra|cbn in Hi; exfalso; lia]|].
  match goal with |- _ (firstn 13 (?a ++ ?c)) /\ _ => destruct (FA a c 13%nat eq_refl) as [F S]; rewrite F, S; clear F S end.
  split; [apply layer_nominal; lra|].
  match goal with |- _ (firstn 13 (?a ++ ?c)) /\ _ => destruct (FA a c 13%nat eq_refl) as [F S]; rewrite F, S; clear F S end.
  split; [apply layer_nominal; lra|].
  match goal with |- _ (firstn 13 (?a ++ ?c)) /\ _ => destruct (FA a c 13%nat eq_refl) as [F S]; rewrite F, S; clear F S end.
  split; [apply layer_nominal; lra|].
  match goal with |- _ (firstn 16 (?a ++ ?c)) /\ _ => destruct (FA a c 16%nat eq_refl) as [F S]; rewrite F, S; clear F S end.
  split.
  - apply stringers_reduced. split.
    + split; [reflexivity|]. intros i Hi. cbn in Hi. do 16 (destruct i as [|i]; [cbn; lra|]). exfalso. lia.
    + intros i Hi. do 6 (destruct i as [|i]; [try (exfalso; lia); cbn; lra|]). exfalso; lia.
  - split; [|reflexivity]. change (firstn 9 ([2/10; 4/10; 6/10; 8/10] ++ repeat (1/100) 5)) with ([2/10; 4/10; 6/10; 8/10] ++ repeat (1/100) 5). unfold in_baffles, in_lin.
    destruct (baffles_iff ([2/10; 4/10; 6/10; 8/10] ++ repeat (1/100) 5) eq_refl) as (A' & b' & E' & I). rewrite E'. split.
    + apply I. intros i Hi. do 5 (destruct i as [|i]; [try (exfalso; lia); cbn; lra|]). exfalso; lia.
    + split; [reflexivity|]. intros i Hi. cbn in Hi. do 9 (destruct i as [|i]; [cbn; lra|]). exfalso. lia.
Qed.

(* ------------------------------------------------------------------ random domain *)
Definition rdom_ok (d : rdom) : Prop := match d with UD lo hi => lo < hi | LN _ cov scaling => 0 < cov /\ 0 < scaling end.
Theorem random_parts_ok : length random_parts = 40%nat /\ Forall rdom_ok random_parts.
Proof. split; [reflexivity|]. repeat (constructor; [cbn; lra|]). constructor. Qed.
Example thermal_case : in_thermal (5/10 :: repeat (3/100) 12) /\ radial_close 3 4 (Some (1/100)) (Lz (5/10 :: repeat (3/100) 12)).
Proof. split; [apply layer_nominal; lra|]. assert (H : in_thermal (5/10 :: repeat (3/100) 12)) by (apply layer_nominal; lra). unfold in_thermal in H. apply layer_reduced in H; [apply H|lra]. Qed.
