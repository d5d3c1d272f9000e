(** Generated by tools/mkprops.py from tools/props/NozProps.spec: the property theorems. *)
Require Import Reals List Bool Arith ZArith.
From Verif Require Import RVec Num DomMoreModel NozModel NozProofs NozMore NozCases NozData NozDomain NozParts NozWhole NozCorner.
Import ListNotations.
Local Open Scope R_scope.

Local Open Scope R_scope.

(** C117: elimination of the fixed entries *)
Theorem C117_row : forall v x rc z, length z = vmaxn v -> (length (fst rc) <= length v)%nat ->
  let (a, b) := reduce_row v x rc in
  length a = vmaxn v /\ dot a z - b = dot (fst rc) (design v x z) - snd rc.
Proof. exact reduce_row_spec. Qed.
Print Assumptions C117_row.

Theorem C117_kept : forall lim n v x (rows : list constr) A b z, finish lim n v x rows = Done A b -> length z = vmaxn v -> Forall (plain v) rows ->
  (kept A b z <-> rows_ok (filter (live v) rows) (design v x z)).
Proof. exact finish_kept. Qed.
Print Assumptions C117_kept.

Example C117_case : length [3; 4] = vmaxn [1; 0; 2]%nat /\ le (length (fst ([1; 2; -1], 5))) 3 /\
  design [1; 0; 2]%nat [9; 7; 9] [3; 4] = [3; 7; 4] /\ reduce_row [1; 0; 2]%nat [9; 7; 9] ([1; 2; -1], 5) = ([0 + 1; 0 + -1], 5 - 7 * 2).
Proof. exact elimination_instance. Qed.

(** C118: control points of the wall *)
Theorem C118_rows : forall x v t s0 s1 s2 s3 xl xr delta lowest minT maxT nx A b z,
  bspline x v t s0 s1 s2 s3 xl xr delta lowest minT maxT = Done A b -> length x = (2 * nx)%nat -> (1 <= nx)%nat -> (t + 2 < nx \/ t = 0)%nat -> length z = vmaxn v ->
  (sat A b z <-> bspline_ok nx t s0 s1 s2 s3 xl xr delta lowest minT maxT (fun i => vget (design v x z) i) (fun i => vget (design v x z) (nx + i))).
Proof. exact bspline_spec. Qed.
Print Assumptions C118_rows.

Theorem C118_slopes : forall nx t s0 s1 s2 s3 xl xr delta lowest minT maxT X Y, 0 < delta -> (t + 2 < nx \/ t = 0)%nat ->
  bspline_ok nx t s0 s1 s2 s3 xl xr delta lowest minT maxT X Y ->
  (forall i j, (i < j < nx)%nat -> X i < X j) /\
  (forall i m, t <> 0%nat -> (1 <= i < t)%nat -> limit_at s0 (i - 1) = Some m -> m <= (Y i - Y (i - 1)%nat) / (X i - X (i - 1)%nat)) /\
  (forall i m, t <> 0%nat -> (1 <= i < t)%nat -> limit_at s1 (i - 1) = Some m -> (Y i - Y (i - 1)%nat) / (X i - X (i - 1)%nat) <= m) /\
  (forall i m, (t + 3 <= i < nx)%nat -> limit_at s2 (i - (t + 3)) = Some m -> m <= (Y i - Y (i - 1)%nat) / (X i - X (i - 1)%nat)) /\
  (forall i m, (t + 3 <= i < nx)%nat -> limit_at s3 (i - (t + 3)) = Some m -> (Y i - Y (i - 1)%nat) / (X i - X (i - 1)%nat) <= m).
Proof. exact bspline_slopes. Qed.
Print Assumptions C118_slopes.

Theorem C118_returns : forall x v t s0 s1 s2 s3 xl xr delta lowest minT maxT nx,
  length x = (2 * nx)%nat -> (1 <= nx)%nat -> (t + 2 < nx \/ t = 0)%nat -> (2 * nx <= length v)%nat ->
  ((exists A b, bspline x v t s0 s1 s2 s3 xl xr delta lowest minT maxT = Done A b) <->
   (t <> 0%nat -> limit_ok s0 (t - 1) /\ limit_ok s1 (t - 1)) /\ limit_ok s2 (nx - (t + 3)) /\ limit_ok s3 (nx - (t + 3)) /\
   (bspline_count nx t s0 s1 s2 s3 xl xr lowest minT maxT <= 100)%nat).
Proof. exact bspline_returns. Qed.
Print Assumptions C118_returns.

Theorem C118_zero_pair : forall x v t s0 s1 s2 s3 xl xr delta lowest minT maxT nx,
  length x = (2 * nx)%nat -> (~ limit_ok s2 (nx - (t + 3)) \/ ~ limit_ok s3 (nx - (t + 3)) \/ (t <> 0%nat /\ (~ limit_ok s0 (t - 1) \/ ~ limit_ok s1 (t - 1)))) ->
  bspline x v t s0 s1 s2 s3 xl xr delta lowest minT maxT = ZeroPair.
Proof. exact bspline_zero_pair. Qed.
Print Assumptions C118_zero_pair.

Theorem C118_doubled_throat : forall x v t s0 s1 s2 s3 xl xr delta lowest minT maxT nx A b z,
  bspline x v t s0 s1 s2 s3 xl xr delta lowest minT maxT = Done A b -> length x = (2 * nx)%nat -> (t + 2 < nx)%nat -> length z = vmaxn v -> (2 * nx <= length v)%nat ->
  nth t v 0%nat = nth (t + 1) v 0%nat -> vget x t = vget x (t + 1) -> ~ sat A b z.
Proof. exact bspline_doubled_throat. Qed.
Print Assumptions C118_doubled_throat.

Theorem C118_flat_throat : forall x v t s0 s1 s2 s3 xl xr delta minT maxT nx A b z,
  bspline x v t s0 s1 s2 s3 xl xr delta true minT maxT = Done A b -> length x = (2 * nx)%nat -> (1 <= t)%nat -> (t + 2 < nx)%nat -> length z = vmaxn v -> (2 * nx <= length v)%nat ->
  nth (nx + t) v 0%nat = nth (nx + (t - 1)) v 0%nat -> vget x (nx + t) = vget x (nx + (t - 1)) -> ~ sat A b z.
Proof. exact bspline_flat_throat. Qed.
Print Assumptions C118_flat_throat.

Theorem C118_nothroat_refuted : exists x v s2 s3 delta nx A b z,
  bspline x v 0 LNone LNone (LVal s2) (LVal s3) None None delta false None None = Done A b /\ length x = (2 * nx)%nat /\ length z = vmaxn v /\ sat A b z /\
  let w := design v x z in
  (exists i, (1 <= i < nx)%nat /\ vget w i - vget w (i - 1) < delta) /\
  (exists i, (1 <= i < nx)%nat /\ s3 * (vget w i - vget w (i - 1)) < vget w (nx + i) - vget w (nx + (i - 1))).
Proof. exact bspline_nothroat_refuted. Qed.
Print Assumptions C118_nothroat_refuted.

Theorem C118_lowest_refuted : exists x v t nx A b z,
  bspline x v t LNone LNone LNone LNone None None (/ 100) true None None = Done A b /\ length x = (2 * nx)%nat /\ length z = vmaxn v /\ sat A b z /\
  exists i, (i < t)%nat /\ vget (design v x z) (nx + i) < vget (design v x z) (nx + t).
Proof. exact bspline_lowest_refuted. Qed.
Print Assumptions C118_lowest_refuted.

Example C118_case : exists A b, bspline th_x th_v 3 (LList [-2; -2]) (LVal 1) (LVal 0) (LList [2; 3]) (Some (-1)) (Some 9) (/ 10) true (Some 0) (Some 2) = Done A b /\
  sat A b [1; 2; 2 + / 20; 2 + / 10; 2 + 3 / 20; 3; 4; / 2; / 4; / 10; / 5; / 5; / 4; / 4].
Proof. exact bspline_instance. Qed.

Example C118_doubled_case : exists A b, bspline db_x db_v 3 LNone LNone LNone LNone None None (/ 10) true None None = Done A b /\
  nth 3 db_v 0%nat = nth 4 db_v 0%nat /\ vget db_x 3 = vget db_x 4 /\ nth (8 + 3) db_v 0%nat = nth (8 + 2) db_v 0%nat /\ forall z, length z = vmaxn db_v -> ~ sat A b z.
Proof. exact bspline_doubled_instance. Qed.

(** C119: piecewise bilinear layers *)
Theorem C119_rows : forall x y z v mlo mhi xl xr dx dy dz A b u,
  piecewiseBilinearAxial x y z v mlo mhi xl xr dx dy dz = Done A b -> (1 <= length x)%nat -> (2 <= length y \/ dz = None)%nat -> length u = vmaxn v ->
  let nx := length x in let ny := length y in let w := design v (x ++ y ++ z) u in
  let X := fun i => vget w i in let Y := fun j => vget w (nx + j)%nat in let Z := fun i j => vget w (nx + ny + j * nx + i)%nat in
  (sat A b u <-> x_order nx xl xr dx X /\ y_imposed nx ny dy X Y /\ axial_slopes nx ny mlo mhi X Z /\ radial_close nx ny dz Z).
Proof. exact pba_spec. Qed.
Print Assumptions C119_rows.

Theorem C119_returns : forall x y z v mlo mhi xl xr dx dy dz, (1 <= length x)%nat -> (1 <= length y)%nat ->
  ((exists A b, piecewiseBilinearAxial x y z v mlo mhi xl xr dx dy dz = Done A b) <->
   length z = (length x * length y)%nat /\ length v = (length x + length y + length z)%nat /\ (pba_count (length x) (length y) xl xr dy dz <= 100)%nat) /\
  (forall A b, piecewiseBilinearAxial x y z v mlo mhi xl xr dx dy dz = Done A b -> length A = pba_count (length x) (length y) xl xr dy dz /\ length b = length A /\ forall r, In r A -> length r = vmaxn v).
Proof. exact pba_returns. Qed.
Print Assumptions C119_returns.

Theorem C119_angles_refuted : exists x y z v d A b u, piecewiseBilinearAxial x y z v (-1) 1 None None (/ 10) (Some d) (Some 1) = Done A b /\ length u = vmaxn v /\ sat A b u /\ 0 < d /\
  ~ y_order (length y) (Some d) (fun j => vget (design v (x ++ y ++ z) u) (length x + j)).
Proof. exact pba_angles_refuted. Qed.
Print Assumptions C119_angles_refuted.

Theorem C119_single_refuted : exists x y z v A b u, piecewiseBilinearAxial x y z v (-1) 1 None None (/ 10) None (Some 1) = Done A b /\ length u = vmaxn v /\ ~ sat A b u /\
  let w := design v (x ++ y ++ z) u in
  x_order 1 None None (/ 10) (fun i => vget w i) /\ axial_slopes 1 1 (-1) 1 (fun i => vget w i) (fun i j => vget w (1 + 1 + j * 1 + i)) /\ radial_close 1 1 (Some 1) (fun i j => vget w (1 + 1 + j * 1 + i)).
Proof. exact pba_single_refuted. Qed.
Print Assumptions C119_single_refuted.

Example C119_case : in_thermal (5/10 :: repeat (3/100) 12) /\ radial_close 3 4 (Some (1/100)) (Lz (5/10 :: repeat (3/100) 12)).
Proof. exact thermal_case. Qed.

(** C120: baffles *)
Theorem C120_rows : forall x th v dmin dmax A b u, baffles x th v dmin dmax = Done A b -> length u = vmaxn v ->
  (sat A b u <-> forall i, (1 <= i < length x)%nat -> let w := design v (x ++ th) u in dmin <= vget w i - vget w (i - 1) <= dmax).
Proof. exact baffles_spec. Qed.
Print Assumptions C120_rows.

Theorem C120_returns : forall x th v dmin dmax, (1 <= length x)%nat -> length v = (length x + length th)%nat ->
  exists A b, baffles x th v dmin dmax = Done A b /\ length A = (2 * (length x - 1))%nat.
Proof. exact baffles_returns. Qed.
Print Assumptions C120_returns.

Example C120_case : exists A b, baffles [0; / 5; / 2] [1; 1; 1] [0; 1; 2; 3; 4; 5]%nat (/ 10) (/ 2) = Done A b /\ length A = 4%nat /\ sat A b [/ 5; / 2; 1; 1; 1].
Proof. exact baffles_instance. Qed.

(** C121: cleanup *)
Theorem C121_rows : forall Ls A b z, Forall well_shaped Ls -> cleanup Ls = Some (A, b) ->
  ((forall L, In L Ls -> sat (snd (fst L)) (snd L) (firstn (fst (fst L)) z)) <->
   sat A b z /\ forall L k, In L Ls -> (k < length (snd (fst L)))%nat -> (forall j, vget (nth k (snd (fst L)) []) j = 0) -> 0 <= vget (snd L) k).
Proof. exact cleanup_spec. Qed.
Print Assumptions C121_rows.

Theorem C121_shape : forall Ls A b, Forall well_shaped Ls -> cleanup Ls = Some (A, b) ->
  length A = length b /\ (forall r, In r A -> length r = vmaxn (map (fun L => fst (fst L)) Ls) /\ exists j, vget r j <> 0).
Proof. exact cleanup_shape. Qed.
Print Assumptions C121_shape.

Theorem C121_drops_refuted : exists Ls A b z, Forall well_shaped Ls /\ cleanup Ls = Some (A, b) /\ sat A b z /\
  (exists L, In L Ls /\ forall z', ~ sat (snd (fst L)) (snd L) (firstn (fst (fst L)) z')).
Proof. exact cleanup_refuted. Qed.
Print Assumptions C121_drops_refuted.

Example C121_case : Forall well_shaped [(1%nat, [[1]; [0]], [5; 1]); (2%nat, [[1; -1]], [0])] /\
  exists A b, cleanup [(1%nat, [[1]; [0]], [5; 1]); (2%nat, [[1; -1]], [0])] = Some (A, b) /\ sat A b [3; 4] /\ A = [[1; 0]; [1; -1]] /\ b = [5; 0].
Proof. exact cleanup_instance. Qed.

(** C122: the design domain *)
Theorem C122_wall : forall z, length z = 18%nat -> exists A b, wall_system = Some (A, b) /\ (sat A b z <-> wall_ok z).
Proof. exact wall_iff. Qed.
Print Assumptions C122_wall.

Theorem C122_wall_nominal_refuted : exists A b, wall_system = Some (A, b) /\ ~ sat A b wall_nominal.
Proof. exact wall_nominal_outside. Qed.
Print Assumptions C122_wall_nominal_refuted.

Theorem C122_wall_rows_refuted : exists A1 b1 A2 b2 A3 b3, wall1 = Done A1 b1 /\ wall2 = Done A2 b2 /\ wall3 = Done A3 b3 /\
  (forall z, length z = 6%nat -> ~ sat A1 b1 z) /\ (forall z, length z = 14%nat -> ~ sat A2 b2 z) /\ (forall z, length z = 18%nat -> ~ sat A3 b3 z).
Proof. exact wall_rows_unsatisfiable. Qed.
Print Assumptions C122_wall_rows_refuted.

Theorem C122_wall_bounds : forall corner A b, wall_system = Some (A, b) ->
  (forall i, (i < 18)%nat -> is_corner A b 18 (unit_row_ 18 i) (corner (unit_row_ 18 i)) /\ is_corner A b 18 (vscale (-1) (unit_row_ 18 i)) (corner (vscale (-1) (unit_row_ 18 i)))) ->
  forall z, length z = 18%nat -> (in_wall corner z <-> wall_ok z).
Proof. exact wall_bounds_redundant. Qed.
Print Assumptions C122_wall_bounds.

Theorem C122_layer_rows : forall t z, length z = 13%nat -> exists A b, layer_system t = Some (A, b) /\
  (sat A b z <-> gaps (Lx z) (15/100) 1 2 /\ axial_slopes 3 4 (-2/10) (2/10) (Lx z) (Lz z) /\ radial_close 3 4 (Some (1/100)) (Lz z)).
Proof. exact layer_iff. Qed.
Print Assumptions C122_layer_rows.

Theorem C122_layer : forall t lo hi z, hi - lo <= 8/100 ->
  (in_layer t lo hi z <-> length z = 13%nat /\ 4/10 <= vget z 0 <= 6/10 /\ (forall i j, (i < 3)%nat -> (j < 4)%nat -> lo <= Lz z i j <= hi) /\ radial_close 3 4 (Some (1/100)) (Lz z)).
Proof. exact layer_reduced. Qed.
Print Assumptions C122_layer.

Theorem C122_layer_box : forall t lo hi z, hi - lo <= 1/100 ->
  (in_layer t lo hi z <-> length z = 13%nat /\ 4/10 <= vget z 0 <= 6/10 /\ forall i j, (i < 3)%nat -> (j < 4)%nat -> lo <= Lz z i j <= hi).
Proof. exact layer_is_box. Qed.
Print Assumptions C122_layer_box.

Theorem C122_load : forall z, (in_load1 z <-> in_box_ (4/10 :: repeat (1/1000) 12) (6/10 :: repeat (6/1000) 12) z) /\
  (in_load2 z <-> in_box_ (4/10 :: repeat (64/10000) 12) (6/10 :: repeat (159/10000) 12) z) /\ (in_load3 z <-> in_box_ (4/10 :: repeat (1/1000) 12) (6/10 :: repeat (6/1000) 12) z).
Proof. exact load_layers. Qed.
Print Assumptions C122_load.

Theorem C122_thermal_gap : (forall z, in_thermal z <-> length z = 13%nat /\ 4/10 <= vget z 0 <= 6/10 /\ (forall i, (1 <= i < 13)%nat -> 1/100 <= vget z i <= 5/100) /\
    forall i j, (i < 3)%nat -> (j < 4)%nat -> Rabs (vget z (1 + j * 3 + i) - vget z (1 + (Nat.modulo (j + 1) 4) * 3 + i)) <= 1/100) /\
  (forall z, in_gap z <-> exists g, z = [g] /\ 3/1000 <= g <= 5/100).
Proof. exact thermal_gap. Qed.
Print Assumptions C122_thermal_gap.

Theorem C122_thermal_coupled : exists z, in_box_ (4/10 :: repeat (1/100) 12) (6/10 :: repeat (5/100) 12) z /\ ~ in_thermal z.
Proof. exact thermal_coupled. Qed.
Print Assumptions C122_thermal_coupled.

Theorem C122_stringers : forall z, length z = 16%nat -> exists A b, str_system = Some (A, b) /\
  (sat A b z <-> gaps (Sx z) (1/10) 1 5 /\ axial_slopes 6 2 (-2/10) (2/10) (Sx z) (Sz z)).
Proof. exact stringers_iff. Qed.
Print Assumptions C122_stringers.

Theorem C122_stringers_reduced : forall z, in_stringers z <-> in_box_ (map (fun c => c - 2/10) str_center ++ repeat (2/1000) 12) (map (fun c => c + 2/10) str_center ++ repeat (1/100) 12) z /\ gaps (Sx z) (1/10) 1 5.
Proof. exact stringers_reduced. Qed.
Print Assumptions C122_stringers_reduced.

Theorem C122_baffles : forall z, length z = 9%nat -> exists A b, baf_system = Some (A, b) /\
  (sat A b z <-> forall i, (1 <= i <= 4)%nat -> 1/10 <= Bx z i - Bx z (i - 1) <= 26/100).
Proof. exact baffles_iff. Qed.
Print Assumptions C122_baffles.

Theorem C122_dimension : forall corner z, in_design corner z -> length z = 96%nat.
Proof. exact design_dimension. Qed.
Print Assumptions C122_dimension.

Theorem C122_inhabited : forall corner A b, wall_system = Some (A, b) ->
  (forall i, (i < 18)%nat -> is_corner A b 18 (unit_row_ 18 i) (corner (unit_row_ 18 i)) /\ is_corner A b 18 (vscale (-1) (unit_row_ 18 i)) (corner (vscale (-1) (unit_row_ 18 i)))) ->
  in_design corner design_point.
Proof. exact design_inhabited. Qed.
Print Assumptions C122_inhabited.

Theorem C122_corners_exist : exists corner A b, wall_system = Some (A, b) /\
  (forall i, (i < 18)%nat -> is_corner A b 18 (unit_row_ 18 i) (corner (unit_row_ 18 i)) /\ is_corner A b 18 (vscale (-1) (unit_row_ 18 i)) (corner (vscale (-1) (unit_row_ 18 i)))) /\
  (forall z, length z = 18%nat -> (in_wall corner z <-> wall_ok z)) /\ in_design corner design_point.
Proof. exact corners_exist. Qed.
Print Assumptions C122_corners_exist.

Theorem C122_random : length random_parts = 40%nat /\ Forall rdom_ok random_parts.
Proof. exact random_parts_ok. Qed.
Print Assumptions C122_random.

Example C122_wall_case : wall_ok wall_point.
Proof. exact wall_point_ok. Qed.
