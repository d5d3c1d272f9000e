(** Model of psdr/demos/_multif_domains3d.py: the design domain and the random domain of the nozzle.  Decimal numbers of the code are
    written as fractions.  A LinIneqDomain with A, b, lb, ub is given by its membership predicate; its other methods are modelled elsewhere. *)
Require Import Reals List Bool Arith.
From Verif Require Import RVec Num DomMoreModel NozModel NozProofs.
Import ListNotations.
Local Open Scope R_scope.

(* ------------------------------------------------------------------ wall, 58-63 *)
Definition wall1_x : vec := [0; 0; 3/10; 575/1000; 115/100; 17262/10000; 2; 233702/100000; 233702/100000;
  99908/1000000; 99908/1000000; 99908/1000000; 12/100; 14/100; 17/100; 19/100; 19/100; 19/100].
Definition wall1_v : list nat := [0; 0; 0; 1; 2; 3; 0; 0; 0; 0; 0; 0; 4; 5; 6; 0; 0; 0]%nat.
Definition wall2_x : vec := [0; 0; 3/10; 7/10; 115/100; 16/10; 18/10; 233702/100000; 233702/100000;
  439461/1000000; 439461/1000000; 439461/1000000; 6/10; 7/10; 8/10; 85/100; 92/100; 92/100].
Definition wall2_v : list nat := [0; 0; 0; 7; 8; 9; 10; 0; 0; 0; 0; 0; 11; 12; 13; 14; 0; 0]%nat.
Definition wall3_x : vec := [0; 0; 3/10; 7/10; 115/100; 16/10; 233702/100000; 233702/100000;
  439461/1000000; 439461/1000000; 439461/1000000; 3/10; 29/100; 26/100; 24/100; 24/100].
Definition wall3_v : list nat := [0; 0; 0; 7; 8; 15; 0; 0; 0; 0; 0; 16; 17; 18; 0; 0]%nat.

(** the constraints of the three curves, 124-133 *)
Definition wall1 : outcome := bspline wall1_x wall1_v 0 (LVal (-3/10)) (LVal (3/10)) (LVal (-3/10)) (LVal (3/10)) None (Some (23/10)) (2/10) false (Some (-5/100)) (Some (1/10)).
Definition wall2 : outcome := bspline wall2_x wall2_v 0 (LVal (5/100)) (LVal (12/10)) (LList [5/100; 5/100; 5/100; -2/10; -2/10; -1/10]) (LList [6/10; 6/10; 6/10; 5/10; 4/10; 3/10])
  None (Some (23/10)) (2/10) false (Some (4/10)) None.
Definition wall3 : outcome := bspline wall3_x wall3_v 0 (LVal (-12/10)) (LVal (6/10)) (LVal (-3/10)) (LVal (6/10)) None (Some (23/10)) (2/10) false (Some (1/10)) (Some (5/10)).
(** Acouple, bcouple, 137-145 *)
Definition couple_A : mat := [brow 18 ([put 10 1; put 15 1], 0); brow 18 ([put 11 1; put 10 (-1); put 16 1; put 15 (-1)], 0)].
Definition couple_b : vec := [439461/1000000 * 2; 0].
(** Awall, bwall, 134-147 *)
Definition wall_system : option (mat * vec) :=
  match wall1, wall2, wall3 with
  | Done A1 b1, Done A2 b2, Done A3 b3 =>
      match cleanup [(vmaxn wall1_v, A1, b1); (vmaxn wall2_v, A2, b2); (vmaxn wall3_v, A3, b3)] with
      | Some (A, b) => Some (A ++ couple_A, b ++ couple_b)
      | None => None
      end
  | _, _, _ => None
  end.
(** membership in a LinIneqDomain *)
Definition in_box_ (lb ub z : vec) : Prop := length z = length lb /\ forall i, (i < length z)%nat -> vget lb i <= vget z i <= vget ub i.
Definition in_lin (sys : option (mat * vec)) (lb ub z : vec) : Prop :=
  match sys with Some (A, b) => sat A b z /\ in_box_ lb ub z | None => False end.
(** bounds of the wall from the corners, 156-166; corner is the method of the domain without bounds *)
Definition wall_lb (corner : vec -> vec) : vec := map (fun i => vget (corner (vscale (-1) (unit_row_ 18 i))) i) (seq 0 18).
Definition wall_ub (corner : vec -> vec) : vec := map (fun i => vget (corner (unit_row_ 18 i)) i) (seq 0 18).
Definition in_wall (corner : vec -> vec) (z : vec) : Prop := in_lin wall_system (wall_lb corner) (wall_ub corner) z.

(* ------------------------------------------------------------------ layers, 71-99, 169-222 *)
Definition layer_v : list nat := [0; 1; 0; 0; 0; 0; 0; 2; 3; 4; 5; 6; 7; 8; 9; 10; 11; 12; 13]%nat.
Definition layer_loc : vec := [0; 5/10; 1].
Definition layer_ang : vec := [0; 90; 180; 270].
(** t = the nominal thickness *)
Definition layer_values (t : R) : vec := repeat t 12.
Definition clean1 (n : nat) (o : outcome) : option (mat * vec) := match o with Done A b => cleanup [(n, A, b)] | _ => None end.
Definition layer_system (t : R) : option (mat * vec) :=
  clean1 (vmaxn layer_v) (piecewiseBilinearAxial layer_loc layer_ang (layer_values t) layer_v (-2/10) (2/10) (Some 0) (Some 1) (15/100) (Some 60) (Some (1/100))).
(** lb = hstack(lb_perc*x[0], lo*ones(12)), with lb_perc = 0.8, ub_perc = 1.2 and x[0] = 0.5 the first entry with a variable *)
Definition in_layer (t lo hi : R) (z : vec) : Prop := in_lin (layer_system t) (8/10 * (5/10) :: repeat lo 12) (12/10 * (5/10) :: repeat hi 12) z.
Definition in_thermal : vec -> Prop := in_layer (3/100) (1/100) (5/100).
Definition in_load1 : vec -> Prop := in_layer (2/1000) (1/1000) (6/1000).
Definition in_load2 : vec -> Prop := in_layer (13/1000) (64/10000) (159/10000).
Definition in_load3 : vec -> Prop := in_layer (2/1000) (1/1000) (6/1000).
(** air gap, 183 *)
Definition in_gap (z : vec) : Prop := in_box_ [3/1000] [5/100] z.

(* ------------------------------------------------------------------ stringers, 103-107, 225-241 *)
Definition str_loc : vec := [0; 2/10; 4/10; 6/10; 8/10; 1].
Definition str_v : list nat := [0; 1; 2; 3; 4; 0; 0; 0; 5; 6; 7; 8; 9; 10; 11; 12; 13; 14; 15; 16]%nat.
Definition str_system : option (mat * vec) :=
  clean1 (vmaxn str_v) (piecewiseBilinearAxial str_loc [90; 270] (repeat (1/100) 12) str_v (-2/10) (2/10) (Some 0) (Some 1) (1/10) None None).
Definition str_center : vec := [10329229/100000000; 59437729/100000000; 79062522/100000000; 89692417/100000000].
Definition in_stringers (z : vec) : Prop :=
  in_lin str_system (map (fun c => c - 2/10) str_center ++ repeat (2/1000) 12) (map (fun c => c + 2/10) str_center ++ repeat (1/100) 12) z.

(* ------------------------------------------------------------------ baffles, 111-115, 244-252 *)
Definition baf_loc : vec := [0; 2/10; 4/10; 6/10; 8/10].
Definition baf_v : list nat := [0; 1; 2; 3; 4; 5; 6; 7; 8; 9]%nat.
Definition baf_system : option (mat * vec) := clean1 (vmaxn baf_v) (baffles baf_loc (repeat (1/100) 5) baf_v (1/10) (26/100)).
Definition in_baffles (z : vec) : Prop :=
  in_lin baf_system (map (fun c => c - 15/100) [2/10; 4/10; 6/10; 8/10] ++ repeat (74/10000) 5) (map (fun c => c + 15/100) [2/10; 4/10; 6/10; 8/10] ++ repeat (359/10000) 5) z.

(* ------------------------------------------------------------------ the tensor product, 257-261 *)
(** consecutive slices of the vector, one for each domain *)
Fixpoint in_product (ds : list (nat * (vec -> Prop))) (z : vec) : Prop :=
  match ds with
  | [] => z = []
  | (n, D) :: ds' => D (firstn n z) /\ in_product ds' (skipn n z)
  end.
Definition design_parts (corner : vec -> vec) : list (nat * (vec -> Prop)) :=
  [(18, in_wall corner); (13, in_thermal); (1, in_gap); (13, in_load1); (13, in_load2); (13, in_load3); (16, in_stringers); (9, in_baffles)]%nat.
Definition in_design (corner : vec -> vec) (z : vec) : Prop := in_product (design_parts corner) z.

(* ------------------------------------------------------------------ random domain, 266-350 *)
(** [LN mean cov scaling]: LogNormalDomain with one component; the truncation is left out *)
Inductive rdom : Type := UD (lo hi : R) | LN (mean cov scaling : R).
Definition random_parts : list rdom :=
  [LN (77803/10000) ((182/10000)^2) 1; LN (42047/10000) ((551/10000)^2) (10^9); UD (23/100) (43/100); UD (137/100) (145/100);
   UD (228/1000/10^6) (252/1000/10^6); LN (-26694/10000) ((1421/10000)^2) (1/100); UD 963 983;
   UD 1563 1573; UD (57*10^9) (63*10^9); UD (57*10^9) (63*10^9); UD (226/10*10^9) (24*10^9); UD (334/1000) (354/1000); UD (-1/10) (1/10); UD (-1/10) (1/10);
   UD (3208/1000) (3546/1000); UD (3208/1000) (3546/1000); UD (3243/1000) (3585/1000);
   UD (116/100/10^6) (124/100/10^6); UD (116/100/10^6) (124/100/10^6); UD (-4/100/10^6) (4/100/10^6);
   UD (675/1000/100) (825/1000/100); UD (-572/1000/100) (-494/1000/100); UD (675/1000/100) (825/1000/100); UD (-572/1000/100) (-494/1000/100); UD (153/1000/100) (187/1000/100); UD 500 510;
   UD (17777/100) (18137/100); LN (6441/10000) ((779/10000)^2) (10^9); UD (160/1000) (196/1000); UD (680/1000) (736/1000); UD (288/100/10^6) (306/100/10^6);
   LN (255/100) ((1205/10000)^2) (10^6); UD 745 765;
   UD (320/10000) (530/10000); LN (43191/10000) ((1196/10000)^2) (10^6); LN (115010/10000) ((579/10000)^2) 1; LN (68615/10000) ((119/10000)^2) 1;
   LN (98386/10000) ((323/10000)^2) 1; LN (53781/10000) ((282/10000)^2) 1; LN (25090/10000) (2285/10000) 1].
