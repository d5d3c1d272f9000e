(** Generated by tools/mkprops.py from tools/props/BldProps.spec: the property theorems. *)
Require Import String.
Require Import Reals List Bool Arith ZArith.
From Verif Require Import NamesModel BldModel BldProofs.
Import ListNotations.
Local Open Scope R_scope.

Local Open Scope R_scope.

(** C155: builders of the demonstration domains *)
Theorem C155_control_points_refuted : forall n, (exists d, oas_design n = Some d) <-> n = 3%nat.
Proof. exact oas_control_points. Qed.
Print Assumptions C155_control_points_refuted.

Theorem C155_wing : exists d, oas_domain = Some d /\ well_named d 12 /\ names (b_dom d) = ["twist 1"; "twist 2"; "twist 3"; "thickness 1"; "thickness 2"; "thickness 3"; "root chord"; "taper ratio"; "angle of attack"; "Young's modulus of the spar [Pa]"; "sheear modulus of the spar [Pa]"; "material density [kg/m^3]"]%string /\
  forall t1 t2 t3 h1 h2 h3 c r a E G rho, in_bounds d [t1; t2; t3; h1; h2; h3; c; r; a; E; G; rho] <->
    Forall (fun t => Rabs t <= 1) [t1; t2; t3] /\ Forall (fun h => 0.005 <= h <= 0.05) [h1; h2; h3] /\ Rabs (c - 1) <= 0.3 /\ Rabs (r - 1) <= 0.25 /\ 2 <= a <= 5 /\
    Rabs (E - 70e9) <= 0.2 * 70e9 /\ Rabs (G - 30e9) <= 0.2 * 30e9 /\ Rabs (rho - 3e3) <= 0.2 * 3e3.
Proof. exact oas_named. Qed.
Print Assumptions C155_wing.

Example C155_wing_case : exists d, oas_domain = Some d /\ in_bounds d [0; 0; 0; 0.0275; 0.0275; 0.0275; 1; 1; 3.5; 70e9; 30e9; 3e3].
Proof. exact oas_case. Qed.

Theorem C155_airfoil : forall nl nu f, exists d, hicks_henne nl nu f = Some d /\ well_named d (nl + nu) /\
  (forall i, (i < nl)%nat -> exists s, nth_error (names (b_dom d)) i = Some ("lower bump" ++ s)%string) /\ (forall i, (nl <= i < nl + nu)%nat -> exists s, nth_error (names (b_dom d)) i = Some ("upper bump" ++ s)%string) /\
  forall x, in_bounds d x <-> List.length x = (nl + nu)%nat /\ Forall (fun t => Rabs t <= f) x.
Proof. exact airfoil_named. Qed.
Print Assumptions C155_airfoil.

Example C155_airfoil_case : exists d, hicks_henne 1 2 0.01 = Some d /\ names (b_dom d) = ["lower bump"; "upper bump 1"; "upper bump 2"]%string.
Proof. exact airfoil_case. Qed.

Theorem C155_clip_refuted : forall isf clip x, List.length (golinski_random isf clip) = 6%nat /\ Forall (fun d => in_normal d x /\ n_solver d = [("clip"%string, clip)]) (golinski_random isf clip).
Proof. exact gearbox_clip_refuted. Qed.
Print Assumptions C155_clip_refuted.

Theorem C155_truncate : forall isf s t x, 0 < s -> 0 <= isf t -> (in_normal (normal isf 0 (s ^ 2) [("truncate"%string, Some t)]) x <-> Rabs x <= s * sqrt (isf t)).
Proof. exact gearbox_truncate. Qed.
Print Assumptions C155_truncate.

Example C155_truncate_case : 0 < 21e-4 /\ 0 <= (fun _ : R => 9) (1/1000).
Proof. exact gearbox_truncate_case. Qed.

Theorem C155_nozzle_partial : forall lin kw, lin [] = true -> (multif_domain lin kw = BOk <-> kw = []).
Proof. exact nozzle_keywords. Qed.
Print Assumptions C155_nozzle_partial.

Example C155_nozzle_case : (fun kw => negb (existsb (String.eqb "names") kw)) [] = true /\ multif_domain (fun kw => negb (existsb (String.eqb "names") kw)) ["solver"%string] = BTypeErr.
Proof. exact nozzle_case. Qed.

Theorem C155_nozzle_random_refuted : forall globals, multif_random globals = BOk <-> In "kwargs"%string globals.
Proof. exact nozzle_random_refuted. Qed.
Print Assumptions C155_nozzle_random_refuted.

Example C155_nozzle_random_case : multif_random ["MULTIF"; "multif"; "build_multif_domain"]%string = BNameErr.
Proof. exact nozzle_random_case. Qed.
