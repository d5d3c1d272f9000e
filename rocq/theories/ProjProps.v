(** Generated by tools/mkprops.py from tools/props/ProjProps.spec: the property theorems. *)
Require Import Reals List Bool Arith ZArith ZArith Permutation.
From Verif Require Import RVec Num DomModel DomSpec DomProofs DomOpsProofs DomMoreModel GeoModel SampModel SampMoreModel LatinProofs ProjSatProofs ProjModel ProjCellProofs ProjLineProofs ProjLhsProofs ProjSearch ProjSampleLoop ProjDesignLoop ProjCases ProjGeo ProjEx ProjKeep Sums.
Import ListNotations.
Local Open Scope R_scope.

Local Open Scope R_scope.

(** C82: Voronoi cells of projected points *)
Theorem C82_design_rows : forall m M Ls Ys coord, (1 <= length Ls)%nat -> (2 <= M)%nat -> vc_shapes m M Ls Ys coord ->
  exists r, vc_rows m Ls Ys coord = Some r /\ forall x, holds r x <->
    forall i, (i < length Ls)%nat -> as_near (mv (nth i Ls []) x) (nth (nth i coord O) (nth i Ys []) []) (nth i Ys []).
Proof. exact vc_rows_spec. Qed.
Print Assumptions C82_design_rows.

Theorem C82_design_single_raises : forall m Ls Ys coord, length (nth 0 Ys []) = 1%nat -> length coord = length Ls -> length Ys = length Ls ->
  (forall i, (i < length Ls)%nat -> nth i coord O = O) -> vc_rows m Ls Ys coord = None.
Proof. exact vc_rows_single. Qed.
Print Assumptions C82_design_single_raises.

Theorem C82_design_cell : forall d M Ls Ys c x, dom_wf d -> proper d -> (1 <= length Ls)%nat -> (2 <= M)%nat -> vc_shapes (dim d) M Ls Ys c ->
  (cell_of d Ls Ys c x <-> member d x /\ forall i, (i < length Ls)%nat -> as_near (mv (nth i Ls []) x) (nth (nth i c O) (nth i Ys []) []) (nth i Ys [])).
Proof. exact cell_of_iff. Qed.
Print Assumptions C82_design_cell.

Theorem C82_sample_cell_rows : forall m L X j neigh x, Forall (fun r => length r = m) L -> Forall (fun r => length r = m) X ->
  (j < length X)%nat -> (forall k, In k neigh -> (k < length X)%nat) ->
  (holds (ps_cell m L X j neigh) x <-> as_near (mv L x) (mv L (nth j X [])) (map (fun k => mv L (nth k X [])) neigh)).
Proof. exact ps_cell_spec. Qed.
Print Assumptions C82_sample_cell_rows.

Theorem C82_sample_neighbours : forall m l X I, length l = m -> Forall (fun r => length r = m) X -> (2 <= length X)%nat -> sorts I (yv l X) (length X) ->
  (forall j k, (j < length X)%nat -> (k < length X)%nat -> yv l X j = yv l X k -> j = k) ->
  exists cs, ps_cells m [l] X I = Some cs /\ length cs = length X /\
    forall j x, (j < length X)%nat -> (holds (nth j cs []) x <-> forall k, (k < length X)%nat -> Rabs (dot l x - dot l (nth j X [])) <= Rabs (dot l x - dot l (nth k X []))).
Proof. exact line_cells. Qed.
Print Assumptions C82_sample_neighbours.

Theorem C82_sample_ties_refuted : exists m l X I cs x, length l = m /\ Forall (fun r => length r = m) X /\ (2 <= length X)%nat /\ sorts I (yv l X) (length X) /\
  ps_cells m [l] X I = Some cs /\ holds (nth 0 cs []) x /\ Rabs (dot l x - dot l (nth 2 X [])) < Rabs (dot l x - dot l (nth 0 X [])).
Proof. exact line_ties_refuted. Qed.
Print Assumptions C82_sample_ties_refuted.

Theorem C82_sample_single_raises : forall L X I m, length X = 1%nat -> ps_cells m L X I = None.
Proof. exact neighbors_single. Qed.
Print Assumptions C82_sample_single_raises.

Theorem C82_sample_planar_raises : forall L X I m, length L <> 1%nat -> ps_cells m L X I = None.
Proof. exact neighbors_planar. Qed.
Print Assumptions C82_sample_planar_raises.

Theorem C82_sample_asserts : forall d l X I tol, dom_wf d -> proper d -> dcls d <> Point -> length l = dim d -> Forall (fun r => length r = dim d) X ->
  (2 <= length X)%nat -> 0 <= tol -> sorts I (yv l X) (length X) ->
  (ps_metric d [l] X I tol <> None <->
   (forall k, (k < length X)%nat -> inside1 d (nth k X []) tol = true) /\
   forall a, (S a < length X)%nat -> 2 * tol < (yv l X (nth (S a) I O) - yv l X (nth a I O)) * (yv l X (nth (S a) I O) - yv l X (nth a I O))).
Proof. exact asserts_iff. Qed.
Print Assumptions C82_sample_asserts.

Theorem C82_sample_subdomain : forall d N ls Xs Is cells tol c x, dom_wf d -> proper d -> dcls d <> Point -> (2 <= N)%nat -> 0 <= tol -> line_metrics d N ls Xs Is cells tol -> tuple_ok (length ls) N c ->
  (sub_of d cells c x <-> member d x /\ forall i k, (i < length ls)%nat -> (k < N)%nat ->
     Rabs (dot (nth i ls []) x - dot (nth i ls []) (nth (nth i c O) (nth i Xs []) [])) <= Rabs (dot (nth i ls []) x - dot (nth i ls []) (nth k (nth i Xs []) []))).
Proof. exact sub_of_iff. Qed.
Print Assumptions C82_sample_subdomain.

Theorem C82_cover : forall (Y : mat) z, Y <> [] -> exists j, (j < length Y)%nat /\ as_near z (nth j Y []) Y.
Proof. exact cells_cover. Qed.
Print Assumptions C82_cover.

Theorem C82_overlap : forall (Y : mat) z j k, (j < length Y)%nat -> (k < length Y)%nat -> as_near z (nth j Y []) Y -> as_near z (nth k Y []) Y ->
  edist z (nth j Y []) = edist z (nth k Y []).
Proof. exact cells_overlap. Qed.
Print Assumptions C82_overlap.

Theorem C82_combinations_cover : forall m M Ls Ys x, (1 <= length Ls)%nat -> (2 <= M)%nat -> length Ys = length Ls ->
  (forall i, (i < length Ls)%nat -> Forall (fun r => length r = m) (nth i Ls []) /\ length (nth i Ys []) = M /\ Forall (fun y => length y = length (nth i Ls [])) (nth i Ys [])) ->
  exists coord r, length coord = length Ls /\ Forall (fun v => (v < M)%nat) coord /\ vc_rows m Ls Ys coord = Some r /\ holds r x.
Proof. exact combos_cover. Qed.
Print Assumptions C82_combinations_cover.

Theorem C82_lhs_slices : forall m l c1 c2 N I, length l = m -> dot l l = 1 -> (2 <= N)%nat -> dot l c1 <> dot l c2 ->
  let X := lhs_points l c1 c2 N in sorts I (yv l X) N ->
  let lo := Rmin (dot l c1) (dot l c2) in let hi := Rmax (dot l c1) (dot l c2) in let h := (hi - lo) / INR N in
  exists cs, ps_cells m [l] X I = Some cs /\ length cs = N /\
    forall j x, (j < N)%nat -> lo <= dot l x <= hi -> (holds (nth j cs []) x <-> lo + INR j * h <= dot l x <= lo + INR (S j) * h).
Proof. exact lhs_cells. Qed.
Print Assumptions C82_lhs_slices.

Theorem C82_lhs_one_per_slice : forall m l c1 c2 N I cs (p : nat -> nat) (x : nat -> vec), length l = m -> dot l l = 1 -> (2 <= N)%nat -> dot l c1 <> dot l c2 ->
  let X := lhs_points l c1 c2 N in sorts I (yv l X) N -> ps_cells m [l] X I = Some cs ->
  let lo := Rmin (dot l c1) (dot l c2) in let hi := Rmax (dot l c1) (dot l c2) in let h := (hi - lo) / INR N in
  Permutation (map p (seq 0 N)) (seq 0 N) -> (forall o, (o < N)%nat -> lo <= dot l (x o) <= hi /\ holds (nth (p o) cs []) (x o)) ->
  forall v, (v < N)%nat -> exists o, (o < N)%nat /\ p o = v /\ lo + INR v * h <= dot l (x o) <= lo + INR (S v) * h /\
    forall q, (q < N)%nat -> q <> o -> lo + INR v * h < dot l (x q) < lo + INR (S v) * h -> False.
Proof. exact lhs_generalized. Qed.
Print Assumptions C82_lhs_one_per_slice.

Theorem C82_lhs_offset_raises : forall d l c1 c2 N I i b tol, dom_wf d -> proper d -> dcls d <> Point -> length l = dim d -> dot l l = 1 -> (1 <= N)%nat -> 0 <= tol ->
  let X := lhs_points l c1 c2 N in sorts I (yv l X) N -> vget l i = 0 -> nth_error (lb d) i = Some (Fin b) -> tol < b -> ps_metric d [l] X I tol = None.
Proof. exact lhs_offset_raises. Qed.
Print Assumptions C82_lhs_offset_raises.

Theorem C82_lhs_narrow_raises : forall d l c1 c2 N I tol, dom_wf d -> proper d -> dcls d <> Point -> length l = dim d -> dot l l = 1 -> (1 <= N)%nat -> 0 <= tol ->
  let X := lhs_points l c1 c2 N in sorts I (yv l X) N -> let h := Rabs (dot l c2 - dot l c1) / INR N in h * h <= 2 * tol -> ps_metric d [l] X I tol = None.
Proof. exact lhs_narrow_raises. Qed.
Print Assumptions C82_lhs_narrow_raises.

Example C82_lhs_case : forall l, l = e1 \/ l = e2 -> exists cs, ps_metric sq [l] (lhs_points l up dn 2) (seq 0 2) tol5 = Some cs /\
  forall j x, (j < 2)%nat -> -1 <= dot l x <= 1 -> (holds (nth j cs []) x <-> -1 + INR j <= dot l x <= -1 + INR (S j)).
Proof. exact lhs_metric_case. Qed.

Example C82_lhs_offset_case : forall tol, 0 <= tol < 1 -> ps_metric (box_of [0; 1] [1; 2]) [e1] (lhs_points e1 [1; 1] [0; 1] 2) (seq 0 2) tol = None.
Proof. exact lhs_offset_case. Qed.

Theorem C82_design_objective : forall m M Ls Ys c x, vc_shapes m M Ls Ys c ->
  edist (mv (concat Ls) x) (vc_target Ys c) * edist (mv (concat Ls) x) (vc_target Ys c) = rsum (length Ls) (fun i => norm2sq (vsub (mv (nth i Ls []) x) (nth (nth i c O) (nth i Ys []) []))).
Proof. exact target_sum. Qed.
Print Assumptions C82_design_objective.

Theorem C82_design_nearest : forall d M Ls Ys K empty pt c, vc_shapes (dim d) M Ls Ys c -> cell_oracles d Ls Ys K M empty pt -> tuple_ok K M c -> empty c = false ->
  forall z, cell_of d Ls Ys c z -> rsum (length Ls) (fun i => norm2sq (vsub (mv (nth i Ls []) (pt c)) (nth (nth i c O) (nth i Ys []) []))) <= rsum (length Ls) (fun i => norm2sq (vsub (mv (nth i Ls []) z) (nth (nth i c O) (nth i Ys []) []))).
Proof. exact target_best. Qed.
Print Assumptions C82_design_nearest.

Example C82_design_case : cell_oracles far_dom far_Ls near_Ys 2 2 (fun _ => false) corner_pt.
Proof. exact near_oracles. Qed.

Example C82_subdomain_case : exists cells, line_metrics sq 2 [e1; e2] (map (fun i => lhs_points (nth i [e1; e2] []) (nth i [up; up] []) (nth i [dn; dn] []) 2) (seq 0 2)) [seq 0 2; seq 0 2] cells tol5 /\
  sample_oracles sq [e1; e2] cells 2 2 (fun _ => false) mid_pt (fun _ x => x) (fun _ x _ _ => x).
Proof. exact sample_case_data. Qed.

Local Open Scope nat_scope.

(** C125: search loops *)
Theorem C125_sample_terminates : forall K N maxiter empty design ord solve fuel, 0 < K -> solver_ok K N solve -> N ^ K + maxiter < fuel ->
  ps_run fuel K N maxiter empty design ord solve <> PRunning.
Proof. exact sample_terminates. Qed.
Print Assumptions C125_sample_terminates.

Theorem C125_sample_best : forall K N maxiter empty design ord solve fuel s, 0 < K -> solver_ok K N solve -> ps_run fuel K N maxiter empty design ord solve = PReturn s ->
  (forall X, st_best s = Some X -> exists p, perms_family K N p /\ feasible empty (cols K N p) /\ X = design (cols K N p) /\
     (forall sol, In sol (st_seen s) -> feasible empty (combs K N sol) -> tup_gt (score_maximin (design (combs K N sol))) (score_maximin X) = false) /\
     (st_it s < maxiter -> forall q, perms_family K N q -> feasible empty (cols K N q) -> tup_gt (score_maximin (design (cols K N q))) (score_maximin X) = false)) /\
  (st_best s = None -> st_it s = 0 /\ (0 < maxiter -> forall q, perms_family K N q -> ~ feasible empty (cols K N q))).
Proof. exact sample_best. Qed.
Print Assumptions C125_sample_best.

Theorem C125_sample_keeps : forall K N maxiter empty design ord solve fuel s q, 0 < K -> solver_ok K N solve -> ps_run fuel K N maxiter empty design ord solve = PReturn s ->
  perms_family K N q -> feasible empty (cols K N q) -> satisfies (asg_of N q) (st_cnf s) /\ combs K N (solution_list (asg_of N q) (K * N * N)) = cols K N q.
Proof. exact sample_keeps. Qed.
Print Assumptions C125_sample_keeps.

Theorem C125_sample_bound_variable : forall K N maxiter empty design ord solve fuel s, 0 < K -> solver_ok K N solve ->
  (forall p, perms_family K N p -> feasible empty (cols K N p) -> tup_gt (score_maximin (design (cols K N p))) (repeat 0%R N) = true) ->
  ps_run fuel K N maxiter empty design ord solve <> PUnbound s.
Proof. exact sample_no_unbound. Qed.
Print Assumptions C125_sample_bound_variable.

Local Open Scope R_scope.

Theorem C125_zero_score : forall X, (2 <= length X)%nat -> (tup_gt (score_maximin X) (repeat 0 (length X)) = false <->
  forall j, (j < length X)%nat -> exists i, (i < length X)%nat /\ i <> j /\ edist (nth i X []) (nth j X []) = 0).
Proof. exact score_zero_iff. Qed.
Print Assumptions C125_zero_score.

Theorem C125_sample_unbound_refuted : exists cells solve, line_metrics diag 2 [e1; e2] [diag_X; diag_X] [seq 0 2; seq 0 2] cells tol5 /\
  sample_oracles diag [e1; e2] cells 2 2 (fun _ => false) diag_pt (fun _ x => x) (fun _ x _ _ => x) /\ solver_ok 2 2 solve /\
  forall ord maxiter fuel, exists s, ps_run (S fuel) 2 2 maxiter (fun _ => false) (ps_design false diag_pt (fun _ x => x) (fun _ x _ _ => x)) ord solve = PUnbound s.
Proof. exact sample_unbound. Qed.
Print Assumptions C125_sample_unbound_refuted.

Theorem C125_sample_projects : forall d N ls Xs Is cells tol maxiter empty pt smp vv fill ord solve fuel s X, dom_wf d -> proper d -> dcls d <> Point -> (1 <= length ls)%nat -> (2 <= N)%nat -> 0 <= tol ->
  line_metrics d N ls Xs Is cells tol -> let K := length ls in sample_oracles d ls cells K N empty pt smp vv -> solver_ok K N solve ->
  ps_run fuel K N maxiter empty (ps_design fill pt smp vv) ord solve = PReturn s -> st_best s = Some X ->
  length X = N /\ exists p, perms_family K N p /\ forall o, (o < N)%nat -> member d (nth o X []) /\ forall i k, (i < K)%nat -> (k < N)%nat ->
     Rabs (dot (nth i ls []) (nth o X []) - dot (nth i ls []) (nth (p i o) (nth i Xs []) [])) <= Rabs (dot (nth i ls []) (nth o X []) - dot (nth i ls []) (nth k (nth i Xs []) [])).
Proof. exact sample_projects. Qed.
Print Assumptions C125_sample_projects.

Theorem C125_sample_latin : forall d N ls c1s c2s Is cells tol maxiter empty pt smp vv fill ord solve fuel s X, dom_wf d -> proper d -> dcls d <> Point -> (1 <= length ls)%nat -> (2 <= N)%nat -> 0 <= tol ->
  line_metrics d N ls (map (fun i => lhs_points (nth i ls []) (nth i c1s []) (nth i c2s []) N) (seq 0 (length ls))) Is cells tol ->
  (forall i, (i < length ls)%nat -> dot (nth i ls []) (nth i ls []) = 1 /\ forall x, member d x -> lhs_lo (nth i ls []) (nth i c1s []) (nth i c2s []) <= dot (nth i ls []) x <= lhs_hi (nth i ls []) (nth i c1s []) (nth i c2s [])) ->
  let K := length ls in sample_oracles d ls cells K N empty pt smp vv -> solver_ok K N solve ->
  ps_run fuel K N maxiter empty (ps_design fill pt smp vv) ord solve = PReturn s -> st_best s = Some X ->
  length X = N /\ forall i v, (i < K)%nat -> (v < N)%nat -> let lo := lhs_lo (nth i ls []) (nth i c1s []) (nth i c2s []) in let h := (lhs_hi (nth i ls []) (nth i c1s []) (nth i c2s []) - lo) / INR N in
    exists o, (o < N)%nat /\ lo + INR v * h <= dot (nth i ls []) (nth o X []) <= lo + INR (S v) * h /\
      forall q, (q < N)%nat -> q <> o -> ~ (lo + INR v * h < dot (nth i ls []) (nth q X []) < lo + INR (S v) * h).
Proof. exact sample_latin. Qed.
Print Assumptions C125_sample_latin.

Local Open Scope nat_scope.

Theorem C125_solver_exists : forall K N, solver_ok K N (brute K N).
Proof. exact solver_exists. Qed.
Print Assumptions C125_solver_exists.

Theorem C125_design_terminates : forall K N maxiter use empty pt ord solve fuel Cs, 0 < K -> solver_ok K N solve -> N ^ K + maxiter < fuel ->
  NoDup Cs -> maxiter <= length Cs -> (forall C, In C Cs -> feasible empty C /\ exists p, perms_family K N p /\ C = cols K N p) ->
  exists s, pd_run fuel K N maxiter use empty pt ord solve = DReturn s.
Proof. exact design_terminates. Qed.
Print Assumptions C125_design_terminates.

Theorem C125_design_best : forall K N maxiter use empty pt ord solve fuel s, 0 < K -> solver_ok K N solve -> pd_run fuel K N maxiter use empty pt ord solve = DReturn s ->
  maxiter <= dt_it s /\ forall X, dt_best s = Some X -> exists p, perms_family K N p /\ feasible empty (cols K N p) /\ X = map pt (cols K N p) /\
    forall sol, In sol (dt_seen s) -> feasible empty (combs K N sol) -> tup_gt (score_maximin (map pt (combs K N sol))) (score_maximin X) = false.
Proof. exact design_best. Qed.
Print Assumptions C125_design_best.

Theorem C125_design_keeps : forall K N maxiter use empty pt ord solve fuel s q, 0 < K -> solver_ok K N solve -> pd_run fuel K N maxiter use empty pt ord solve = DReturn s ->
  perms_family K N q -> feasible empty (cols K N q) -> satisfies (asg_of N q) (dt_cnf s) /\ combs K N (solution_list (asg_of N q) (K * N * N)) = cols K N q.
Proof. exact design_keeps. Qed.
Print Assumptions C125_design_keeps.

Theorem C125_design_found : forall K N maxiter use empty pt ord solve fuel s, 0 < K -> solver_ok K N solve -> 0 < maxiter ->
  (forall p, perms_family K N p -> feasible empty (cols K N p) -> tup_gt (score_maximin (map pt (cols K N p))) (repeat 0%R N) = true) ->
  pd_run fuel K N maxiter use empty pt ord solve = DReturn s -> exists X, dt_best s = Some X.
Proof. exact design_found. Qed.
Print Assumptions C125_design_found.

Theorem C125_design_bound_variable : forall K N maxiter use empty pt ord solve fuel, 0 < K -> solver_ok K N solve -> pd_run fuel K N maxiter use empty pt ord solve <> DUnbound.
Proof. exact design_bound. Qed.
Print Assumptions C125_design_bound_variable.

Local Open Scope R_scope.

Theorem C125_design_projects : forall d Ls Ys M maxiter use empty pt ord solve fuel s X, dom_wf d -> proper d -> (1 <= length Ls)%nat -> (2 <= M)%nat -> shapes (dim d) M Ls Ys ->
  let K := length Ls in cell_oracles d Ls Ys K M empty pt -> solver_ok K M solve ->
  pd_run fuel K M maxiter use empty pt ord solve = DReturn s -> dt_best s = Some X ->
  length X = M /\ exists p, perms_family K M p /\ forall o, (o < M)%nat -> member d (nth o X []) /\
    forall i, (i < K)%nat -> as_near (mv (nth i Ls []) (nth o X [])) (nth (p i o) (nth i Ys []) []) (nth i Ys []).
Proof. exact design_projects. Qed.
Print Assumptions C125_design_projects.

Local Open Scope nat_scope.

Theorem C125_design_infeasible_hangs : forall K N maxiter use empty pt ord solve, 0 < K -> solver_ok K N solve -> 0 < maxiter ->
  (forall p, perms_family K N p -> ~ feasible empty (cols K N p)) -> forall fuel, pd_run fuel K N maxiter use empty pt ord solve = DRunning.
Proof. exact design_infeasible_hangs. Qed.
Print Assumptions C125_design_infeasible_hangs.

Local Open Scope R_scope.

Theorem C125_design_far_refuted : forall use empty pt ord solve maxiter, cell_oracles far_dom far_Ls far_Ys 2 2 empty pt -> solver_ok 2 2 solve -> (0 < maxiter)%nat ->
  forall fuel, pd_run fuel 2 2 maxiter use empty pt ord solve = DRunning.
Proof. exact design_far_hangs. Qed.
Print Assumptions C125_design_far_refuted.

Local Open Scope nat_scope.

Theorem C125_design_exhausted_refuted : forall solve ord pt use, solver_ok 2 2 solve ->
  exists empty, (exists p, perms_family 2 2 p /\ feasible empty (cols 2 2 p)) /\ forall fuel, pd_run fuel 2 2 2 use empty pt ord solve = DRunning.
Proof. exact design_hangs. Qed.
Print Assumptions C125_design_exhausted_refuted.

Local Open Scope R_scope.

Example C125_sample_case : forall solve ord fill, solver_ok 2 2 solve -> exists cells s X, line_metrics sq 2 [e1; e2] (map (fun i => lhs_points (nth i [e1; e2] []) (nth i [up; up] []) (nth i [dn; dn] []) 2) (seq 0 2)) [seq 0 2; seq 0 2] cells tol5 /\
  sample_oracles sq [e1; e2] cells 2 2 (fun _ => false) mid_pt (fun _ x => x) (fun _ x _ _ => x) /\
  ps_run 15 2 2 10 (fun _ => false) (ps_design fill mid_pt (fun _ x => x) (fun _ x _ _ => x)) ord solve = PReturn s /\ st_best s = Some X /\ length X = 2%nat /\
  forall i, (i < 2)%nat -> exists o, (o < 2)%nat /\ -1 <= dot (nth i [e1; e2] []) (nth o X []) <= 0.
Proof. exact sample_latin_case. Qed.

Example C125_design_case : forall solve use ord, solver_ok 2 2 solve -> exists s X, pd_run 7 2 2 2 use (fun _ => false) corner_pt ord solve = DReturn s /\ dt_best s = Some X /\
  length X = 2%nat /\ exists p, perms_family 2 2 p /\ forall o, (o < 2)%nat -> member far_dom (nth o X []) /\ forall i, (i < 2)%nat -> as_near (mv (nth i far_Ls []) (nth o X [])) (nth (p i o) (nth i near_Ys []) []) (nth i near_Ys []).
Proof. exact design_near. Qed.

Example C125_far_case : forall use ord, (forall fuel, pd_run fuel 2 2 5 use (fun c => Nat.eqb (nth 1 c O) 1) (fun c => [INR (nth 0 c O); 0]) ord (brute 2 2) = DRunning) /\ member far_dom [0; 1].
Proof. exact design_far_case. Qed.

Theorem C125_assumptions : forall K N asg0 asg keep, (0 < K)%nat -> satisfies asg0 (geo_cnf K N) -> satisfies asg (geo_cnf K N) -> Forall (fun k => (k < N)%nat) keep ->
  ((forall l, In l (asm_of K N (solution_list asg0 (K * N * N)) keep) -> lit_true asg l) <->
   forall k, In k keep -> comb K N (solution_list asg (K * N * N)) k = comb K N (solution_list asg0 (K * N * N)) k).
Proof. exact asm_exact. Qed.
Print Assumptions C125_assumptions.

Theorem C125_assumptions_keep : forall K N solve i F seen asg0 keep sol', (0 < K)%nat -> solver_ok K N solve -> (forall c, In c (geo_cnf K N) -> In c F) -> satisfies asg0 (geo_cnf K N) -> Forall (fun k => (k < N)%nat) keep ->
  solve i F seen (asm_of K N (solution_list asg0 (K * N * N)) keep) = Some sol' -> forall k, In k keep -> comb K N sol' k = comb K N (solution_list asg0 (K * N * N)) k.
Proof. exact asm_keeps. Qed.
Print Assumptions C125_assumptions_keep.

Example C125_assumptions_case : satisfies (asg_of 2 swap22) (geo_cnf 2 2) /\ comb 2 2 (solution_list (asg_of 2 swap22) 8) 0 = [0; 1]%nat /\ Forall (fun k => (k < 2)%nat) [0%nat] /\
  exists sol, brute 2 2 0 (geo_cnf 2 2) [] (asm_of 2 2 (solution_list (asg_of 2 swap22) 8) [0%nat]) = Some sol /\ combs 2 2 sol = [[0; 1]; [1; 0]]%nat.
Proof. exact asm_case. Qed.

Theorem C125_sweep : forall vv N X, length X = N -> let Y := fst (pf_sweep vv N X) in let move := snd (pf_sweep vv N X) in
  length Y = N /\ (forall i, (i < N)%nat -> nth i Y [] = vv i (firstn i Y ++ skipn (S i) X) (nth i X [])) /\
  (forall i j, (i < N)%nat -> (j < length (nth i X []))%nat -> length (nth i Y []) = length (nth i X []) -> Rabs (vget (nth i X []) j - vget (nth i Y []) j) <= move).
Proof. exact sweep_rows. Qed.
Print Assumptions C125_sweep.

Theorem C125_sweep_stationary : forall vv N X, length X = N -> (forall i Xt x, (i < N)%nat -> length (vv i Xt x) = length x) -> snd (pf_sweep vv N X) = 0 ->
  fst (pf_sweep vv N X) = X /\ forall i, (i < N)%nat -> vv i (without i X) (nth i X []) = nth i X [].
Proof. exact sweep_stationary. Qed.
Print Assumptions C125_sweep_stationary.

Example C125_sweep_case : let vv := fun (i : nat) (Xt : mat) (x : vec) => [(vget x 0 + vget (nth 0 Xt []) 0) / 2] in
  fst (pf_sweep vv 2 [[0]; [8]]) = [[4]; [6]] /\ snd (pf_sweep vv 2 [[0]; [8]]) = 4 /\ fst (pf_sweep vv 2 [[3]; [3]]) = [[3]; [3]] /\ snd (pf_sweep vv 2 [[3]; [3]]) = 0.
Proof. exact sweep_case. Qed.
