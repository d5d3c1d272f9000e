(** Generated by tools/mkprops.py from tools/props/ContProps.spec: the property theorems. *)
Require Import Reals List Bool Arith ZArith.
From Verif Require Import ContModel ContProofs.
Import ListNotations.
Local Open Scope R_scope.

Local Open Scope R_scope.

(** C154: contours written to files *)
Theorem C154_roundtrip_partial : forall f e cs more, Forall (fun lv => Forall (fun p => p <> []) (fst lv)) cs ->
  let o := save_contour f Matlab (map (fun lv => map (flat_map (draw e)) (fst lv)) cs) (map snd cs ++ more) in raised o = None /\ read (lines o) = Some (expected f cs).
Proof. exact contour_roundtrip. Qed.
Print Assumptions C154_roundtrip_partial.

Example C154_case : let tri := mkCurve (0, 0) [(1, 0); (0, 1)] true in let ln := mkCurve (2, 2) [(3, 3)] false in let cs := [([[tri; ln]; [ln]], 1); ([], 2); ([[tri]], 3)] in
  Forall (fun lv => Forall (fun p => p <> []) (fst lv)) cs /\ expected (fun x => x) cs = [(1, [(0, 0); (1, 0); (0, 1); (0, 0)]); (1, [(2, 2); (3, 3)]); (1, [(2, 2); (3, 3)]); (3, [(0, 0); (1, 0); (0, 1); (0, 0)])].
Proof. exact contour_case. Qed.

Theorem C154_empty_refuted : exists cols levels, let o := save_contour (fun x => x) Matlab cols levels in raised o = None /\ concat cols = [[]] /\ read (lines o) = Some [(5, [])].
Proof. exact contour_empty_refuted. Qed.
Print Assumptions C154_empty_refuted.

Theorem C154_prepared : forall f p paths cols z levels, no_curve p -> no_close_first p ->
  let o := save_contour f Prepared ((p :: paths) :: cols) (z :: levels) in raised o = Some NameErr /\ lines o = [].
Proof. exact contour_prepared. Qed.
Print Assumptions C154_prepared.

Theorem C154_curved : forall f e p c q paths cols z levels,
  let o := save_contour f Matlab (((flat_map (draw e) (p ++ [c]) ++ Curve :: q) :: paths) :: cols) (z :: levels) in
  raised o = Some ValueErr /\ read (lines o) = Some (map (fun d => (f z, map (fmt_pt f) (points d))) p).
Proof. exact contour_curved. Qed.
Print Assumptions C154_curved.

Example C154_raise_case : let tri := mkCurve (0, 0) [(1, 0); (0, 1)] true in no_curve (draw (0, 0) tri) /\ no_close_first (draw (0, 0) tri) /\ In (Close (0, 0)) (draw (0, 0) tri).
Proof. exact contour_raise_case. Qed.
