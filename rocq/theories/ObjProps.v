(** Generated by tools/mkprops.py from tools/props/ObjProps.spec: the property theorems. *)
Require Import Reals List Bool Arith ZArith.
From Verif Require Import RVec Num DomModel DomMoreModel DomProofs NormProofs PredModel NbModel DemoModel ObjModel ObjProofs ObjCases.
Import ListNotations.
Local Open Scope R_scope.

Local Open Scope R_scope.

(** C140: exceptions of objects without solver options *)
Theorem C140_conservation : forall fs ops, Forall (fun p => usable (fst p)) fs ->
  (length (filter raised (fst (history fs ops))) + debt (snd (history fs ops)) = debt fs)%nat.
Proof. exact history_debt. Qed.
Print Assumptions C140_conservation.

Theorem C140_first_operations : forall fs ops i a, Forall (fun p => usable (fst p)) fs -> Forall (fun p => scaled (fst p)) fs \/ Forall (fun b => b = Der) ops ->
  nth_error ops i = Some a -> (nth_error (fst (history fs ops)) i = Some None <-> (i < debt fs)%nat).
Proof. exact history_exact. Qed.
Print Assumptions C140_first_operations.

Theorem C140_settled : forall fs a y fs', Forall (fun p => scaled (fst p)) fs \/ a = Der -> runT fs a = (Some y, fs') ->
  exists gs, fs' = map keep gs /\ map fst gs = map fst fs /\ forall b, runT fs' b = (Some (valueT gs b), fs').
Proof. exact settled. Qed.
Print Assumptions C140_settled.

Theorem C140_product_attempts : forall ds ops i a, Forall fine ds -> nth_error ops i = Some a ->
  (nth_error (fst (history (new (map build ds)) ops)) i = Some None <-> (i < open_logs ds)%nat).
Proof. exact product_attempts. Qed.
Print Assumptions C140_product_attempts.

Theorem C140_product_never : forall ds ops i a, Forall fine ds -> Forall (fun d => forall o s, d <> DLog o s None) ds -> nth_error ops i = Some a ->
  exists y, nth_error (fst (history (new (map build ds)) ops)) i = Some (Some y).
Proof. exact product_never. Qed.
Print Assumptions C140_product_never.

Example C140_product_case : Forall fine three_logs /\ open_logs three_logs = 2%nat /\
  map raised (fst (history (new (map build three_logs)) [Unn [1; 1; 1; 1]; Der; Der; Nrm [1; 1; 1; 1]])) = [true; true; false; false].
Proof. exact logs_case. Qed.

Theorem C140_unbounded : forall m ops i a, (0 < m)%nat -> nth_error ops i = Some a ->
  nth_error (fst (history (new [unbounded_obj m]) ops)) i =
    Some (match a with Nrm x => Some (firstn m x) | Unn z => Some (firstn m z) | Der => if Nat.ltb (ders (firstn i ops)) 2 then None else Some (repeat 1 m) end).
Proof. exact unbounded_history. Qed.
Print Assumptions C140_unbounded.

Example C140_unbounded_case : fst (history (new [unbounded_obj 2]) [Unn [3; 4]; Der; Nrm [5; 6]; Der; Der]) = [Some [3; 4]; None; Some [5; 6]; None; Some [1; 1]].
Proof. exact unbounded_case. Qed.

Theorem C140_unbounded_queries_refuted : exists m x, (0 < m)%nat /\ length x = m /\
  (forall nl nu p, corner (unbounded_obj m) nl nu p = None) /\ (forall nl nu, euclid_is_empty (unbounded_obj m) nl nu = None) /\ (forall cl, closest_point (unbounded_obj m) cl x = None).
Proof. exact unbounded_queries_refuted. Qed.
Print Assumptions C140_unbounded_queries_refuted.

Theorem C140_lognormal_unscaled : forall o s ops i a, nth_error ops i = Some a -> (match a with Nrm x => length x | Unn z => length z | Der => 1 end = 1)%nat ->
  nth_error (fst (history (new [lognormal_obj o s None]) ops)) i = Some (match i with O => None | S _ => Some (match a with Nrm x => x | Unn z => z | Der => [1] end) end).
Proof. exact lognormal_identity. Qed.
Print Assumptions C140_lognormal_unscaled.

Theorem C140_lognormal_truncated : forall o s a b z, 0 < s -> a < b ->
  let l := o + s * exp a in let u := o + s * exp b in
  fst (runT (new [lognormal_obj o s (Some (a, b))]) (Unn [z])) = Some [(l + u) / 2 + z * ((u - l) / 2)] /\ l < u.
Proof. exact lognormal_truncated. Qed.
Print Assumptions C140_lognormal_truncated.

Theorem C140_borehole : forall cor z0 zs z, length z0 = 8%nat -> Forall (fun y => length y = 8%nat) zs -> length z = 8%nat ->
  let fs0 := new (borehole_uncertain cor) in
  fst (borehole_eval fs0 z0) = None /\ fst (borehole_eval (snd (history fs0 (map Unn (z0 :: zs)))) z) = Some (borehole (borehole_point z)).
Proof. exact borehole_uncertain_evals. Qed.
Print Assumptions C140_borehole.

Theorem C140_evaluation_refuted : exists fs z, fst (borehole_eval fs z) = None /\ fst (borehole_eval (snd (borehole_eval fs z)) z) = Some (borehole (borehole_point z)) /\ borehole_point z = [0.10; 3000; 89335; 1050; 89.55; 760; 1400; 10950].
Proof. exact evaluation_history_refuted. Qed.
Print Assumptions C140_evaluation_refuted.

(** the point found by the solver is returned *)
Theorem C140_closest_point : forall d cl x0 (P : vec -> Prop), match d with DLog _ _ _ => False | _ => True end ->
  (forall z, P (cl z) /\ forall w, P w -> norm2 (vsub (cl z) z) <= norm2 (vsub w z)) ->
  exists y, closest_point (build d) cl x0 = Some y /\ P y /\ forall w, P w -> norm2 (vsub y x0) <= norm2 (vsub w x0).
Proof. exact closest_nearest. Qed.
Print Assumptions C140_closest_point.

Example C140_closest_point_case : exists y, closest_point (build (DPlain [Fin 0] [Fin 1] (fun _ _ _ => UnboundedExc))) (fun z => [Rmin 1 (Rmax 0 (vget z 0))]) [7] = Some y /\ y = [1].
Proof. exact closest_case. Qed.
