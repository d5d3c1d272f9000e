(** Generated by tools/mkprops.py from tools/props/LipDataProps.spec: the property theorems. *)
Require Import Reals List Bool Arith ZArith.
From Verif Require Import RVec LipDataModel LipDataProofs.
Import ListNotations.
Local Open Scope R_scope.

Local Open Scope R_scope.

(** C152: data given to the Lipschitz fits *)
Theorem C152_kept : forall m xs v gs, (0 < m)%nat -> xs <> [] -> Forall (fun r => length r = m) xs -> length v = length xs -> (forall g, gs = Some g -> Forall (fun r => length r = m) g) ->
  lip_data (Some (D2 m xs)) (Some (FA (D1 v))) (option_map (D2 m) gs) = DOk (mkData m xs v (match gs with Some g => g | None => [] end)).
Proof. exact data_kept. Qed.
Print Assumptions C152_kept.

Example C152_case : lip_data (Some (D2 2 [[0; 1]; [2; 3]])) (Some (FA (D2 1 [[5]; [6]]))) (Some (D2 2 [[1; 1]])) = DOk (mkData 2 [[0; 1]; [2; 3]] [5; 6] [[1; 1]]).
Proof. exact data_case. Qed.

Theorem C152_grads_only : forall m gs, (0 < m)%nat -> gs <> [] -> Forall (fun r => length r = m) gs -> lip_data None None (Some (D2 m gs)) = DOk (mkData m [] [] gs).
Proof. exact data_grads_only. Qed.
Print Assumptions C152_grads_only.

Theorem C152_column : forall X v gs, lip_data X (Some (FA (D2 1 (map (fun a => [a]) v)))) gs = lip_data X (Some (FA (D1 v))) gs.
Proof. exact data_column. Qed.
Print Assumptions C152_column.

Theorem C152_shapes : forall X fX gs d, (forall a, X = Some a -> rect2 a) -> lip_data X fX gs = DOk d ->
  length (l_fX d) = length (l_X d) /\ Forall (fun r => length r = l_dim d) (l_X d) /\ Forall (fun r => length r = l_dim d) (l_grads d) /\
  (forall a, gs = Some a -> concat (l_grads d) = entries a) /\ (gs = None -> l_grads d = []) /\ (X = None <-> fX = None) /\ (forall f, fX = Some (FA f) -> l_fX d = entries f).
Proof. exact data_shapes. Qed.
Print Assumptions C152_shapes.

(** gradients of another dimension are cut into rows of the right length *)
Theorem C152_grads_accepted : forall m xs v g, (0 < m)%nat -> xs <> [] -> Forall (fun r => length r = m) xs -> length v = length xs ->
  (exists d, lip_data (Some (D2 m xs)) (Some (FA (D1 v))) (Some g) = DOk d) <-> (length (entries g) mod m)%nat = O.
Proof. exact data_grads_accepted. Qed.
Print Assumptions C152_grads_accepted.

Theorem C152_mismatch_refuted : exists xs v gs d, Forall (fun r : vec => length r = 3%nat) xs /\ Forall (fun r : vec => length r = 2%nat) gs /\ lip_data (Some (D2 3 xs)) (Some (FA (D1 v))) (Some (D2 2 gs)) = DOk d /\ l_grads d = [[1; 2; 3]; [4; 5; 6]] /\ gs = [[1; 2]; [3; 4]; [5; 6]].
Proof. exact mismatch_refuted. Qed.
Print Assumptions C152_mismatch_refuted.

Theorem C152_transposed : forall m M xs v gs, (0 < m)%nat -> xs <> [] -> Forall (fun r => length r = m) xs -> length v = length xs -> length gs = m -> Forall (fun r => length r = M) gs ->
  exists d, lip_data (Some (D2 m xs)) (Some (FA (D1 v))) (Some (D2 M gs)) = DOk d /\ length (l_grads d) = M.
Proof. exact transposed_accepted. Qed.
Print Assumptions C152_transposed.

Example C152_transposed_case : exists d, lip_data (Some (D2 2 [[0; 1]; [2; 3]])) (Some (FA (D1 [5; 6]))) (Some (D2 3 [[1; 2; 3]; [4; 5; 6]])) = DOk d /\ l_grads d = [[1; 2]; [3; 4]; [5; 6]].
Proof. exact transposed_case. Qed.

Theorem C152_empty : forall m gs, (0 < m)%nat -> gs <> [] -> Forall (fun r => length r = m) gs ->
  lip_data (Some (D2 m [])) (Some (FA (D1 []))) (Some (D2 m gs)) = lip_data None None (Some (D2 m gs)) /\ lip_data (Some (D1 [])) (Some (FA (D1 []))) (Some (D2 m gs)) = DErr XValue.
Proof. exact empty_data. Qed.
Print Assumptions C152_empty.

Theorem C152_flat : forall a v fX gs, lip_data (Some (D1 (a :: v))) fX gs = DErr XType.
Proof. exact flat_samples. Qed.
Print Assumptions C152_flat.

Theorem C152_half : forall X f gs d, lip_data (Some X) None gs <> DOk d /\ lip_data None (Some f) gs <> DOk d.
Proof. exact half_data. Qed.
Print Assumptions C152_half.
