(** Files with one number: np.loadtxt gives an array without axes. *)
Require Import Reals List Bool Arith Lia.
From Verif Require Import RVec DrvModel.
Import ListNotations.
Local Open Scope R_scope.
(** a vector that is written and read comes back as a vector only when it does not have exactly one entry; with one entry it has no length *)
Theorem vector_file : forall fmt v a, match savetxt fmt (A1 v) with Some f => loadtxt f | None => None end = Some a ->
  (List.length v = 1%nat -> a = A0 (fmt (hd 0 v)) /\ arr_len a = None) /\ (List.length v <> 1%nat -> a = A1 (map fmt v) /\ arr_len a = Some (List.length v)).
Proof.
  intros fmt v a. cbn [savetxt]. unfold loadtxt.
  assert (EF : filter (fun l : vec => negb (Nat.eqb (List.length l) 0)) (map (fun x => [fmt x]) v) = map (fun x => [fmt x]) v) by (induction v as [|x v IH]; auto; cbn [map filter List.length Nat.eqb negb]; f_equal; auto). rewrite EF.
  destruct (forallb _ _); [|discriminate]. intro H. injection H as <-. destruct v as [|x [|y v]].
  - split; intro H; [discriminate|split; reflexivity].
  - split; intro H; [split; reflexivity|simpl in H; lia].
  - split; intro H; [discriminate|]. assert (E : squeeze (map (fun x0 => [fmt x0]) (x :: y :: v)) = A1 (map fmt (x :: y :: v))). { cbn [map squeeze List.length Nat.eqb]. do 2 f_equal. unfold vget. cbn [nth]. f_equal. rewrite map_map. cbn [nth]. reflexivity. }
    rewrite E. split; auto. cbn [arr_len]. rewrite map_length. auto.
Qed.
Example vector_file_case : match savetxt (fun x => x) (A1 [7]) with Some f => loadtxt f | None => None end = Some (A0 7) /\ match savetxt (fun x => x) (A1 [7; 8; 9]) with Some f => loadtxt f | None => None end = Some (A1 [7; 8; 9]).
Proof. split; reflexivity. Qed.
