(** Concrete samples for C132. *)
Require Import Reals Lra Lia List Bool Arith.
From Verif Require Import RVec Num Sums BasisModel IndexProofs PolyProofs ArnoldiProofs ArnoldiMoreProofs SubModel PolyfitModel PolyfitProofs LsqAlg.
Import ListNotations.
Local Open Scope R_scope.

Definition pf_X : mat := [[0; 0]; [1; 0]; [0; 1]; [1; 1]].
Definition pf_line : mat := [[0; 0]; [1; 1]; [2; 2]; [3; 3]].
Lemma pf_idx : index_set 1 2 = [[0; 0]; [1; 0]; [0; 1]]%nat.
Proof. vm_compute. reflexivity. Qed.
Lemma pf_poly : forall c x y, poly_of 1 2 c [x; y] = c 0%nat + c 1%nat * x + c 2%nat * y.
Proof. intros. unfold poly_of. rewrite pf_idx. unfold mono. cbn. ring. Qed.
Lemma pf_uni : unisolvent 1 2 pf_X.
Proof.
  intros c H k Hk. rewrite pf_idx in Hk. cbn in Hk. assert (H0 := H [0; 0] ltac:(cbn; auto)). assert (H1 := H [1; 0] ltac:(cbn; auto)). assert (H2 := H [0; 1] ltac:(cbn; auto)). rewrite pf_poly in H0, H1, H2.
  destruct k as [|[|[|k]]]; [lra|lra|lra|lia].
Qed.
Lemma pf_line_not : ~ unisolvent 1 2 pf_line.
Proof.
  intro U. assert (Z := U (fun k => match k with 1%nat => 1 | 2%nat => -1 | _ => 0 end)). assert (A : 1 = 0); [|lra].
  apply (Z ltac:(intros x [<-|[<-|[<-|[<-|[]]]]]; rewrite pf_poly; ring) 1%nat). rewrite pf_idx. cbn. lia.
Qed.
(** on the corners of a square both constructions run without a division by zero, on a line both divide by zero *)
Example breakdown_case : exists Q Rs Q' Rs', vandermonde_arnoldi pf_X 1 2 = Some (Q, Rs) /\ no_breakdown Rs /\ vandermonde_arnoldi pf_line 1 2 = Some (Q', Rs') /\ ~ no_breakdown Rs'.
Proof.
  assert (N1 : pf_X <> []) by discriminate. assert (N2 : pf_line <> []) by discriminate. assert (F1 : Forall (fun x => length x = 2%nat) pf_X) by repeat constructor. assert (F2 : Forall (fun x => length x = 2%nat) pf_line) by repeat constructor.
  destruct (vand_built pf_X 1 2 ltac:(lia) N1) as (Q & Rs & E & _). destruct (vand_built pf_line 1 2 ltac:(lia) N2) as (Q' & Rs' & E' & _). exists Q, Rs, Q', Rs'. split; [auto|]. split.
  - apply (vandermonde_breakdown_iff pf_X 1 2 Q Rs ltac:(lia) N1 F1 E). apply pf_uni.
  - split; [auto|]. intro B. apply pf_line_not. apply (vandermonde_breakdown_iff pf_line 1 2 Q' Rs' ltac:(lia) N2 F2 E'). auto.
Qed.
Example breakdown_arnoldi_case : exists Q Rs Q' Rs', arnoldi pf_X (index_set 1 2) = Some (Q, Rs) /\ no_breakdown Rs /\ arnoldi pf_line (index_set 1 2) = Some (Q', Rs') /\ ~ no_breakdown Rs'.
Proof.
  assert (N1 : pf_X <> []) by discriminate. assert (N2 : pf_line <> []) by discriminate. assert (F1 : Forall (fun x => length x = 2%nat) pf_X) by repeat constructor. assert (F2 : Forall (fun x => length x = 2%nat) pf_line) by repeat constructor.
  destruct (arn_built pf_X 1 2 ltac:(lia) N1) as (Q & Rs & E & _). destruct (arn_built pf_line 1 2 ltac:(lia) N2) as (Q' & Rs' & E' & _). exists Q, Rs, Q', Rs'. split; [auto|]. split.
  - apply (arnoldi_breakdown_iff pf_X 1 2 Q Rs ltac:(lia) N1 F1 E). apply pf_uni.
  - split; [auto|]. intro B. apply pf_line_not. apply (arnoldi_breakdown_iff pf_line 1 2 Q' Rs' ltac:(lia) N2 F2 E'). auto.
Qed.
(** data x y on the corners: the least-squares plane is (2 x + 2 y - 1) / 4 everywhere, with the explicit solver *)
Example polyfitA_best_case : exists d H, polyfitA (lsq 3) pf_X 1 2 [0; 0; 0; 1] = Some (d, H) /\ forall x y, polyvalA 2 2 d H [x; y] = Some (- (1/4) + (1/2) * x + (1/2) * y).
Proof.
  assert (N1 : pf_X <> []) by discriminate. assert (F1 : Forall (fun x => length x = 2%nat) pf_X) by repeat constructor.
  destruct (polyfitA_best (lsq 3) pf_X 1 2 [0;0;0;1] 2 ltac:(lia) N1 F1 eq_refl pf_uni) as (d & H & c & E & V & _ & U).
  { rewrite pf_idx. apply lstsq_ok_exists. } { lia. }
  exists d, H. split; auto. intros x y. rewrite V by auto. rewrite pf_poly.
  assert (K : forall k, (k < 3)%nat -> (fun k : nat => match k with 0%nat => -(1/4) | _ => 1/2 end) k = c k).
  { intros k Hk. apply (U (fun k : nat => match k with 0%nat => -(1/4) | _ => 1/2 end)); [|rewrite pf_idx; auto]. unfold sse, pf_X. cbn [length rsum nth]. rewrite !pf_poly. unfold vget. cbn [nth]. set (a := c 0%nat). set (b := c 1%nat). set (e := c 2%nat).
    assert (P1 := pow2_ge_0 (4 * (a + 1/4) + 2 * (b - 1/2) + 2 * (e - 1/2))). assert (P2 := pow2_ge_0 (b - 1/2)). assert (P3 := pow2_ge_0 (e - 1/2)). nra. }
  f_equal. rewrite <- (K 0%nat), <- (K 1%nat), <- (K 2%nat) by lia. reflexivity.
Qed.
(** a plane is reproduced *)
Example polyfitA_exact_case : exists d H, polyfitA (lsq 3) pf_X 1 2 [5; 7; 2; 4] = Some (d, H) /\ forall x y, polyvalA 2 2 d H [x; y] = Some (5 + 2 * x + -3 * y).
Proof.
  assert (N1 : pf_X <> []) by discriminate. assert (F1 : Forall (fun x => length x = 2%nat) pf_X) by repeat constructor.
  set (c := fun k => match k with 0%nat => 5 | 1%nat => 2 | _ => -3 end).
  destruct (polyfitA_exact (lsq 3) pf_X 1 2 [5;7;2;4] 2 c ltac:(lia) N1 F1) as (d & H & E & V).
  { unfold pf_X. cbn [map]. rewrite !pf_poly. unfold c. repeat (f_equal; try ring). } { apply pf_uni. } { rewrite pf_idx. apply lstsq_ok_exists. } { lia. }
  exists d, H. split; auto. intros x y. rewrite V by auto. rewrite pf_poly. reflexivity.
Qed.
(** the explicit solver on a rank-deficient system *)
Example lstsq_case : exists a, lsq 2 [[1; 2]; [2; 4]; [0; 0]] [1; 1; 1] = Some a /\ lstsq_post 2 [[1; 2]; [2; 4]; [0; 0]] [1; 1; 1] a.
Proof. apply lsq_post. Qed.
