(** The design domain of the nozzle: meaning of its constraints, points inside and outside, dropped constraints, dimensions. *)
Require Import Reals Lra Lia List Bool Arith.
From Verif Require Import RVec Num Sums DomMoreModel NozModel NozProofs NozMore NozCases NozData.
Import ListNotations.
Local Open Scope R_scope.

(* ------------------------------------------------------------------ tools *)
Fixpoint nodupb (l : list nat) : bool := match l with [] => true | a :: l => andb (negb (existsb (Nat.eqb a) l)) (nodupb l) end.
Lemma nodupb_spec : forall l, nodupb l = true -> NoDup l.
Proof.
  induction l as [|a l IH]; simpl; intro H; constructor; apply andb_true_iff in H; destruct H as [H1 H2]; auto.
  intro X. apply negb_true_iff in H1. apply not_true_iff_false in H1. apply H1. apply existsb_exists. exists a. split; auto. apply Nat.eqb_refl.
Qed.
Definition plainb (v : list nat) (r : constr) : bool :=
  andb (nodupb (map fst (fst r))) (forallb (fun e => forallb (fun e' => orb (Nat.eqb (nth (fst e) v 0%nat) 0) (orb (negb (Nat.eqb (nth (fst e) v 0%nat) (nth (fst e') v 0%nat))) (Nat.eqb (fst e) (fst e')))) (fst r)) (fst r)).
Lemma plainb_spec : forall v r, plainb v r = true -> Forall (fun e => snd e <> 0) (fst r) -> plain v r.
Proof.
  intros v r H NZ. apply andb_true_iff in H. destruct H as [H1 H2]. split; [apply nodupb_spec; auto|split; auto].
  intros e e' He He' N Q. rewrite forallb_forall in H2. specialize (H2 e He). rewrite forallb_forall in H2. specialize (H2 e' He').
  apply orb_true_iff in H2. destruct H2 as [H2|H2]; [apply Nat.eqb_eq in H2; contradiction|]. apply orb_true_iff in H2. destruct H2 as [H2|H2]; [|apply Nat.eqb_eq; auto].
  rewrite Q, Nat.eqb_refl in H2. discriminate.
Qed.
Lemma plain_all : forall v rows, forallb (plainb v) rows = true -> Forall (fun r : constr => Forall (fun e => snd e <> 0) (fst r)) rows -> Forall (plain v) rows.
Proof.
  intros v rows H NZ. rewrite forallb_forall in H. rewrite Forall_forall in *. intros r Hr. apply plainb_spec; auto.
Qed.
Lemma finish_shape : forall lim n v x rows A b, finish lim n v x rows = Done A b -> well_shaped (vmaxn v, A, b).
Proof.
  intros lim n v x rows A b E. unfold finish, fillB in E. match type of E with context [if ?c then Some _ else None] => destruct c; [|discriminate] end.
  match type of E with context [if ?c then Raised else _] => destruct c eqn:O; [discriminate|] end.
  apply orb_false_iff in O. destruct O as [O1 _]. apply Nat.ltb_ge in O1.
  unfold reduce in E. injection E as <- <-. split; cbn [fst snd]; [rewrite !map_length; auto|]. intros r Hr. apply in_map_iff in Hr. destruct Hr as (rc & <- & Hrc).
  apply in_map_iff in Hrc. destruct Hrc as (r0 & <- & _).
  apply (reduce_row_spec' v x (brow n r0, snd r0) (repeat 0 (vmaxn v)) (repeat_length _ _)). cbn [fst]. unfold brow. rewrite map_length, seq_length. auto.
Qed.
Lemma firstn_full : forall (z : vec) n, length z = n -> firstn n z = z.
Proof. intros. subst. apply firstn_all. Qed.
Lemma clean1_sat : forall v lim n x rows z A b, finish lim n v x rows = Done A b -> length z = vmaxn v -> Forall (plain v) rows ->
  exists A' b', clean1 (vmaxn v) (Done A b) = Some (A', b') /\ (sat A' b' z <-> rows_ok (filter (live v) rows) (design v x z)).
Proof.
  intros v lim n x rows z A b E Lz P. unfold clean1. destruct (cleanup [(vmaxn v, A, b)]) as [[A' b']|] eqn:C; [|discriminate C]. exists A', b'. split; auto.
  rewrite (cleanup_sat _ A' b' z (Forall_cons _ (finish_shape _ _ _ _ _ _ _ E) (Forall_nil _)) C). rewrite <- (finish_kept lim n v x rows A b z E Lz P). unfold kept. split.
  - intros H k Hk Z. specialize (H (vmaxn v, A, b) k (or_introl eq_refl) Hk Z). cbn [fst snd] in H. rewrite firstn_full in H by auto. auto.
  - intros H L k [<-|[]] Hk Z. cbn [fst snd] in *. rewrite firstn_full by auto. auto.
Qed.

(* ------------------------------------------------------------------ wall *)
Definition rows1 : list constr := bspline_rows 18 9 0 LNone LNone (LVal (-3/10)) (LVal (3/10)) None (Some (23/10)) (2/10) false (Some (-5/100)) (Some (1/10)) 0 [] [] (repeat (-3/10) 6) (repeat (3/10) 6).
Definition rows2 : list constr := bspline_rows 18 9 0 LNone LNone (LList [5/100; 5/100; 5/100; -2/10; -2/10; -1/10]) (LList [6/10; 6/10; 6/10; 5/10; 4/10; 3/10])
  None (Some (23/10)) (2/10) false (Some (4/10)) None 0 [] [] [5/100; 5/100; 5/100; -2/10; -2/10; -1/10] [6/10; 6/10; 6/10; 5/10; 4/10; 3/10].
Definition rows3 : list constr := bspline_rows 16 8 0 LNone LNone (LVal (-3/10)) (LVal (6/10)) None (Some (23/10)) (2/10) false (Some (1/10)) (Some (5/10)) 0 [] [] (repeat (-3/10) 5) (repeat (6/10) 5).
Lemma wall1_eq : wall1 = finish 100 18 wall1_v wall1_x rows1. Proof. reflexivity. Qed.
Lemma wall2_eq : wall2 = finish 100 18 wall2_v wall2_x rows2. Proof. reflexivity. Qed.
Lemma wall3_eq : wall3 = finish 100 16 wall3_v wall3_x rows3. Proof. reflexivity. Qed.
Ltac nonzero := repeat (constructor; [cbn; repeat (constructor; [cbn; lra|]); try constructor|]); try constructor.
Lemma plain1 : Forall (plain wall1_v) rows1. Proof. apply plain_all; [reflexivity|]. nonzero. Qed.
Lemma plain2 : Forall (plain wall2_v) rows2. Proof. apply plain_all; [reflexivity|]. nonzero. Qed.
Lemma plain3 : Forall (plain wall3_v) rows3. Proof. apply plain_all; [reflexivity|]. nonzero. Qed.

Lemma wall_returns : exists A1 b1 A2 b2 A3 b3, wall1 = Done A1 b1 /\ wall2 = Done A2 b2 /\ wall3 = Done A3 b3.
Proof.
  destruct (proj2 (bspline_returns wall1_x wall1_v 0 (LVal (-3/10)) (LVal (3/10)) (LVal (-3/10)) (LVal (3/10)) None (Some (23/10)) (2/10) false (Some (-5/100)) (Some (1/10)) 9 eq_refl ltac:(lia) ltac:(lia) ltac:(simpl; lia))) as (A1 & b1 & E1).
  { cbn. repeat split; auto; lia. }
  destruct (proj2 (bspline_returns wall2_x wall2_v 0 (LVal (5/100)) (LVal (12/10)) (LList [5/100; 5/100; 5/100; -2/10; -2/10; -1/10]) (LList [6/10; 6/10; 6/10; 5/10; 4/10; 3/10]) None (Some (23/10)) (2/10) false (Some (4/10)) None 9 eq_refl ltac:(lia) ltac:(lia) ltac:(simpl; lia))) as (A2 & b2 & E2).
  { cbn. repeat split; auto; lia. }
  destruct (proj2 (bspline_returns wall3_x wall3_v 0 (LVal (-12/10)) (LVal (6/10)) (LVal (-3/10)) (LVal (6/10)) None (Some (23/10)) (2/10) false (Some (1/10)) (Some (5/10)) 8 eq_refl ltac:(lia) ltac:(lia) ltac:(simpl; lia))) as (A3 & b3 & E3).
  { cbn. repeat split; auto; lia. }
  exists A1, b1, A2, b2, A3, b3. auto.
Qed.
Lemma sat_app : forall A b A' b' z, length A = length b -> (sat (A ++ A') (b ++ b') z <-> sat A b z /\ sat A' b' z).
Proof.
  intros A b A' b' z L. unfold sat. rewrite app_length. split.
  - intro H. split; intros k Hk.
    + specialize (H k ltac:(lia)). unfold vget in *. rewrite !app_nth1 in H by lia. auto.
    + specialize (H (length A + k)%nat ltac:(lia)). unfold vget in *. rewrite !app_nth2 in H by lia. replace (length A + k - length A)%nat with k in H by lia. rewrite L in H. replace (length b + k - length b)%nat with k in H by lia. auto.
  - intros [H1 H2] k Hk. unfold vget in *. destruct (Nat.lt_ge_cases k (length A)) as [C|C].
    + rewrite !app_nth1 by lia. auto.
    + rewrite !app_nth2 by lia. rewrite <- L. apply H2. lia.
Qed.
(** the points (X, Y) of the three curves at the design z: fixed points and design variables *)
Definition X1 (z : vec) (i : nat) : R := vget (design wall1_v wall1_x (firstn 6 z)) i.
Definition Y1 (z : vec) (i : nat) : R := vget (design wall1_v wall1_x (firstn 6 z)) (9 + i).
Definition X2 (z : vec) (i : nat) : R := vget (design wall2_v wall2_x (firstn 14 z)) i.
Definition Y2 (z : vec) (i : nat) : R := vget (design wall2_v wall2_x (firstn 14 z)) (9 + i).
Definition X3 (z : vec) (i : nat) : R := vget (design wall3_v wall3_x z) i.
Definition Y3 (z : vec) (i : nat) : R := vget (design wall3_v wall3_x z) (8 + i).
Definition slopes_in (X Y : nat -> R) (lo hi : nat -> R) (a b : nat) : Prop :=
  forall i, (a <= i <= b)%nat -> lo i * (X i - X (i - 1)%nat) <= Y i - Y (i - 1)%nat <= hi i * (X i - X (i - 1)%nat).
Definition gaps (X : nat -> R) (d : R) (a b : nat) : Prop := forall i, (a <= i <= b)%nat -> X (i - 1)%nat + d <= X i.
Definition wall_ok (z : vec) : Prop :=
  (gaps (X1 z) (2/10) 3 6 /\ (forall i, (3 <= i <= 5)%nat -> -5/100 <= Y1 z i <= 1/10) /\ slopes_in (X1 z) (Y1 z) (fun _ => -3/10) (fun _ => 3/10) 3 6) /\
  (gaps (X2 z) (2/10) 3 7 /\ (forall i, (3 <= i <= 6)%nat -> 4/10 <= Y2 z i) /\
     slopes_in (X2 z) (Y2 z) (fun i => if Nat.leb i 5 then 5/100 else -2/10) (fun i => if Nat.leb i 5 then 6/10 else if Nat.eqb i 6 then 5/10 else 4/10) 3 7) /\
  (gaps (X3 z) (2/10) 3 6 /\ (forall i, (3 <= i <= 5)%nat -> 1/10 <= Y3 z i <= 5/10) /\ slopes_in (X3 z) (Y3 z) (fun _ => -3/10) (fun _ => 6/10) 3 6) /\
  Y2 z 3%nat + Y3 z 3%nat <= 2 * (439461/1000000) /\ (Y2 z 4%nat - Y2 z 3%nat) + (Y3 z 4%nat - Y3 z 3%nat) <= 0.

Lemma wall_sat_rows : forall z, length z = 18%nat -> exists A b, wall_system = Some (A, b) /\
  (sat A b z <-> rows_ok (filter (live wall1_v) rows1) (design wall1_v wall1_x (firstn 6 z)) /\ rows_ok (filter (live wall2_v) rows2) (design wall2_v wall2_x (firstn 14 z)) /\
     rows_ok (filter (live wall3_v) rows3) (design wall3_v wall3_x z) /\ sat couple_A couple_b z).
Proof.
  intros z Lz. destruct wall_returns as (A1 & b1 & A2 & b2 & A3 & b3 & E1 & E2 & E3). unfold wall_system. rewrite E1, E2, E3.
  rewrite wall1_eq in E1. rewrite wall2_eq in E2. rewrite wall3_eq in E3.
  assert (W : Forall well_shaped [(vmaxn wall1_v, A1, b1); (vmaxn wall2_v, A2, b2); (vmaxn wall3_v, A3, b3)]).
  { repeat constructor; eapply finish_shape; eauto. }
  destruct (cleanup _) as [[A b]|] eqn:C; [|discriminate C]. exists (A ++ couple_A), (b ++ couple_b). split; auto.
  rewrite sat_app by (apply (cleanup_shape _ _ _ W C)). rewrite (cleanup_sat _ A b z W C).
  rewrite <- (finish_kept 100 18 wall1_v wall1_x rows1 A1 b1 (firstn 6 z) E1 ltac:(rewrite firstn_length, Lz; reflexivity) plain1).
  rewrite <- (finish_kept 100 18 wall2_v wall2_x rows2 A2 b2 (firstn 14 z) E2 ltac:(rewrite firstn_length, Lz; reflexivity) plain2).
  rewrite <- (finish_kept 100 16 wall3_v wall3_x rows3 A3 b3 z E3 ltac:(rewrite Lz; reflexivity) plain3).
  unfold kept. split.
  - intros [H Hc]. split; [|split; [|split; auto]].
    + intros k Hk Z. apply (H (vmaxn wall1_v, A1, b1) k ltac:(simpl; auto) Hk Z).
    + intros k Hk Z. apply (H (vmaxn wall2_v, A2, b2) k ltac:(simpl; auto) Hk Z).
    + intros k Hk Z. pose proof (H (vmaxn wall3_v, A3, b3) k ltac:(simpl; auto) Hk Z) as G. cbn [fst snd] in G. rewrite firstn_full in G by (rewrite Lz; reflexivity). auto.
  - intros (H1 & H2 & H3 & Hc). split; auto. intros L k [<-|[<-|[<-|[]]]] Hk Z; cbn [fst snd] in *; auto. rewrite firstn_full by (rewrite Lz; reflexivity). auto.
Qed.

Ltac cases_i i := destruct i as [|[|[|[|[|[|[|[|i]]]]]]]]; try (exfalso; lia).
(** instances of a statement about a <= i <= b *)
Ltac inst3 H := let h := fresh in pose proof (H 3%nat ltac:(lia)) as h; let h := fresh in pose proof (H 4%nat ltac:(lia)) as h; let h := fresh in pose proof (H 5%nat ltac:(lia)) as h.
Ltac inst4 H := inst3 H; let h := fresh in pose proof (H 6%nat ltac:(lia)) as h.
Ltac inst5 H := inst4 H; let h := fresh in pose proof (H 7%nat ltac:(lia)) as h.
Ltac each_row := repeat rewrite rows_ok_cons; rewrite rows_ok_nil; cbn [fst snd esum fold_right put].
(** the wall domain: exactly the conditions that involve a design variable *)
Theorem wall_iff : forall z, length z = 18%nat -> exists A b, wall_system = Some (A, b) /\ (sat A b z <-> wall_ok z).
Proof.
  intros z Lz. destruct (wall_sat_rows z Lz) as (A & b & E & S). exists A, b. split; auto. rewrite S. clear S E.
  do 18 (destruct z as [|? z]; [discriminate Lz|]). destruct z; [|discriminate Lz].
  assert (C : sat couple_A couple_b [r; r0; r1; r2; r3; r4; r5; r6; r7; r8; r9; r10; r11; r12; r13; r14; r15; r16] <-> r9 + r14 <= 2 * (439461/1000000) /\ (r10 - r9) + (r15 - r14) <= 0).
  { unfold sat. split.
    - intro H. pose proof (H 0%nat ltac:(cbn; lia)) as H0. pose proof (H 1%nat ltac:(cbn; lia)) as H1. cbn in H0, H1. rewrite !dot_cons, dot_nil_l in H0, H1. unfold vget in *. cbn in H0, H1. split; lra.
    - intros [H0 H1] k Hk. cbn in Hk. destruct k as [|[|k]]; [| |lia]; cbn; rewrite !dot_cons, dot_nil_l; unfold vget; cbn; lra. }

  set (z := [r; r0; r1; r2; r3; r4; r5; r6; r7; r8; r9; r10; r11; r12; r13; r14; r15; r16]) in *.
  assert (P1 : rows_ok (filter (live wall1_v) rows1) (design wall1_v wall1_x (firstn 6 z)) <->
    gaps (X1 z) (2/10) 3 6 /\ (forall i, (3 <= i <= 5)%nat -> -5/100 <= Y1 z i <= 1/10) /\ slopes_in (X1 z) (Y1 z) (fun _ => -3/10) (fun _ => 3/10) 3 6).
  { let l := eval cbn in (filter (live wall1_v) rows1) in change (filter (live wall1_v) rows1) with l. each_row. unfold gaps, slopes_in, X1, Y1, z. split.
    - intro H. cbn in H. split; [|split]; intros i Hi; cases_i i; cbn; lra.
    - intros (G & Y & S). inst4 G. clear G. inst3 Y. clear Y. inst4 S. clear S. clear C. cbn in *. repeat split; lra. }
  assert (P2 : rows_ok (filter (live wall2_v) rows2) (design wall2_v wall2_x (firstn 14 z)) <->
    gaps (X2 z) (2/10) 3 7 /\ (forall i, (3 <= i <= 6)%nat -> 4/10 <= Y2 z i) /\
     slopes_in (X2 z) (Y2 z) (fun i => if Nat.leb i 5 then 5/100 else -2/10) (fun i => if Nat.leb i 5 then 6/10 else if Nat.eqb i 6 then 5/10 else 4/10) 3 7).
  { let l := eval cbn in (filter (live wall2_v) rows2) in change (filter (live wall2_v) rows2) with l. each_row. unfold gaps, slopes_in, X2, Y2, z. split.
    - intro H. cbn in H. split; [|split]; intros i Hi; cases_i i; cbn; lra.
    - intros (G & Y & S). inst5 G. clear G. inst4 Y. clear Y. inst5 S. clear S. clear C. cbn in *. repeat split; lra. }
  assert (P3 : rows_ok (filter (live wall3_v) rows3) (design wall3_v wall3_x z) <->
    gaps (X3 z) (2/10) 3 6 /\ (forall i, (3 <= i <= 5)%nat -> 1/10 <= Y3 z i <= 5/10) /\ slopes_in (X3 z) (Y3 z) (fun _ => -3/10) (fun _ => 6/10) 3 6).
  { let l := eval cbn in (filter (live wall3_v) rows3) in change (filter (live wall3_v) rows3) with l. each_row. unfold gaps, slopes_in, X3, Y3, z. split.
    - intro H. cbn in H. split; [|split]; intros i Hi; cases_i i; cbn; lra.
    - intros (G & Y & S). inst4 G. clear G. inst3 Y. clear Y. inst4 S. clear S. clear C. cbn in *. repeat split; lra. }
  rewrite P1, P2, P3, C. unfold wall_ok. replace (Y2 z 3%nat) with r9 by reflexivity. replace (Y2 z 4%nat) with r10 by reflexivity. replace (Y3 z 3%nat) with r14 by reflexivity. replace (Y3 z 4%nat) with r15 by reflexivity. apply iff_refl.
Qed.
