(** Cleanup of the constraint matrices; constraints on fixed entries; findings on the nozzle constraints. *)
Require Import Reals Lra Lia List Bool Arith.
From Verif Require LipModel LipProofs.
From Verif Require Import RVec Num Sums DomModel DomMoreModel HullProofs NozModel NozProofs.
Import ListNotations.
Local Open Scope R_scope.

(* ------------------------------------------------------------------ cleanup *)
Lemma dot_app0 : forall a m z, dot (a ++ repeat 0 m) z = dot a (firstn (length a) z).
Proof.
  induction a as [|h a IH]; intros m z; simpl app.
  - rewrite dot_nil_l. apply dot_repeat0.
  - destruct z as [|b z]; [reflexivity|]. cbn [length firstn]. rewrite !dot_cons, IH. auto.
Qed.
Lemma zero_row_spec : forall a, zero_row a = true <-> forall k, vget a k = 0.
Proof.
  intro a. unfold zero_row. rewrite forallb_forall. split.
  - intros H k. destruct (Nat.lt_ge_cases k (length a)) as [L|L].
    + specialize (H (vget a k) (nth_In _ _ L)). apply Reqb_true in H. auto.
    + unfold vget. apply nth_overflow. auto.
  - intros H e He. apply (In_nth _ _ 0) in He. destruct He as (k & _ & <-). apply Reqb_true. apply H.
Qed.
Lemma dot_zero_row : forall a z, zero_row a = true -> dot a z = 0.
Proof.
  intros a z H. rewrite zero_row_spec in H. revert z. induction a as [|h a IH]; intros z; [apply dot_nil_l|]. destruct z as [|b z]; [reflexivity|].
  rewrite dot_cons, IH; [|intro k; apply (H (S k))]. specialize (H 0%nat). unfold vget in H. simpl in H. rewrite H. ring.
Qed.
Lemma zero_row_pad : forall n a, zero_row (pad n a) = zero_row a.
Proof.
  intros n a. unfold pad, zero_row. rewrite forallb_app. replace (forallb (fun e => Reqb e 0) (repeat 0 (n - length a))) with true; [apply andb_true_r|].
  apply eq_sym, forallb_forall. intros e He. apply repeat_spec in He. subst. apply Reqb_true. auto.
Qed.

(** the systems in the number of columns each of them has *)
Definition well_shaped (L : nat * mat * vec) : Prop := length (snd (fst L)) = length (snd L) /\ forall r, In r (snd (fst L)) -> length r = fst (fst L).

Lemma cleanup_sat : forall Ls A b z, Forall well_shaped Ls -> cleanup Ls = Some (A, b) ->
  (sat A b z <-> forall L k, In L Ls -> (k < length (snd (fst L)))%nat -> zero_row (nth k (snd (fst L)) []) = false ->
     dot (nth k (snd (fst L)) []) (firstn (fst (fst L)) z) <= vget (snd L) k).
Proof.
  intros Ls A b z W E. rewrite Forall_forall in W. set (n := vmaxn (map (fun L => fst (fst L)) Ls)).
  assert (E2 : exists rows, rows = filter (fun ab => negb (zero_row (fst ab))) (stack Ls) /\ A = map fst rows /\ b = map snd rows).
  { unfold cleanup in E. destruct Ls as [|L0 Ls']; [discriminate|]. injection E as <- <-. eexists. split; [reflexivity|]. auto. }
  destruct E2 as (rows & ER & -> & ->).
  assert (S : sat (map fst rows) (map snd rows) z <-> forall ab, In ab rows -> dot (fst ab) z <= snd ab).
  { unfold sat. rewrite map_length. split.
    - intros H ab Hab. apply (In_nth _ _ ([], 0)) in Hab. destruct Hab as (k & Hk & <-). specialize (H k Hk). unfold vget in H.
      rewrite (nth_indep _ [] (fst (@nil R, 0))), (nth_indep _ 0 (snd (@nil R, 0))), !map_nth in H by (rewrite map_length; auto). auto.
    - intros H k Hk. unfold vget. rewrite (nth_indep _ [] (fst (@nil R, 0))), (nth_indep _ 0 (snd (@nil R, 0))), !map_nth by (rewrite map_length; auto). apply H. apply nth_In. auto. }
  rewrite S. clear S. split.
  - intros H L k HL Hk HZ. destruct (W L HL) as [W1 W2].
    specialize (H (pad n (nth k (snd (fst L)) []), vget (snd L) k)). cbn [fst snd] in H.
    rewrite <- (W2 _ (nth_In _ [] Hk)). unfold pad in H. rewrite dot_app0 in H. apply H. rewrite ER. apply filter_In. split.
    + unfold stack. apply in_flat_map. exists L. split; auto. apply in_map_iff. exists (nth k (snd (fst L)) [], vget (snd L) k). split; [reflexivity|].
      apply LipProofs.combine_nth_in; auto.
    + cbn [fst]. change (nth k (snd (fst L)) [] ++ repeat 0 (n - length (nth k (snd (fst L)) []))) with (pad n (nth k (snd (fst L)) [])). rewrite zero_row_pad, HZ. auto.
  - intros H ab Hab. rewrite ER in Hab. apply filter_In in Hab. destruct Hab as [Hin HZ]. unfold stack in Hin. apply in_flat_map in Hin. destruct Hin as (L & HL & Hin).
    apply in_map_iff in Hin. destruct Hin as (rc & <- & Hin). destruct (W L HL) as [W1 W2]. apply LipProofs.in_combine_nth in Hin; [|auto]. destruct Hin as (k & Hk & ->).
    cbn [fst snd] in *. fold n in HZ |- *. rewrite zero_row_pad in HZ. apply negb_true_iff in HZ. specialize (H L k HL Hk HZ).
    unfold pad. rewrite dot_app0, (W2 _ (nth_In _ [] Hk)). auto.
Qed.
(** all systems hold exactly when the cleaned system holds and the deleted rows were satisfiable *)
Theorem cleanup_spec : forall Ls A b z, Forall well_shaped Ls -> cleanup Ls = Some (A, b) ->
  ((forall L, In L Ls -> sat (snd (fst L)) (snd L) (firstn (fst (fst L)) z)) <->
   sat A b z /\ forall L k, In L Ls -> (k < length (snd (fst L)))%nat -> (forall j, vget (nth k (snd (fst L)) []) j = 0) -> 0 <= vget (snd L) k).
Proof.
  intros Ls A b z W E. rewrite (cleanup_sat Ls A b z W E). split.
  - intro H. split.
    + intros L k HL Hk _. apply (H L HL k Hk).
    + intros L k HL Hk Z. specialize (H L HL k Hk). apply zero_row_spec in Z. rewrite dot_zero_row in H; auto.
  - intros [H1 H2] L HL k Hk. destruct (zero_row (nth k (snd (fst L)) [])) eqn:Z.
    + rewrite dot_zero_row by auto. apply (H2 L k HL Hk). apply zero_row_spec. auto.
    + apply H1; auto.
Qed.
(** one row per nonzero row, all with the largest number of columns *)
Theorem cleanup_shape : forall Ls A b, Forall well_shaped Ls -> cleanup Ls = Some (A, b) ->
  length A = length b /\ (forall r, In r A -> length r = vmaxn (map (fun L => fst (fst L)) Ls) /\ exists j, vget r j <> 0).
Proof.
  intros Ls A b W E. rewrite Forall_forall in W. unfold cleanup in E. destruct Ls as [|L0 Ls']; [discriminate|]. set (Ls := L0 :: Ls') in *. injection E as <- <-. rewrite !map_length. split; auto.
  intros r Hr. apply in_map_iff in Hr. destruct Hr as (ab & <- & Hab). apply filter_In in Hab. destruct Hab as [Hin HZ]. unfold stack in Hin. apply in_flat_map in Hin. destruct Hin as (L & HL & Hin).
  apply in_map_iff in Hin. destruct Hin as (rc & <- & Hin). destruct (W L HL) as [W1 W2]. cbn [fst] in *. split.
  - destruct rc as [r c]. apply in_combine_l in Hin. cbn [fst]. unfold pad. rewrite app_length, repeat_length, (W2 r Hin).
    assert (fst (fst L) <= vmaxn (map (fun L => fst (fst L)) Ls))%nat; [|lia].
    apply (In_nth _ _ (0%nat, [], [])) in HL. destruct HL as (i & Hi & <-). pose proof (vmaxn_ge (map (fun L => fst (fst L)) Ls) i) as G.
    rewrite (nth_indep _ 0%nat (fst (fst (0%nat, @nil (list R), @nil R)))) in G by (rewrite map_length; auto). rewrite (map_nth (fun L : nat * mat * vec => fst (fst L))) in G. auto.
  - apply negb_true_iff in HZ. set (a := pad _ (fst rc)) in *. clearbody a. unfold zero_row in HZ.
    assert (X : exists e, In e a /\ e <> 0).
    { clear - HZ. induction a as [|e a IH]; simpl in HZ; [discriminate|]. apply andb_false_iff in HZ. destruct HZ as [HZ|HZ].
      - exists e. split; [left; auto|]. intro. subst. rewrite (proj2 (Reqb_true 0 0)) in HZ by auto. discriminate.
      - destruct (IH HZ) as (e' & ? & ?). exists e'. split; auto. right. auto. }
    destruct X as (e & He & Ne). apply (In_nth _ _ 0) in He. destruct He as (j & _ & <-). exists j. auto.
Qed.
(** without the deleted rows the cleaned system can have solutions though the constraints have none: a constraint between entries that
    are not design variables is dropped even if it is violated *)
Theorem cleanup_refuted : exists Ls A b z, Forall well_shaped Ls /\ cleanup Ls = Some (A, b) /\ sat A b z /\
  (exists L, In L Ls /\ forall z', ~ sat (snd (fst L)) (snd L) (firstn (fst (fst L)) z')).
Proof.
  exists [(1%nat, [[1]; [0]], [5; -1])], [[1]], [5], [0]. split; [|split; [|split]].
  - constructor; [|constructor]. split; auto. simpl. intros r [<-|[<-|[]]]; auto.
  - unfold cleanup, stack. simpl. unfold pad. simpl. rewrite (proj2 (Reqb_false 1 0)), (proj2 (Reqb_true 0 0)) by lra. simpl. auto.
  - intros k Hk. simpl in Hk. destruct k; [|lia]. simpl. rewrite dot_cons, dot_nil_l. unfold vget. simpl. lra.
  - eexists. split; [left; reflexivity|]. intros z' H. specialize (H 1%nat ltac:(simpl; lia)). cbn [fst snd nth] in H. rewrite dot_zero_row in H; [unfold vget in H; simpl in H; lra|].
    apply zero_row_spec. intros [|[|k]]; reflexivity.
Qed.
Example cleanup_instance : Forall well_shaped [(1%nat, [[1]; [0]], [5; 1]); (2%nat, [[1; -1]], [0])] /\
  exists A b, cleanup [(1%nat, [[1]; [0]], [5; 1]); (2%nat, [[1; -1]], [0])] = Some (A, b) /\ sat A b [3; 4] /\ A = [[1; 0]; [1; -1]] /\ b = [5; 0].
Proof.
  split.
  - repeat constructor; simpl; intros r Hr; repeat destruct Hr as [<-|Hr]; auto; contradiction.
  - exists [[1; 0]; [1; -1]], [5; 0]. split; [|split; auto].
    + unfold cleanup, stack. simpl. unfold pad. simpl. rewrite (proj2 (Reqb_false 1 0)), (proj2 (Reqb_true 0 0)) by lra. simpl. auto.
    + intros k Hk. simpl in Hk. destruct k as [|[|k]]; [| |lia]; simpl; rewrite !dot_cons, dot_nil_l; unfold vget; simpl; lra.
Qed.

(* ------------------------------------------------------------------ which rows survive *)
Lemma reduce_row_spec' : forall v x rc z, length z = vmaxn v -> (length (fst rc) <= length v)%nat ->
  length (fst (reduce_row v x rc)) = vmaxn v /\ dot (fst (reduce_row v x rc)) z - snd (reduce_row v x rc) = dot (fst rc) (design v x z) - snd rc.
Proof. intros v x rc z L1 L2. pose proof (reduce_row_spec v x rc z L1 L2) as S. destruct (reduce_row v x rc). auto. Qed.
(** the row mentions a design variable *)
Definition live (v : list nat) (r : constr) : bool := existsb (fun e => negb (Nat.eqb (nth (fst e) v 0%nat) 0)) (fst r).
(** nonzero coefficients, different design variables *)
Definition plain (v : list nat) (r : constr) : Prop :=
  NoDup (map fst (fst r)) /\ Forall (fun e => snd e <> 0) (fst r) /\
  forall e e', In e (fst r) -> In e' (fst r) -> nth (fst e) v 0%nat <> 0%nat -> nth (fst e) v 0%nat = nth (fst e') v 0%nat -> fst e = fst e'.

Lemma esum_diff : forall l w w', esum l w - esum l w' = fold_right (fun e s => snd e * (vget w (fst e) - vget w' (fst e)) + s) 0 l.
Proof. induction l as [|e l IH]; intros; simpl; [ring|]. rewrite <- IH. ring. Qed.
Lemma reduce_entry : forall n v x l c k, NoDup (map fst l) -> (forall e, In e l -> (fst e < n)%nat) -> (n <= length v)%nat -> (k < vmaxn v)%nat ->
  vget (fst (reduce_row v x (brow n (l, c), c))) k = fold_right (fun e s => snd e * (if Nat.eqb (nth (fst e) v 0%nat) (S k) then 1 else 0) + s) 0 l.
Proof.
  intros n v x l c k ND B Ln Hk.
  pose proof (reduce_row_spec v x (brow n (l, c), c) (repeat 0 (vmaxn v)) (repeat_length _ _)) as S0.
  pose proof (reduce_row_spec v x (brow n (l, c), c) (LipModel.unitv (vmaxn v) k)) as S1.
  assert (LU : length (LipModel.unitv (vmaxn v) k) = vmaxn v) by (unfold LipModel.unitv; rewrite map_length, seq_length; auto).
  specialize (S1 LU). assert (LB : (length (fst (brow n (l, c), c)) <= length v)%nat) by (cbn [fst]; unfold brow; rewrite map_length, seq_length; auto).
  specialize (S0 LB). specialize (S1 LB). cbn [fst snd] in S0, S1. destruct (reduce_row v x (brow n (l, c), c)) as [a b]. cbn [fst]. destruct S0 as [LA E0]. destruct S1 as [_ E1].
  rewrite brow_dot in E0, E1 by (auto; unfold design; rewrite map_length, seq_length; auto).
  assert (DU : dot a (LipModel.unitv (vmaxn v) k) = vget a k).
  { rewrite dot_rsum by congruence. rewrite LA, (rsum_single _ k) by (auto; intros i Hi N; unfold LipModel.unitv; rewrite vget_map_seq by auto; apply Nat.eqb_neq in N; rewrite ?N; try (rewrite Nat.eqb_sym, N); ring).
    unfold LipModel.unitv. rewrite vget_map_seq by auto. rewrite Nat.eqb_refl. ring. }
  assert (DZ : dot a (repeat 0 (vmaxn v)) = 0) by (rewrite dot_comm; apply dot_repeat0).
  rewrite DU in E1. rewrite DZ in E0. transitivity (esum l (design v x (LipModel.unitv (vmaxn v) k)) - esum l (design v x (repeat 0 (vmaxn v)))); [lra|].
  rewrite esum_diff. clear - B Ln Hk LU. induction l as [|e l IH]; simpl; auto. rewrite IH by (intros; apply B; simpl; auto). f_equal. f_equal.
  assert (He : (fst e < length v)%nat) by (specialize (B e ltac:(simpl; auto)); lia).
  unfold design. rewrite !vget_map_seq by auto. pose proof (vmaxn_ge v (fst e)) as G. destruct (nth (fst e) v 0%nat) as [|q] eqn:Q; [simpl; ring|].
  unfold LipModel.unitv. rewrite vget_map_seq by lia. unfold vget. rewrite nth_repeat. simpl Nat.eqb. rewrite ?(Nat.eqb_sym k q). destruct (Nat.eqb q k); ring.
Qed.
Lemma reduce_zero_iff : forall n v x r, plain v r -> (forall e, In e (fst r) -> (fst e < n)%nat) -> (n <= length v)%nat ->
  zero_row (fst (reduce_row v x (brow n r, snd r))) = negb (live v r).
Proof.
  intros n v x [l c] (ND & NZ & DV) B Ln. cbn [fst snd] in *. rewrite Forall_forall in NZ.
  assert (LA : length (fst (reduce_row v x (brow n (l, c), c))) = vmaxn v).
  { pose proof (reduce_row_spec v x (brow n (l, c), c) (repeat 0 (vmaxn v)) (repeat_length _ _)) as S0. cbn [fst snd] in S0.
    destruct (reduce_row v x (brow n (l, c), c)) as [a b]. apply S0. unfold brow. rewrite map_length, seq_length. auto. }
  destruct (live v (l, c)) eqn:LV; cbn [negb].
  - apply not_true_is_false. intro Z. rewrite zero_row_spec in Z. unfold live in LV. cbn [fst] in LV. apply existsb_exists in LV. destruct LV as (e & He & Q).
    apply negb_true_iff, Nat.eqb_neq in Q. destruct (nth (fst e) v 0%nat) as [|k] eqn:VK; [congruence|].
    assert (Hk : (k < vmaxn v)%nat) by (pose proof (vmaxn_ge v (fst e)); lia).
    specialize (Z k). rewrite reduce_entry in Z by auto.
    assert (V : fold_right (fun e0 s => snd e0 * (if Nat.eqb (nth (fst e0) v 0%nat) (S k) then 1 else 0) + s) 0 l = snd e).
    { clear Z. assert (U : forall e', In e' l -> nth (fst e') v 0%nat = S k -> fst e' = fst e) by (intros e' H' Q'; symmetry; apply DV; auto; congruence).
      clear - ND He VK U. induction l as [|f l IH]; [destruct He|]. simpl. simpl in ND. inversion ND as [|? ? NI ND']; subst. destruct He as [->|He].
      - rewrite VK, Nat.eqb_refl. assert (Z0 : fold_right (fun e0 s => snd e0 * (if Nat.eqb (nth (fst e0) v 0%nat) (S k) then 1 else 0) + s) 0 l = 0).
        { assert (NI' : forall e', In e' l -> nth (fst e') v 0%nat <> S k).
          { intros e' H' Q'. apply NI. rewrite <- (U e') by (simpl; auto). apply in_map. auto. }
          clear - NI'. induction l as [|g l IH]; simpl; auto. rewrite IH by (intros; apply NI'; simpl; auto).
          destruct (Nat.eqb_spec (nth (fst g) v 0%nat) (S k)) as [Q|Q]; [exfalso; apply (NI' g); simpl; auto|ring]. }
        rewrite Z0. ring.
      - rewrite IH by (auto; intros; apply U; simpl; auto).
        destruct (Nat.eqb_spec (nth (fst f) v 0%nat) (S k)) as [Q|Q]; [|ring]. exfalso. apply NI. rewrite (U f) by (simpl; auto). apply in_map. auto. }
    rewrite V in Z. apply (NZ e He). auto.
  - apply zero_row_spec. intro k. destruct (Nat.lt_ge_cases k (vmaxn v)) as [Hk|Hk]; [|unfold vget; apply nth_overflow; lia].
    rewrite reduce_entry by auto. unfold live in LV. cbn [fst] in LV. clear - LV. induction l as [|e l IH]; simpl; auto. simpl in LV. apply orb_false_iff in LV. destruct LV as [L1 L2].
    rewrite IH by auto. apply negb_false_iff, Nat.eqb_eq in L1. rewrite L1. simpl. ring.
Qed.

(** what is left of the rows of [finish] after the cleanup: the rows that mention a design variable *)
Definition kept (A : mat) (b : vec) (z : vec) : Prop := forall k, (k < length A)%nat -> zero_row (nth k A []) = false -> dot (nth k A []) z <= vget b k.
Theorem finish_kept : forall lim n v x (rows : list constr) A b z, finish lim n v x rows = Done A b -> length z = vmaxn v -> Forall (plain v) rows ->
  (kept A b z <-> rows_ok (filter (live v) rows) (design v x z)).
Proof.
  intros lim n v x rows A b z E Lz P. unfold finish, fillB in E.
  match type of E with context [if ?c then Some _ else None] => destruct c eqn:C; [|discriminate] end.
  match type of E with context [if ?c then Raised else _] => destruct c eqn:O; [discriminate|] end.
  apply andb_true_iff in C. destruct C as [_ C2]. rewrite forallb_forall in C2. apply orb_false_iff in O. destruct O as [O1 _]. apply Nat.ltb_ge in O1.
  unfold reduce in E. injection E as <- <-. rewrite Forall_forall in P.
  assert (COL : forall r, In r rows -> forall e, In e (fst r) -> (fst e < n)%nat).
  { intros r Hr e He. specialize (C2 r Hr). rewrite forallb_forall in C2. apply Nat.ltb_lt. apply C2. auto. }
  assert (V : forall r, In r rows -> zero_row (fst (reduce_row v x (brow n r, snd r))) = negb (live v r) /\
     dot (fst (reduce_row v x (brow n r, snd r))) z - snd (reduce_row v x (brow n r, snd r)) = esum (fst r) (design v x z) - snd r).
  { intros r Hr. split; [apply reduce_zero_iff; [apply P; auto|apply COL; auto|auto]|].
    refine (eq_trans (proj2 (reduce_row_spec' v x (brow n r, snd r) z Lz ltac:(cbn [fst]; unfold brow; rewrite map_length, seq_length; auto))) _). cbn [fst snd]. f_equal. destruct r as [l c]. apply brow_dot; [apply (P (l, c) Hr)|apply (COL (l, c) Hr)|unfold design; rewrite map_length, seq_length; auto]. }
  unfold kept, rows_ok. rewrite Forall_forall, !map_length. split.
  - intros H r Hr. apply filter_In in Hr. destruct Hr as [Hr LV]. destruct (V r Hr) as [V1 V2]. apply (In_nth _ _ ([], 0)) in Hr. destruct Hr as (k & Hk & ER).
    specialize (H k Hk). unfold vget in H. rewrite !map_map in H.
    rewrite (nth_indep _ [] (fst (reduce_row v x (brow n ([], 0), snd (@nil (nat * R), 0))))) in H by (rewrite map_length; auto).
    rewrite (nth_indep _ 0 (snd (reduce_row v x (brow n ([], 0), snd (@nil (nat * R), 0))))) in H by (rewrite map_length; auto).
    rewrite (map_nth (fun r => fst (reduce_row v x (brow n r, snd r)))), (map_nth (fun r => snd (reduce_row v x (brow n r, snd r)))) in H.
    unfold constr in H. rewrite ER in H. rewrite V1, LV in H. specialize (H eq_refl). lra.
  - intros H k Hk. unfold vget. rewrite !map_map.
    rewrite (nth_indep _ [] (fst (reduce_row v x (brow n ([], 0), snd (@nil (nat * R), 0))))) by (rewrite map_length; auto).
    rewrite (nth_indep _ 0 (snd (reduce_row v x (brow n ([], 0), snd (@nil (nat * R), 0))))) by (rewrite map_length; auto).
    rewrite (map_nth (fun r => fst (reduce_row v x (brow n r, snd r)))), (map_nth (fun r => snd (reduce_row v x (brow n r, snd r)))).
    set (r := nth k rows ([], 0)). assert (Hr : In r rows) by (apply nth_In; auto). destruct (V r Hr) as [V1 V2]. rewrite V1. intro Z. apply negb_false_iff in Z.
    specialize (H r). rewrite filter_In in H. specialize (H (conj Hr Z)). lra.
Qed.
