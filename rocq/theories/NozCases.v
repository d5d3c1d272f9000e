(** When bspline returns a system; cases and findings for the nozzle constraints. *)
Require Import Reals Lra Lia List Bool Arith.
From Verif Require Import RVec Num Sums NozModel NozProofs NozMore.
Import ListNotations.
Local Open Scope R_scope.

(** a number, None, or a list with a number for each of the n segments *)
Definition limit_ok (l : limit) (n : nat) : Prop := match l with LList l => length l = n | _ => True end.
Definition has (l : limit) : nat := match l with LNone => 0 | _ => 1 end.
Definition flag (b : bool) : nat := if b then 1 else 0.
Definition bspline_count (nx t : nat) (s0 s1 s2 s3 : limit) (xl xr : option R) (lowest : bool) (minT maxT : option R) : nat :=
  (opt1 xl + (nx - 1) + opt1 xr + nx * opt1 minT + nx * opt1 maxT + (nx - (t + 3)) * (has s2 + has s3) +
   (if Nat.eqb t 0 then 0 else 2 + flag lowest * (nx - t) + (t - 1) * (has s0 + has s1)))%nat.

Lemma m_bound_ok : forall l n, limit_ok l n -> exists mb, m_bound l n = Some mb.
Proof. intros [|m|l] n H; simpl in *; eauto. rewrite H, Nat.eqb_refl. eauto. Qed.
Lemma m_bound_bad : forall l n, ~ limit_ok l n -> m_bound l n = None.
Proof. intros [|m|l] n H; simpl in *; [exfalso; auto|exfalso; auto|]. apply Nat.eqb_neq in H. rewrite H. auto. Qed.

Lemma bspline_rows_length : forall nx t s0 s1 s2 s3 xl xr delta lowest minT maxT b0 b1 b2 b3, (t < nx)%nat ->
  length (bspline_rows (2 * nx) nx t (if Nat.eqb t 0 then LNone else s0) (if Nat.eqb t 0 then LNone else s1) s2 s3 xl xr delta lowest minT maxT (if Nat.eqb t 0 then 0 else t - 1)%nat b0 b1 b2 b3) =
  bspline_count nx t s0 s1 s2 s3 xl xr lowest minT maxT.
Proof.
  intros. unfold bspline_rows, bspline_count, x_rows, width_rows, lowest_rows, min_rows, max_rows. rewrite !app_length, map_length, seq_length.
  assert (P : forall o (f : R -> list constr) k, (forall a, length (f a) = k) -> length (opt_row o f) = (k * opt1 o)%nat) by (intros [a|] f k Hf; simpl; rewrite ?Hf; lia).
  rewrite (P xl _ 1%nat), (P xr _ 1%nat), (P minT _ nx), (P maxT _ nx) by (auto; intro; rewrite map_length, seq_length; lia).
  assert (Q : forall (s : limit) (l : list constr) k, length l = k -> length (if is_lnone s then [] else l) = (k * has s)%nat) by (intros s l k E; destruct s; simpl; rewrite ?E; lia).
  rewrite (Q s2 _ (nx - (t + 3))%nat), (Q s3 _ (nx - (t + 3))%nat) by (unfold slope_lo, slope_hi; rewrite map_length, seq_length; auto).
  destruct (Nat.eqb_spec t 0) as [Z|Z].
  - subst. rewrite !andb_false_r. cbn [length is_lnone]. lia.
  - rewrite (Q s0 _ (t - 1)%nat), (Q s1 _ (t - 1)%nat) by (unfold slope_lo, slope_hi; rewrite map_length, seq_length; auto).
    cbn [negb]. rewrite andb_true_r. destruct lowest; cbn [length flag]; rewrite ?map_length, ?seq_length; lia.
Qed.
Lemma bspline_cols : forall nx t s0 s1 s2 s3 xl xr delta lowest minT maxT pre b0 b1 b2 b3 r e, (1 <= nx)%nat -> (t + 2 < nx \/ t = 0)%nat -> (pre <= t - 1)%nat ->
  In r (bspline_rows (2 * nx) nx t s0 s1 s2 s3 xl xr delta lowest minT maxT pre b0 b1 b2 b3) -> In e (fst r) -> (fst e < 2 * nx)%nat.
Proof.
  intros nx t s0 s1 s2 s3 xl xr delta lowest minT maxT pre b0 b1 b2 b3 r e Hn Ht Hp Hr He. unfold bspline_rows, x_rows in Hr. repeat (rewrite in_app_iff in Hr).
  assert (SL : forall (s : limit) start len mb, (1 <= start)%nat -> (start + len <= nx \/ len = 0)%nat -> In r (if is_lnone s then [] else slope_lo nx start len mb) -> (fst e < 2 * nx)%nat).
  { intros s start len mb H1 H2 H. destruct (is_lnone s); [contradiction|]. apply in_map_iff in H. destruct H as (j & <- & Hj). apply in_seq in Hj. simpl in He.
    destruct He as [<-|[<-|[<-|[<-|[]]]]]; simpl; lia. }
  assert (SH : forall (s : limit) start len mb, (1 <= start)%nat -> (start + len <= nx \/ len = 0)%nat -> In r (if is_lnone s then [] else slope_hi nx start len mb) -> (fst e < 2 * nx)%nat).
  { intros s start len mb H1 H2 H. destruct (is_lnone s); [contradiction|]. apply in_map_iff in H. destruct H as (j & <- & Hj). apply in_seq in Hj. simpl in He.
    destruct He as [<-|[<-|[<-|[<-|[]]]]]; simpl; lia. }
  destruct Hr as [[Hr|[Hr|Hr]]|[Hr|[Hr|[Hr|[Hr|[Hr|[Hr|[Hr|Hr]]]]]]]].
  - destruct xl; simpl in Hr; [|contradiction]. destruct Hr as [<-|[]]. simpl in He. destruct He as [<-|[]]. simpl. lia.
  - apply in_map_iff in Hr. destruct Hr as (i & <- & Hi). apply in_seq in Hi. destruct (orb (Nat.eqb i t) _); simpl in He; destruct He as [<-|[<-|[]]]; simpl; lia.
  - destruct xr; simpl in Hr; [|contradiction]. destruct Hr as [<-|[]]. simpl in He. destruct He as [<-|[]]. simpl. lia.
  - unfold width_rows in Hr. destruct (Nat.eqb_spec t 0); [contradiction|]. destruct Hr as [<-|[<-|[]]]; simpl in He; destruct He as [<-|[<-|[]]]; simpl; lia.
  - unfold lowest_rows in Hr. destruct (Nat.eqb_spec t 0); [rewrite andb_false_r in Hr; contradiction|]. destruct lowest; [|contradiction]. cbn [negb andb] in Hr. destruct Hr as [<-|Hr].
    + simpl in He. destruct He as [<-|[<-|[]]]; simpl; lia.
    + apply in_map_iff in Hr. destruct Hr as (i & <- & Hi). apply in_seq in Hi. cbn [fst] in He. destruct He as [<-|[<-|[]]]; cbn [fst put]; lia.
  - destruct minT; simpl opt_row in Hr; [|contradiction]. apply in_map_iff in Hr. destruct Hr as (i & <- & Hi). apply in_seq in Hi. cbn [fst] in He. destruct He as [<-|[]]; cbn [fst put]; lia.
  - destruct maxT; simpl opt_row in Hr; [|contradiction]. apply in_map_iff in Hr. destruct Hr as (i & <- & Hi). apply in_seq in Hi. cbn [fst] in He. destruct He as [<-|[]]; cbn [fst put]; lia.
  - apply (SL _ _ _ _) in Hr; auto; lia.
  - apply (SH _ _ _ _) in Hr; auto; lia.
  - apply (SL _ _ _ _) in Hr; auto; lia.
  - apply (SH _ _ _ _) in Hr; auto; lia.
Qed.

(** a system is returned exactly when the lists of slopes have the right lengths and the rows fit into the 100 rows allocated *)
Theorem bspline_returns : forall x v t s0 s1 s2 s3 xl xr delta lowest minT maxT nx,
  length x = (2 * nx)%nat -> (1 <= nx)%nat -> (t + 2 < nx \/ t = 0)%nat -> (2 * nx <= length v)%nat ->
  ((exists A b, bspline x v t s0 s1 s2 s3 xl xr delta lowest minT maxT = Done A b) <->
   (t <> 0%nat -> limit_ok s0 (t - 1) /\ limit_ok s1 (t - 1)) /\ limit_ok s2 (nx - (t + 3)) /\ limit_ok s3 (nx - (t + 3)) /\
   (bspline_count nx t s0 s1 s2 s3 xl xr lowest minT maxT <= 100)%nat).
Proof.
  intros x v t s0 s1 s2 s3 xl xr delta lowest minT maxT nx Lx Hn Ht Lv. unfold bspline. rewrite Lx. replace (Nat.div2 (2 * nx)) with nx by (rewrite Nat.div2_double; auto).
  replace (nx - 1 - (t + 2))%nat with (nx - (t + 3))%nat by lia.
  set (pre := if Nat.eqb t 0 then 0%nat else (t - 1)%nat). set (s0' := if Nat.eqb t 0 then LNone else s0). set (s1' := if Nat.eqb t 0 then LNone else s1).
  assert (OK0 : limit_ok s0' pre <-> (t <> 0%nat -> limit_ok s0 (t - 1))).
  { unfold s0', pre. destruct (Nat.eqb_spec t 0); [split; [intros _ N; contradiction|simpl; auto]|split; auto]. }
  assert (OK1 : limit_ok s1' pre <-> (t <> 0%nat -> limit_ok s1 (t - 1))).
  { unfold s1', pre. destruct (Nat.eqb_spec t 0); [split; [intros _ N; contradiction|simpl; auto]|split; auto]. }
  assert (LEN : forall b0 b1 b2 b3, length (bspline_rows (2 * nx) nx t s0' s1' s2 s3 xl xr delta lowest minT maxT pre b0 b1 b2 b3) = bspline_count nx t s0 s1 s2 s3 xl xr lowest minT maxT).
  { intros. apply bspline_rows_length. lia. }
  split.
  - intros (A & b & E).
    destruct (m_bound s0' pre) as [b0|] eqn:M0; [|discriminate]. destruct (m_bound s1' pre) as [b1|] eqn:M1; [|discriminate].
    destruct (m_bound s2 (nx - (t + 3))) as [b2|] eqn:M2; [|discriminate]. destruct (m_bound s3 (nx - (t + 3))) as [b3|] eqn:M3; [|discriminate].
    change (finish 100 (2 * nx) v x (bspline_rows (2 * nx) nx t s0' s1' s2 s3 xl xr delta lowest minT maxT pre b0 b1 b2 b3) = Done A b) in E.
    assert (G : forall l n mb, m_bound l n = Some mb -> limit_ok l n).
    { intros [|m|l] n mb M; simpl in *; auto. destruct (Nat.eqb_spec (length l) n); [auto|discriminate]. }
    pose proof (proj1 OK0 (G _ _ _ M0)). pose proof (proj1 OK1 (G _ _ _ M1)). repeat split; eauto.
    destruct (Nat.le_gt_cases (bspline_count nx t s0 s1 s2 s3 xl xr lowest minT maxT) 100) as [C|C]; auto. rewrite finish_too_many in E by (rewrite LEN; lia). discriminate.
  - intros (H01 & H2 & H3 & C).
    destruct (m_bound_ok s0' pre) as [b0 M0]; [apply OK0; intro; apply H01; auto|]. destruct (m_bound_ok s1' pre) as [b1 M1]; [apply OK1; intro; apply H01; auto|].
    destruct (m_bound_ok _ _ H2) as [b2 M2]. destruct (m_bound_ok _ _ H3) as [b3 M3]. rewrite M0, M1, M2, M3.
    change (exists A b, finish 100 (2 * nx) v x (bspline_rows (2 * nx) nx t s0' s1' s2 s3 xl xr delta lowest minT maxT pre b0 b1 b2 b3) = Done A b).
    apply finish_done.
    + rewrite LEN. auto.
    + intros r e Hr He. refine (bspline_cols nx t s0' s1' s2 s3 xl xr delta lowest minT maxT pre b0 b1 b2 b3 r e Hn Ht _ Hr He). unfold pre. destruct (Nat.eqb t 0); lia.
    + lia.
    + intro; subst v. simpl in Lv. lia.
Qed.
(** a wrong list gives the pair (0, 0) instead of an exception *)
Theorem bspline_zero_pair : forall x v t s0 s1 s2 s3 xl xr delta lowest minT maxT nx,
  length x = (2 * nx)%nat -> (~ limit_ok s2 (nx - (t + 3)) \/ ~ limit_ok s3 (nx - (t + 3)) \/ (t <> 0%nat /\ (~ limit_ok s0 (t - 1) \/ ~ limit_ok s1 (t - 1)))) ->
  bspline x v t s0 s1 s2 s3 xl xr delta lowest minT maxT = ZeroPair.
Proof.
  intros x v t s0 s1 s2 s3 xl xr delta lowest minT maxT nx Lx H. unfold bspline. rewrite Lx. replace (Nat.div2 (2 * nx)) with nx by (rewrite Nat.div2_double; auto).
  replace (nx - 1 - (t + 2))%nat with (nx - (t + 3))%nat by lia. destruct H as [H|[H|[H0 [H|H]]]].
  - rewrite (m_bound_bad s2) by auto. destruct (m_bound _ _); auto. destruct (m_bound _ _); auto.
  - rewrite (m_bound_bad s3) by auto. destruct (m_bound _ _); auto. destruct (m_bound _ _); auto. destruct (m_bound _ _); auto.
  - apply Nat.eqb_neq in H0. rewrite H0, (m_bound_bad s0) by auto. auto.
  - apply Nat.eqb_neq in H0. rewrite H0, (m_bound_bad s1) by auto. destruct (m_bound _ _); auto.
Qed.

(* ------------------------------------------------------------------ the documented throat *)
(** "a doubled control point at the throat": the points t and t+1 coincide.  The row X_t + 0.05 <= X_{t+1} excludes it, so the system has no solution. *)
Theorem bspline_doubled_throat : forall x v t s0 s1 s2 s3 xl xr delta lowest minT maxT nx A b z,
  bspline x v t s0 s1 s2 s3 xl xr delta lowest minT maxT = Done A b -> length x = (2 * nx)%nat -> (t + 2 < nx)%nat -> length z = vmaxn v -> (2 * nx <= length v)%nat ->
  nth t v 0%nat = nth (t + 1) v 0%nat -> vget x t = vget x (t + 1) -> ~ sat A b z.
Proof.
  intros x v t s0 s1 s2 s3 xl xr delta lowest minT maxT nx A b z E Lx Ht Lz Lv Ev Ex S.
  apply (bspline_spec x v t s0 s1 s2 s3 xl xr delta lowest minT maxT nx A b z E Lx ltac:(lia) ltac:(lia) Lz) in S. destruct S as (_ & G & _).
  specialize (G (t + 1)%nat ltac:(lia)). rewrite !Nat.eqb_refl, orb_true_r in G. cbn [orb] in G. replace (t + 1 - 1)%nat with t in G by lia.
  unfold design in G. rewrite !vget_map_seq in G by lia. rewrite <- Ev, <- Ex in G. destruct (nth t v 0%nat); lra.
Qed.
(** ... likewise for neighbours of equal height when throatIsLowest is set *)
Theorem bspline_flat_throat : forall x v t s0 s1 s2 s3 xl xr delta minT maxT nx A b z,
  bspline x v t s0 s1 s2 s3 xl xr delta true minT maxT = Done A b -> length x = (2 * nx)%nat -> (1 <= t)%nat -> (t + 2 < nx)%nat -> length z = vmaxn v -> (2 * nx <= length v)%nat ->
  nth (nx + t) v 0%nat = nth (nx + (t - 1)) v 0%nat -> vget x (nx + t) = vget x (nx + (t - 1)) -> ~ sat A b z.
Proof.
  intros x v t s0 s1 s2 s3 xl xr delta minT maxT nx A b z E Lx T1 Ht Lz Lv Ev Ex S.
  apply (bspline_spec x v t s0 s1 s2 s3 xl xr delta true minT maxT nx A b z E Lx ltac:(lia) ltac:(lia) Lz) in S. destruct S as (_ & _ & _ & _ & G & _).
  destruct (G eq_refl ltac:(lia)) as [G1 _]. unfold design in G1. rewrite !vget_map_seq in G1 by lia. rewrite <- Ev, <- Ex in G1. destruct (nth (nx + t) v 0%nat); lra.
Qed.

(* ------------------------------------------------------------------ cases *)
Lemma limit_at_none : forall j m, limit_at LNone j = Some m -> False.
Proof. discriminate. Qed.
(** without a throat: the first gaps may be smaller than delta and the first two segments have no slope limits *)
Definition nt_x : vec := [0; 0; 0; 0; 0; 0].
Definition nt_v : list nat := [1; 2; 3; 4; 5; 6]%nat.
Theorem bspline_nothroat_refuted : exists x v s2 s3 delta nx A b z,
  bspline x v 0 LNone LNone (LVal s2) (LVal s3) None None delta false None None = Done A b /\ length x = (2 * nx)%nat /\ length z = vmaxn v /\ sat A b z /\
  let w := design v x z in
  (exists i, (1 <= i < nx)%nat /\ vget w i - vget w (i - 1) < delta) /\
  (exists i, (1 <= i < nx)%nat /\ s3 * (vget w i - vget w (i - 1)) < vget w (nx + i) - vget w (nx + (i - 1))).
Proof.
  destruct (proj2 (bspline_returns nt_x nt_v 0 LNone LNone (LVal (-1)) (LVal 1) None None (/ 5) false None None 3 eq_refl ltac:(lia) ltac:(lia) ltac:(simpl; lia))) as (A & b & E).
  { cbn. repeat split; auto; lia. }
  exists nt_x, nt_v, (-1), 1, (/ 5), 3%nat, A, b, [0; / 10; / 5; 0; 5; 9]. split; [exact E|]. split; [reflexivity|]. split; [reflexivity|]. split.
  - apply (bspline_spec _ _ _ _ _ _ _ _ _ _ _ _ _ 3%nat A b [0; / 10; / 5; 0; 5; 9] E eq_refl ltac:(lia) ltac:(lia) eq_refl).
    unfold bspline_ok. repeat split; try discriminate; try (intros; discriminate); try (intros; lia).
    intros i Hi. destruct i as [|[|[|i]]]; try lia; cbn; lra.
  - split; exists 1%nat; cbn; split; try lia; lra.
Qed.
(** "throat is lowest point on left of throat": only the neighbour is compared; a point further left may be lower *)
Definition lt_x : vec := [0; 0; 0; 0; 0; 0; 0; 0; 0; 0].
Definition lt_v : list nat := [1; 2; 3; 4; 5; 6; 7; 8; 9; 10]%nat.
Theorem bspline_lowest_refuted : exists x v t nx A b z,
  bspline x v t LNone LNone LNone LNone None None (/ 100) true None None = Done A b /\ length x = (2 * nx)%nat /\ length z = vmaxn v /\ sat A b z /\
  exists i, (i < t)%nat /\ vget (design v x z) (nx + i) < vget (design v x z) (nx + t).
Proof.
  destruct (proj2 (bspline_returns lt_x lt_v 2 LNone LNone LNone LNone None None (/ 100) true None None 5 eq_refl ltac:(lia) ltac:(lia) ltac:(simpl; lia))) as (A & b & E).
  { cbn. repeat split; auto; lia. }
  exists lt_x, lt_v, 2%nat, 5%nat, A, b, [0; / 10; / 5; 3 / 10; 4 / 10; 0; 2; 1; 2; 2]. split; [exact E|]. split; [reflexivity|]. split; [reflexivity|]. split.
  - apply (bspline_spec _ _ _ _ _ _ _ _ _ _ _ _ _ 5%nat A b [0; / 10; / 5; 3 / 10; 4 / 10; 0; 2; 1; 2; 2] E eq_refl ltac:(lia) ltac:(lia) eq_refl).
    unfold bspline_ok. repeat split; try discriminate; try (intros; discriminate); try (intros; lia).
    + intros i Hi. destruct i as [|[|[|[|[|i]]]]]; try lia; cbn; lra.
    + cbn. lra.
    + cbn. lra.
    + cbn. lra.
    + intros i Hi. destruct i as [|[|[|[|[|i]]]]]; try lia; cbn; lra.
  - exists 0%nat. split; [lia|]. cbn. lra.
Qed.
(** a system with a throat, slope limits and a solution *)
Definition th_x : vec := [0; 1; 2; 3; 4; 5; 6; 7; 1; 1; 1; 1; 1; 1; 1; 1].
Definition th_v : list nat := [0; 1; 2; 3; 4; 5; 6; 7; 0; 8; 9; 10; 11; 12; 13; 14]%nat.
Example bspline_instance : exists A b, bspline th_x th_v 3 (LList [-2; -2]) (LVal 1) (LVal 0) (LList [2; 3]) (Some (-1)) (Some 9) (/ 10) true (Some 0) (Some 2) = Done A b /\
  sat A b [1; 2; 2 + / 20; 2 + / 10; 2 + 3 / 20; 3; 4; / 2; / 4; / 10; / 5; / 5; / 4; / 4].
Proof.
  destruct (proj2 (bspline_returns th_x th_v 3 (LList [-2; -2]) (LVal 1) (LVal 0) (LList [2; 3]) (Some (-1)) (Some 9) (/ 10) true (Some 0) (Some 2) 8 eq_refl ltac:(lia) ltac:(lia) ltac:(simpl; lia))) as (A & b & E).
  { cbn. repeat split; auto; lia. }
  exists A, b. split; [exact E|]. apply (bspline_spec _ _ _ _ _ _ _ _ _ _ _ _ _ 8%nat A b [1; 2; 2 + / 20; 2 + / 10; 2 + 3 / 20; 3; 4; / 2; / 4; / 10; / 5; / 5; / 4; / 4] E eq_refl ltac:(lia) ltac:(lia) eq_refl).
  unfold bspline_ok. repeat match goal with |- _ /\ _ => split end.
  - intros a Q. injection Q as <-. cbn. lra.
  - intros i Hi. destruct i as [|[|[|[|[|[|[|[|i]]]]]]]]; try lia; cbn; lra.
  - intros a Q. injection Q as <-. cbn. lra.
  - intros _. cbn. lra.
  - intros _ _. split; [cbn; lra|]. intros i Hi. destruct i as [|[|[|[|[|[|[|[|i]]]]]]]]; try lia; cbn; lra.
  - intros a i Q Hi. injection Q as <-. destruct i as [|[|[|[|[|[|[|[|i]]]]]]]]; try lia; cbn; lra.
  - intros a i Q Hi. injection Q as <-. destruct i as [|[|[|[|[|[|[|[|i]]]]]]]]; try lia; cbn; lra.
  - intros i m _ Hi Q. destruct i as [|[|[|i]]]; try lia; cbn in Q; injection Q as <-; cbn; lra.
  - intros i m _ Hi Q. destruct i as [|[|[|i]]]; try lia; cbn in Q; injection Q as <-; cbn; lra.
  - intros i m Hi Q. destruct i as [|[|[|[|[|[|[|[|i]]]]]]]]; try lia; cbn in Q; injection Q as <-; cbn; lra.
  - intros i m Hi Q. destruct i as [|[|[|[|[|[|[|[|i]]]]]]]]; try lia; cbn in Q; injection Q as <-; cbn; lra.
Qed.
(** the doubled throat occurs: the middle points share the design variable 3 *)
Definition db_v : list nat := [0; 1; 2; 3; 3; 5; 6; 7; 0; 8; 9; 9; 9; 9; 10; 11]%nat.
Definition db_x : vec := [0; 1; 2; 3; 3; 5; 6; 7; 1; 1; 1; 1; 1; 1; 1; 1].
Example bspline_doubled_instance : exists A b, bspline db_x db_v 3 LNone LNone LNone LNone None None (/ 10) true None None = Done A b /\
  nth 3 db_v 0%nat = nth 4 db_v 0%nat /\ vget db_x 3 = vget db_x 4 /\ nth (8 + 3) db_v 0%nat = nth (8 + 2) db_v 0%nat /\ forall z, length z = vmaxn db_v -> ~ sat A b z.
Proof.
  destruct (proj2 (bspline_returns db_x db_v 3 LNone LNone LNone LNone None None (/ 10) true None None 8 eq_refl ltac:(lia) ltac:(lia) ltac:(simpl; lia))) as (A & b & E).
  { cbn. repeat split; auto; lia. }
  exists A, b. split; [exact E|]. split; [reflexivity|]. split; [reflexivity|]. split; [reflexivity|]. intros z Lz.
  apply (bspline_doubled_throat _ _ _ _ _ _ _ _ _ _ _ _ _ 8%nat A b z E eq_refl ltac:(lia) Lz ltac:(simpl; lia) eq_refl eq_refl).
Qed.

(** the loop over the angles starts one entry too early: the last two angles may coincide although deltay is given *)
Definition pz_v : list nat := [1; 2; 3; 4; 5; 6; 7; 8; 9; 10; 11]%nat.
Theorem pba_angles_refuted : exists x y z v d A b u, piecewiseBilinearAxial x y z v (-1) 1 None None (/ 10) (Some d) (Some 1) = Done A b /\ length u = vmaxn v /\ sat A b u /\ 0 < d /\
  ~ y_order (length y) (Some d) (fun j => vget (design v (x ++ y ++ z) u) (length x + j)).
Proof.
  destruct (proj2 (proj1 (pba_returns [0; 1] [0; 1; 2] [1; 1; 1; 1; 1; 1] pz_v (-1) 1 None None (/ 10) (Some 1) (Some 1) ltac:(simpl; lia) ltac:(simpl; lia)))) as (A & b & E).
  { cbn. repeat split; lia. }
  exists [0; 1], [0; 1; 2], [1; 1; 1; 1; 1; 1], pz_v, 1, A, b, [0; 1; 2; 3; 3; 1; 1; 1; 1; 1; 1]. split; [exact E|]. split; [reflexivity|]. split; [|split; [lra|]].
  - apply (pba_spec _ _ _ _ _ _ _ _ _ _ _ A b [0; 1; 2; 3; 3; 1; 1; 1; 1; 1; 1] E ltac:(simpl; lia) ltac:(simpl; lia) eq_refl). cbn [length]. split; [|split; [|split]].
    + split; [discriminate|split; [|discriminate]]. intros i Hi. destruct i as [|[|i]]; try lia. cbn. lra.
    + intros d Q. injection Q as <-. split; [intros _; cbn; lra|]. intros j Hj. destruct j as [|[|j]]; try lia. cbn. lra.
    + intros i j Hi Hj. destruct i as [|[|i]]; try lia. destruct j as [|[|[|j]]]; try lia; cbn; lra.
    + intros d i j Q Hi Hj. injection Q as <-. destruct i as [|[|i]]; try lia; destruct j as [|[|[|j]]]; try lia; cbn; apply Rabs_le_iff; lra.
  - intro Y. specialize (Y 1 2%nat eq_refl ltac:(simpl; lia)). cbn in Y. lra.
Qed.
(** with a single angle the row that closes the circle reads |Z| <= deltaz instead of nothing: B[m,k] is assigned twice *)
Theorem pba_single_refuted : exists x y z v A b u, piecewiseBilinearAxial x y z v (-1) 1 None None (/ 10) None (Some 1) = Done A b /\ length u = vmaxn v /\ ~ sat A b u /\
  let w := design v (x ++ y ++ z) u in
  x_order 1 None None (/ 10) (fun i => vget w i) /\ axial_slopes 1 1 (-1) 1 (fun i => vget w i) (fun i j => vget w (1 + 1 + j * 1 + i)) /\ radial_close 1 1 (Some 1) (fun i j => vget w (1 + 1 + j * 1 + i)).
Proof.
  destruct (proj2 (proj1 (pba_returns [0] [0] [5] [1; 2; 3]%nat (-1) 1 None None (/ 10) None (Some 1) ltac:(simpl; lia) ltac:(simpl; lia)))) as (A & b & E).
  { cbn. repeat split; lia. }
  exists [0], [0], [5], [1; 2; 3]%nat, A, b, [0; 0; 5]. split; [exact E|]. split; [reflexivity|]. split.
  - intro S. unfold piecewiseBilinearAxial in E. cbn [length Nat.eqb Nat.mul Nat.add negb] in E. unfold finish, fillB in E. cbn [length Nat.leb andb forallb fst snd pba_rows opt_row app map flat_map seq Nat.sub Nat.add Nat.mul put Nat.ltb orb Nat.eqb] in E.
    unfold reduce in E. injection E as <- <-. specialize (S 1%nat ltac:(simpl; lia)).
    cbn in S. rewrite !dot_cons, dot_nil_l in S. unfold vget in S. cbn in S. lra.
  - cbv zeta. split; [|split].
    + split; [discriminate|split; [|discriminate]]. intros; lia.
    + intros i j Hi. lia.
    + intros d i j Q Hi Hj. injection Q as <-. replace i with 0%nat by lia. replace j with 0%nat by lia. cbn. rewrite Rminus_diag_eq by auto. rewrite Rabs_R0. lra.
Qed.
Example baffles_instance : exists A b, baffles [0; / 5; / 2] [1; 1; 1] [0; 1; 2; 3; 4; 5]%nat (/ 10) (/ 2) = Done A b /\ length A = 4%nat /\ sat A b [/ 5; / 2; 1; 1; 1].
Proof.
  destruct (baffles_returns [0; / 5; / 2] [1; 1; 1] [0; 1; 2; 3; 4; 5]%nat (/ 10) (/ 2) ltac:(simpl; lia) eq_refl) as (A & b & E & L). exists A, b. split; [exact E|]. split; [rewrite L; reflexivity|].
  apply (baffles_spec _ _ _ _ _ A b [/ 5; / 2; 1; 1; 1] E eq_refl). intros i Hi. cbn [length] in Hi. destruct i as [|[|[|i]]]; try lia; cbn; lra.
Qed.
Example elimination_instance : length [3; 4] = vmaxn [1; 0; 2]%nat /\ le (length (fst ([1; 2; -1], 5))) 3 /\
  design [1; 0; 2]%nat [9; 7; 9] [3; 4] = [3; 7; 4] /\ reduce_row [1; 0; 2]%nat [9; 7; 9] ([1; 2; -1], 5) = ([0 + 1; 0 + -1], 5 - 7 * 2).
Proof. repeat split; simpl; lia. Qed.
