(** The Voronoi cells of projected designs (sample/projection.py). *)
Require Import Reals Lra Lia List Bool Arith Permutation.
From Verif Require Import RVec Num Sums DomModel DomSpec DomProofs DomOpsProofs DomMoreModel SweepProofs HullProofs PartialProofs MatLib GeoModel GeoProofs SampModel LatinProofs SampMoreModel ProjModel.
Import ListNotations.
Local Open Scope R_scope.

(** ** specification: the inequalities, and being at least as near to one point as to others *)
Definition holds (c : rows) (x : vec) : Prop := forall a b, In (a, b) c -> dot a x <= b.
Definition as_near (z : vec) (y : vec) (Y : list vec) : Prop := forall y', In y' Y -> edist z y <= edist z y'.

Lemma half_space : forall z y w, length y = length z -> length w = length z ->
  (dot (vsub w y) z <= dot (vsub w y) (vscale (/ 2) (vadd y w)) <-> edist z y <= edist z w).
Proof.
  intros z y w Hy Hw. unfold edist. pose proof (norm2_nonneg (vsub z w)) as P. pose proof (norm2_sq (vsub z w)) as Q.
  rewrite (norm2_le_iff (vsub z y)) by auto. rewrite Q. unfold norm2sq.
  assert (E : forall u, length u = length z -> dot (vsub z u) (vsub z u) = dot z z - 2 * dot u z + dot u u).
  { intros u Hu. rewrite dot_vsub_r, !dot_vsub_l by auto. rewrite (dot_comm z u). ring. }
  rewrite !E by auto. rewrite dot_vscale_r, dot_vadd_r, !dot_vsub_l by congruence. rewrite (dot_comm w y). split; intro; lra.
Qed.

(** ** the rows *)
Lemma vc_row_spec : forall m L y w x, Forall (fun r => length r = m) L -> length y = length L -> length w = length L ->
  (dot (fst (vc_row m L y w)) x <= snd (vc_row m L y w) <-> edist (mv L x) y <= edist (mv L x) w).
Proof.
  intros m L y w x HL Hy Hw. unfold vc_row. simpl fst. simpl snd. rewrite dot_lincomb_mv; [|exact HL|unfold vsub; rewrite vmap2_length; congruence].
  apply half_space; rewrite mv_length; auto.
Qed.
Lemma ps_row_spec : forall m L xj xk x, Forall (fun r => length r = m) L -> length xj = m -> length xk = m ->
  (dot (fst (ps_row m L xj xk)) x <= snd (ps_row m L xj xk) <-> edist (mv L x) (mv L xj) <= edist (mv L x) (mv L xk)).
Proof.
  intros m L xj xk x HL Hj Hk. unfold ps_row. simpl fst. simpl snd. rewrite !dot_lincomb_mv by (auto; rewrite mv_length; auto).
  rewrite mv_vscale, mv_vadd, mv_vsub by congruence. apply half_space; rewrite !mv_length; auto.
Qed.
Theorem ps_cell_spec : forall m L X j neigh x, Forall (fun r => length r = m) L -> Forall (fun r => length r = m) X ->
  (j < length X)%nat -> (forall k, In k neigh -> (k < length X)%nat) ->
  (holds (ps_cell m L X j neigh) x <-> as_near (mv L x) (mv L (nth j X [])) (map (fun k => mv L (nth k X [])) neigh)).
Proof.
  intros m L X j neigh x HL HX Hj Hn. rewrite Forall_forall in HX. unfold holds, as_near, ps_cell. split.
  - intros H y' I. apply in_map_iff in I. destruct I as [k [<- Ik]]. apply (ps_row_spec m); [auto|apply HX, nth_In; auto|apply HX, nth_In; auto|].
    apply H. rewrite <- surjective_pairing. apply in_map_iff. exists k. auto.
  - intros H a b I. apply in_map_iff in I. destruct I as [k [E Ik]]. assert (S : dot (fst (ps_row m L (nth j X []) (nth k X []))) x <= snd (ps_row m L (nth j X []) (nth k X []))).
    { apply ps_row_spec; [auto|apply HX, nth_In; auto|apply HX, nth_In; auto|]. apply H. apply in_map_iff. exists k. auto. }
    rewrite E in S. exact S.
Qed.
Lemma vc_rows1_spec : forall m L Y j x, Forall (fun r => length r = m) L -> Forall (fun r => length r = length L) Y -> (j < length Y)%nat ->
  (holds (vc_rows1 m (length Y) L Y j) x <-> as_near (mv L x) (nth j Y []) Y).
Proof.
  intros m L Y j x HL HY Hj. rewrite Forall_forall in HY. unfold holds, as_near, vc_rows1. split.
  - intros H y' I. apply (In_nth _ _ []) in I. destruct I as [k [Hk <-]]. destruct (Nat.eq_dec j k) as [->|NE]; [lra|].
    apply (vc_row_spec m); [auto|apply HY, nth_In; auto|apply HY, nth_In; auto|]. apply H. rewrite <- surjective_pairing. apply in_flat_map. exists k.
    split; [apply in_seq; lia|]. destruct (Nat.eqb_spec j k); [lia|left; auto].
  - intros H a b I. apply in_flat_map in I. destruct I as [k [Ik I]]. apply in_seq in Ik. destruct (Nat.eqb_spec j k) as [->|NE]; [destruct I|]. destruct I as [E|[]].
    assert (S : dot (fst (vc_row m L (nth j Y []) (nth k Y []))) x <= snd (vc_row m L (nth j Y []) (nth k Y []))).
    { apply vc_row_spec; [auto|apply HY, nth_In; auto|apply HY, nth_In; lia|]. apply H, nth_In. lia. }
    rewrite E in S. exact S.
Qed.
(** all metrics: shapes of the arguments of _voronoi_cell_point *)
Definition vc_shapes (m M : nat) (Ls Ys : list mat) (coord : list nat) : Prop :=
  length Ys = length Ls /\ length coord = length Ls /\
  forall i, (i < length Ls)%nat -> Forall (fun r => length r = m) (nth i Ls []) /\ length (nth i Ys []) = M /\
    Forall (fun y => length y = length (nth i Ls [])) (nth i Ys []) /\ (nth i coord O < M)%nat.
(** the inequalities of _voronoi_cell_point: nearest for every metric; there are some when there are two points *)
Theorem vc_rows_spec : forall m M Ls Ys coord, (1 <= length Ls)%nat -> (2 <= M)%nat -> vc_shapes m M Ls Ys coord ->
  exists r, vc_rows m Ls Ys coord = Some r /\ forall x, holds r x <->
    forall i, (i < length Ls)%nat -> as_near (mv (nth i Ls []) x) (nth (nth i coord O) (nth i Ys []) []) (nth i Ys []).
Proof.
  intros m M Ls Ys coord HK HM [E1 [E2 HS]]. unfold vc_rows. rewrite E1, Nat.min_id. assert (EM : length (nth 0 Ys []) = M) by (apply HS; lia). rewrite EM.
  set (r := flat_map _ _). assert (HR : forall x, holds r x <-> forall i, (i < length Ls)%nat -> as_near (mv (nth i Ls []) x) (nth (nth i coord O) (nth i Ys []) []) (nth i Ys [])).
  { intro x. split.
    - intros H i Hi. destruct (HS i Hi) as [A [B [C D]]]. apply (vc_rows1_spec m); auto; [lia|]. intros a b I. apply H. unfold r. apply in_flat_map. exists i. split; [apply in_seq; lia|]. rewrite <- B. exact I.
    - intros H a b I. unfold r in I. apply in_flat_map in I. destruct I as [i [Ii I]]. apply in_seq in Ii. destruct (HS i ltac:(lia)) as [A [B [C D]]]. rewrite <- B in I.
      revert a b I. apply (vc_rows1_spec m); auto; [lia|]. apply H. lia. }
  assert (NE : r <> []).
  { destruct (HS O ltac:(lia)) as [_ [_ [_ D]]]. set (j := nth 0 coord O) in *. set (k := if Nat.eqb j 0 then 1%nat else O).
    assert (I : In (vc_row m (nth 0 Ls []) (nth j (nth 0 Ys []) []) (nth k (nth 0 Ys []) [])) r).
    { unfold r. apply in_flat_map. exists O. split; [apply in_seq; lia|]. unfold vc_rows1. apply in_flat_map. exists k. fold j. unfold k. destruct (Nat.eqb_spec j 0) as [E|E].
      - split; [apply in_seq; lia|]. rewrite E. left. auto.
      - split; [apply in_seq; lia|]. destruct (Nat.eqb_spec j 0); [lia|]. left. auto. }
    intro E. rewrite E in I. destruct I. }
  destruct r as [|q r'] eqn:ER; [congruence|]. exists (q :: r'). split; auto.
Qed.
(** one sample: the list of rows is empty and np.vstack raises *)
Theorem vc_rows_single : forall m Ls Ys coord, length (nth 0 Ys []) = 1%nat -> length coord = length Ls -> length Ys = length Ls ->
  (forall i, (i < length Ls)%nat -> nth i coord O = O) -> vc_rows m Ls Ys coord = None.
Proof.
  intros m Ls Ys coord E1 E2 E3 H. unfold vc_rows. rewrite E1, E3, Nat.min_id.
  assert (E : forall n, (n <= length Ls)%nat -> flat_map (fun i => vc_rows1 m 1 (nth i Ls []) (nth i Ys []) (nth i coord O)) (seq 0 n) = []).
  { induction n as [|n IH]; intro Hn; [reflexivity|]. rewrite seq_S, flat_map_app, IH by lia. simpl. rewrite (H n) by lia. reflexivity. }
  rewrite E by lia. reflexivity.
Qed.

(** ** cells cover the space and meet in ties only *)
Lemma argmin_nat : forall (f : nat -> R) n, (0 < n)%nat -> exists j, (j < n)%nat /\ forall k, (k < n)%nat -> f j <= f k.
Proof.
  intros f n. induction n as [|n IH]; intro H; [lia|]. destruct n as [|n]; [exists O; split; [lia|intros k Hk; assert (k = O) by lia; subst; lra]|].
  destruct IH as [j [Hj IH]]; [lia|]. destruct (Rle_dec (f j) (f (S n))) as [C|C].
  - exists j. split; [lia|]. intros k Hk. destruct (Nat.eq_dec k (S n)); [subst; auto|apply IH; lia].
  - exists (S n). split; [lia|]. intros k Hk. destruct (Nat.eq_dec k (S n)); [subst; lra|]. specialize (IH k ltac:(lia)). lra.
Qed.
Theorem cells_cover : forall (Y : mat) z, Y <> [] -> exists j, (j < length Y)%nat /\ as_near z (nth j Y []) Y.
Proof.
  intros Y z H. destruct (argmin_nat (fun k => edist z (nth k Y [])) (length Y)) as [j [Hj A]]; [destruct Y; [congruence|simpl; lia]|].
  exists j. split; auto. intros y' I. apply (In_nth _ _ []) in I. destruct I as [k [Hk <-]]. auto.
Qed.
Theorem cells_overlap : forall (Y : mat) z j k, (j < length Y)%nat -> (k < length Y)%nat -> as_near z (nth j Y []) Y -> as_near z (nth k Y []) Y ->
  edist z (nth j Y []) = edist z (nth k Y []).
Proof. intros Y z j k Hj Hk A B. apply Rle_antisym; [apply A, nth_In|apply B, nth_In]; auto. Qed.
(** for every metric at once: each point of the space lies in the cell of some combination *)
Theorem combos_cover : forall m M Ls Ys x, (1 <= length Ls)%nat -> (2 <= M)%nat -> length Ys = length Ls ->
  (forall i, (i < length Ls)%nat -> Forall (fun r => length r = m) (nth i Ls []) /\ length (nth i Ys []) = M /\ Forall (fun y => length y = length (nth i Ls [])) (nth i Ys [])) ->
  exists coord r, length coord = length Ls /\ Forall (fun v => (v < M)%nat) coord /\ vc_rows m Ls Ys coord = Some r /\ holds r x.
Proof.
  intros m M Ls Ys x HK HM EY HS.
  assert (C : forall n, (n <= length Ls)%nat -> exists coord, length coord = n /\ forall i, (i < n)%nat -> (nth i coord O < M)%nat /\ as_near (mv (nth i Ls []) x) (nth (nth i coord O) (nth i Ys []) []) (nth i Ys [])).
  { induction n as [|n IH]; intro Hn; [exists []; split; [auto|intros; lia]|]. destruct IH as [c [Lc Hc]]; [lia|]. destruct (HS n ltac:(lia)) as [_ [LY _]].
    destruct (cells_cover (nth n Ys []) (mv (nth n Ls []) x)) as [j [Hj A]]; [intro E; rewrite E in LY; simpl in LY; lia|]. exists (c ++ [j]). split; [rewrite app_length; simpl; lia|].
    intros i Hi. destruct (Nat.eq_dec i n) as [->|NE]; [rewrite app_nth2, Lc, Nat.sub_diag by lia; simpl; split; [lia|auto]|]. rewrite app_nth1 by lia. apply Hc. lia. }
  destruct (C (length Ls) (le_n _)) as [c [Lc Hc]]. destruct (vc_rows_spec m M Ls Ys c HK HM) as [r [E H]].
  { split; [auto|]. split; [auto|]. intros i Hi. destruct (HS i Hi) as [A [B D]]. repeat (split; auto). apply Hc. auto. }
  exists c, r. split; auto. split; [|split; auto; apply H; intros i Hi; apply Hc; auto].
  apply Forall_forall. intros v Iv. apply (In_nth _ _ O) in Iv. destruct Iv as [i [Hi <-]]. apply Hc. lia.
Qed.
