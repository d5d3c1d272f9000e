(** Clustering: the clusters, the objective lowered by every step, and when the loop stops. *)
Require Import Reals Lra Lia List Bool Arith.
From Verif Require Import RVec Num Sums DomModel DomSpec DomProofs LipModel LipProofs MatLib SampModel PigeonLib DesignProofs CoffeeProofs GeoModel GeoProofs VoronoiProofs SampMoreModel MinimaxProofs.
Import ListNotations.
Local Open Scope R_scope.

Lemma in_cluster : forall (A : Type) (g : A -> nat) i (X : list A) x, In x (cluster_of (map g X) i X) <-> In x X /\ g x = i.
Proof.
  intros A g i X x. unfold cluster_of. induction X as [|a X IH]; [simpl; tauto|]. cbn [map select]. destruct (Nat.eqb_spec i (g a)) as [E|N]; cbn [In].
  - rewrite IH. split; [intros [->|[H1 H2]]; auto|intros [[->|H1] H2]; auto].
  - rewrite IH. split; [intros [H1 H2]; auto|intros [[->|H1] H2]; [congruence|auto]].
Qed.
(** the i-th cluster: the samples whose first nearest centre is the i-th *)
Theorem cluster_members : forall L Xhat X i x, Xhat <> [] -> In x (cluster_of (assign L Xhat X) i X) <->
  In x X /\ (i < length Xhat)%nat /\ (forall k, (k < length Xhat)%nat -> Ldist L (nth i Xhat []) x <= Ldist L (nth k Xhat []) x) /\ (forall k, (k < i)%nat -> Ldist L (nth i Xhat []) x < Ldist L (nth k Xhat []) x).
Proof.
  intros L Xhat X i x NE. unfold assign. rewrite (in_cluster _ (fun x => argmin_idx (map (fun xh => Ldist L xh x) Xhat))).
  set (l := map (fun xh => Ldist L xh x) Xhat). assert (NL : map Ropp l <> []) by (unfold l; destruct Xhat; [congruence|discriminate]).
  assert (G : forall k, (k < length Xhat)%nat -> vget (map Ropp l) k = - Ldist L (nth k Xhat []) x). { intros k Hk. unfold vget, l. rewrite map_map. rewrite (nth_indep _ 0 (- Ldist L [] x)) by (rewrite map_length; auto). apply (map_nth (fun xh => - Ldist L xh x)). }
  destruct (argmax_spec _ NL) as (A1 & A2 & A3). unfold argmin_idx. set (j := argmax (map Ropp l)) in *. assert (LL : length (map Ropp l) = length Xhat) by (unfold l; rewrite !map_length; auto). rewrite LL in *. split.
  - intros [I <-]. split; auto. split; auto. split; intros k Hk; [specialize (A2 k Hk)|specialize (A3 k Hk)]; rewrite !G in * by lia; lra.
  - intros (I & Hi & B1 & B2). split; auto. destruct (lt_eq_lt_dec j i) as [[C|C]|C]; auto.
    + specialize (B2 j C). specialize (A2 i Hi). rewrite !G in A2 by auto. lra.
    + specialize (A3 i C). specialize (B1 j A1). rewrite !G in A3 by auto. lra.
Qed.
(* ---------------- the objective ---------------- *)
(** sum over the samples of the q-th powers of the distances to the nearest centre *)
Definition qcost (q : nat) (L Xhat X : mat) : R := vsum (map (fun x => mind L Xhat x ^ q) X).
(** contract of _cq_center_cvxpy (minimax.py 51-83): among points with n coordinates the one with the smallest q-norm of distances *)
Definition q_center (q n : nat) (L : mat) (center : nat -> mat -> vec -> vec) : Prop := forall it Y xh, length (center it Y xh) = n /\
  (Y <> [] -> Forall (fun y => length y = length L) Y -> forall z, length z = n -> vsum (map (fun y => norm2 (vsub (mv L (center it Y xh)) y) ^ q) Y) <= vsum (map (fun y => norm2 (vsub (mv L z) y) ^ q) Y)).
Definition mc_step (it : nat) (L X : mat) (N : nat) (center : nat -> mat -> vec -> vec) (Xhat : mat) : mat :=
  map (fun i => center it (cluster_of (assign L Xhat X) i (map (mv L) X)) (nth i Xhat [])) (seq 0 N).
Lemma vsum_map_le : forall (A : Type) (f g : A -> R) l, (forall a, In a l -> f a <= g a) -> vsum (map f l) <= vsum (map g l).
Proof. intros A f g l. induction l as [|a l IH]; intro H; [simpl; lra|]. cbn [map]. rewrite !vsum_cons. pose proof (H a (or_introl eq_refl)). specialize (IH ltac:(intros; apply H; right; auto)). lra. Qed.
Lemma sum_clusters : forall (A : Type) N (f : nat -> A -> R) (I : list nat) (Y : list A), length I = length Y -> Forall (fun k => (k < N)%nat) I ->
  rsum N (fun i => vsum (map (f i) (cluster_of I i Y))) = vsum (map (fun p => f (fst p) (snd p)) (combine I Y)).
Proof.
  intros A N f I. unfold cluster_of. induction I as [|k I IH]; intros [|y Y] HL HF; try discriminate; [simpl; apply rsum_zero; auto|]. inversion HF as [|? ? Hk HF']. subst. cbn [map combine select fst snd]. rewrite vsum_cons, <- IH by (auto; simpl in HL; lia).
  rewrite (rsum_ext N _ (fun i => (if Nat.eqb i k then f k y else 0) + vsum (map (f i) (select (map (Nat.eqb i) I) Y)))).
  - rewrite rsum_plus. f_equal. rewrite (rsum_single N k) by (auto; intros i _ Ni; apply Nat.eqb_neq in Ni; rewrite Ni; auto). rewrite Nat.eqb_refl. auto.
  - intros i _. destruct (Nat.eqb_spec i k) as [->|]; cbn [map]; [apply vsum_cons|lra].
Qed.
Lemma assign_lt : forall L Xhat x, Xhat <> [] -> (argmin_idx (map (fun xh => Ldist L xh x) Xhat) < length Xhat)%nat.
Proof. intros L Xhat x NE. destruct (argmin_spec (map (fun xh => Ldist L xh x) Xhat)) as [H _]; [destruct Xhat; [congruence|discriminate]|]. rewrite map_length in H. auto. Qed.
Lemma assign_mind : forall L Xhat x, Xhat <> [] -> Ldist L (nth (argmin_idx (map (fun xh => Ldist L xh x) Xhat)) Xhat []) x = mind L Xhat x.
Proof.
  intros L Xhat x NE. destruct (argmin_spec (map (fun xh => Ldist L xh x) Xhat)) as [H1 H2]; [destruct Xhat; [congruence|discriminate]|]. rewrite map_length in *. set (j := argmin_idx _) in *.
  assert (G : forall k, (k < length Xhat)%nat -> vget (map (fun xh => Ldist L xh x) Xhat) k = Ldist L (nth k Xhat []) x). { intros k Hk. unfold vget. rewrite (nth_indep _ 0 (Ldist L [] x)) by (rewrite map_length; auto). apply (map_nth (fun xh => Ldist L xh x)). }
  apply Rle_antisym; [|apply mind_le, nth_In; auto]. destruct (mind_at L Xhat x NE) as [xh [I ->]]. destruct (In_nth _ _ [] I) as (k & Hk & <-). specialize (H2 k Hk). rewrite !G in H2 by auto. auto.
Qed.
Lemma mind_nonneg : forall L Xhat x, Xhat <> [] -> 0 <= mind L Xhat x.
Proof. intros L Xhat x NE. destruct (mind_at L Xhat x NE) as [c [_ ->]]. apply sqrt_pos. Qed.
(** no step raises the objective *)
Lemma step_cost : forall q n it L X center Xhat, Xhat <> [] -> Forall (fun c => length c = n) Xhat -> q_center q n L center ->
  qcost q L (mc_step it L X (length Xhat) center Xhat) X <= qcost q L Xhat X.
Proof.
  intros q n it L X center Xhat NE FX QC. set (N := length Xhat). set (g := fun x => argmin_idx (map (fun xh => Ldist L xh x) Xhat)). set (Xn := mc_step it L X N center Xhat).
  assert (LN : length Xn = N) by (unfold Xn, mc_step; rewrite map_length, seq_length; auto). assert (NN : Xn <> []) by (intro E; rewrite E in LN; unfold N in LN; destruct Xhat; [congruence|discriminate]).
  assert (CB : forall f : nat -> vec -> R, vsum (map (fun p => f (fst p) (snd p)) (combine (assign L Xhat X) (map (mv L) X))) = vsum (map (fun x => f (g x) (mv L x)) X)).
  { intro f. unfold assign. f_equal. clear. induction X as [|x X IH]; [auto|]. cbn [map combine fst snd]. f_equal. auto. }
  assert (FI : Forall (fun k => (k < N)%nat) (assign L Xhat X)) by (apply Forall_forall; intros k I; unfold assign in I; apply in_map_iff in I; destruct I as (x & <- & _); apply assign_lt; auto).
  assert (LI : length (assign L Xhat X) = length (map (mv L) X)) by (unfold assign; rewrite !map_length; auto).
  apply Rle_trans with (vsum (map (fun x => norm2 (vsub (mv L (nth (g x) Xn [])) (mv L x)) ^ q) X)).
  - apply vsum_map_le. intros x _. apply pow_incr. split; [apply mind_nonneg; auto|]. apply (mind_le L Xn x). apply nth_In. rewrite LN. apply assign_lt; auto.
  - rewrite <- (CB (fun k y => norm2 (vsub (mv L (nth k Xn [])) y) ^ q)), <- (sum_clusters _ N (fun k y => norm2 (vsub (mv L (nth k Xn [])) y) ^ q) _ _ LI FI).
    replace (qcost q L Xhat X) with (rsum N (fun i => vsum (map (fun y => norm2 (vsub (mv L (nth i Xhat [])) y) ^ q) (cluster_of (assign L Xhat X) i (map (mv L) X))))).
    + apply rsum_le. intros i Hi. unfold Xn, mc_step. rewrite nth_map_seq by auto. set (Y := cluster_of (assign L Xhat X) i (map (mv L) X)). destruct (QC it Y (nth i Xhat [])) as [_ QY]. assert (FY : Forall (fun y => length y = length L) Y) by (apply Forall_forall; intros y I; apply VoronoiProofs.select_incl in I; apply in_map_iff in I; destruct I as (x & <- & _); apply mv_length). destruct Y as [|y Y]; [apply Rle_refl|]. apply QY; [discriminate|auto|]. rewrite Forall_forall in FX. apply FX, nth_In. auto.
    + rewrite (sum_clusters _ N (fun i y => norm2 (vsub (mv L (nth i Xhat [])) y) ^ q) _ _ LI FI), (CB (fun i y => norm2 (vsub (mv L (nth i Xhat [])) y) ^ q)). unfold qcost. f_equal. apply map_ext. intro x. f_equal. apply (assign_mind L Xhat x NE).
Qed.
Lemma step_shape : forall q n it L X center Xhat, q_center q n L center -> length (mc_step it L X (length Xhat) center Xhat) = length Xhat /\ Forall (fun c => length c = n) (mc_step it L X (length Xhat) center Xhat).
Proof. intros q n it L X center Xhat QC. unfold mc_step. split; [rewrite map_length, seq_length; auto|]. apply Forall_forall. intros c I. apply in_map_iff in I. destruct I as (i & <- & _). apply QC. Qed.
Theorem scored_cost : forall q n L X xtol center, q_center q n L center -> forall m it Xhat Iold, Xhat <> [] -> Forall (fun c => length c = n) Xhat ->
  let S := scored m it L X (length Xhat) xtol center Xhat Iold in
  forall a b, (a <= b < length S)%nat -> qcost q L (nth b S []) X <= qcost q L (nth a S []) X.
Proof.
  intros q n L X xtol center QC. induction m as [|m IH]; intros it Xhat Iold NE FX S a b HB; [simpl in HB; lia|].
  destruct (step_shape q n it L X center Xhat QC) as [SL SF]. set (Xn := mc_step it L X (length Xhat) center Xhat) in *. assert (NN : Xn <> []) by (intro E; rewrite E in SL; destruct Xhat; [congruence|discriminate]).
  unfold S in *. clear S. cbn [scored] in *. fold (mc_step it L X (length Xhat) center Xhat) in *. fold Xn in HB |- *. destruct (nat_list_eqb Iold (assign L Xhat X)); [simpl in HB; replace b with O by lia; replace a with O by lia; lra|]. destruct (Rltb (move_max Xn Xhat) xtol); [simpl in HB; replace b with O by lia; replace a with O by lia; lra|].
  pose proof (IH (S it) Xn (assign L Xhat X) NN SF) as Q. cbv zeta in Q. rewrite SL in Q. destruct b as [|b]; [replace a with O by lia; lra|]. cbn [length] in HB. destruct a as [|a]; [|cbn [nth]; apply Q; lia].
  cbn [nth]. apply Rle_trans with (qcost q L Xn X); [|apply (step_cost q n); auto]. assert (E0 : nth 0 (scored m (S it) L X (length Xhat) xtol center Xn (assign L Xhat X)) [] = Xn) by (destruct m; [simpl in HB; lia|auto]). pose proof (Q O b ltac:(lia)) as Q0. rewrite E0 in Q0. exact Q0.
Qed.
(** hence no design visited covers the samples worse than the initial one by more than the q-th root of their number *)
Theorem scored_fill : forall q n L X xtol center, q_center q n L center -> forall m it Xhat Iold Z, Xhat <> [] -> X <> [] -> Forall (fun c => length c = n) Xhat ->
  In Z (scored m it L X (length Xhat) xtol center Xhat Iold) -> mm_dist L Z X ^ q <= INR (length X) * mm_dist L Xhat X ^ q.
Proof.
  intros q n L X xtol center QC m it Xhat Iold Z NE NX FX IZ. pose proof (scored_rows m it L X (length Xhat) xtol center Xhat Iold Z eq_refl IZ) as LZ. assert (NZ : Z <> []) by (intro E; rewrite E in LZ; destruct Xhat; [congruence|discriminate]).
  destruct (In_nth _ _ [] IZ) as (b & Hb & Eb). pose proof (scored_cost q n L X xtol center QC m it Xhat Iold NE FX O b ltac:(lia)) as C. cbv zeta in C. rewrite Eb in C.
  assert (E0 : nth 0 (scored m it L X (length Xhat) xtol center Xhat Iold) [] = Xhat) by (destruct m; [simpl in Hb; lia|auto]). rewrite E0 in C.
  apply Rle_trans with (qcost q L Z X); [|apply Rle_trans with (qcost q L Xhat X); auto].
  - unfold mm_dist. destruct (vmax_map_at vec (mind L Z) X NX) as (x & Ix & ->). unfold qcost. clear - Ix NZ. induction X as [|y X IH]; [destruct Ix|]. cbn [map]. rewrite vsum_cons. assert (P : 0 <= vsum (map (fun x => mind L Z x ^ q) X)). { clear - NZ. induction X as [|y X IH]; [simpl; lra|]. cbn [map]. rewrite vsum_cons. pose proof (pow_le _ q (mind_nonneg L Z y NZ)). lra. }
    destruct Ix as [->|Ix]; [lra|]. specialize (IH Ix). pose proof (pow_le _ q (mind_nonneg L Z y NZ)). lra.
  - unfold qcost. assert (B : forall x, In x X -> mind L Xhat x ^ q <= mm_dist L Xhat X ^ q) by (intros x Ix; apply pow_incr; split; [apply mind_nonneg; auto|apply (vmax_map_ge vec (mind L Xhat)); auto]).
    revert B. generalize (mm_dist L Xhat X ^ q). clear. intros M B. induction X as [|x X IH]; [simpl; lra|]. cbn [map length]. rewrite vsum_cons, S_INR. pose proof (B x (or_introl eq_refl)). specialize (IH ltac:(intros; apply B; right; auto)). lra.
Qed.
(* ---------------- stopping ---------------- *)
Lemma move_lt : forall m A B c, length A = length B -> A <> [] -> (0 < m)%nat -> Forall (fun r => length r = m) A -> Forall (fun r => length r = m) B ->
  move_max A B < c <-> forall i j, (i < length A)%nat -> (j < m)%nat -> vget (nth i A []) j < vget (nth i B []) j + c.
Proof.
  intros m A B c HL NE Hm FA FB. unfold move_max. set (l := concat _).
  assert (IN : forall v, In v l <-> exists i j, (i < length A)%nat /\ (j < m)%nat /\ v = vget (nth i A []) j - vget (nth i B []) j).
  { intro v. unfold l. clear NE l. revert B HL FB. induction A as [|a A IH]; intros [|b B] HL FB; try discriminate; [simpl; split; [intros []|intros (i & j & H & _); lia]|]. inversion FA. inversion FB. subst. cbn [combine map concat fst snd]. rewrite in_app_iff, IH by (auto; simpl in HL; lia). split.
    - intros [I|(i & j & Hi & Hj & ->)]; [|exists (S i), j; simpl; repeat split; auto; lia]. destruct (In_nth _ _ 0 I) as (j & Hj & <-). rewrite vsub_length in Hj by congruence. exists O, j. simpl. split; [lia|]. split; [lia|]. apply (vsub_get a b j); congruence.
    - intros ([|i] & j & Hi & Hj & ->); [left|right; exists i, j; simpl in Hi; repeat split; auto; lia]. simpl. rewrite <- vsub_get by congruence. apply nth_In. rewrite vsub_length; congruence. }
  assert (NL : l <> []). { destruct A as [|a A]; [congruence|]. pose proof (proj2 (IN _) (ex_intro _ O (ex_intro _ O (conj (Nat.lt_0_succ _) (conj Hm eq_refl))))) as I. intro E. rewrite E in I. destruct I. }
  destruct (vmax_map_at R (fun x => x) l NL) as (v & Iv & Ev). rewrite map_id in Ev. split.
  - intros H i j Hi Hj. pose proof (vmax_map_ge R (fun x => x) l _ (proj2 (IN _) (ex_intro _ i (ex_intro _ j (conj Hi (conj Hj eq_refl)))))) as Q. rewrite map_id in Q. cbv beta in Q. lra.
  - intro H. rewrite Ev. apply IN in Iv. destruct Iv as (i & j & Hi & Hj & ->). specialize (H i j Hi Hj). lra.
Qed.
(** the initial design is returned if the first step raises no coordinate by the tolerance; otherwise, if not all samples are nearest to the
    first centre, the design after the first step is evaluated *)
Theorem cluster_stops : forall k m L X N xtol center Xhat, length Xhat = N -> (0 < N)%nat -> (0 < m)%nat -> Forall (fun c => length c = m) Xhat -> (forall it Y xh, length (center it Y xh) = m) ->
  let C := fun i => center O (cluster_of (assign L Xhat X) i (map (mv L) X)) (nth i Xhat []) in
  ((forall i j, (i < N)%nat -> (j < m)%nat -> vget (C i) j < vget (nth i Xhat []) j + xtol) -> minimax_cluster k L X N xtol center Xhat = Xhat) /\
  ((exists i j, (i < N)%nat /\ (j < m)%nat /\ vget (nth i Xhat []) j + xtol <= vget (C i) j) -> (exists x c, In x X /\ In c Xhat /\ Ldist L c x < Ldist L (nth 0 Xhat []) x) -> (1 < k)%nat ->
    mm_dist L (minimax_cluster k L X N xtol center Xhat) X <= mm_dist L (map C (seq 0 N)) X).
Proof.
  intros k m L X N xtol center Xhat HL HN Hm FX FC C. assert (NE : Xhat <> []) by (intro E; subst; simpl in HN; lia). set (Xn := map C (seq 0 N)).
  assert (LN : length Xn = N) by (unfold Xn; rewrite map_length, seq_length; auto). assert (NN : Xn <> []) by (intro E; rewrite E in LN; simpl in LN; lia).
  assert (FN : Forall (fun c => length c = m) Xn) by (apply Forall_forall; intros c I; apply in_map_iff in I; destruct I as (i & <- & _); apply FC).
  assert (GN : forall i, (i < N)%nat -> nth i Xn [] = C i) by (intros; unfold Xn; apply nth_map_seq; auto).
  pose proof (move_lt m Xn Xhat xtol ltac:(congruence) NN Hm FN FX) as MV. rewrite LN in MV. split.
  - intro H. destruct k as [|k]; [reflexivity|]. unfold minimax_cluster. cbn [mc_loop]. change (map (fun i => center O (cluster_of (assign L Xhat X) i (map (mv L) X)) (nth i Xhat [])) (seq 0 N)) with Xn.
    destruct (nat_list_eqb _ _); [reflexivity|]. assert (E : Rltb (move_max Xn Xhat) xtol = true). { apply Rltb_true, MV. intros i j Hi Hj. rewrite GN by auto. apply H; auto. } rewrite E. reflexivity.
  - intros (i & j & Hi & Hj & HM) (x & c & Ix & Ic & HC) Hk. destruct (cluster_best_partial k L X N xtol center Xhat ltac:(lia)) as (_ & _ & B). apply B. destruct k as [|[|k]]; [lia|lia|]. cbn [scored]. right.
    change (map (fun i => center O (cluster_of (assign L Xhat X) i (map (mv L) X)) (nth i Xhat [])) (seq 0 N)) with Xn.
    assert (E1 : nat_list_eqb (repeat O (length X)) (assign L Xhat X) = false).
    { unfold nat_list_eqb. destruct (list_eq_dec _ _ _) as [E|]; auto. exfalso. assert (I0 : In (argmin_idx (map (fun xh => Ldist L xh x) Xhat)) (repeat O (length X))) by (rewrite E; unfold assign; apply (in_map (fun x => argmin_idx (map (fun xh => Ldist L xh x) Xhat))); auto). apply repeat_spec in I0. pose proof (assign_mind L Xhat x NE) as Q. rewrite I0 in Q. pose proof (mind_le L Xhat x c Ic). lra. }
    rewrite E1. assert (E2 : Rltb (move_max Xn Xhat) xtol = false). { destruct (Rltb (move_max Xn Xhat) xtol) eqn:E; auto. apply Rltb_true in E. pose proof (proj1 MV E i j Hi Hj) as Q. rewrite GN in Q by auto. lra. }
    rewrite E2. left. auto.
Qed.
(* ---------------- cases ---------------- *)
(** in one dimension with q = 2 the centre is the mean *)
Definition meanc (it : nat) (Y : mat) (xh : vec) : vec := [vsum (map (fun y => vget y 0) Y) / INR (length Y)].
Lemma sq_expand : forall (Y : mat) z, vsum (map (fun y => (z - vget y 0) ^ 2) Y) = INR (length Y) * z ^ 2 - 2 * z * vsum (map (fun y => vget y 0) Y) + vsum (map (fun y => vget y 0 ^ 2) Y).
Proof. intros Y z. induction Y as [|y Y IH]; [simpl; lra|]. cbn [map length]. rewrite !vsum_cons, IH, S_INR. ring. Qed.
Lemma norm1_sq : forall z y, length y = 1%nat -> norm2 (vsub (mv [[1]] [z]) y) ^ 2 = (z - vget y 0) ^ 2.
Proof. intros z y H. rewrite mv11. rewrite (vec1 y H) at 1. change (norm2 (vsub [z] [vget y 0])) with (edist [z] [vget y 0]). rewrite edist1. rewrite <- !Rsqr_pow2. symmetry. apply Rsqr_abs. Qed.
Lemma meanc_ok : q_center 2 1 [[1]] meanc.
Proof.
  intros it Y xh. split; [reflexivity|]. intros NE FY z Lz. rewrite (vec1 z Lz). unfold meanc. set (S := vsum (map (fun y => vget y 0) Y)). rewrite Forall_forall in FY. simpl in FY.
  assert (E : forall w, vsum (map (fun y => norm2 (vsub (mv [[1]] [w]) y) ^ 2) Y) = vsum (map (fun y => (w - vget y 0) ^ 2) Y)) by (intro w; f_equal; apply map_ext_in; intros y I; apply norm1_sq; auto).
  rewrite !E, !sq_expand. fold S. set (n := INR (length Y)). assert (0 < n) by (apply lt_0_INR; destruct Y; [congruence|simpl; lia]). set (w := vget z 0).
  assert (Q : n * w ^ 2 - 2 * w * S - (n * (S / n) ^ 2 - 2 * (S / n) * S) = n * (w - S / n) ^ 2) by (field; lra). pose proof (pow2_ge_0 (w - S / n)) as P. assert (0 <= n * (w - S / n) ^ 2) by (apply Rmult_le_pos; lra). lra.
Qed.
Example cost_case : q_center 2 1 [[1]] meanc /\ [[0]; [10]] <> [] /\ Forall (fun c : vec => length c = 1%nat) [[0]; [10]] /\ lt 1 (length (scored 2 0 [[1]] [[0]; [4]; [8]; [12]] 2 1 meanc [[0]; [10]] (repeat O 4))).
Proof.
  split; [apply meanc_ok|]. split; [discriminate|]. split; [repeat constructor|]. cbn [scored].
  assert (EI : assign [[1]] [[0]; [10]] [[0]; [4]; [8]; [12]] = [0; 0; 1; 1]%nat).
  { unfold assign. cbn [map]. rewrite !Ld1. rabs. rewrite !argmin2_0 by lra. rewrite !argmin2_1 by lra. reflexivity. }
  rewrite EI. change (nat_list_eqb (repeat 0%nat 4) [0; 0; 1; 1]%nat) with false. cbv iota. cbn [map seq nth]. rewrite !mv11. unfold cluster_of. cbn [map Nat.eqb select]. unfold meanc. cbn [map]. unfold vget. cbn [nth].
  match goal with |- context [Rltb ?t 1] => assert (EM : Rltb t 1 = false) end.
  { apply Rltb_false. unfold move_max. cbn. unfold Rminus. rewrite Rmax_left by lra. lra. }
  rewrite EM. simpl. lia.
Qed.
Example members_case : In [8] (cluster_of (assign [[1]] [[0]; [10]] [[-2]; [0]; [8]; [10]]) 1 [[-2]; [0]; [8]; [10]]).
Proof.
  apply cluster_members; [discriminate|]. split; [simpl; auto|]. split; [simpl; lia|]. cbn [length nth]. split; intros k Hk; destruct k as [|[|k]]; try lia; cbn [nth]; rewrite ?Ld1; rabs; lra.
Qed.
Example stops_case : mm_dist [[1]] (minimax_cluster 2 [[1]] [[0]; [4]; [8]; [12]] 2 1 meanc [[0]; [10]]) [[0]; [4]; [8]; [12]] <= 2.
Proof.
  assert (EI : assign [[1]] [[0]; [10]] [[0]; [4]; [8]; [12]] = [0; 0; 1; 1]%nat).
  { unfold assign. cbn [map]. rewrite !Ld1. rabs. rewrite !argmin2_0 by lra. rewrite !argmin2_1 by lra. reflexivity. }
  destruct (cluster_stops 2 1 [[1]] [[0]; [4]; [8]; [12]] 2 1 meanc [[0]; [10]] eq_refl ltac:(lia) ltac:(lia) ltac:(repeat constructor) ltac:(reflexivity)) as [_ Q]. rewrite EI in Q. cbn [map seq nth] in Q. rewrite !mv11 in Q. unfold cluster_of in Q. cbn [map Nat.eqb select] in Q. unfold meanc in Q. cbn [map] in Q. unfold vget in Q. cbn [nth] in Q.
  eapply Rle_trans; [apply Q; clear Q|clear Q].
  - exists O, O. split; [lia|]. split; [lia|]. cbn. lra.
  - exists [8], [10]. split; [simpl; auto|]. split; [simpl; auto|]. rewrite !Ld1. rabs. lra.
  - lia.
  - replace (vsum [0; 4] / INR (length [[0]; [4]])) with 2 by (cbn; lra). replace (vsum [8; 12] / INR (length [[8]; [12]])) with 10 by (cbn; lra). unfold mm_dist, mind. cbn [map]. rewrite !Ld1. rabs. rewrite vmax4, !vmin2. minmax. lra.
Qed.
