(** The swarm of designs: the design returned, where the designs lie, and how they start. *)
Require Import Reals Lra Lia List Bool Arith.
From Verif Require Import RVec Num Sums DomModel DomSpec DomProofs DomMoreModel LipModel LipProofs MatLib SampModel PigeonLib DesignProofs CoffeeProofs GeoModel GeoProofs VoronoiProofs SampMoreModel MinimaxProofs MmcTight PsoModel.
Import ListNotations.
Local Open Scope R_scope.

(** the designs scored, in order *)
Fixpoint inner_designs (N n : nat) (L X : mat) (a : nat -> R) (o : oracles) (it : nat) (ks : list nat) (st : swarm) : list mat :=
  match ks with [] => [] | k :: ks' => pso_new N n L X a o it k st :: inner_designs N n L X a o it ks' (pso_step N n L X a o it st k) end.
Fixpoint pso_scored (m it N n p : nat) (L X : mat) (a : nat -> R) (o : oracles) (rw : bool) (st : swarm) : list mat :=
  match m with O => [] | S m' => inner_designs N n L X a o it (seq 0 p) st ++ pso_scored m' (S it) N n p L X a o rw (pso_round N n p L X a o rw it st) end.
(** g is the best of the designs in S and of the former best *)
Definition best_of (L X : mat) (S : list mat) (g0 g : mat * option R) : Prop :=
  (g = g0 \/ exists Z, In Z S /\ g = (Z, Some (mm_dist L Z X))) /\ (forall Z, In Z S -> exists v, snd g = Some v /\ v <= mm_dist L Z X) /\ (forall b, snd g0 = Some b -> exists v, snd g = Some v /\ v <= b).
Lemma best_trans : forall L X S1 S2 g0 g1 g2, best_of L X S1 g0 g1 -> best_of L X S2 g1 g2 -> best_of L X (S1 ++ S2) g0 g2.
Proof.
  intros L X S1 S2 g0 g1 g2 (A1 & A2 & A3) (B1 & B2 & B3). split; [|split].
  - destruct B1 as [->|(Z & I & ->)]; [|right; exists Z; split; auto; apply in_or_app; auto]. destruct A1 as [->|(Z & I & ->)]; auto. right. exists Z. split; auto. apply in_or_app. auto.
  - intros Z I. apply in_app_or in I. destruct I as [I|I]; auto. destruct (A2 Z I) as (v & E & Hv). destruct (B3 v E) as (w & E' & Hw). exists w. split; auto. lra.
  - intros b E. destruct (A3 b E) as (v & E1 & Hv). destruct (B3 v E1) as (w & E2 & Hw). exists w. split; auto. lra.
Qed.
Lemma inner_best : forall N n L X a o it ks st, best_of L X (inner_designs N n L X a o it ks st) (w_glob st) (w_glob (fold_left (pso_step N n L X a o it) ks st)).
Proof.
  intros N n L X a o it ks. induction ks as [|k ks IH]; intro st.
  - split; [auto|]. split; [intros Z []|]. intros b E. exists b. split; auto. simpl. lra.
  - cbn [inner_designs fold_left]. apply (best_trans L X [pso_new N n L X a o it k st] _ _ (w_glob (pso_step N n L X a o it st k))); [|apply IH]. cbn [pso_step w_glob].
    destruct (mc_best_spec (w_glob st) (pso_new N n L X a o it k st) (mm_dist L (pso_new N n L X a o it k st) X)) as (v & E1 & E2 & E3 & E4). split; [|split].
    + destruct E4 as [->| ->]; auto. right. exists (pso_new N n L X a o it k st). split; [left|]; auto.
    + intros Z [<-|[]]. exists v. auto.
    + intros b E. exists v. auto.
Qed.
Lemma round_glob : forall N n p L X a o rw it st, w_glob (pso_round N n p L X a o rw it st) = w_glob (fold_left (pso_step N n L X a o it) (seq 0 p) st).
Proof. intros. unfold pso_round. destruct rw; auto. Qed.
Lemma loop_best : forall N n p L X a o rw m it st, best_of L X (pso_scored m it N n p L X a o rw st) (w_glob st) (w_glob (pso_loop m it N n p L X a o rw st)).
Proof.
  intros N n p L X a o rw. induction m as [|m IH]; intros it st.
  - split; [auto|]. split; [intros Z []|]. intros b E. exists b. split; auto. simpl. lra.
  - cbn [pso_scored pso_loop]. eapply best_trans; [apply inner_best|]. rewrite <- (round_glob N n p L X a o rw it st). apply IH.
Qed.
(** the design returned comes with its score, was scored, and none that was scored is better *)
Theorem pso_best_partial : forall maxiter N n L X a o rw Xs, (0 < maxiter)%nat -> Xs <> [] ->
  let S := pso_scored maxiter 0 N n (length Xs) L X a o rw (mkSwarm Xs Xs (repeat None (length Xs)) (nth 0 Xs [], None)) in
  exists D, pso maxiter N n L X a o rw Xs = (D, Some (mm_dist L D X)) /\ In D S /\ forall Z, In Z S -> mm_dist L D X <= mm_dist L Z X.
Proof.
  intros maxiter N n L X a o rw Xs HM NE S. unfold pso. set (st0 := mkSwarm Xs Xs (repeat None (length Xs)) (nth 0 Xs [], None)) in *. destruct (loop_best N n (length Xs) L X a o rw maxiter 0 st0) as (A & B & _). fold S in A, B.
  assert (NS : exists Z, In Z S). { unfold S. destruct maxiter; [lia|]. destruct Xs as [|X0 Xs]; [congruence|]. cbn [pso_scored length seq inner_designs app]. eexists. left. reflexivity. }
  destruct NS as [Z IZ]. destruct (B Z IZ) as (v & Ev & _). destruct A as [A|(D & ID & A)]; [rewrite A in Ev; discriminate|]. exists D. split; auto. split; auto. intros Z' I'. destruct (B Z' I') as (w & Ew & Hw). rewrite A in Ew. injection Ew as <-. auto.
Qed.
(** without iterations the first initial design is returned with an infinite score *)
Theorem pso_none : forall N n L X a o rw Xs, pso 0 N n L X a o rw Xs = (nth 0 Xs [], None).
Proof. reflexivity. Qed.

(* ---------------- boxes ---------------- *)
Definition boxed (l u : vec) (n : nat) (x : vec) : Prop := length x = n /\ forall j, (j < n)%nat -> vget l j <= vget x j <= vget u j.
Definition gin (K : vec -> Prop) (N : nat) (M : mat) : Prop := length M = N /\ Forall K M.
Definition good (l u : vec) (N n : nat) (M : mat) : Prop := length M = N /\ Forall (boxed l u n) M.
(** the weights are usable: nonnegative, not all zero *)
Definition weights_ok (N n : nat) (a : nat -> R) (u : nat -> nat -> nat -> R) : Prop := forall i j, (i < N)%nat -> (j < n)%nat -> (forall t, (t < 4)%nat -> 0 <= a t * u t i j) /\ 0 < a O * u O i j + a 1%nat * u 1%nat i j + a 2%nat * u 2%nat i j + a 3%nat * u 3%nat i j.
Definition lsa_ok (N : nat) (lsa : mat -> list nat) : Prop := forall D, length D = N -> length (lsa D) = N /\ Forall (fun c => (c < N)%nat) (lsa D).
Definition oracles_ok (l u : vec) (N n : nat) (a : nat -> R) (o : oracles) : Prop :=
  (forall it k, weights_ok N n a (o_u o it k)) /\ (forall it k Y x, boxed l u n x -> boxed l u n (o_center o it k Y x)) /\ (forall it k, good l u N n (o_Z o it k)) /\ (forall it, good l u N n (o_new o it)) /\ lsa_ok N (o_lsa o).
(** what is drawn and solved for lies in K, and so do the combinations *)
Definition oracles_in (K : vec -> Prop) (N n : nat) (a : nat -> R) (o : oracles) : Prop :=
  (forall it k P1 P2 P3 P4, gin K N P1 -> gin K N P2 -> gin K N P3 -> gin K N P4 -> gin K N (mix N n a (o_u o it k) P1 P2 P3 P4)) /\ (forall it k Y x, K x -> K (o_center o it k Y x)) /\ (forall it k, gin K N (o_Z o it k)) /\ (forall it, gin K N (o_new o it)) /\ lsa_ok N (o_lsa o).
Lemma good_get : forall l u N n M i j, good l u N n M -> (i < N)%nat -> (j < n)%nat -> vget l j <= mget M i j <= vget u j.
Proof. intros l u N n M i j [LM FM] Hi Hj. rewrite Forall_forall in FM. unfold mget. apply (FM (nth i M [])); auto. apply nth_In. lia. Qed.
Lemma align_good : forall K N lsa X M, lsa_ok N lsa -> length X = N -> gin K N M -> gin K N (align lsa X M).
Proof.
  intros K N lsa X M HL LX [LM FM]. unfold align. destruct (HL (map (fun x => map (edist x) M) X)) as [L1 F1]; [rewrite map_length; auto|]. split; [rewrite map_length; auto|]. rewrite Forall_forall in *. intros r I. apply in_map_iff in I. destruct I as (c & <- & Ic). apply FM, nth_In. rewrite LM. apply F1. auto.
Qed.
Lemma frac_mix : forall b0 b1 b2 b3 p0 p1 p2 p3 lo hi, 0 <= b0 -> 0 <= b1 -> 0 <= b2 -> 0 <= b3 -> 0 < b0 + b1 + b2 + b3 -> lo <= p0 <= hi -> lo <= p1 <= hi -> lo <= p2 <= hi -> lo <= p3 <= hi ->
  lo <= b0 / (b0 + b1 + b2 + b3) * p0 + b1 / (b0 + b1 + b2 + b3) * p1 + b2 / (b0 + b1 + b2 + b3) * p2 + b3 / (b0 + b1 + b2 + b3) * p3 <= hi.
Proof.
  intros. set (s := b0 + b1 + b2 + b3) in *. replace (b0 / s * p0 + b1 / s * p1 + b2 / s * p2 + b3 / s * p3) with ((b0 * p0 + b1 * p1 + b2 * p2 + b3 * p3) / s) by (field; lra).
  split; [apply Rmult_le_reg_r with s|apply Rmult_le_reg_r with s]; auto; unfold Rdiv; rewrite Rmult_assoc, Rinv_l, Rmult_1_r by lra; unfold s; nra.
Qed.
Lemma mix_good : forall l u N n a w P1 P2 P3 P4, weights_ok N n a w -> good l u N n P1 -> good l u N n P2 -> good l u N n P3 -> good l u N n P4 -> good l u N n (mix N n a w P1 P2 P3 P4).
Proof.
  intros l u N n a w P1 P2 P3 P4 HW G1 G2 G3 G4. unfold mix. split; [rewrite map_length, seq_length; auto|]. apply Forall_forall. intros r I. apply in_map_iff in I. destruct I as (i & <- & Ii). apply in_seq in Ii. split; [rewrite map_length, seq_length; auto|]. intros j Hj. rewrite vget_map_seq by auto. unfold mix_entry.
  destruct (HW i j ltac:(lia) Hj) as [W0 W1]. apply frac_mix; try (apply W0; lia); auto; apply (good_get l u N n); auto; lia.
Qed.
Lemma set_nth_in : forall (A : Type) k (v : A) l x, In x (set_nth k v l) -> x = v \/ In x l.
Proof.
  intros A k v l x I. unfold set_nth in I. apply in_app_or in I. destruct I as [I|I]; [right; rewrite <- (firstn_skipn k l); apply in_or_app; auto|]. destruct (skipn k l) as [|y r] eqn:E; [destruct I|]. destruct I as [<-|I]; auto. right. rewrite <- (firstn_skipn k l), E. apply in_or_app. right. right. auto.
Qed.
Lemma set_nth_length : forall (A : Type) k (v : A) l, length (set_nth k v l) = length l.
Proof. intros A k v l. unfold set_nth. rewrite <- (firstn_skipn k l) at 3. rewrite !app_length. f_equal. destruct (skipn k l); auto. Qed.
Definition swarm_in (K : vec -> Prop) (N p : nat) (st : swarm) : Prop := length (w_X st) = p /\ length (w_loc st) = p /\ Forall (gin K N) (w_X st) /\ Forall (gin K N) (w_loc st) /\ gin K N (fst (w_glob st)).
Lemma set_good : forall K N k D Ms, gin K N D -> Forall (gin K N) Ms -> Forall (gin K N) (set_nth k D Ms).
Proof. intros K N k D Ms GD GM. rewrite Forall_forall in *. intros M I. apply set_nth_in in I. destruct I as [->|I]; auto. Qed.
Lemma new_good : forall K N n p L X a o it k st, oracles_in K N n a o -> swarm_in K N p st -> (k < p)%nat -> gin K N (pso_new N n L X a o it k st).
Proof.
  intros K N n p L X a o it k st (O1 & O2 & O3 & O4 & O5) (S1 & S2 & S3 & S4 & S5) Hk. unfold pso_new. set (Xhat := nth k (w_X st) []). assert (GX : gin K N Xhat) by (rewrite Forall_forall in S3; apply S3, nth_In; lia). assert (GL : gin K N (nth k (w_loc st) [])) by (rewrite Forall_forall in S4; apply S4, nth_In; lia).
  apply O1; auto; apply align_good; auto; try apply GX. split; [rewrite map_length, seq_length; auto|]. apply Forall_forall. intros r I. apply in_map_iff in I. destruct I as (i & <- & Ii). apply in_seq in Ii. apply O2. destruct GX as [LX FX]. rewrite Forall_forall in FX. apply FX, nth_In. lia.
Qed.
Lemma step_good : forall K N n p L X a o it k st, oracles_in K N n a o -> swarm_in K N p st -> (k < p)%nat -> swarm_in K N p (pso_step N n L X a o it st k).
Proof.
  intros K N n p L X a o it k st HO HS Hk. pose proof (new_good K N n p L X a o it k st HO HS Hk) as G. destruct HS as (S1 & S2 & S3 & S4 & S5). unfold pso_step, swarm_in. cbn [w_X w_loc w_glob]. set (Xn := pso_new N n L X a o it k st) in *. set (d := mm_dist L Xn X). destruct (better d (nth k (w_sc st) None)); rewrite ?set_nth_length.
  - repeat (split; [auto; apply set_good; auto|]). destruct (mc_best_spec (w_glob st) Xn d) as (v & _ & _ & _ & [->| ->]); auto.
  - split; auto. split; auto. split; [apply set_good; auto|]. split; auto. destruct (mc_best_spec (w_glob st) Xn d) as (v & _ & _ & _ & [->| ->]); auto.
Qed.
Lemma fold_good : forall K N n p L X a o it ks st, oracles_in K N n a o -> swarm_in K N p st -> Forall (fun k => (k < p)%nat) ks ->
  swarm_in K N p (fold_left (pso_step N n L X a o it) ks st) /\ Forall (gin K N) (inner_designs N n L X a o it ks st).
Proof.
  intros K N n p L X a o it ks. induction ks as [|k ks IH]; intros st HO HS HK; [split; [auto|constructor]|]. inversion HK. subst. cbn [fold_left inner_designs]. destruct (IH (pso_step N n L X a o it st k) HO) as [A B]; auto; [apply step_good; auto|]. split; auto. constructor; auto. apply (new_good K N n p); auto.
Qed.
Lemma pso_in : forall K N n L X a o rw maxiter Xs, oracles_in K N n a o -> Xs <> [] -> Forall (gin K N) Xs ->
  gin K N (fst (pso maxiter N n L X a o rw Xs)) /\ Forall (gin K N) (pso_scored maxiter 0 N n (length Xs) L X a o rw (mkSwarm Xs Xs (repeat None (length Xs)) (nth 0 Xs [], None))).
Proof.
  intros K N n L X a o rw maxiter Xs HO NE GX. unfold pso. set (st0 := mkSwarm Xs Xs (repeat None (length Xs)) (nth 0 Xs [], None)). assert (S0 : swarm_in K N (length Xs) st0). { unfold swarm_in, st0. cbn [w_X w_loc w_glob fst]. repeat (split; auto). destruct Xs; [congruence|]. inversion GX. apply H1. rewrite Forall_forall in GX. apply GX. destruct Xs; [congruence|left; auto]. }
  clearbody st0. generalize O as it. revert st0 S0. induction maxiter as [|m IH]; intros st S0 it; cbn [pso_loop pso_scored]; [split; [apply S0|constructor]|].
  assert (HK : Forall (fun k => (k < length Xs)%nat) (seq 0 (length Xs))) by (apply Forall_forall; intros k I; apply in_seq in I; lia). destruct (fold_good K N n (length Xs) L X a o it (seq 0 (length Xs)) st HO S0 HK) as [A B].
  destruct (IH (pso_round N n (length Xs) L X a o rw it st)) with (it := S it) as [C D]. { unfold pso_round. destruct rw; auto. destruct A as (A1 & A2 & A3 & A4 & A5). unfold swarm_in. cbn [w_X w_loc w_glob]. rewrite set_nth_length. repeat (split; auto). apply set_good; auto. apply HO. }
  split; auto. apply Forall_app. auto.
Qed.
(** on a box every design scored stays in the box *)
Theorem pso_box_partial : forall l u N n L X a o rw maxiter Xs, oracles_ok l u N n a o -> Xs <> [] -> Forall (good l u N n) Xs ->
  good l u N n (fst (pso maxiter N n L X a o rw Xs)) /\ Forall (good l u N n) (pso_scored maxiter 0 N n (length Xs) L X a o rw (mkSwarm Xs Xs (repeat None (length Xs)) (nth 0 Xs [], None))).
Proof. intros l u N n L X a o rw maxiter Xs (O1 & O2) NE GX. apply (pso_in (boxed l u n)); auto. split; auto. intros it k P1 P2 P3 P4. apply (mix_good l u). apply O1. Qed.
(** with one weight for each point instead of each entry, every set described by half-spaces (every closed convex set) would be kept *)
Definition halfspaces (n : nat) (H : vec -> R -> Prop) (x : vec) : Prop := length x = n /\ forall c d, H c d -> length c = n -> dot c x <= d.
Lemma dot_combine4 : forall c n w0 w1 w2 w3 (p0 p1 p2 p3 : vec), length c = n -> length p0 = n -> length p1 = n -> length p2 = n -> length p3 = n ->
  dot c (map (fun j => w0 * vget p0 j + w1 * vget p1 j + w2 * vget p2 j + w3 * vget p3 j) (seq 0 n)) = w0 * dot c p0 + w1 * dot c p1 + w2 * dot c p2 + w3 * dot c p3.
Proof.
  intros c n w0 w1 w2 w3. revert c. induction n as [|n IH]; intros [|x c] [|q0 p0] [|q1 p1] [|q2 p2] [|q3 p3] Hc H0 H1 H2 H3; try discriminate; [cbn [seq map]; rewrite !dot_nil_l; ring|].
  cbn [seq map]. rewrite <- seq_shift, map_map. rewrite !dot_cons. unfold vget at 1 2 3 4. cbn [nth]. change (fun x0 : nat => w0 * vget (q0 :: p0) (S x0) + w1 * vget (q1 :: p1) (S x0) + w2 * vget (q2 :: p2) (S x0) + w3 * vget (q3 :: p3) (S x0)) with (fun j : nat => w0 * vget p0 j + w1 * vget p1 j + w2 * vget p2 j + w3 * vget p3 j). rewrite IH by (simpl in *; lia). ring.
Qed.
Lemma mix_half : forall H N n a w P1 P2 P3 P4, weights_ok N n a w -> (0 < n)%nat -> (forall t i j, w t i j = w t i O) ->
  gin (halfspaces n H) N P1 -> gin (halfspaces n H) N P2 -> gin (halfspaces n H) N P3 -> gin (halfspaces n H) N P4 -> gin (halfspaces n H) N (mix N n a w P1 P2 P3 P4).
Proof.
  intros H N n a w P1 P2 P3 P4 HW Hn Hj [L1 F1] [L2 F2] [L3 F3] [L4 F4]. rewrite Forall_forall in F1, F2, F3, F4. unfold mix. split; [rewrite map_length, seq_length; auto|]. apply Forall_forall. intros r I. apply in_map_iff in I. destruct I as (i & <- & Ii). apply in_seq in Ii. split; [rewrite map_length, seq_length; auto|]. intros c d Hcd Lc.
  destruct (F1 (nth i P1 [])) as [A1 B1]; [apply nth_In; lia|]. destruct (F2 (nth i P2 [])) as [A2 B2]; [apply nth_In; lia|]. destruct (F3 (nth i P3 [])) as [A3 B3]; [apply nth_In; lia|]. destruct (F4 (nth i P4 [])) as [A4 B4]; [apply nth_In; lia|].
  destruct (HW i O ltac:(lia) Hn) as [W0 W1]. set (s := a 0%nat * w 0%nat i O + a 1%nat * w 1%nat i O + a 2%nat * w 2%nat i O + a 3%nat * w 3%nat i O) in *.
  rewrite (map_ext _ (fun j => a 0%nat * w 0%nat i O / s * vget (nth i P1 []) j + a 1%nat * w 1%nat i O / s * vget (nth i P2 []) j + a 2%nat * w 2%nat i O / s * vget (nth i P3 []) j + a 3%nat * w 3%nat i O / s * vget (nth i P4 []) j)) by (intro j; unfold mix_entry, mget; rewrite !(Hj _ i j); reflexivity).
  rewrite dot_combine4 by auto. pose proof (B1 c d Hcd Lc) as D1. pose proof (B2 c d Hcd Lc) as D2. pose proof (B3 c d Hcd Lc) as D3. pose proof (B4 c d Hcd Lc) as D4.
  set (lo := Rmin (Rmin (dot c (nth i P1 [])) (dot c (nth i P2 []))) (Rmin (dot c (nth i P3 [])) (dot c (nth i P4 [])))).
  assert (Q : lo <= dot c (nth i P1 []) /\ lo <= dot c (nth i P2 []) /\ lo <= dot c (nth i P3 []) /\ lo <= dot c (nth i P4 [])). { unfold lo. repeat split; unfold Rmin; repeat destruct (Rle_dec _ _); lra. }
  destruct Q as (Q1 & Q2 & Q3 & Q4). eapply (proj2 (frac_mix _ _ _ _ _ _ _ _ lo d (W0 0%nat ltac:(lia)) (W0 1%nat ltac:(lia)) (W0 2%nat ltac:(lia)) (W0 3%nat ltac:(lia)) W1 (conj Q1 D1) (conj Q2 D2) (conj Q3 D3) (conj Q4 D4))).
Qed.
Theorem pso_convex_partial : forall H N n L X a o rw maxiter Xs, (0 < n)%nat -> (forall it k, weights_ok N n a (o_u o it k)) -> (forall it k t i j, o_u o it k t i j = o_u o it k t i O) ->
  (forall it k Y x, halfspaces n H x -> halfspaces n H (o_center o it k Y x)) -> (forall it k, gin (halfspaces n H) N (o_Z o it k)) -> (forall it, gin (halfspaces n H) N (o_new o it)) -> lsa_ok N (o_lsa o) -> Xs <> [] -> Forall (gin (halfspaces n H) N) Xs ->
  gin (halfspaces n H) N (fst (pso maxiter N n L X a o rw Xs)) /\ Forall (gin (halfspaces n H) N) (pso_scored maxiter 0 N n (length Xs) L X a o rw (mkSwarm Xs Xs (repeat None (length Xs)) (nth 0 Xs [], None))).
Proof. intros H N n L X a o rw maxiter Xs Hn HW HJ HC HZ HN HL NE GX. apply pso_in; auto. split; [|auto]. intros it k P1 P2 P3 P4. apply mix_half; auto. Qed.
(* ---------------- initial designs ---------------- *)
(** the candidates are not compared: every point is the first one drawn *)
Theorem init_first : forall N L s Xt, (0 < N)%nat -> pso_init N L s Xt = s :: map (fun j => nth 0 (Xt j) []) (seq 1 (N - 1)).
Proof.
  intros N L s Xt HN. unfold pso_init. change (s :: map (fun j => nth 0 (Xt j) []) (seq 1 (N - 1))) with ([s] ++ map (fun j => nth 0 (Xt j) []) (seq 1 (N - 1))). generalize [s]. generalize (N - 1)%nat. intro n. generalize 1%nat. induction n as [|n IH]; intros j A; cbn [pso_fill seq map]; [rewrite app_nil_r; auto|].
  rewrite IH, <- app_assoc. reflexivity.
Qed.
Theorem init_refuted : exists L s Xt x, In x (Xt 1%nat) /\ pso_init 2 L s Xt = [s; s] /\ 0 < mind L [s] x.
Proof.
  exists [[1]], [0], (fun _ => [[0]; [1]]), [1]. split; [simpl; auto|]. split; [rewrite init_first by lia; reflexivity|]. unfold mind, vmin. cbn. rewrite Ld1. rewrite Rabs_left; lra.
Qed.
(* ---------------- the weights differ between the coordinates ---------------- *)
Definition tri (x : vec) : Prop := length x = 2%nat /\ 0 <= vget x 0 /\ 0 <= vget x 1 /\ vget x 0 + vget x 1 <= 1.
Definition dflt (t : nat) : R := match t with O => 10 | 1%nat => 1 | 2%nat => 1 | _ => 0 end.
(** with the default a1, ..., a4 a design made of points of a triangle leaves the triangle; the centre is exact (it is the only point of its cluster) *)
Theorem pso_domain_refuted : exists L X o Xs, Forall tri X /\ Forall (Forall tri) Xs /\ (forall it k Y x, In (o_center o it k Y x) X) /\ (forall it k, Forall tri (o_Z o it k)) /\ (forall it, Forall tri (o_new o it)) /\
  (forall D, o_lsa o D = [O]) /\ (forall it k t i j, 0 < o_u o it k t i j < 1) /\ length X = 1%nat /\ ~ Forall tri (fst (pso 1 1 2 L X dflt o true Xs)).
Proof.
  set (w := fun (_ _ t _ j : nat) => match j with O => match t with O => 1/2 | _ => 1/20 end | _ => match t with O => 1/1000 | _ => 1/2 end end).
  assert (T10 : tri [1; 0]) by (unfold tri, vget; cbn [nth length]; repeat split; lra). assert (T01 : tri [0; 1]) by (unfold tri, vget; cbn [nth length]; repeat split; lra).
  exists [[1; 0]; [0; 1]], [[1; 0]], (mkOr w (fun _ _ _ _ => [1; 0]) (fun _ _ => [[1; 0]]) (fun _ => [[1; 0]]) (fun _ => [O])), [[[0; 1]]]. cbn [o_u o_center o_Z o_new o_lsa].
  split; [auto|]. split; [auto|]. split; [simpl; auto|]. split; [auto|]. split; [auto|]. split; [auto|]. split; [intros it k t i j; unfold w; destruct j, t; lra|]. split; [auto|].
  unfold pso. cbn [length pso_loop seq]. unfold pso_round. cbn [length seq fold_left w_glob]. unfold pso_step. cbn [w_glob]. unfold mc_best. cbn [snd fst]. unfold pso_new, mix. cbn [seq map w_X w_loc w_glob fst nth o_u o_center o_lsa o_Z]. unfold align. cbn [map nth o_lsa].
  intro F. inversion F as [|x l Hx Hl]. subst. destruct Hx as (_ & _ & _ & H). unfold vget in H. cbn [nth] in H. unfold mix_entry, mget, w, dflt, vget in H. cbn [nth] in H. lra.
Qed.
(* ---------------- the initial designs are not scored ---------------- *)
Theorem pso_initial_refuted : exists L X o Xs D d, pso 1 1 1 L X dflt o true Xs = (D, Some d) /\ (exists X0, In X0 Xs /\ mm_dist L X0 X < d) /\ q_center 2 1 L (fun it => o_center o it 0).
Proof.
  exists [[1]], [[0]; [0]; [1]], (mkOr (fun _ _ _ _ _ => 1/2) (fun it _ => meanc it) (fun _ _ => [[0]]) (fun _ => [[0]]) (fun _ => [O])), [[[1/2]]], [[13/36]], (23/36).
  split; [|split; [exists [[1/2]]; split; [left; auto|]; unfold mm_dist, mind, vmax, vmin; cbn [map fold_left]; rewrite !Ld1; rabs; minmax; lra|exact meanc_ok]].
  unfold pso. cbn [length pso_loop seq]. unfold pso_round. cbn [length seq fold_left w_glob]. unfold pso_step. cbn [w_glob].
  match goal with |- context [pso_new ?a ?b ?c ?d ?e ?f ?g ?h ?i] => assert (E : pso_new a b c d e f g h i = [[13/36]]) end.
  { unfold pso_new, mix. cbn [seq map w_X w_loc w_glob fst nth o_u o_center o_lsa o_Z]. unfold align. cbn [map nth o_lsa]. unfold mix_entry, mget, dflt, vget. cbn [nth]. unfold assign, cluster_of. cbn [map]. rewrite !mv11. unfold argmin_idx. cbn [map argmax]. cbn. unfold meanc, vget. cbn. f_equal; f_equal; lra. }
  rewrite E. assert (S : mm_dist [[1]] [[13/36]] [[0]; [0]; [1]] = 23/36). { unfold mm_dist, mind, vmax, vmin; cbn [map fold_left]; rewrite !Ld1; rabs; minmax; lra. } rewrite S. reflexivity.
Qed.
(* ---------------- the particles ---------------- *)
(** the designs scored for particle k *)
Fixpoint inner_of (k : nat) (N n : nat) (L X : mat) (a : nat -> R) (o : oracles) (it : nat) (ks : list nat) (st : swarm) : list mat :=
  match ks with [] => [] | i :: ks' => (if Nat.eqb i k then [pso_new N n L X a o it i st] else []) ++ inner_of k N n L X a o it ks' (pso_step N n L X a o it st i) end.
Fixpoint scored_of (k m it N n p : nat) (L X : mat) (a : nat -> R) (o : oracles) (rw : bool) (st : swarm) : list mat :=
  match m with O => [] | S m' => inner_of k N n L X a o it (seq 0 p) st ++ scored_of k m' (S it) N n p L X a o rw (pso_round N n p L X a o rw it st) end.
Definition local_of (k : nat) (st : swarm) : mat * option R := (nth k (w_loc st) [], nth k (w_sc st) None).
Definition sized (p : nat) (st : swarm) : Prop := length (w_X st) = p /\ length (w_loc st) = p /\ length (w_sc st) = p.
Lemma set_nth_same : forall (A : Type) (d : A) k v l, (k < length l)%nat -> nth k (set_nth k v l) d = v.
Proof. intros A d. induction k as [|k IH]; intros v [|x l] H; simpl in H; try lia; [reflexivity|]. unfold set_nth. cbn [firstn skipn app nth]. apply (IH v l). lia. Qed.
Lemma set_nth_other : forall (A : Type) (d : A) k j v l, j <> k -> nth j (set_nth k v l) d = nth j l d.
Proof.
  intros A d. induction k as [|k IH]; intros j v [|x l] H.
  - reflexivity.
  - destruct j; [lia|reflexivity].
  - reflexivity.
  - destruct j as [|j]; [reflexivity|]. unfold set_nth. cbn [firstn skipn app nth]. apply (IH j v l). lia.
Qed.
Lemma step_sized : forall p N n L X a o it st k, sized p st -> sized p (pso_step N n L X a o it st k).
Proof. intros p N n L X a o it st k (H1 & H2 & H3). unfold sized, pso_step. cbn [w_X w_loc w_sc]. destruct (better _ _); rewrite ?set_nth_length; auto. Qed.
Lemma fold_sized : forall p N n L X a o it ks st, sized p st -> sized p (fold_left (pso_step N n L X a o it) ks st).
Proof. intros p N n L X a o it ks. induction ks as [|k ks IH]; intros st H; auto. cbn [fold_left]. apply IH, step_sized. auto. Qed.
Lemma round_sized : forall p N n L X a o rw it st, sized p st -> sized p (pso_round N n p L X a o rw it st).
Proof. intros p N n L X a o rw it st H. pose proof (fold_sized p N n L X a o it (seq 0 p) st H) as (A & B & C). unfold pso_round. destruct rw; unfold sized; cbn [w_X w_loc w_sc]; rewrite ?set_nth_length; auto. Qed.
Lemma best_refl : forall L X g, best_of L X [] g g.
Proof. intros L X g. split; [auto|]. split; [intros Z []|]. intros b E. exists b. split; auto. lra. Qed.
Lemma step_local : forall p N n L X a o it st i k, sized p st -> (k < p)%nat ->
  best_of L X (if Nat.eqb i k then [pso_new N n L X a o it i st] else []) (local_of k st) (local_of k (pso_step N n L X a o it st i)).
Proof.
  intros p N n L X a o it st i k (S1 & S2 & S3) Hk. unfold local_of, pso_step. cbn [w_loc w_sc]. set (D := pso_new N n L X a o it i st). destruct (Nat.eqb i k) eqn:E.
  - apply Nat.eqb_eq in E. subst i. destruct (nth k (w_sc st) None) as [b|] eqn:Eb; cbn [better].
    + destruct (Rltb (mm_dist L D X) b) eqn:Lt.
      * apply Rltb_true in Lt. rewrite !set_nth_same by lia. split; [right; exists D; split; [left|]; auto|]. split; [intros Z [<-|[]]; eexists; split; [reflexivity|lra]|]. intros c Hc. injection Hc as <-. eexists. split; [reflexivity|lra].
      * apply Rltb_false in Lt. rewrite Eb. split; [auto|]. split; [intros Z [<-|[]]; eexists; split; [reflexivity|lra]|]. intros c Hc. exists c. split; auto. lra.
    + rewrite !set_nth_same by lia. split; [right; exists D; split; [left|]; auto|]. split; [intros Z [<-|[]]; eexists; split; [reflexivity|lra]|]. intros c Hc. discriminate.
  - apply Nat.eqb_neq in E. destruct (better _ _); rewrite ?set_nth_other by auto; apply best_refl.
Qed.
Lemma inner_local : forall p N n L X a o it k ks st, sized p st -> (k < p)%nat -> best_of L X (inner_of k N n L X a o it ks st) (local_of k st) (local_of k (fold_left (pso_step N n L X a o it) ks st)).
Proof. intros p N n L X a o it k ks. induction ks as [|i ks IH]; intros st HS Hk; [apply best_refl|]. cbn [inner_of fold_left]. eapply best_trans; [apply (step_local p); auto|]. apply IH; auto. apply step_sized. auto. Qed.
Lemma loop_local : forall p N n L X a o rw k m it st, sized p st -> (k < p)%nat -> best_of L X (scored_of k m it N n p L X a o rw st) (local_of k st) (local_of k (pso_loop m it N n p L X a o rw st)).
Proof.
  intros p N n L X a o rw k. induction m as [|m IH]; intros it st HS Hk; [apply best_refl|]. cbn [scored_of pso_loop]. eapply best_trans; [apply (inner_local p); auto|].
  replace (local_of k (fold_left (pso_step N n L X a o it) (seq 0 p) st)) with (local_of k (pso_round N n p L X a o rw it st)) by (unfold pso_round; destruct rw; reflexivity). apply IH; auto. apply round_sized. auto.
Qed.
Lemma inner_of_in : forall k N n L X a o it ks st, In k ks -> exists Z, In Z (inner_of k N n L X a o it ks st).
Proof.
  intros k N n L X a o it ks. induction ks as [|i ks IH]; intros st H; [destruct H|]. destruct H as [->|I].
  - cbn [inner_of]. rewrite Nat.eqb_refl. eexists. left. reflexivity.
  - destruct (IH (pso_step N n L X a o it st i) I) as [Z IZ]. exists Z. cbn [inner_of]. apply in_or_app. auto.
Qed.
(** every particle keeps the best of its own designs with its score, also when the particle is replaced *)
Theorem pso_local : forall maxiter N n L X a o rw Xs k, (0 < maxiter)%nat -> (k < length Xs)%nat ->
  let st0 := mkSwarm Xs Xs (repeat None (length Xs)) (nth 0 Xs [], None) in
  let S := scored_of k maxiter 0 N n (length Xs) L X a o rw st0 in
  let st := pso_loop maxiter 0 N n (length Xs) L X a o rw st0 in
  exists D, nth k (w_loc st) [] = D /\ nth k (w_sc st) None = Some (mm_dist L D X) /\ In D S /\ forall Z, In Z S -> mm_dist L D X <= mm_dist L Z X.
Proof.
  intros maxiter N n L X a o rw Xs k HM Hk st0 S st. assert (HS : sized (length Xs) st0) by (unfold sized, st0; cbn [w_X w_loc w_sc]; rewrite repeat_length; auto).
  destruct (loop_local (length Xs) N n L X a o rw k maxiter 0 st0 HS Hk) as (A & B & _). fold S st in A, B.
  assert (NS : exists Z, In Z S). { unfold S. destruct maxiter; [lia|]. cbn [scored_of]. destruct (inner_of_in k N n L X a o 0 (seq 0 (length Xs)) st0) as [Z IZ]; [apply in_seq; lia|]. exists Z. apply in_or_app. auto. }
  destruct NS as [Z IZ]. destruct (B Z IZ) as (v & Ev & _). assert (E0 : snd (local_of k st0) = None) by (unfold local_of, st0; cbn [snd w_sc]; apply nth_repeat).
  destruct A as [A|(D & ID & A)]; [rewrite A, E0 in Ev; discriminate|]. exists D. assert (A' := A). unfold local_of in A'. injection A' as A1 A2. split; auto. split; auto. split; auto. intros Z' I'. destruct (B Z' I') as (w & Ew & Hw). rewrite A in Ew. injection Ew as <-. auto.
Qed.
(** a score is at most another one; None is inf *)
Definition le_inf (x y : option R) : Prop := match y with None => True | Some y => match x with Some x => x <= y | None => False end end.
Lemma first_inf_some : forall l i k, first_inf i l = Some k -> (i <= k < i + length l)%nat /\ nth (k - i) l None = None.
Proof.
  induction l as [|[r|] l IH]; intros i k H; cbn [first_inf] in H; [discriminate| |].
  - destruct (IH _ _ H) as [A B]. split; [simpl; lia|]. replace (k - i)%nat with (S (k - S i)) by lia. exact B.
  - injection H as <-. split; [simpl; lia|]. rewrite Nat.sub_diag. reflexivity.
Qed.
Lemma first_inf_none : forall l i, first_inf i l = None -> Forall (fun s => s <> None) l.
Proof. induction l as [|[r|] l IH]; intros i H; cbn [first_inf] in H; [constructor| |discriminate]. constructor; [discriminate|eauto]. Qed.
Lemma worst_spec : forall l, l <> [] -> (worst l < length l)%nat /\ forall j, (j < length l)%nat -> le_inf (nth j l None) (nth (worst l) l None).
Proof.
  intros l NE. unfold worst. destruct (first_inf 0 l) as [k|] eqn:E.
  - destruct (first_inf_some _ _ _ E) as [A B]. rewrite Nat.sub_0_r in B. split; [lia|]. intros j _. rewrite B. exact I.
  - apply first_inf_none in E. set (g := fun s : option R => match s with Some r => r | None => 0 end). assert (NM : map g l <> []) by (destruct l; [congruence|discriminate]). destruct (argmax_spec (map g l) NM) as (A & B & _). rewrite map_length in A, B. split; auto. intros j Hj. rewrite Forall_forall in E.
    pose proof (E _ (nth_In l None A)) as Ea. pose proof (E _ (nth_In l None Hj)) as Ej. specialize (B j Hj). unfold vget in B. change 0 with (g None) in B. rewrite !map_nth in B. destruct (nth (argmax (map g l)) l None); [|congruence]. destruct (nth j l None); [|congruence]. exact B.
Qed.
(** remove_worst replaces one particle, one whose best score is largest, and leaves the others and all best designs and scores *)
Theorem pso_replaced : forall N n p L X a o it st, (0 < p)%nat -> length (w_X st) = p -> length (w_loc st) = p -> length (w_sc st) = p ->
  let s1 := pso_round N n p L X a o false it st in let s2 := pso_round N n p L X a o true it st in
  exists k, (k < p)%nat /\ (forall j, (j < p)%nat -> le_inf (nth j (w_sc s1) None) (nth k (w_sc s1) None)) /\ nth k (w_X s2) [] = o_new o it /\ (forall j, j <> k -> nth j (w_X s2) [] = nth j (w_X s1) []) /\ w_loc s2 = w_loc s1 /\ w_sc s2 = w_sc s1 /\ w_glob s2 = w_glob s1.
Proof.
  intros N n p L X a o it st Hp H1 H2 H3 s1 s2. destruct (fold_sized p N n L X a o it (seq 0 p) st) as (A & B & C); [repeat split; auto|]. unfold s1, s2, pso_round. set (t := fold_left (pso_step N n L X a o it) (seq 0 p) st) in *.
  assert (NE : w_sc t <> []) by (intro E; rewrite E in C; simpl in C; lia). destruct (worst_spec (w_sc t) NE) as [W1 W2]. exists (worst (w_sc t)). cbn [w_X w_loc w_sc w_glob]. split; [lia|]. split; [intros j Hj; apply W2; lia|]. split; [apply set_nth_same; lia|]. split; [intros j Hj; apply set_nth_other; auto|]. auto.
Qed.
(* ---------------- cases ---------------- *)
Definition or1 : oracles := mkOr (fun _ _ _ _ _ => 1/2) (fun _ _ _ x => x) (fun _ _ => [[0]; [1]]) (fun _ => [[1]; [0]]) (fun _ => [O; 1%nat]).
Example box_case : oracles_ok [0] [1] 2 1 dflt or1 /\ [[[0]; [1/2]]; [[1/2]; [1]]] <> [] /\ Forall (good [0] [1] 2 1) [[[0]; [1/2]]; [[1/2]; [1]]].
Proof.
  assert (B : forall r, 0 <= r <= 1 -> boxed [0] [1] 1 [r]). { intros r H. split; auto. intros [|j] Hj; [|lia]. unfold vget. simpl. auto. }
  assert (G : forall r s, 0 <= r <= 1 -> 0 <= s <= 1 -> good [0] [1] 2 1 [[r]; [s]]) by (intros r s H1 H2; split; auto).
  split; [|split; [discriminate|constructor; [apply G; lra|constructor; [apply G; lra|constructor]]]].
  unfold oracles_ok, or1. cbn [o_u o_center o_Z o_new o_lsa]. split; [intros it k i j _ _; split; [intros [|[|[|t]]] _; unfold dflt; lra|unfold dflt; lra]|]. split; [auto|]. split; [intros; apply G; lra|]. split; [intros; apply G; lra|].
  intros D _. split; auto.
Qed.
Example best_case : (0 < 3)%nat /\ [[[0]; [1/2]]; [[1/2]; [1]]] <> [].
Proof. split; [lia|discriminate]. Qed.
Example init_case : (0 < 3)%nat /\ pso_init 3 [[1]] [0] (fun j => [[INR j]; [5]]) = [[0]; [INR 1]; [INR 2]].
Proof. split; [lia|]. rewrite init_first by lia. reflexivity. Qed.
Example local_case : (0 < 3)%nat /\ (1 < length [[[0]; [1/2]]; [[1/2]; [1]]])%nat.
Proof. split; simpl; lia. Qed.
Example replaced_case : worst [Some 1; Some 4; Some 2] = 1%nat /\ worst [Some 1; None; None] = 1%nat.
Proof. split; [|reflexivity]. unfold worst. cbn [first_inf map]. unfold argmax. cbn. repeat (unfold Rltb; destruct (Rlt_dec _ _); try lra; cbn); reflexivity. Qed.
Example convex_case : exists H o Xs, (forall x, halfspaces 2 H x <-> tri x) /\ (forall it k, weights_ok 1 2 dflt (o_u o it k)) /\ (forall it k t i j, o_u o it k t i j = o_u o it k t i O) /\ (forall it k Y x, halfspaces 2 H x -> halfspaces 2 H (o_center o it k Y x)) /\ lsa_ok 1 (o_lsa o) /\ Xs <> [] /\ Forall (gin (halfspaces 2 H) 1) Xs.
Proof.
  set (H := fun (c : vec) (d : R) => (c = [-1; 0] /\ d = 0) \/ (c = [0; -1] /\ d = 0) \/ (c = [1; 1] /\ d = 1)).
  assert (E : forall x, halfspaces 2 H x <-> tri x).
  { intro x. split.
    - intros [Lx Hx]. destruct x as [|x0 [|x1 [|x2 x]]]; try discriminate. pose proof (Hx [-1; 0] 0 ltac:(unfold H; auto) eq_refl) as H1. pose proof (Hx [0; -1] 0 ltac:(unfold H; auto) eq_refl) as H2. pose proof (Hx [1; 1] 1 ltac:(unfold H; auto) eq_refl) as H3. rewrite !dot_cons, !dot_nil_l in H1, H2, H3. unfold tri, vget. cbn [nth length]. repeat split; lra.
    - intros (Lx & H1 & H2 & H3). split; auto. destruct x as [|x0 [|x1 [|x2 x]]]; try discriminate. unfold vget in *. cbn [nth] in *. intros c d [[-> ->]|[[-> ->]|[-> ->]]] _; rewrite !dot_cons, !dot_nil_l; lra. }
  exists H, (mkOr (fun _ _ _ _ _ => 1/2) (fun _ _ _ x => x) (fun _ _ => [[1; 0]]) (fun _ => [[1; 0]]) (fun _ => [O])), [[[0; 1]]; [[1; 0]]]. cbn [o_u o_center o_lsa]. split; [exact E|]. split; [intros it k i j _ _; split; [intros [|[|[|t]]] _; unfold dflt; lra|unfold dflt; lra]|]. split; [auto|]. split; [auto|]. split; [intros D _; split; auto|]. split; [discriminate|].
  constructor; [|constructor; [|constructor]]; (split; [auto|constructor; [|constructor]]); apply E; unfold tri, vget; cbn [nth length]; repeat split; lra.
Qed.
