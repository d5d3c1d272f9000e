(** One-dimensional projections and the Latin hypercube variant of projection_sample (sample/projection.py). *)
Require Import Reals Lra Lia List Bool Arith Permutation.
From Verif Require Import RVec Num Sums DomModel DomSpec DomProofs DomOpsProofs DomMoreModel SweepProofs HullProofs PartialProofs MatLib LipModel LipProofs GeoModel GeoProofs SampModel LatinProofs SampMoreModel ProjModel ProjCellProofs.
Import ListNotations.
Local Open Scope R_scope.

(** np.argsort: a permutation of the indices that sorts the values *)
Definition sorts (I : list nat) (v : nat -> R) (N : nat) : Prop :=
  Permutation I (seq 0 N) /\ forall a b, (a < b < N)%nat -> v (nth a I O) <= v (nth b I O).

(** ** the neighbour list *)
Lemma put_len : forall (A : Type) i (v : A) l, (i < length l)%nat -> length (put i v l) = length l.
Proof. intros A i v l H. unfold put. rewrite app_length. cbn [length]. rewrite firstn_length, skipn_length. lia. Qed.
Lemma put_nth : forall (A : Type) i (v : A) l d k, (i < length l)%nat -> nth k (put i v l) d = if Nat.eqb k i then v else nth k l d.
Proof.
  intros A i v l d k H. unfold put. assert (LF : length (firstn i l) = i) by (rewrite firstn_length; lia). destruct (Nat.eqb_spec k i) as [->|NE].
  - rewrite app_nth2, LF, Nat.sub_diag by lia. reflexivity.
  - destruct (Nat.lt_ge_cases k i) as [C|C].
    + rewrite app_nth1 by lia. rewrite <- (firstn_skipn i l) at 2. rewrite app_nth1 by lia. reflexivity.
    + rewrite app_nth2, LF by lia. replace (k - i)%nat with (S (k - S i)) by lia. cbn [nth]. rewrite <- (firstn_skipn (S i) l) at 2.
      rewrite app_nth2 by (rewrite firstn_length; lia). rewrite firstn_length. f_equal. lia.
Qed.
Lemma perm_facts : forall I N, Permutation I (seq 0 N) -> length I = N /\ (forall a, (a < N)%nat -> (nth a I O < N)%nat) /\
  (forall a b, (a < N)%nat -> (b < N)%nat -> nth a I O = nth b I O -> a = b) /\ forall j, (j < N)%nat -> exists a, (a < N)%nat /\ nth a I O = j.
Proof.
  intros I N P. pose proof (Permutation_length P) as PL. rewrite seq_length in PL. split; auto.
  assert (ND : NoDup I) by (eapply Permutation_NoDup; [apply Permutation_sym; exact P|apply seq_NoDup]). split; [|split].
  - intros a Ha. assert (X : In (nth a I O) (seq 0 N)) by (eapply Permutation_in; [exact P|apply nth_In; lia]). apply in_seq in X. lia.
  - intros a b Ha Hb E. rewrite (NoDup_nth I O) in ND. apply ND; auto; lia.
  - intros j Hj. assert (X : In j I) by (eapply Permutation_in; [apply Permutation_sym; exact P|apply in_seq; lia]). apply (In_nth _ _ O) in X. destruct X as [a [Ha E]]. exists a. split; [lia|auto].
Qed.
Lemma neighbors_get : forall I N nb, Permutation I (seq 0 N) -> neighbors_1d I N = Some nb -> length nb = N /\ forall a, (a < N)%nat -> nth (nth a I O) nb [] = nb_entry I N a.
Proof.
  intros I N nb P E. unfold neighbors_1d in E. destruct (Nat.eqb_spec N 1); [discriminate|]. injection E as <-. destruct (perm_facts I N P) as [LI [BI [II _]]].
  assert (G : forall n, (n <= N)%nat -> let r := fold_left (fun nb j => put (nth j I O) (nb_entry I N j) nb) (seq 0 n) (repeat [] N) in
     length r = N /\ forall a, (a < n)%nat -> nth (nth a I O) r [] = nb_entry I N a).
  { induction n0 as [|k IH]; intro Hk; cbn zeta; [split; [apply repeat_length|intros; lia]|]. rewrite seq_S, fold_left_app. cbn [fold_left]. rewrite Nat.add_0_l. destruct IH as [A B]; [lia|].
    specialize (BI k ltac:(lia)). split; [rewrite put_len; lia|]. intros a Ha. rewrite put_nth by lia. destruct (Nat.eqb_spec (nth a I O) (nth k I O)) as [Q|Q].
    - apply II in Q; [subst; auto|lia|lia].
    - apply B. assert (a <> k) by congruence. lia. }
  apply G. lia.
Qed.
Theorem neighbors_single : forall L X I m, length X = 1%nat -> ps_cells m L X I = None.
Proof. intros L X I m E. unfold ps_cells, ps_neighbors, neighbors_1d. rewrite E. destruct (Nat.eqb (length L) 1); reflexivity. Qed.
Theorem neighbors_planar : forall L X I m, length L <> 1%nat -> ps_cells m L X I = None.
Proof. intros L X I m E. unfold ps_cells, ps_neighbors. destruct (Nat.eqb_spec (length L) 1); [congruence|reflexivity]. Qed.

(** ** one-row metrics *)
Lemma ps_row_1d : forall m l xj xk x, length l = m -> length xj = m -> length xk = m ->
  dot (fst (ps_row m [l] xj xk)) x - snd (ps_row m [l] xj xk) = (dot l xk - dot l xj) * (dot l x - (dot l xj + dot l xk) / 2).
Proof.
  intros m l xj xk x Hl Hj Hk. unfold ps_row. cbn [fst snd]. assert (F : Forall (dimP m) [l]) by (constructor; [exact Hl|constructor]).
  rewrite !dot_lincomb_mv by (auto). unfold mv. cbn [map]. rewrite !dot_cons, !dot_nil_l. rewrite dot_vsub_r, dot_vscale_r, dot_vadd_r by congruence. field.
Qed.
Definition yv (l : vec) (X : mat) (k : nat) : R := dot l (nth k X []).

Section LINE.
Variables (m : nat) (l : vec) (X : mat) (I : list nat).
Hypothesis Hl : length l = m.
Hypothesis HX : Forall (fun r => length r = m) X.
Hypothesis HN : (2 <= length X)%nat.
Hypothesis HI : sorts I (yv l X) (length X).
Lemma X_len : forall k, (k < length X)%nat -> length (nth k X []) = m.
Proof. intros k Hk. rewrite Forall_forall in HX. apply HX, nth_In. auto. Qed.
Lemma cells_get : exists cs, ps_cells m [l] X I = Some cs /\ length cs = length X /\
  forall a, (a < length X)%nat -> nth (nth a I O) cs [] = ps_cell m [l] X (nth a I O) (nb_entry I (length X) a).
Proof.
  unfold ps_cells, ps_neighbors. cbn [length Nat.eqb]. destruct HI as [P _]. destruct (neighbors_1d I (length X)) as [nb|] eqn:E.
  2:{ unfold neighbors_1d in E. destruct (Nat.eqb_spec (length X) 1); [lia|discriminate]. }
  eexists. split; [reflexivity|]. split; [rewrite map_length, seq_length; auto|]. intros a Ha. destruct (neighbors_get _ _ _ P E) as [_ G]. destruct (perm_facts _ _ P) as [_ [B _]]. rewrite nth_map_seq by auto. rewrite G by auto. reflexivity.
Qed.
(** membership of the rows of position [a], in terms of the two neighbours *)
Lemma cell_slack : forall a x tol, (a < length X)%nat ->
  ((forall r b, In (r, b) (ps_cell m [l] X (nth a I O) (nb_entry I (length X) a)) -> dot r x <= b + tol) <->
   (forall b, (b = S a \/ S b = a) -> (b < length X)%nat ->
      (yv l X (nth b I O) - yv l X (nth a I O)) * (dot l x - (yv l X (nth a I O) + yv l X (nth b I O)) / 2) <= tol)).
Proof.
  intros a x tol Ha. destruct HI as [P _]. destruct (perm_facts _ _ P) as [_ [B _]].
  assert (R : forall b, (b < length X)%nat -> dot (fst (ps_row m [l] (nth (nth a I O) X []) (nth (nth b I O) X []))) x - snd (ps_row m [l] (nth (nth a I O) X []) (nth (nth b I O) X [])) =
     (yv l X (nth b I O) - yv l X (nth a I O)) * (dot l x - (yv l X (nth a I O) + yv l X (nth b I O)) / 2)).
  { intros b Hb. apply ps_row_1d; auto; apply X_len; auto. }
  assert (E : forall k, In k (nb_entry I (length X) a) <-> exists b, (b = S a \/ S b = a) /\ (b < length X)%nat /\ k = nth b I O).
  { intro k. unfold nb_entry. destruct (Nat.eqb_spec a 0) as [->|NA]; [|destruct (Nat.eqb_spec a (length X - 1)) as [EA|NA2]].
    - split; [intros [<-|[]]; exists 1%nat; repeat split; [left; auto|lia]|]. intros [b [[->| ] [Hb ->]]]; [left; auto|lia].
    - split; [intros [<-|[]]; exists (a - 1)%nat; repeat split; [right; lia|lia]|]. intros [b [Hb [Hb2 ->]]]. left. f_equal. lia.
    - split; [intros [<-|[<-|[]]]; [exists (a - 1)%nat|exists (a + 1)%nat]; repeat split; lia|]. intros [b [[->|Hb] [Hb2 ->]]]; [right; left; f_equal; lia|left; f_equal; lia]. }
  split.
  - intros H b Hb Hb2. rewrite <- R by auto. set (rw := ps_row _ _ _ _). assert (Q : dot (fst rw) x <= snd rw + tol); [|lra].
    apply H. rewrite <- surjective_pairing. unfold ps_cell. apply in_map_iff. exists (nth b I O). split; auto. apply E. exists b. auto.
  - intros H r b0 J. unfold ps_cell in J. apply in_map_iff in J. destruct J as [k [EQ Ik]]. apply E in Ik. destruct Ik as [b [Hb [Hb2 ->]]]. specialize (H b Hb Hb2). rewrite <- R in H by auto. rewrite EQ in H. cbn [fst snd] in H. lra.
Qed.
Lemma sorted_le : forall a b, (a <= b < length X)%nat -> yv l X (nth a I O) <= yv l X (nth b I O).
Proof. intros a b H. destruct (Nat.eq_dec a b) as [->|NE]; [lra|]. apply HI. lia. Qed.
End LINE.

Lemma abs_le_sq : forall p q, Rabs p <= Rabs q <-> p * p <= q * q.
Proof. intros p q. split; intro H; [apply Rsqr_le_abs_1 in H; auto|]. apply Rsqr_le_abs_0. auto. Qed.
Lemma near_mid : forall t u v, Rabs (t - u) <= Rabs (t - v) <-> (v - u) * (t - (u + v) / 2) <= 0.
Proof. intros t u v. rewrite abs_le_sq. split; intro H; nra. Qed.

(** for distinct projected values the inequalities of the sorted neighbours describe the points nearest among all *)
Theorem line_cells : forall m l X I, length l = m -> Forall (fun r => length r = m) X -> (2 <= length X)%nat -> sorts I (yv l X) (length X) ->
  (forall j k, (j < length X)%nat -> (k < length X)%nat -> yv l X j = yv l X k -> j = k) ->
  exists cs, ps_cells m [l] X I = Some cs /\ length cs = length X /\
    forall j x, (j < length X)%nat -> (holds (nth j cs []) x <-> forall k, (k < length X)%nat -> Rabs (dot l x - dot l (nth j X [])) <= Rabs (dot l x - dot l (nth k X []))).
Proof.
  intros m l X I Hl HX HN HI HD. destruct (cells_get m l X I Hl HN HI) as [cs [E [LC G]]]. exists cs. split; auto. split; auto. intros j x Hj.
  destruct (perm_facts _ _ (proj1 HI)) as [_ [B [IJ SJ]]]. destruct (SJ j Hj) as [a [Ha EA]]. subst j. rewrite G by auto.
  assert (C := cell_slack m l X I Hl HX HN HI a x 0 Ha). assert (H0 : holds (ps_cell m [l] X (nth a I O) (nb_entry I (length X) a)) x <->
     (forall r b, In (r, b) (ps_cell m [l] X (nth a I O) (nb_entry I (length X) a)) -> dot r x <= b + 0)).
  { unfold holds. split; intros H r b J; specialize (H r b J); lra. }
  rewrite H0, C. clear H0 C. set (v := fun b => yv l X (nth b I O)). fold (yv l X (nth a I O)). fold (v a).
  assert (ST : forall p q, (p < q < length X)%nat -> v p < v q).
  { intros p q H. destruct (Rle_lt_or_eq_dec (v p) (v q)) as [L|Q]; [apply (sorted_le m l X I Hl HN HI); lia|auto|]. apply HD in Q; [apply IJ in Q; lia|apply B; lia|apply B; lia]. }
  split.
  - intros H k Hk. destruct (SJ k Hk) as [b [Hb <-]]. fold (yv l X (nth b I O)). fold (v b). apply near_mid. destruct (lt_eq_lt_dec a b) as [[C|C]|C].
    + specialize (H (S a) (or_introl eq_refl) ltac:(lia)). fold (v (S a)) in H. pose proof (ST a (S a) ltac:(lia)). assert (v (S a) <= v b) by (destruct (Nat.eq_dec (S a) b) as [->|]; [lra|left; apply ST; lia]).
      pose proof (ST a b ltac:(lia)). assert (dot l x <= (v a + v (S a)) / 2) by nra. nra.
    + subst b. nra.
    + destruct a as [|a']; [lia|]. specialize (H a' (or_intror eq_refl) ltac:(lia)). fold (v a') in H. pose proof (ST a' (S a') ltac:(lia)). assert (v b <= v a') by (destruct (Nat.eq_dec b a') as [->|]; [lra|left; apply ST; lia]).
      pose proof (ST b (S a') ltac:(lia)). assert ((v (S a') + v a') / 2 <= dot l x) by nra. nra.
  - intros H b Hb Hb2. fold (v b). apply near_mid. apply (H (nth b I O)). apply B. auto.
Qed.
(** with equal projected values the sorted neighbours do not suffice: the cell of the first point is the whole space *)
Theorem line_ties_refuted : exists m l X I cs x, length l = m /\ Forall (fun r => length r = m) X /\ (2 <= length X)%nat /\ sorts I (yv l X) (length X) /\
  ps_cells m [l] X I = Some cs /\ holds (nth 0 cs []) x /\ Rabs (dot l x - dot l (nth 2 X [])) < Rabs (dot l x - dot l (nth 0 X [])).
Proof.
  exists 2%nat, [1; 0], [[0; 0]; [0; 1]; [1; 0]], [0; 1; 2]%nat. eexists. exists [1; 0]. split; [reflexivity|]. split; [repeat constructor|]. split; [simpl; lia|]. split.
  { split; [apply Permutation_refl|]. intros a b H. cbn in H. destruct a as [|[|[|a]]], b as [|[|[|b]]]; try lia; unfold yv; cbn [nth]; rewrite !dot_cons, !dot_nil_l; lra. }
  split; [reflexivity|]. split.
  - intros a b [E|[]]. unfold ps_row in E. injection E as <- <-. cbn. unfold mv. cbn. unfold dot, vmul, vsum. cbn. lra.
  - cbn [nth]. rewrite !dot_cons, !dot_nil_l. rewrite (Rabs_right (1 * 1 + (0 * 0 + 0) - (1 * 0 + (0 * 0 + 0)))) by lra. replace (1 * 1 + (0 * 0 + 0) - (1 * 1 + (0 * 0 + 0))) with 0 by ring. rewrite Rabs_R0. lra.
Qed.
