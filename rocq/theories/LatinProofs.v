(** Latin hypercube designs, latin.py: C33, C34. *)
Require Import Reals Lra Lia List Bool Arith Permutation Sorted.
From Verif Require Import RVec Num Sums DomModel DomSpec DomProofs DomMoreModel SweepProofs HullIneqProofs ArnoldiMoreProofs ProjProofs LipModel SampModel.
Import ListNotations.
Local Open Scope R_scope.

(** every row of [perms] is a permutation of 0..N-1 *)
Definition perms_ok (m N : nat) (perms : list (list nat)) : Prop :=
  length perms = m /\ forall i, (i < m)%nat -> Permutation (nth i perms []) (seq 0 N).

(** entry of the design *)
Definition entry (X : mat) (j i : nat) : R := vget (nth j X []) i.

(** Latin property: N rows in the box, every one of the N equal bins of every coordinate contains (strictly
    inside) exactly one row *)
Definition latin (l u : vec) (N : nat) (X : mat) : Prop :=
  length X = N /\ Forall (fun x => length x = length l) X /\
  (forall j i, (j < N)%nat -> (i < length l)%nat -> vget l i <= entry X j i <= vget u i) /\
  forall i k, (i < length l)%nat -> (k < N)%nat -> vget l i < vget u i ->
    let h := (vget u i - vget l i) / INR N in
    exists! j, (j < N)%nat /\ vget l i + INR k * h < entry X j i < vget l i + INR (S k) * h.

Lemma lhs_coords_len : forall a b N, length (lhs_coords a b N) = N.
Proof. intros. unfold lhs_coords. rewrite map_length, seq_length. auto. Qed.
Lemma lhs_coords_get : forall a b N k, (k < N)%nat -> vget (lhs_coords a b N) k = a + (INR k + / 2) * ((b - a) / INR N).
Proof.
  intros a b N k H. unfold lhs_coords. rewrite vget_map_seq by auto. rewrite !linspace_get by lia.
  replace (N + 1 - 1)%nat with N by lia. rewrite S_INR. field. apply not_0_INR. lia.
Qed.

Lemma rows_of_entry : forall N cols j i, (j < N)%nat -> (i < length cols)%nat -> entry (rows_of N cols) j i = vget (nth i cols []) j.
Proof.
  intros N cols j i Hj Hi. unfold entry, rows_of. rewrite nth_map_seq by auto. unfold vget at 1.
  rewrite nth_indep with (d' := vget [] j) by (rewrite map_length; auto). rewrite (map_nth (fun c => vget c j)). auto.
Qed.

Lemma lhs_entry : forall l u N perms j i, perms_ok (length l) N perms -> (j < N)%nat -> (i < length l)%nat ->
  entry (lhs_design l u N perms) j i = vget l i + (INR (nth j (nth i perms []) O) + / 2) * ((vget u i - vget l i) / INR N).
Proof.
  intros l u N perms j i [Hl HP] Hj Hi. unfold lhs_design. rewrite rows_of_entry by (auto; rewrite map_length, seq_length; auto).
  rewrite nth_map_seq by auto. pose proof (HP i Hi) as P. pose proof (Permutation_length P) as PL. rewrite seq_length in PL.
  unfold vget at 1. rewrite nth_indep with (d' := vget (lhs_coords (vget l i) (vget u i) N) O) by (rewrite map_length; lia).
  rewrite map_nth. apply lhs_coords_get.
  assert (I : In (nth j (nth i perms []) O) (seq 0 N)) by (eapply Permutation_in; [exact P|apply nth_In; lia]).
  apply in_seq in I. lia.
Qed.

(** position of a value in a permutation *)
Lemma perm_pos : forall N (p : list nat) k, Permutation p (seq 0 N) -> (k < N)%nat -> exists! j, (j < N)%nat /\ nth j p O = k.
Proof.
  intros N p k P H. pose proof (Permutation_length P) as PL. rewrite seq_length in PL.
  assert (I : In k p) by (eapply Permutation_in; [apply Permutation_sym; exact P|apply in_seq; lia]).
  destruct (In_nth p k O I) as [j [Hj E]]. exists j. split; [split; [lia|auto]|].
  intros j' [Hj' E']. assert (ND : NoDup p) by (eapply Permutation_NoDup; [apply Permutation_sym; exact P|apply seq_NoDup]).
  rewrite (NoDup_nth p O) in ND. apply ND; [lia|lia|congruence].
Qed.

Theorem lhs_latin : forall l u N perms, length u = length l -> (forall i, (i < length l)%nat -> vget l i <= vget u i) ->
  perms_ok (length l) N perms -> latin l u N (lhs_design l u N perms).
Proof.
  intros l u N perms HL HB HP. assert (NN : forall j, (j < N)%nat -> 0 < INR N) by (intros; apply lt_0_INR; lia).
  repeat split.
  - unfold lhs_design, rows_of. rewrite map_length, seq_length. auto.
  - unfold lhs_design, rows_of. rewrite Forall_forall. intros x Hx. apply in_map_iff in Hx. destruct Hx as [j [<- _]]. rewrite !map_length, seq_length. auto.
  - rewrite lhs_entry by auto. pose proof (HB i H0). pose proof (pos_INR (nth j (nth i perms []) O)). pose proof (NN j H).
    assert (0 <= (vget u i - vget l i) / INR N) by (apply Rmult_le_pos; [lra|left; apply Rinv_0_lt_compat; auto]). nra.
  - rewrite lhs_entry by auto. pose proof (HB i H0). pose proof (NN j H).
    assert (Hk : (nth j (nth i perms []) O < N)%nat).
    { destruct HP as [_ HP]. pose proof (HP i H0) as P. pose proof (Permutation_length P) as PL. rewrite seq_length in PL.
      assert (I : In (nth j (nth i perms []) O) (seq 0 N)) by (eapply Permutation_in; [exact P|apply nth_In; lia]). apply in_seq in I. lia. }
    set (k := nth j (nth i perms []) O) in *. set (h := (vget u i - vget l i) / INR N).
    assert (0 <= h) by (apply Rmult_le_pos; [lra|left; apply Rinv_0_lt_compat; auto]).
    assert (E : vget u i = vget l i + INR N * h) by (unfold h; field; lra).
    assert (INR k + 1 <= INR N) by (rewrite <- S_INR; apply le_INR; lia). rewrite E. nra.
  - intros i k Hi Hk Hlu h. pose proof (NN k Hk) as Np. assert (Hh : 0 < h) by (apply Rmult_lt_0_compat; [lra|apply Rinv_0_lt_compat; auto]).
    destruct HP as [HPl HP]. destruct (perm_pos N (nth i perms []) k (HP i Hi) Hk) as [j [[Hj Ej] Uj]].
    assert (Ent : forall j', (j' < N)%nat -> entry (lhs_design l u N perms) j' i = vget l i + (INR (nth j' (nth i perms []) O) + / 2) * h)
      by (intros; rewrite lhs_entry by (auto; split; auto); auto).
    exists j. split.
    + split; auto. rewrite Ent by auto. rewrite Ej, S_INR. nra.
    + intros j' [Hj' [A B]]. apply Uj. split; auto. rewrite Ent in A, B by auto. rewrite S_INR in B.
      set (q := nth j' (nth i perms []) O) in *. destruct (lt_eq_lt_dec q k) as [[Q|Q]|Q]; auto; exfalso.
      * assert (INR q + 1 <= INR k) by (rewrite <- S_INR; apply le_INR; lia). nra.
      * assert (INR k + 1 <= INR q) by (rewrite <- S_INR; apply le_INR; lia). nra.
Qed.

(** the design lies in the box according to the domain's own isinside *)
Definition box_of (l u : vec) : dom := mkDom Box (length l) (map Fin l) (map Fin u) [] [] [] [] [].
Theorem lhs_inside : forall l u N perms tol, length u = length l -> (forall i, (i < length l)%nat -> vget l i <= vget u i) -> 0 <= tol ->
  perms_ok (length l) N perms -> Forall (fun x => inside1 (box_of l u) x tol = true) (lhs_design l u N perms).
Proof.
  intros l u N perms tol HL HB Ht HP. destruct (lhs_latin l u N perms HL HB HP) as [L1 [L2 [L3 _]]].
  rewrite Forall_forall in *. intros x Hx. pose proof (L2 x Hx) as Lx. apply In_nth with (d := []) in Hx. destruct Hx as [j [Hj E]].
  rewrite inside1_spec; [|repeat split; simpl; try rewrite map_length; auto; try congruence; intros; discriminate|simpl; discriminate].
  assert (G : forall (v : list R) i w, nth_error (map Fin v) i = Some (Fin w) -> (i < length v)%nat /\ vget v i = w).
  { intros v i w E'. rewrite nth_error_map in E'. destruct (nth_error v i) eqn:E2; [|discriminate]. simpl in E'. injection E' as <-.
    split; [apply nth_error_Some; congruence|apply nth_error_nth; auto]. }
  repeat split; simpl.
  - auto.
  - intros v E'. apply G in E'. destruct E' as [Hi <-]. pose proof (L3 j i ltac:(lia) Hi) as B. unfold entry in B. rewrite E in B. lra.
  - intros v E'. apply G in E'. destruct E' as [Hi <-]. pose proof (L3 j i ltac:(lia) ltac:(lia)) as B. unfold entry in B. rewrite E in B. lra.
  - intros k a c E'. destruct k; discriminate.
  - intros k a c E'. destruct k; discriminate.
  - intros q Hq. destruct Hq.
Qed.

(* ------------------------------------------------------------------ *)
(** * the swap keeps permutations *)
Lemma swap_row_len : forall i j row, length (swap_row i j row) = length row.
Proof. intros. unfold swap_row. rewrite map_length, seq_length. auto. Qed.
Lemma swap_row_nth : forall i j row k, (k < length row)%nat ->
  nth k (swap_row i j row) O = if Nat.eqb k j then nth i row O else if Nat.eqb k i then nth j row O else nth k row O.
Proof. intros. unfold swap_row. rewrite nth_map_seq by auto. auto. Qed.
Lemma swap_row_perm : forall i j row, (i < length row)%nat -> (j < length row)%nat -> Permutation (swap_row i j row) row.
Proof.
  intros i j row Hi Hj. apply Permutation_sym. apply (Permutation_nth _ _ O). rewrite swap_row_len. split; auto.
  exists (fun k => if Nat.eqb k j then i else if Nat.eqb k i then j else k). split; [|split].
  - intros k Hk. destruct (Nat.eqb k j); auto. destruct (Nat.eqb k i); auto.
  - intros x y Hx Hy. destruct (Nat.eqb_spec x j), (Nat.eqb_spec x i), (Nat.eqb_spec y j), (Nat.eqb_spec y i); subst; intros; subst; congruence || auto.
  - intros k Hk. rewrite swap_row_nth by auto. destruct (Nat.eqb k j); auto. destruct (Nat.eqb k i); auto.
Qed.
Lemma swap_perms_ok : forall m N i j r perms, (i < N)%nat -> (j < N)%nat -> perms_ok m N perms -> perms_ok m N (swap_perms i j r perms).
Proof.
  intros m N i j r perms Hi Hj [HL HP]. unfold swap_perms. split; [rewrite map_length, seq_length; auto|].
  intros k Hk. rewrite nth_map_seq by lia. pose proof (HP k Hk) as P. pose proof (Permutation_length P) as PL. rewrite seq_length in PL.
  destruct (nth k (swap_mask r) false); auto. eapply Permutation_trans; [apply swap_row_perm; lia|auto].
Qed.
(** at least one row is swapped *)
Lemma swap_mask_some : forall r, r <> [] -> existsb (fun b => b) (swap_mask r) = true.
Proof.
  intros r H. apply existsb_exists. exists true. split; auto. unfold swap_mask. apply in_map_iff. exists (vmax r).
  destruct (vmax_spec r H) as [_ I]. split; auto. apply Rleb_true. apply Rmin_l.
Qed.

(* ------------------------------------------------------------------ *)
(** * tuple order *)
Lemma tup_gt_irrefl : forall a, tup_gt a a = false.
Proof. induction a as [|x a IH]; simpl; auto. destruct (Reqb x x) eqn:E; auto. apply Reqb_false in E. congruence. Qed.
Lemma tup_gt_trans : forall a b c, tup_gt a b = true -> tup_gt b c = true -> tup_gt a c = true.
Proof.
  induction a as [|x a IH]; intros b c H1 H2; [destruct b; discriminate|]. destruct b as [|y b]; [destruct c; discriminate|].
  destruct c as [|z c]; auto. simpl in *.
  destruct (Reqb x y) eqn:E1, (Reqb y z) eqn:E2.
  - apply Reqb_true in E1, E2. subst. destruct (Reqb z z) eqn:E3; [eauto|]. apply Reqb_false in E3. congruence.
  - apply Reqb_true in E1. subst. rewrite E2. auto.
  - apply Reqb_true in E2. subst. rewrite E1. auto.
  - apply Rltb_true in H1, H2. destruct (Reqb x z) eqn:E3; [apply Reqb_true in E3; lra|]. apply Rltb_true. lra.
Qed.
Lemma tup_gt_total : forall a b, length a = length b -> tup_gt a b = false -> tup_gt b a = false -> a = b.
Proof.
  induction a as [|x a IH]; intros [|y b] HL H1 H2; simpl in *; try discriminate; auto.
  destruct (Reqb x y) eqn:E1.
  - apply Reqb_true in E1. subst. destruct (Reqb y y) eqn:E2; [|apply Reqb_false in E2; congruence]. f_equal. apply IH; auto.
  - apply Reqb_false in E1. destruct (Reqb y x) eqn:E2; [apply Reqb_true in E2; congruence|]. apply Rltb_false in H1, H2. exfalso. apply E1. lra.
Qed.
(** if a design is not beaten by b then its smallest entry is at least that of b *)
Lemma tup_gt_head : forall x a y b, tup_gt (x :: a) (y :: b) = false -> x <= y.
Proof. intros x a y b H. simpl in H. destruct (Reqb x y) eqn:E; [apply Reqb_true in E; lra|]. apply Rltb_false in H. auto. Qed.

(* ------------------------------------------------------------------ *)
(** * sorting and the score *)
Lemma rins_perm : forall a l, Permutation (rins a l) (a :: l).
Proof.
  intros a l. induction l as [|b l IH]; simpl; auto. destruct (Rleb a b); auto.
  eapply Permutation_trans; [apply perm_skip; exact IH|apply perm_swap].
Qed.
Lemma rsort_perm : forall l, Permutation (rsort l) l.
Proof. intros l. induction l as [|a l IH]; simpl; auto. eapply Permutation_trans; [apply rins_perm|apply perm_skip; auto]. Qed.
Lemma rins_sorted : forall a l, StronglySorted Rle l -> StronglySorted Rle (rins a l).
Proof.
  intros a l H. induction H as [|b l H IH F]; simpl; [repeat constructor|]. destruct (Rleb a b) eqn:E.
  - apply Rleb_true in E. constructor; [constructor; auto|]. constructor; auto. eapply Forall_impl; [|exact F]. simpl. intros. lra.
  - apply Rleb_false in E. constructor; auto. rewrite Forall_forall in *. intros x Hx. apply (Permutation_in _ (rins_perm a l)) in Hx. destruct Hx as [<-|Hx]; [lra|auto].
Qed.
Lemma rsort_sorted : forall l, StronglySorted Rle (rsort l).
Proof. intros l. induction l as [|a l IH]; simpl; [constructor|apply rins_sorted; auto]. Qed.
Lemma rsort_len : forall l, length (rsort l) = length l.
Proof. intros. apply Permutation_length, rsort_perm. Qed.
Lemma rsort_head : forall l, l <> [] -> exists t, rsort l = vmin l :: t.
Proof.
  intros l N. pose proof (rsort_perm l) as P. pose proof (rsort_sorted l) as SS. destruct (rsort l) as [|a t] eqn:E.
  - apply Permutation_nil in P. congruence.
  - exists t. f_equal. destruct (vmin_spec l N) as [M I]. apply Rle_antisym.
    + apply (Permutation_in _ (Permutation_sym P)) in I. destruct I as [<-|I]; [lra|]. inversion SS; subst. rewrite Forall_forall in H2. apply H2. auto.
    + apply M. eapply Permutation_in; [exact P|left; auto].
Qed.

Lemma pdists_get : forall X i j, (i < length X)%nat -> (j < length X)%nat -> vget (nth i (pdists X) []) j = norm2 (vsub (nth i X []) (nth j X [])).
Proof.
  intros X i j Hi Hj. unfold pdists. rewrite nth_indep with (d' := map (fun y => norm2 (vsub [] y)) X) by (rewrite map_length; auto).
  rewrite (map_nth (fun x => map (fun y => norm2 (vsub x y)) X)). unfold vget. rewrite nth_indep with (d' := norm2 (vsub (nth i X []) [])) by (rewrite map_length; auto).
  rewrite (map_nth (fun y => norm2 (vsub (nth i X []) y))). auto.
Qed.
Lemma pdists_max : forall X i j, (i < length X)%nat -> (j < length X)%nat -> norm2 (vsub (nth i X []) (nth j X [])) <= vmax (concat (pdists X)).
Proof.
  intros X i j Hi Hj. assert (I : In (norm2 (vsub (nth i X []) (nth j X []))) (concat (pdists X))).
  { apply in_concat. exists (map (fun y => norm2 (vsub (nth i X []) y)) X). split.
    - unfold pdists. apply (in_map (fun x => map (fun y => norm2 (vsub x y)) X)). apply nth_In. auto.
    - apply (in_map (fun y => norm2 (vsub (nth i X []) y))). apply nth_In. auto. }
  apply vmax_spec; auto. intro E. rewrite E in I. destruct I.
Qed.
Lemma self_dist : forall x, norm2 (vsub x x) = 0.
Proof.
  intros x. unfold norm2. replace (norm2sq (vsub x x)) with 0; [apply sqrt_0|]. symmetry. unfold norm2sq.
  assert (E : forall y : list R, vsub x x = vscale 0 y -> dot (vsub x x) (vsub x x) = 0) by (intros y ->; rewrite dot_vscale_l; ring).
  apply (E x). apply vec_ext; [rewrite vscale_length, vsub_length; auto|]. intros. rewrite vscale_get, vsub_get by auto. ring.
Qed.

(** the j-th entry of min_dists is the distance to the nearest other point *)
Theorem min_dists_spec : forall X j, (2 <= length X)%nat -> (j < length X)%nat ->
  (forall i, (i < length X)%nat -> i <> j -> vget (min_dists X) j <= norm2 (vsub (nth i X []) (nth j X []))) /\
  exists i, (i < length X)%nat /\ i <> j /\ vget (min_dists X) j = norm2 (vsub (nth i X []) (nth j X [])).
Proof.
  intros X j H2 Hj. unfold min_dists. rewrite vget_map_seq by auto.
  set (f := fun i => vget (nth i (pdists X) []) j + (if Nat.eqb i j then vmax (concat (pdists X)) else 0)).
  assert (NE : map f (seq 0 (length X)) <> []) by (intro E; apply (f_equal (@length _)) in E; rewrite map_length, seq_length in E; simpl in E; lia).
  destruct (vmin_spec (map f (seq 0 (length X))) NE) as [M I].
  assert (F : forall i, (i < length X)%nat -> i <> j -> f i = norm2 (vsub (nth i X []) (nth j X []))).
  { intros i Hi Hij. unfold f. rewrite pdists_get by auto. destruct (Nat.eqb_spec i j); [congruence|ring]. }
  assert (LB : forall i, (i < length X)%nat -> i <> j -> vmin (map f (seq 0 (length X))) <= norm2 (vsub (nth i X []) (nth j X []))).
  { intros i Hi Hij. rewrite <- F by auto. apply M. apply in_map, in_seq. lia. }
  split; auto. apply in_map_iff in I. destruct I as [i [E Hi]]. apply in_seq in Hi. destruct (Nat.eq_dec i j) as [->|Hij].
  - set (k := if Nat.eqb j 0 then 1%nat else 0%nat). assert (Hk : (k < length X)%nat /\ k <> j) by (unfold k; destruct (Nat.eqb_spec j 0); lia).
    exists k. split; [tauto|]. split; [tauto|]. apply Rle_antisym; [apply LB; tauto|]. rewrite <- E. unfold f. rewrite Nat.eqb_refl.
    rewrite pdists_get by auto. rewrite self_dist. pose proof (pdists_max X k j (proj1 Hk) Hj). lra.
  - exists i. split; [lia|]. split; auto. rewrite <- E. apply F; [lia|auto].
Qed.
Lemma min_dists_len : forall X, length (min_dists X) = length X.
Proof. intros. unfold min_dists. rewrite map_length, seq_length. auto. Qed.

(** smallest pairwise distance, independently of the code *)
Definition min_sep (X : mat) (s : R) : Prop :=
  (forall i j, (i < length X)%nat -> (j < length X)%nat -> i <> j -> s <= norm2 (vsub (nth i X []) (nth j X []))) /\
  exists i j, (i < length X)%nat /\ (j < length X)%nat /\ i <> j /\ s = norm2 (vsub (nth i X []) (nth j X [])).
Lemma min_sep_uniq : forall X s t, min_sep X s -> min_sep X t -> s = t.
Proof. intros X s t [A [i [j [Hi [Hj [N E]]]]]] [B [i' [j' [Hi' [Hj' [N' E']]]]]]. apply Rle_antisym; [rewrite E'; apply A; auto|rewrite E; apply B; auto]. Qed.
Theorem score_spec : forall X, (2 <= length X)%nat -> StronglySorted Rle (score_maximin X) /\ Permutation (score_maximin X) (min_dists X) /\
  exists s t, score_maximin X = s :: t /\ min_sep X s.
Proof.
  intros X H2. split; [apply rsort_sorted|]. split; [apply rsort_perm|]. unfold score_maximin.
  assert (NE : min_dists X <> []) by (intro E; apply (f_equal (@length _)) in E; rewrite min_dists_len in E; simpl in E; lia).
  destruct (rsort_head _ NE) as [t E]. exists (vmin (min_dists X)), t. split; auto. destruct (vmin_spec _ NE) as [M I].
  split.
  - intros i j Hi Hj Hij. destruct (min_dists_spec X j H2 Hj) as [A _]. eapply Rle_trans; [|apply A; auto]. apply M. unfold vget. apply nth_In. rewrite min_dists_len. auto.
  - apply In_nth with (d := 0) in I. destruct I as [j [Hj E2]]. rewrite min_dists_len in Hj. destruct (min_dists_spec X j H2 Hj) as [_ [i [Hi [Hij E3]]]].
    exists i, j. repeat split; auto. rewrite <- E3. auto.
Qed.

(* ------------------------------------------------------------------ *)
(** * the search *)
Definition draws_ok (N : nat) (draws : list draw) : Prop := Forall (fun d => (fst (fst d) < N)%nat /\ (snd (fst d) < N)%nat /\ fst (fst d) <> snd (fst d)) draws.
(** the designs tried by the search, in order *)
Fixpoint visited (l u : vec) (N : nat) (s : lhstate) (draws : list draw) : list mat :=
  match draws with
  | [] => []
  | d :: ds => lhs_design l u N (swap_perms (fst (fst d)) (snd (fst d)) (snd d) (lh_perms s)) :: visited l u N (lh_step l u N s d) ds
  end.

Definition lh_inv (l u : vec) (N : nat) (s : lhstate) : Prop := perms_ok (length l) N (lh_perms s) /\
  match lh_X s with Some X => X = lhs_design l u N (lh_perms s) /\ lh_score s = score_maximin X | None => lh_score s = repeat 0 N end.
Lemma lh_step_inv : forall l u N s d, (fst (fst d) < N)%nat -> (snd (fst d) < N)%nat -> lh_inv l u N s -> lh_inv l u N (lh_step l u N s d).
Proof.
  intros l u N s [[i j] r] Hi Hj [HP HX]. unfold lh_step. simpl in *. destruct (tup_gt _ _); [|split; auto].
  split; simpl; auto. apply swap_perms_ok; auto.
Qed.
(** the score never gets worse in a step *)
Lemma lh_step_mono : forall l u N s d, lh_score (lh_step l u N s d) = lh_score s \/ tup_gt (lh_score (lh_step l u N s d)) (lh_score s) = true.
Proof. intros l u N s [[i j] r]. unfold lh_step. destruct (tup_gt _ _) eqn:E; auto. Qed.
Lemma lh_fold_mono : forall l u N draws s, let s' := fold_left (lh_step l u N) draws s in lh_score s' = lh_score s \/ tup_gt (lh_score s') (lh_score s) = true.
Proof.
  induction draws as [|d ds IH]; intros s; simpl; auto. destruct (IH (lh_step l u N s d)) as [E|E], (lh_step_mono l u N s d) as [F|F].
  - left. congruence.
  - right. rewrite E. auto.
  - right. rewrite <- F. auto.
  - right. eapply tup_gt_trans; eauto.
Qed.
Lemma lh_fold_best : forall l u N draws s X, In X (visited l u N s draws) -> tup_gt (score_maximin X) (lh_score (fold_left (lh_step l u N) draws s)) = false.
Proof.
  induction draws as [|d ds IH]; intros s X; simpl; [tauto|]. intros [<-|I]; [|apply IH; auto].
  set (X := lhs_design _ _ _ _). destruct (lh_fold_mono l u N ds (lh_step l u N s d)) as [E|E].
  - rewrite E. unfold lh_step. destruct d as [[i j] r]. simpl in *. fold X. destruct (tup_gt (score_maximin X) (lh_score s)) eqn:F; simpl; [apply tup_gt_irrefl|auto].
  - destruct (tup_gt (score_maximin X) (lh_score (fold_left _ _ _))) eqn:G; auto. exfalso.
    pose proof (tup_gt_trans _ _ _ G E) as H. unfold lh_step in H. destruct d as [[i j] r]. simpl in *. fold X in H.
    destruct (tup_gt (score_maximin X) (lh_score s)) eqn:F; simpl in H; [rewrite tup_gt_irrefl in H; discriminate|congruence].
Qed.
Lemma lh_fold_in : forall l u N draws s, lh_X (fold_left (lh_step l u N) draws s) = lh_X s \/
  exists X, lh_X (fold_left (lh_step l u N) draws s) = Some X /\ In X (visited l u N s draws).
Proof.
  induction draws as [|d ds IH]; intros s; simpl; auto. destruct (IH (lh_step l u N s d)) as [E|[X [E I]]]; [|right; exists X; auto].
  destruct d as [[i j] r]. simpl in *. unfold lh_step in E |- *. destruct (tup_gt _ _) eqn:F; [|left; rewrite E; auto].
  right. simpl in E. exists (lhs_design l u N (swap_perms i j r (lh_perms s))). split; auto.
Qed.
Lemma lh_fold_inv : forall l u N draws s, draws_ok N draws -> lh_inv l u N s -> lh_inv l u N (fold_left (lh_step l u N) draws s).
Proof.
  induction draws as [|d ds IH]; intros s HD HI; simpl; auto. inversion HD; subst. apply IH; auto. apply lh_step_inv; tauto.
Qed.
Lemma visited_perms : forall l u N draws s X, draws_ok N draws -> lh_inv l u N s -> In X (visited l u N s draws) ->
  exists perms, perms_ok (length l) N perms /\ X = lhs_design l u N perms.
Proof.
  induction draws as [|d ds IH]; intros s X HD HI; simpl; [tauto|]. inversion HD; subst. intros [<-|I].
  - eexists. split; [|reflexivity]. apply swap_perms_ok; try tauto. apply HI.
  - apply (IH (lh_step l u N s d)); auto. apply lh_step_inv; tauto.
Qed.

(** distinct rows: a Latin design with a non-degenerate coordinate has positive separation *)
Lemma abs_le_norm2 : forall (x : vec) i, (i < length x)%nat -> Rabs (vget x i) <= norm2 x.
Proof.
  intros x i H. apply Rsqr_incr_0_var; [|apply norm2_nonneg]. rewrite <- Rsqr_abs. unfold Rsqr. rewrite norm2_sq. unfold norm2sq.
  rewrite dot_rsum by auto. rewrite (rsum_split (length x) i (fun k => vget x k * vget x k) H).
  assert (0 <= rsum (length x) (fun k => if Nat.eqb k i then 0 else vget x k * vget x k)); [|lra].
  apply rsum_nonneg. intros k Hk. destruct (Nat.eqb k i); [lra|apply Rle_0_sqr].
Qed.
Lemma latin_sep : forall l u N X i0, (i0 < length l)%nat -> vget l i0 < vget u i0 -> latin l u N X ->
  forall i j, (i < N)%nat -> (j < N)%nat -> i <> j ->
  (exists perms, perms_ok (length l) N perms /\ X = lhs_design l u N perms) ->
  (vget u i0 - vget l i0) / INR N <= norm2 (vsub (nth i X []) (nth j X [])).
Proof.
  intros l u N X i0 Hi0 Hlu [LX [LR [_ _]]] i j Hi Hj Hij [perms [HP E]].
  assert (Li : length (nth i X []) = length l) by (rewrite Forall_forall in LR; apply LR, nth_In; lia).
  assert (Lj : length (nth j X []) = length l) by (rewrite Forall_forall in LR; apply LR, nth_In; lia).
  assert (Hl : length (nth i X []) = length (nth j X [])) by congruence.
  eapply Rle_trans; [|apply (abs_le_norm2 _ i0); rewrite vsub_length; lia]. rewrite vsub_get by auto.
  change (vget (nth i X []) i0) with (entry X i i0). change (vget (nth j X []) i0) with (entry X j i0). subst X. rewrite !lhs_entry by auto.
  set (h := (vget u i0 - vget l i0) / INR N). assert (Np : 0 < INR N) by (apply lt_0_INR; lia).
  assert (Hh : 0 < h) by (apply Rmult_lt_0_compat; [lra|apply Rinv_0_lt_compat; auto]).
  destruct HP as [_ HP]. pose proof (HP i0 Hi0) as P. pose proof (Permutation_length P) as PL. rewrite seq_length in PL.
  assert (ND : NoDup (nth i0 perms [])) by (eapply Permutation_NoDup; [apply Permutation_sym; exact P|apply seq_NoDup]).
  rewrite (NoDup_nth _ O) in ND. pose proof (ND i j ltac:(lia) ltac:(lia)) as NE. set (a := nth i (nth i0 perms []) O) in *. set (b := nth j (nth i0 perms []) O) in *.
  assert (a <> b) by (intro E; apply Hij, NE, E).
  destruct (lt_eq_lt_dec a b) as [[Q|Q]|Q]; try congruence.
  - assert (INR a + 1 <= INR b) by (rewrite <- S_INR; apply le_INR; lia). rewrite Rabs_left; nra.
  - assert (INR b + 1 <= INR a) by (rewrite <- S_INR; apply le_INR; lia). rewrite Rabs_right; nra.
Qed.
Lemma score_len : forall X, length (score_maximin X) = length X.
Proof. intros. unfold score_maximin. rewrite rsort_len, min_dists_len. auto. Qed.
Lemma lhs_len : forall l u N perms, length (lhs_design l u N perms) = N.
Proof. intros. unfold lhs_design, rows_of. rewrite map_length, seq_length. auto. Qed.

Theorem lhs_maximin_correct : forall l u N perms0 draws, length u = length l -> (forall i, (i < length l)%nat -> vget l i <= vget u i) ->
  (exists i, (i < length l)%nat /\ vget l i < vget u i) -> (2 <= N)%nat -> draws <> [] -> draws_ok N draws -> perms_ok (length l) N perms0 ->
  exists X, lhs_maximin l u N perms0 draws = Some (Some X) /\ latin l u N X /\
    In X (visited l u N (mkLh perms0 None (repeat 0 N)) draws) /\
    forall Y, In Y (visited l u N (mkLh perms0 None (repeat 0 N)) draws) ->
      latin l u N Y /\ tup_gt (score_maximin Y) (score_maximin X) = false /\
      (forall sX sY, min_sep X sX -> min_sep Y sY -> sY <= sX).
Proof.
  intros l u N perms0 draws HL HB [i0 [Hi0 Hlt]] HN HD0 HD HP. set (s0 := mkLh perms0 None (repeat 0 N)).
  assert (I0 : lh_inv l u N s0) by (split; [exact HP|reflexivity]).
  pose proof (lh_fold_inv l u N draws s0 HD I0) as [IP IX]. pose proof (lh_fold_best l u N draws s0) as B. pose proof (lh_fold_in l u N draws s0) as HI.
  set (sf := fold_left (lh_step l u N) draws s0) in *.
  assert (U : lhs_maximin l u N perms0 draws = Some (lh_X sf)).
  { unfold lhs_maximin, sf, s0. destruct draws; [congruence|]. destruct (Nat.ltb_spec N 2); [lia|reflexivity]. }
  assert (NN : lh_X sf <> None).
  { intro E. rewrite E in IX. destruct draws as [|d ds]; [congruence|].
    pose proof (B _ (or_introl eq_refl)) as T. rewrite IX in T. set (X := lhs_design _ _ _ _) in T.
    assert (PX : exists perms, perms_ok (length l) N perms /\ X = lhs_design l u N perms).
    { inversion HD; subst. eexists. split; [|reflexivity]. apply swap_perms_ok; tauto. }
    assert (LX : latin l u N X) by (destruct PX as [pm [Hpm ->]]; apply lhs_latin; auto).
    assert (HX : length X = N) by apply LX.
    destruct (score_spec X ltac:(lia)) as [_ [_ [s [t [Es Hs]]]]]. rewrite Es in T. destruct N as [|N']; [lia|]. simpl repeat in T. apply tup_gt_head in T.
    destruct Hs as [_ [i [j [Hi [Hj [Hij E']]]]]]. pose proof (latin_sep l u (S N') X i0 Hi0 Hlt LX i j ltac:(lia) ltac:(lia) Hij PX) as Q.
    assert (0 < (vget u i0 - vget l i0) / INR (S N')) by (apply Rmult_lt_0_compat; [lra|apply Rinv_0_lt_compat, lt_0_INR; lia]). lra. }
  destruct (lh_X sf) as [X|] eqn:EX; [|congruence]. destruct IX as [IX1 IX2]. exists X.
  assert (HV : In X (visited l u N s0 draws)) by (destruct HI as [HI|[X' [HI1 HI2]]]; [discriminate|injection HI1 as <-; auto]).
  assert (LV : forall Y, In Y (visited l u N s0 draws) -> latin l u N Y).
  { intros Y HY. destruct (visited_perms l u N draws s0 Y HD I0 HY) as [pm [Hpm ->]]. apply lhs_latin; auto. }
  split; [|split; [apply LV; auto|split; [auto|]]].
  - exact U.
  - intros Y HY. split; [apply LV; auto|]. pose proof (B Y HY) as T. rewrite IX2 in T. split; auto.
    intros sX sY SX SY. assert (LX : length X = N) by (apply (LV X HV)). assert (LY : length Y = N) by (apply (LV Y HY)).
    destruct (score_spec X ltac:(lia)) as [_ [_ [s1 [t1 [E1 S1]]]]]. destruct (score_spec Y ltac:(lia)) as [_ [_ [s2 [t2 [E2 S2]]]]].
    rewrite E1, E2 in T. apply tup_gt_head in T. rewrite (min_sep_uniq X sX s1 SX S1), (min_sep_uniq Y sY s2 SY S2). auto.
Qed.

(** the score of the best design never decreases from one iteration to the next *)
Theorem lhs_score_monotone : forall l u N perms0 ds1 ds2, let s k := fold_left (lh_step l u N) k (mkLh perms0 None (repeat 0 N)) in
  lh_score (s (ds1 ++ ds2)) = lh_score (s ds1) \/ tup_gt (lh_score (s (ds1 ++ ds2))) (lh_score (s ds1)) = true.
Proof. intros l u N perms0 ds1 ds2 s. unfold s. rewrite fold_left_app. apply lh_fold_mono. Qed.

(** the function returns None instead of a design for maxiter = 0, and fails for a single point *)
Theorem lhs_maximin_none_refuted : exists l u N perms0 draws, length u = length l /\ (forall i, (i < length l)%nat -> vget l i < vget u i) /\ (1 <= N)%nat /\
  perms_ok (length l) N perms0 /\ lhs_maximin l u N perms0 draws = Some None.
Proof.
  exists [0], [1], 2%nat, [[0;1]%nat], []. split; auto. split; [intros [|i] H; simpl in H; [unfold vget; simpl; lra|lia]|].
  split; [lia|]. split; auto. split; auto. intros [|i] H; simpl in *; [apply Permutation_refl|lia].
Qed.
Theorem lhs_maximin_single_refuted : exists l u perms0, length u = length l /\ (forall i, (i < length l)%nat -> vget l i < vget u i) /\
  perms_ok (length l) 1 perms0 /\ forall draws, draws <> [] -> lhs_maximin l u 1 perms0 draws = None.
Proof.
  exists [0], [1], [[0]%nat]. split; auto. split; [intros [|i] H; simpl in H; [unfold vget; simpl; lra|lia]|]. split.
  - split; auto. intros [|i] H; simpl in *; [apply Permutation_refl|lia].
  - intros [|d ds] H; [congruence|reflexivity].
Qed.
(** the random starting design is never scored: the search may return a design with a smaller separation than
    the one it started from (4 points in the square of side 4) *)
Definition ex_l : vec := [0; 0].
Definition ex_u : vec := [4; 4].
Definition ex_perms : list (list nat) := [[0;1;2;3];[1;3;0;2]]%nat.
Definition ex_draw : draw := (0%nat, 1%nat, [0; 1]).
Lemma ex_perms_ok : perms_ok 2 4 ex_perms.
Proof.
  split; auto. intros [|[|i]] H; simpl; try lia; [apply Permutation_refl|].
  apply NoDup_Permutation; [repeat constructor; simpl; intuition lia|apply (seq_NoDup 4 0)|]. intros x. simpl. intuition lia.
Qed.
Lemma ex_draws_ok : draws_ok 4 [ex_draw].
Proof. constructor; [simpl; lia|constructor]. Qed.
Lemma ex_mask : swap_mask [0; 1] = [false; true].
Proof.
  unfold swap_mask. cbn [map vmax fold_left]. assert (M : Rmin (Rmax 0 1) (1 / 2) = 1 / 2) by (rewrite Rmax_right by lra; apply Rmin_right; lra). rewrite M.
  f_equal; [apply Rleb_false; lra|]. f_equal. apply Rleb_true. lra.
Qed.
Lemma ex_swapped : swap_perms 0 1 [0; 1] ex_perms = [[0;1;2;3];[3;1;0;2]]%nat.
Proof. unfold swap_perms. rewrite ex_mask. reflexivity. Qed.
Example ex_lhs_search : exists X, lhs_maximin ex_l ex_u 4 ex_perms [ex_draw] = Some (Some X) /\ latin ex_l ex_u 4 X.
Proof.
  destruct (lhs_maximin_correct ex_l ex_u 4 ex_perms [ex_draw]) as [X [E [L _]]]; auto.
  - intros [|[|i]] H; simpl in H; try lia; unfold vget; simpl; lra.
  - exists O. split; [simpl; lia|unfold vget; simpl; lra].
  - discriminate.
  - apply ex_draws_ok.
  - apply ex_perms_ok.
  - exists X. auto.
Qed.
Theorem lhs_start_refuted : exists l u N perms0 draws X s0 sX, perms_ok (length l) N perms0 /\ draws_ok N draws /\
  lhs_maximin l u N perms0 draws = Some (Some X) /\ min_sep (lhs_design l u N perms0) s0 /\ min_sep X sX /\ sX < s0.
Proof.
  destruct (lhs_maximin_correct ex_l ex_u 4 ex_perms [ex_draw]) as [X [E [L [V _]]]]; auto.
  - intros [|[|i]] H; simpl in H; try lia; unfold vget; simpl; lra.
  - exists O. split; [simpl; lia|unfold vget; simpl; lra].
  - discriminate.
  - apply ex_draws_ok.
  - apply ex_perms_ok.
  - set (X0 := lhs_design ex_l ex_u 4 ex_perms).
    assert (L0 : length X0 = 4%nat) by apply lhs_len. assert (LX : length X = 4%nat) by apply L.
    destruct (score_spec X0 ltac:(lia)) as [_ [_ [s0 [t0 [_ S0]]]]]. destruct (score_spec X ltac:(lia)) as [_ [_ [sX [tX [_ SX]]]]].
    exists ex_l, ex_u, 4%nat, ex_perms, [ex_draw], X, s0, sX. split; [apply ex_perms_ok|]. split; [apply ex_draws_ok|]. split; auto. split; auto. split; auto.
    simpl in V. destruct V as [V|[]]. rewrite ex_swapped in V.
    assert (PX : perms_ok 2 4 [[0;1;2;3];[3;1;0;2]]%nat).
    { split; auto. intros [|[|i]] H; simpl; try lia; [apply Permutation_refl|].
      apply NoDup_Permutation; [repeat constructor; simpl; intuition lia|apply (seq_NoDup 4 0)|]. intros x. simpl. intuition lia. }
    assert (R0 : forall j, (j < 4)%nat -> length (nth j X0 []) = 2%nat).
    { intros j Hj. destruct (lhs_latin ex_l ex_u 4 ex_perms) as [_ [F _]]; auto; [intros [|[|i]] H; simpl in H; try lia; unfold vget; simpl; lra|apply ex_perms_ok|].
      rewrite Forall_forall in F. apply F. apply nth_In. rewrite lhs_len. auto. }
    assert (RX : forall j, (j < 4)%nat -> length (nth j X []) = 2%nat) by (intros j Hj; destruct L as [_ [F _]]; rewrite Forall_forall in F; apply F, nth_In; lia).
    assert (G0 : forall j i, (j < 4)%nat -> (i < 2)%nat -> vget (nth j X0 []) i = INR (nth j (nth i ex_perms []) O) + / 2).
    { intros j i Hj Hi. change (vget (nth j X0 []) i) with (entry X0 j i). unfold X0. rewrite lhs_entry by (auto using ex_perms_ok).
      destruct i as [|[|i]]; [| |lia]; unfold vget, ex_l, ex_u; simpl nth; simpl (INR 4); lra. }
    assert (GX : forall j i, (j < 4)%nat -> (i < 2)%nat -> vget (nth j X []) i = INR (nth j (nth i [[0;1;2;3];[3;1;0;2]]%nat []) O) + / 2).
    { intros j i Hj Hi. change (vget (nth j X []) i) with (entry X j i). rewrite <- V. rewrite lhs_entry by (auto using PX).
      destruct i as [|[|i]]; [| |lia]; unfold vget, ex_l, ex_u; simpl nth; simpl (INR 4); lra. }
    assert (B0 : 2 <= s0).
    { destruct S0 as [_ [i [j [Hi [Hj [Hij ->]]]]]]. rewrite L0 in Hi, Hj.
      assert (D : exists k, (k < 2)%nat /\ 2 <= Rabs (vget (nth i X0 []) k - vget (nth j X0 []) k)).
      { assert (C : forall k, (k < 2)%nat -> 2 <= INR (nth i (nth k ex_perms []) O) - INR (nth j (nth k ex_perms []) O) \/ 2 <= INR (nth j (nth k ex_perms []) O) - INR (nth i (nth k ex_perms []) O) ->
           2 <= Rabs (vget (nth i X0 []) k - vget (nth j X0 []) k)).
        { intros k Hk [B|B]; rewrite !G0 by auto; [rewrite Rabs_right|rewrite Rabs_left1]; lra. }
        assert (K : exists k, (k < 2)%nat /\ (2 + nth j (nth k ex_perms []) O <= nth i (nth k ex_perms []) O \/ 2 + nth i (nth k ex_perms []) O <= nth j (nth k ex_perms []) O)%nat).
        { destruct i as [|[|[|[|i]]]]; try lia; destruct j as [|[|[|[|j]]]]; try lia; first [exists O; split; [lia|simpl; lia] | exists 1%nat; split; [lia|simpl; lia]]. }
        destruct K as [k [Hk K]]. exists k. split; auto. apply C; auto.
        destruct K as [K|K]; apply le_INR in K; rewrite plus_INR in K; simpl (INR 2) in K; [left|right]; lra. }
      destruct D as [k [Hk D]]. eapply Rle_trans; [exact D|]. rewrite <- vsub_get by (rewrite !R0; auto). apply abs_le_norm2. rewrite vsub_length by (rewrite !R0; auto). rewrite R0; auto. }
    assert (BX : sX < 2).
    { destruct SX as [SX _]. eapply Rle_lt_trans; [apply (SX 1%nat 2%nat); lia|].
      assert (Q : norm2sq (vsub (nth 1 X []) (nth 2 X [])) = 2).
      { unfold norm2sq. rewrite dot_rsum by auto. rewrite vsub_length by (rewrite !RX by lia; auto). rewrite RX by lia. unfold rsum.
        rewrite !vsub_get by (rewrite !RX by lia; auto). rewrite !GX by lia. simpl nth. simpl INR. lra. }
      unfold norm2. rewrite Q. apply Rsqr_incrst_0; try lra; [|apply sqrt_pos]. rewrite Rsqr_sqrt by lra. unfold Rsqr. lra. }
    lra.
Qed.

(** every proposal of the search differs from the best design so far: some row is swapped *)
Theorem swap_changes : forall m N i j r perms, perms_ok m N perms -> (0 < m)%nat -> (i < N)%nat -> (j < N)%nat -> i <> j -> length r = m ->
  exists k, (k < m)%nat /\ nth k (swap_perms i j r perms) [] = swap_row i j (nth k perms []) /\ nth i (nth k (swap_perms i j r perms) []) O = nth j (nth k perms []) O /\ swap_perms i j r perms <> perms.
Proof.
  intros m N i j r perms [HL HP] Hm Hi Hj Hij Hr. assert (NE : r <> []) by (intro E; rewrite E in Hr; simpl in Hr; lia).
  pose proof (swap_mask_some r NE) as S. apply existsb_exists in S. destruct S as [b [I ->]]. destruct (In_nth _ _ false I) as [k [Hk Ek]].
  assert (LM : length (swap_mask r) = m) by (unfold swap_mask; rewrite map_length; auto). rewrite LM in Hk.
  assert (E : nth k (swap_perms i j r perms) [] = swap_row i j (nth k perms [])) by (unfold swap_perms; rewrite nth_map_seq by lia; rewrite Ek; auto).
  pose proof (HP k ltac:(lia)) as P. pose proof (Permutation_length P) as PL. rewrite seq_length in PL.
  assert (V : nth i (nth k (swap_perms i j r perms) []) O = nth j (nth k perms []) O).
  { rewrite E, swap_row_nth by lia. destruct (Nat.eqb_spec i j); [congruence|]. rewrite Nat.eqb_refl. auto. }
  exists k. split; auto. split; auto. split; auto. intro Q. rewrite Q in V. assert (ND : NoDup (nth k perms [])) by (eapply Permutation_NoDup; [apply Permutation_sym; exact P|apply seq_NoDup]).
  rewrite (NoDup_nth _ O) in ND. specialize (ND i j ltac:(lia) ltac:(lia) V). congruence.
Qed.
