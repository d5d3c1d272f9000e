(** Index sets of total degree: complete, duplicate free, graded lexicographic order, size (C21). *)
Require Import List Arith Lia Sorted Factorial.
From Verif Require Import BasisModel.
Import ListNotations.

Definition nsum (a : list nat) : nat := fold_right plus 0 a.
Fixpoint lexlt (a b : list nat) : Prop :=
  match a, b with
  | x :: a', y :: b' => x < y \/ (x = y /\ lexlt a' b')
  | _, _ => False
  end.
(** graded order: by total degree, ties broken by the last coordinate first *)
Definition glt (a b : list nat) : Prop := nsum a < nsum b \/ (nsum a = nsum b /\ lexlt (rev a) (rev b)).

Lemma nsum_app : forall a b, nsum (a ++ b) = nsum a + nsum b.
Proof. induction a; intro b; simpl; auto. unfold nsum in *. simpl. rewrite IHa. lia. Qed.
Lemma nsum_rev : forall a, nsum (rev a) = nsum a.
Proof. induction a; simpl; auto. rewrite nsum_app, IHa. unfold nsum. simpl. lia. Qed.
Lemma nsum_zero : forall n, nsum (repeat 0 n) = 0.
Proof. induction n; simpl; auto. Qed.
Lemma nsum_zero_inv : forall a, nsum a = 0 -> a = repeat 0 (length a).
Proof. induction a as [|x a IH]; simpl; intro H; auto. unfold nsum in *. simpl in H. destruct x; [|lia]. f_equal. apply IH. lia. Qed.

Lemma full_index_in : forall d n a, In a (full_index n (S d)) <-> length a = S d /\ nsum a = n.
Proof.
  induction d as [|d IH]; intros n a.
  - simpl. split.
    + intros [<-|[]]. split; auto. unfold nsum. simpl. lia.
    + intros [L S]. destruct a as [|x [|y a]]; try discriminate. unfold nsum in S. simpl in S. left. f_equal. lia.
  - change (full_index n (S (S d))) with (flat_map (fun i => map (cons i) (full_index (n - i) (S d))) (seq 0 (S n))).
    rewrite in_flat_map. split.
    + intros [i [Hi Ha]]. apply in_seq in Hi. apply in_map_iff in Ha. destruct Ha as [b [<- Hb]]. apply IH in Hb. destruct Hb as [L S].
      split; simpl; [lia|]. unfold nsum in *. simpl. lia.
    + intros [L S]. destruct a as [|x a]; [discriminate|]. unfold nsum in S. simpl in L, S. fold (nsum a) in S.
      exists x. split; [apply in_seq; lia|]. apply in_map. apply IH. split; lia.
Qed.

Lemma index_set_in : forall n d a, 1 <= d -> In a (index_set n d) <-> length a = d /\ nsum a <= n.
Proof.
  intros n d a Hd. destruct d as [|d]; [lia|]. unfold index_set. rewrite in_map_iff. split.
  - intros [b [<- Hb]]. rewrite rev_length, nsum_rev. destruct Hb as [<-|Hb].
    + rewrite repeat_length, nsum_zero. split; lia.
    + apply in_flat_map in Hb. destruct Hb as [i [Hi Hb]]. apply in_seq in Hi. apply full_index_in in Hb. lia.
  - intros [L S]. exists (rev a). split; [apply rev_involutive|]. destruct (Nat.eq_dec (nsum a) 0) as [Z|NZ].
    + left. rewrite <- nsum_rev in Z. apply nsum_zero_inv in Z. rewrite Z, rev_length, L. auto.
    + right. apply in_flat_map. exists (nsum a). split; [apply in_seq; lia|]. apply full_index_in. rewrite rev_length, nsum_rev. auto.
Qed.

Lemma ss_app : forall (A : Type) (P : A -> A -> Prop) l m, StronglySorted P l -> StronglySorted P m ->
  (forall a b, In a l -> In b m -> P a b) -> StronglySorted P (l ++ m).
Proof.
  induction l as [|x l IH]; intros m S1 S2 H; simpl; auto. inversion S1; subst. constructor.
  - apply IH; auto. intros. apply H; simpl; auto.
  - apply Forall_app. split; auto. apply Forall_forall. intros b Hb. apply H; simpl; auto.
Qed.
Lemma ss_flat_map : forall (A B : Type) (P : B -> B -> Prop) (f : A -> list B) l, (forall i, In i l -> StronglySorted P (f i)) ->
  StronglySorted (fun i j => forall a b, In a (f i) -> In b (f j) -> P a b) l -> StronglySorted P (flat_map f l).
Proof.
  induction l as [|x l IH]; intros H S; simpl; [constructor|]. inversion S; subst. apply ss_app.
  - apply H. simpl. auto.
  - apply IH; auto. intros. apply H. simpl. auto.
  - intros a b Ha Hb. apply in_flat_map in Hb. destruct Hb as [j [Hj Hb]]. rewrite Forall_forall in H3. apply (H3 j Hj); auto.
Qed.
Lemma ss_map : forall (A B : Type) (P : B -> B -> Prop) (f : A -> B) l, StronglySorted (fun a b => P (f a) (f b)) l -> StronglySorted P (map f l).
Proof.
  induction l as [|x l IH]; intro S; simpl; [constructor|]. inversion S; subst. constructor; auto.
  apply Forall_map. auto.
Qed.
Lemma ss_impl : forall (A : Type) (P Q : A -> A -> Prop) l, (forall a b, In a l -> In b l -> P a b -> Q a b) -> StronglySorted P l -> StronglySorted Q l.
Proof.
  induction l as [|x l IH]; intros H S; [constructor|]. inversion S; subst. constructor.
  - apply IH; auto. intros. apply H; simpl; auto.
  - rewrite Forall_forall in *. intros b Hb. apply H; simpl; auto.
Qed.
Lemma ss_seq : forall n s, StronglySorted lt (seq s n).
Proof. induction n; intro s; simpl; constructor; auto. apply Forall_forall. intros b Hb. apply in_seq in Hb. lia. Qed.
Lemma ss_nth : forall (A : Type) (P : A -> A -> Prop) l d i j, StronglySorted P l -> i < j < length l -> P (nth i l d) (nth j l d).
Proof.
  induction l as [|x l IH]; intros d i j S H; simpl in H; [lia|]. inversion S; subst. destruct i as [|i], j as [|j]; try lia; simpl.
  - rewrite Forall_forall in H3. apply H3. apply nth_In. lia.
  - apply IH; auto. lia.
Qed.

Lemma full_index_sorted : forall d n, StronglySorted lexlt (full_index n (S d)).
Proof.
  induction d as [|d IH]; intro n.
  - simpl. constructor; constructor.
  - change (full_index n (S (S d))) with (flat_map (fun i => map (cons i) (full_index (n - i) (S d))) (seq 0 (S n))).
    apply ss_flat_map.
    + intros i _. apply ss_map. apply ss_impl with (P := lexlt); auto. intros a b _ _ H. simpl. auto.
    + apply ss_impl with (P := lt); [|apply ss_seq]. intros i j _ _ H a b Ha Hb. apply in_map_iff in Ha, Hb.
      destruct Ha as [a' [<- _]], Hb as [b' [<- _]]. simpl. auto.
Qed.

Theorem index_set_sorted : forall n d, 1 <= d -> StronglySorted glt (index_set n d).
Proof.
  intros n d Hd. destruct d as [|d]; [lia|]. unfold index_set. apply ss_map.
  assert (IN : forall i a, In a (full_index i (S d)) -> nsum a = i) by (intros i a H; apply full_index_in in H; tauto).
  constructor.
  - apply ss_flat_map.
    + intros i _. apply ss_impl with (P := lexlt); [|apply full_index_sorted]. intros a b Ha Hb H. apply IN in Ha, Hb.
      right. rewrite !nsum_rev, !rev_involutive. split; auto. congruence.
    + apply ss_impl with (P := lt); [|apply ss_seq]. intros i j _ _ H a b Ha Hb. apply IN in Ha, Hb. left. rewrite !nsum_rev. lia.
  - apply Forall_forall. intros b Hb. apply in_flat_map in Hb. destruct Hb as [i [Hi Hb]]. apply in_seq in Hi. apply IN in Hb.
    left. rewrite !nsum_rev, nsum_zero. lia.
Qed.

(** the order is a strict total order compatible with adding the same unit to both *)
Lemma lexlt_irrefl : forall a, ~ lexlt a a.
Proof. induction a; simpl; auto. intros [H|[_ H]]; [lia|auto]. Qed.
Lemma lexlt_trans : forall a b c, lexlt a b -> lexlt b c -> lexlt a c.
Proof.
  induction a as [|x a IH]; intros [|y b] [|z c]; simpl; auto; try tauto. intros [H|[-> H]] [H'|[-> H']]; try (left; lia); auto.
  right. split; auto. eapply IH; eauto.
Qed.
Lemma lexlt_total : forall a b, length a = length b -> lexlt a b \/ a = b \/ lexlt b a.
Proof.
  induction a as [|x a IH]; intros [|y b] L; try discriminate; auto. simpl in *. destruct (lt_eq_lt_dec x y) as [[H|H]|H]; auto.
  subst. destruct (IH b ltac:(lia)) as [H|[H|H]]; auto. subst. auto.
Qed.
Lemma glt_irrefl : forall a, ~ glt a a.
Proof. intros a [H|[_ H]]; [lia|apply (lexlt_irrefl _ H)]. Qed.
Lemma glt_trans : forall a b c, glt a b -> glt b c -> glt a c.
Proof. unfold glt. intros a b c [H|[H1 H2]] [H'|[H1' H2']]; try (left; lia). right. split; [lia|]. eapply lexlt_trans; eauto. Qed.
Lemma glt_total : forall a b, length a = length b -> glt a b \/ a = b \/ glt b a.
Proof.
  intros a b L. unfold glt. destruct (lt_eq_lt_dec (nsum a) (nsum b)) as [[H|H]|H]; auto.
  destruct (lexlt_total (rev a) (rev b) ltac:(rewrite !rev_length; auto)) as [K|[K|K]]; auto.
  right; left. rewrite <- (rev_involutive a), <- (rev_involutive b), K. auto.
Qed.

Lemma ss_nodup : forall (A : Type) (P : A -> A -> Prop) l, (forall a, ~ P a a) -> StronglySorted P l -> NoDup l.
Proof.
  induction l as [|x l IH]; intros H S; [constructor|]. inversion S; subst. constructor; auto. intro Hx. rewrite Forall_forall in H3. apply (H x). auto.
Qed.
Theorem index_set_nodup : forall n d, 1 <= d -> NoDup (index_set n d).
Proof. intros n d Hd. apply ss_nodup with (P := glt); [apply glt_irrefl|apply index_set_sorted; auto]. Qed.

(** size *)
Lemma choose_n_0 : forall n, choose n 0 = 1.
Proof. destruct n; auto. Qed.
Lemma choose_n_n : forall n, choose n n = 1 /\ forall k, n < k -> choose n k = 0.
Proof.
  induction n as [|n [IH1 IH2]]; split; auto.
  - intros k Hk. destruct k; [lia|auto].
  - change (choose (S n) (S n)) with (choose n n + choose n (S n)). rewrite IH1, IH2; lia.
  - intros k Hk. destruct k as [|k]; [lia|]. change (choose (S n) (S k)) with (choose n k + choose n (S k)). rewrite !IH2; lia.
Qed.
Theorem choose_fact : forall n d, choose (n + d) d * (fact n * fact d) = fact (n + d).
Proof.
  assert (G : forall s n d, n + d = s -> choose s d * (fact n * fact d) = fact s).
  { induction s as [|s IH]; intros n d E.
    - assert (n = 0) by lia. assert (d = 0) by lia. subst. reflexivity.
    - destruct d as [|d].
      + assert (n = S s) by lia. subst n. rewrite choose_n_0. simpl fact at 2. lia.
      + destruct n as [|n].
        * assert (S d = S s) by lia. rewrite H. destruct (choose_n_n (S s)) as [C _]. rewrite C. simpl (fact 0). lia.
        * change (choose (S s) (S d)) with (choose s d + choose s (S d)).
          pose proof (IH (S n) d ltac:(lia)) as A. pose proof (IH n (S d) ltac:(lia)) as B.
          change (fact (S s)) with (S s * fact s). rewrite Nat.mul_add_distr_r.
          assert (A' : choose s d * (fact (S n) * fact (S d)) = S d * fact s).
          { rewrite <- A. change (fact (S d)) with (S d * fact d). nia. }
          assert (B' : choose s (S d) * (fact (S n) * fact (S d)) = S n * fact s).
          { rewrite <- B. change (fact (S n)) with (S n * fact n). nia. }
          rewrite A', B'. replace (S s) with (S d + S n) by lia. lia. }
  intros n d. rewrite <- (G (n + d) n d eq_refl). reflexivity.
Qed.

Fixpoint nsumf (n : nat) (f : nat -> nat) : nat := match n with 0 => 0 | S n' => nsumf n' f + f n' end.
Lemma flat_map_length : forall (A B : Type) (f : A -> list B) l, length (flat_map f l) = nsum (map (fun a => length (f a)) l).
Proof. induction l; simpl; auto. rewrite app_length, IHl. reflexivity. Qed.
Lemma nsum_map_seq : forall n s f, nsum (map f (seq s n)) = nsumf n (fun i => f (s + i)).
Proof.
  induction n as [|n IH]; intros s f; [reflexivity|].
  assert (E : seq s (S n) = seq s n ++ [s + n]) by apply seq_S.
  rewrite E, map_app, nsum_app, IH. simpl. unfold nsum. simpl. lia.
Qed.
Lemma nsumf_ext : forall n f g, (forall i, i < n -> f i = g i) -> nsumf n f = nsumf n g.
Proof. induction n; intros f g H; simpl; auto. rewrite (IHn f g), H; auto. Qed.
Lemma nsumf_rev : forall n f, nsumf (S n) (fun i => f (n - i)) = nsumf (S n) f.
Proof.
  assert (F : forall n f, nsumf (S n) f = f 0 + nsumf n (fun i => f (S i))).
  { induction n; intro f; simpl in *; [lia|]. rewrite IHn. lia. }
  induction n as [|n IH]; intro f; auto.
  rewrite F. rewrite (nsumf_ext (S n) _ (fun i => f (n - i))) by (intros i Hi; f_equal; lia). rewrite IH. simpl. lia.
Qed.
Lemma hockey : forall d n, nsumf (S n) (fun i => choose (i + d) d) = choose (n + S d) (S d).
Proof.
  intros d. induction n as [|n IH].
  - simpl nsumf. destruct (choose_n_n d) as [C _]. destruct (choose_n_n (S d)) as [C' _]. simpl plus. rewrite C, C'. auto.
  - change (nsumf (S (S n)) (fun i => choose (i + d) d)) with (nsumf (S n) (fun i => choose (i + d) d) + choose (S n + d) d). rewrite IH.
    change (choose (S n + S d) (S d)) with (choose (n + S d) d + choose (n + S d) (S d)). replace (S n + d) with (n + S d) by lia. lia.
Qed.
Lemma full_index_length : forall d n, length (full_index n (S d)) = choose (n + d) d.
Proof.
  induction d as [|d IH]; intro n.
  - rewrite choose_n_0. reflexivity.
  - change (full_index n (S (S d))) with (flat_map (fun i => map (cons i) (full_index (n - i) (S d))) (seq 0 (S n))).
    rewrite flat_map_length, nsum_map_seq. rewrite (nsumf_ext (S n) _ (fun i => (fun k => choose (k + d) d) (n - i))).
    + rewrite (nsumf_rev n (fun k => choose (k + d) d)). apply hockey.
    + intros i Hi. rewrite map_length, IH. reflexivity.
Qed.
Theorem index_set_length : forall n d, 1 <= d -> length (index_set n d) = choose (n + d) d.
Proof.
  intros n d Hd. destruct d as [|d]; [lia|]. unfold index_set. rewrite map_length. cbn [length]. rewrite flat_map_length, nsum_map_seq.
  rewrite (nsumf_ext n _ (fun i => choose (S i + d) d)) by (intros; rewrite full_index_length; reflexivity).
  rewrite <- hockey.
  assert (F : forall n f, nsumf (S n) f = f 0 + nsumf n (fun i => f (S i))).
  { clear. induction n; intro f; simpl in *; [lia|]. rewrite IHn. lia. }
  rewrite F. simpl plus at 2. destruct (choose_n_n d) as [C _]. rewrite C. auto.
Qed.
Theorem index_set_size : forall n d, 1 <= d -> length (index_set n d) * (fact n * fact d) = fact (n + d).
Proof. intros. rewrite index_set_length by auto. apply choose_fact. Qed.

Example index_set_case : index_set 2 2 = [[0; 0]; [1; 0]; [0; 1]; [2; 0]; [1; 1]; [0; 2]].
Proof. reflexivity. Qed.
