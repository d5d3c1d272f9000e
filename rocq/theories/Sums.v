(** Finite sums over 0..n-1, used by the linear algebra parts of the model. *)
Require Import Reals Lra Lia List Bool Arith.
From Verif Require Import RVec.
Import ListNotations.
Local Open Scope R_scope.

Fixpoint rsum (n : nat) (f : nat -> R) : R :=
  match n with O => 0 | S k => rsum k f + f k end.

Lemma rsum_ext : forall n f g, (forall i, (i < n)%nat -> f i = g i) -> rsum n f = rsum n g.
Proof. induction n; intros f g H; simpl; auto. rewrite (IHn f g), (H n); auto. Qed.
Lemma rsum_zero : forall n f, (forall i, (i < n)%nat -> f i = 0) -> rsum n f = 0.
Proof. induction n; intros f H; simpl; auto. rewrite IHn, (H n) by auto. ring. Qed.
Lemma rsum_plus : forall n f g, rsum n (fun i => f i + g i) = rsum n f + rsum n g.
Proof. induction n; intros; simpl; [ring|]. rewrite IHn. ring. Qed.
Lemma rsum_minus : forall n f g, rsum n (fun i => f i - g i) = rsum n f - rsum n g.
Proof. induction n; intros; simpl; [ring|]. rewrite IHn. ring. Qed.
Lemma rsum_opp : forall n f, rsum n (fun i => - f i) = - rsum n f.
Proof. induction n; intros; simpl; [ring|]. rewrite IHn. ring. Qed.
Lemma rsum_scal_l : forall n c f, rsum n (fun i => c * f i) = c * rsum n f.
Proof. induction n; intros; simpl; [ring|]. rewrite IHn. ring. Qed.
Lemma rsum_scal_r : forall n c f, rsum n (fun i => f i * c) = rsum n f * c.
Proof. induction n; intros; simpl; [ring|]. rewrite IHn. ring. Qed.
Lemma rsum_const : forall n c, rsum n (fun _ => c) = INR n * c.
Proof. induction n; intros; [simpl; ring|]. rewrite S_INR. simpl rsum. rewrite IHn. ring. Qed.
Lemma rsum_swap : forall n m f, rsum n (fun i => rsum m (fun j => f i j)) = rsum m (fun j => rsum n (fun i => f i j)).
Proof.
  induction n; intros m f; simpl.
  - symmetry. apply rsum_zero. auto.
  - rewrite IHn. rewrite <- rsum_plus. reflexivity.
Qed.
Lemma rsum_le : forall n f g, (forall i, (i < n)%nat -> f i <= g i) -> rsum n f <= rsum n g.
Proof. induction n; intros f g H; simpl; [lra|]. apply Rplus_le_compat; auto. Qed.
Lemma rsum_nonneg : forall n f, (forall i, (i < n)%nat -> 0 <= f i) -> 0 <= rsum n f.
Proof. intros. rewrite <- (rsum_zero n (fun _ => 0)) by auto. apply rsum_le. auto. Qed.
Lemma rsum_pos : forall n f, (forall i, (i < n)%nat -> 0 <= f i) -> (exists i, (i < n)%nat /\ 0 < f i) -> 0 < rsum n f.
Proof.
  induction n; intros f H [i [Hi Pi]]; [lia|]. simpl.
  assert (0 <= rsum n f) by (apply rsum_nonneg; auto). assert (0 <= f n) by auto.
  destruct (Nat.eq_dec i n) as [->|E]; [lra|]. assert (0 < rsum n f) by (apply IHn; auto; exists i; split; auto; lia). lra.
Qed.
Lemma rsum_zero_inv : forall n f, (forall i, (i < n)%nat -> 0 <= f i) -> rsum n f = 0 -> forall i, (i < n)%nat -> f i = 0.
Proof.
  intros n f H E i Hi. destruct (Rtotal_order (f i) 0) as [A|[A|A]]; auto.
  - specialize (H i Hi). lra.
  - assert (0 < rsum n f) by (apply rsum_pos; eauto). lra.
Qed.
Lemma rsum_single : forall n k f, (k < n)%nat -> (forall i, (i < n)%nat -> i <> k -> f i = 0) -> rsum n f = f k.
Proof.
  induction n; intros k f Hk H; [lia|]. simpl. destruct (Nat.eq_dec k n) as [->|E].
  - rewrite rsum_zero; [ring|]. intros i Hi. apply H; lia.
  - rewrite (IHn k) by (auto; lia). rewrite (H n) by lia. ring.
Qed.
Lemma rsum_split : forall n k f, (k < n)%nat -> rsum n f = f k + rsum n (fun i => if Nat.eqb i k then 0 else f i).
Proof.
  intros n k f Hk. assert (E : rsum n (fun i => if Nat.eqb i k then f i else 0) = f k).
  { rewrite (rsum_single n k); auto.
    - rewrite Nat.eqb_refl. auto.
    - intros i _ Hi. destruct (Nat.eqb_spec i k); congruence. }
  rewrite <- E, <- rsum_plus. apply rsum_ext. intros i _. destruct (Nat.eqb i k); ring.
Qed.
Lemma rsum_S_first : forall n f, rsum (S n) f = f O + rsum n (fun i => f (S i)).
Proof. induction n; intro f; [simpl; ring|]. change (rsum (S n) f + f (S n) = f O + (rsum n (fun i => f (S i)) + f (S n))). rewrite IHn. ring. Qed.
Lemma rsum_abs : forall n f, Rabs (rsum n f) <= rsum n (fun i => Rabs (f i)).
Proof. induction n; intro f; simpl; [rewrite Rabs_R0; lra|]. eapply Rle_trans; [apply Rabs_triang|]. specialize (IHn f). lra. Qed.
Lemma rsum_app : forall n m f, rsum (n + m) f = rsum n f + rsum m (fun i => f (n + i)%nat).
Proof. intros n m f. induction m; simpl; [rewrite Nat.add_0_r; ring|]. rewrite Nat.add_succ_r. simpl. rewrite IHm. ring. Qed.
Lemma rsum_prod : forall n m f g, rsum n f * rsum m g = rsum n (fun i => rsum m (fun j => f i * g j)).
Proof. intros. rewrite <- rsum_scal_r. apply rsum_ext. intros i _. rewrite rsum_scal_l. reflexivity. Qed.

(** links with lists *)
Lemma vsum_cons : forall a x, vsum (a :: x) = a + vsum x.
Proof. reflexivity. Qed.
Lemma vsum_rsum : forall x : list R, vsum x = rsum (length x) (vget x).
Proof.
  induction x as [|a x IH]; [reflexivity|]. rewrite vsum_cons. cbn [length]. rewrite rsum_S_first, IH. reflexivity.
Qed.
Lemma vsum_map_seq : forall n f, vsum (map f (seq 0 n)) = rsum n f.
Proof.
  intros n f. rewrite vsum_rsum, map_length, seq_length. apply rsum_ext. intros i Hi. unfold vget.
  rewrite (nth_indep _ 0 (f O)) by (rewrite map_length, seq_length; auto).
  rewrite map_nth, seq_nth; auto.
Qed.
Lemma dot_rsum : forall x y : list R, length x = length y -> dot x y = rsum (length x) (fun i => vget x i * vget y i).
Proof.
  induction x as [|a x IH]; intros y H; destruct y as [|b y]; simpl in H; try lia.
  - rewrite dot_nil_l. reflexivity.
  - rewrite dot_cons. cbn [length]. rewrite rsum_S_first. rewrite IH by lia. reflexivity.
Qed.
Lemma vget_map_seq : forall (f : nat -> R) n i, (i < n)%nat -> vget (map f (seq 0 n)) i = f i.
Proof.
  intros f n i Hi. unfold vget. rewrite (nth_indep _ 0 (f O)) by (rewrite map_length, seq_length; auto).
  rewrite map_nth, seq_nth; auto.
Qed.
Lemma nth_map_seq : forall (A : Type) (f : nat -> A) n i d, (i < n)%nat -> nth i (map f (seq 0 n)) d = f i.
Proof.
  intros A f n i d Hi. rewrite (nth_indep _ d (f O)) by (rewrite map_length, seq_length; auto).
  rewrite map_nth, seq_nth; auto.
Qed.
Lemma vget_over : forall (x : list R) i, (length x <= i)%nat -> vget x i = 0.
Proof. intros. unfold vget. apply nth_overflow. auto. Qed.
