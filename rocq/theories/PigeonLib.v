(** Pigeonhole, argmax, minimum over lists. *)
Require Import Reals Lra Lia List Bool Arith.
From Verif Require Import RVec Sums DomMoreModel HullIneqProofs SampModel.
Import ListNotations.
Local Open Scope R_scope.

(** n+1 pigeons, n holes *)
Lemma pigeonhole : forall n (f : nat -> nat), (forall i, (i <= n)%nat -> (f i < n)%nat) -> exists i j, (i < j <= n)%nat /\ f i = f j.
Proof.
  intros n f H. destruct (list_eq_dec Nat.eq_dec (nodup Nat.eq_dec (map f (seq 0 (S n)))) (map f (seq 0 (S n)))) as [E|E].
  - exfalso. assert (ND : NoDup (map f (seq 0 (S n)))) by (rewrite <- E; apply NoDup_nodup).
    assert (IN : incl (map f (seq 0 (S n))) (seq 0 n)).
    { intros x Hx. apply in_map_iff in Hx. destruct Hx as [i [<- Hi]]. apply in_seq in Hi. apply in_seq. pose proof (H i ltac:(lia)). lia. }
    pose proof (NoDup_incl_length ND IN) as L. rewrite map_length, !seq_length in L. lia.
  - assert (ND : ~ NoDup (map f (seq 0 (S n)))) by (intro ND; apply E; apply nodup_fixed_point; auto).
    assert (D : forall i j : nat, {i = j} + {i <> j}) by apply Nat.eq_dec. clear E.
    (* search *)
    assert (S : forall k, (k <= S n)%nat -> NoDup (map f (seq 0 k)) \/ exists i j, (i < j < k)%nat /\ f i = f j).
    { induction k as [|k IH]; intro Hk; [left; constructor|]. destruct (IH ltac:(lia)) as [N|[i [j [Hij Eq]]]]; [|right; exists i, j; split; [lia|auto]].
      destruct (in_dec Nat.eq_dec (f k) (map f (seq 0 k))) as [I|I].
      - right. apply in_map_iff in I. destruct I as [i [Eq Hi]]. apply in_seq in Hi. exists i, k. split; [lia|auto].
      - left. rewrite seq_S, map_app. simpl. apply NoDup_rev in N. rewrite <- (rev_involutive (map f (seq 0 k) ++ [f k])). apply NoDup_rev. rewrite rev_app_distr. simpl. constructor; auto. rewrite <- in_rev. auto. }
    destruct (S (Datatypes.S n) ltac:(lia)) as [N|[i [j [Hij Eq]]]]; [congruence|]. exists i, j. split; [lia|auto].
Qed.

(** argmax *)
Lemma argmax_from_spec : forall l i best bv (full : list R), (best < i)%nat -> (i + length l = length full)%nat -> bv = vget full best ->
  (forall k, (k < length l)%nat -> vget l k = vget full (i + k)) -> (forall k, (k < i)%nat -> vget full k <= bv) -> (forall k, (k < best)%nat -> vget full k < bv) ->
  let r := argmax_from l i best bv in (r < length full)%nat /\ (forall k, (k < length full)%nat -> vget full k <= vget full r) /\ (forall k, (k < r)%nat -> vget full k < vget full r).
Proof.
  induction l as [|x l IH]; intros i best bv full H1 H2 H3 H4 H5 H6; simpl.
  - simpl in H2. subst bv. repeat split; auto; try lia. intros k Hk. apply H5. lia.
  - assert (Ex : x = vget full i) by (pose proof (H4 O ltac:(simpl; lia)) as E; rewrite Nat.add_0_r in E; exact E).
    assert (H4' : forall k, (k < length l)%nat -> vget l k = vget full (S i + k)) by (intros k Hk; pose proof (H4 (S k) ltac:(simpl; lia)) as E; replace (i + S k)%nat with (S i + k)%nat in E by lia; exact E).
    destruct (Rltb bv x) eqn:E.
    + apply Rltb_true in E. apply IH; simpl in *; auto; try lia.
      * intros k Hk. destruct (Nat.eq_dec k i) as [->|]; [lra|]. pose proof (H5 k ltac:(lia)). lra.
      * intros k Hk. pose proof (H5 k ltac:(lia)). lra.
    + apply Rltb_false in E. apply IH; simpl in *; auto; try lia.
      intros k Hk. destruct (Nat.eq_dec k i) as [->|]; [lra|]. apply H5. lia.
Qed.
(** the first index of a largest entry *)
Lemma argmax_spec : forall l, l <> [] -> (argmax l < length l)%nat /\ (forall k, (k < length l)%nat -> vget l k <= vget l (argmax l)) /\ (forall k, (k < argmax l)%nat -> vget l k < vget l (argmax l)).
Proof.
  intros [|x l] H; [congruence|]. unfold argmax. apply argmax_from_spec; simpl; auto; try lia.
  intros k Hk. destruct k; [unfold vget; simpl; lra|lia].
Qed.
Lemma argmin_spec : forall l, l <> [] -> (argmin_idx l < length l)%nat /\ (forall k, (k < length l)%nat -> vget l (argmin_idx l) <= vget l k).
Proof.
  intros l H. unfold argmin_idx. assert (NE : map Ropp l <> []) by (destruct l; simpl; congruence). destruct (argmax_spec _ NE) as [A [B _]]. rewrite map_length in *.
  assert (G : forall k, vget (map Ropp l) k = - vget l k) by (intro k; unfold vget; rewrite <- Ropp_0 at 1; apply (map_nth Ropp)).
  split; auto. intros k Hk. pose proof (B k Hk) as C. rewrite !G in C. lra.
Qed.

(** vmin / vmax of a mapped list *)
Lemma vmin_map_le : forall (A : Type) (f : A -> R) l a, In a l -> vmin (map f l) <= f a.
Proof. intros A f l a H. apply vmin_spec; [destruct l; [destruct H|discriminate]|apply in_map; auto]. Qed.
Lemma vmin_map_at : forall (A : Type) (f : A -> R) l, l <> [] -> exists a, In a l /\ vmin (map f l) = f a.
Proof. intros A f l H. destruct (vmin_spec (map f l)) as [_ I]; [destruct l; [congruence|discriminate]|]. apply in_map_iff in I. destruct I as [a [E I]]. exists a. auto. Qed.
Lemma vmax_map_ge : forall (A : Type) (f : A -> R) l a, In a l -> f a <= vmax (map f l).
Proof. intros A f l a H. apply vmax_spec; [destruct l; [destruct H|discriminate]|apply in_map; auto]. Qed.
Lemma vmax_map_at : forall (A : Type) (f : A -> R) l, l <> [] -> exists a, In a l /\ vmax (map f l) = f a.
Proof. intros A f l H. destruct (vmax_spec (map f l)) as [_ I]; [destruct l; [congruence|discriminate]|]. apply in_map_iff in I. destruct I as [a [E I]]. exists a. auto. Qed.
Lemma vmin_map_lb : forall (A : Type) (f : A -> R) l c, l <> [] -> (forall a, In a l -> c <= f a) -> c <= vmin (map f l).
Proof. intros A f l c N H. destruct (vmin_map_at A f l N) as [a [I ->]]. auto. Qed.
Lemma vmax_map_ub : forall (A : Type) (f : A -> R) l c, l <> [] -> (forall a, In a l -> f a <= c) -> vmax (map f l) <= c.
Proof. intros A f l c N H. destruct (vmax_map_at A f l N) as [a [I ->]]. auto. Qed.
Lemma vmin_map_gt : forall (A : Type) (f : A -> R) l c, l <> [] -> (c < vmin (map f l) <-> forall a, In a l -> c < f a).
Proof.
  intros A f l c N. split.
  - intros H a I. pose proof (vmin_map_le A f l a I). lra.
  - intro H. destruct (vmin_map_at A f l N) as [a [I ->]]. auto.
Qed.
