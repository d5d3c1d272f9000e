(** The parameters of a lower triangular matrix (np.tril_indices in gp.py): every entry has its own parameter. *)
Require Import Reals Lra Lia List Bool Arith.
From Verif Require Import RVec Num Sums DomModel DomMoreModel BasisModel MatLib LipModel GrassLib SubModel GpModel.
Import ListNotations.
Local Open Scope R_scope.

Lemma tril_S : forall i, tril_pos (S i) 0 = (tril_pos i 0 + S i)%nat.
Proof.
  intro i. unfold tril_pos. replace (S i * (S i + 1))%nat with (i * (i + 1) + S i * 2)%nat by nia. rewrite Nat.div_add by lia. lia.
Qed.
Lemma tril_j : forall i j, tril_pos i j = (tril_pos i 0 + j)%nat.
Proof. intros. unfold tril_pos. lia. Qed.
Lemma tril_mono : forall i m, (i < m)%nat -> (tril_pos i 0 + S i <= tril_pos m 0)%nat.
Proof. intros i m H. induction H; rewrite tril_S; lia. Qed.

Definition tril_list (h : nat -> nat -> R) (m : nat) : vec := concat (map (fun i => map (fun j => h i j) (seq 0 (S i))) (seq 0 m)).
Lemma tril_list_S : forall h m, tril_list h (S m) = tril_list h m ++ map (fun j => h m j) (seq 0 (S m)).
Proof. intros. unfold tril_list. rewrite (seq_S m 0) at 1; rewrite map_app, concat_app, Nat.add_0_l. f_equal. apply app_nil_r. Qed.
Lemma tril_list_length : forall h m, length (tril_list h m) = tril_pos m 0.
Proof. intros h m. induction m; [reflexivity|]. rewrite tril_list_S, app_length, IHm, map_length, seq_length, tril_S. auto. Qed.
Lemma tril_list_get : forall h m i j, (j <= i)%nat -> (i < m)%nat -> vget (tril_list h m) (tril_pos i j) = h i j.
Proof.
  intros h m i j Hj Hi. induction m; [lia|]. rewrite tril_list_S. unfold vget. rewrite tril_j.
  destruct (Nat.eq_dec i m) as [->|N].
  - rewrite app_nth2 by (rewrite tril_list_length; lia). rewrite tril_list_length.
    replace (tril_pos m 0 + j - tril_pos m 0)%nat with j by lia. fold (vget (map (fun j => h m j) (seq 0 (S m))) j). rewrite vget_map_seq by lia. auto.
  - pose proof (tril_mono i m ltac:(lia)). rewrite app_nth1 by (rewrite tril_list_length; lia).
    fold (vget (tril_list h m) (tril_pos i 0 + j)). rewrite <- tril_j. apply IHm. lia.
Qed.
Lemma tril_cover : forall m p, (p < tril_pos m 0)%nat -> exists i j, (j <= i)%nat /\ (i < m)%nat /\ p = tril_pos i j.
Proof.
  induction m; intros p H; [unfold tril_pos in H; simpl in H; lia|]. rewrite tril_S in H.
  destruct (lt_dec p (tril_pos m 0)) as [L|L].
  - destruct (IHm p L) as [i [j [A [B C]]]]. exists i, j. repeat split; auto.
  - exists m, (p - tril_pos m 0)%nat. rewrite (tril_j m (p - tril_pos m 0)). lia.
Qed.

(** the lower triangular matrices of size m *)
Definition lower (m : nat) (T : mat) : Prop := length T = m /\ Forall (fun r => length r = m) T /\ forall i j, (i < j)%nat -> (j < m)%nat -> mget T i j = 0.

Lemma tril_mat_get : forall m ell i j, (i < m)%nat -> (j < m)%nat -> mget (tril_mat m ell) i j = if Nat.leb j i then vget ell (tril_pos i j) else 0.
Proof.
  intros m ell i j Hi Hj. unfold mget, tril_mat. rewrite (nth_map_seq _ (fun i => map (fun j => if Nat.leb j i then vget ell (tril_pos i j) else 0) (seq 0 m)) m i [] Hi).
  rewrite vget_map_seq; auto.
Qed.
Lemma tril_mat_lower : forall m ell, lower m (tril_mat m ell).
Proof.
  intros m ell. split; [|split].
  - unfold tril_mat. rewrite map_length, seq_length. auto.
  - apply Forall_forall. intros r Hr. unfold tril_mat in Hr. apply in_map_iff in Hr. destruct Hr as [i [<- _]]. rewrite map_length, seq_length. auto.
  - intros i j A B. rewrite tril_mat_get by lia. rewrite (proj2 (Nat.leb_gt j i)); auto.
Qed.
Lemma tril_round : forall e m T, lower m T -> tril_mat m (gp_ell0 (GTril e) m T) = T.
Proof.
  intros e m T [L [F Z]]. destruct (tril_mat_lower m (gp_ell0 (GTril e) m T)) as [L' [F' _]].
  apply (nth_ext _ _ [] []); [congruence|]. intros i Hi. rewrite L' in Hi.
  assert (L1 : length (nth i (tril_mat m (gp_ell0 (GTril e) m T)) []) = m) by (rewrite Forall_forall in F'; apply F', nth_In; lia).
  assert (L2 : length (nth i T []) = m) by (rewrite Forall_forall in F; apply F, nth_In; lia).
  apply vec_ext; [congruence|]. intros j Hj. rewrite L1 in Hj. fold (mget (tril_mat m (gp_ell0 (GTril e) m T)) i j). fold (mget T i j).
  rewrite tril_mat_get by auto. destruct (Nat.leb_spec j i).
  - exact (tril_list_get (fun i j => mget T i j) m i j H Hi).
  - symmetry. apply Z; auto.
Qed.
Lemma tril_back : forall e m ell, length ell = (m * (m + 1) / 2)%nat -> gp_ell0 (GTril e) m (tril_mat m ell) = ell.
Proof.
  intros e m ell L. assert (L' : length ell = tril_pos m 0) by (unfold tril_pos; lia).
  assert (LL : length (gp_ell0 (GTril e) m (tril_mat m ell)) = tril_pos m 0) by (exact (tril_list_length (fun i j => mget (tril_mat m ell) i j) m)).
  apply vec_ext; [congruence|]. intros p Hp. rewrite LL in Hp. destruct (tril_cover m p Hp) as [i [j [A [B ->]]]].
  etransitivity; [exact (tril_list_get (fun i j => mget (tril_mat m ell) i j) m i j A B)|]. cbv beta.
  rewrite tril_mat_get by lia. rewrite (proj2 (Nat.leb_le j i)); auto.
Qed.
(** the parameters of full rank 'tril' are in bijection with the lower triangular matrices, and [gp_ell0] is the inverse *)
Lemma tril_bijective : forall e m, (forall T, lower m T -> tril_mat m (gp_ell0 (GTril e) m T) = T) /\
  (forall ell, length ell = (m * (m + 1) / 2)%nat -> lower m (tril_mat m ell) /\ gp_ell0 (GTril e) m (tril_mat m ell) = ell).
Proof. intros e m. split; [apply tril_round|]. intros ell L. split; [apply tril_mat_lower|apply tril_back; auto]. Qed.
Example tril_bij_case : lower 2 [[1; 0]; [2; 3]] /\ gp_ell0 (GTril (fun m => m)) 2 [[1; 0]; [2; 3]] = [1; 2; 3] /\ tril_mat 2 [1; 2; 3] = [[1; 0]; [2; 3]].
Proof.
  split; [split; [auto|split; [repeat constructor|]]|split; reflexivity]. intros i j A B. destruct i as [|[|]], j as [|[|]]; try lia; reflexivity.
Qed.
