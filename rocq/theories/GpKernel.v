(** The Gaussian kernel is positive semidefinite, and positive definite on distinct points. *)
Require Import Reals List Bool Arith Lra Lia.
From Verif Require Import RVec Num Sums.
Import ListNotations.
Local Open Scope R_scope.

Lemma cv_rsum : forall M (f : nat -> nat -> R) (l : nat -> R), (forall i, (i < M)%nat -> Un_cv (f i) (l i)) -> Un_cv (fun n => rsum M (fun i => f i n)) (rsum M l).
Proof.
  induction M; intros f l Hf.
  - intros eps He. exists O. intros n _. cbn. unfold R_dist. replace (0 - 0) with 0 by ring. rewrite Rabs_R0. auto.
  - cbn [rsum]. apply (CV_plus (fun n => rsum M (fun i => f i n)) (f M)); [apply IHM; intros; apply Hf; lia|apply Hf; lia].
Qed.

Section Pow.
Variables (M d : nat) (y : nat -> nat -> R).
Definition dotf (i j : nat) : R := rsum d (fun l => y i l * y j l).
(** sum of c_i c_j <y_i, y_j>^k *)
Definition Qk (k : nat) (c : nat -> R) : R := rsum M (fun i => rsum M (fun j => c i * c j * dotf i j ^ k)).
Lemma Qk_ext : forall k c c', (forall i, (i < M)%nat -> c i = c' i) -> Qk k c = Qk k c'.
Proof. intros k c c' E. unfold Qk. apply rsum_ext. intros i Hi. apply rsum_ext. intros j Hj. rewrite !E by auto. reflexivity. Qed.
Lemma Q_0 : forall c, Qk 0 c = rsum M c * rsum M c.
Proof. intros. unfold Qk. rewrite rsum_prod. apply rsum_ext. intros i Hi. apply rsum_ext. intros j Hj. cbn. ring. Qed.
Lemma Q_step : forall k c, Qk (S k) c = rsum d (fun l => Qk k (fun i => c i * y i l)).
Proof.
  intros k c. unfold Qk.
  rewrite (rsum_swap d M). apply rsum_ext. intros i Hi.
  rewrite (rsum_swap d M). apply rsum_ext. intros j Hj.
  cbn [pow]. unfold dotf at 1.
  replace (c i * c j * (rsum d (fun l => y i l * y j l) * dotf i j ^ k)) with (c i * c j * dotf i j ^ k * rsum d (fun l => y i l * y j l)) by ring.
  rewrite <- rsum_scal_l. apply rsum_ext. intros l Hl. ring.
Qed.
Lemma Q_nonneg : forall k c, 0 <= Qk k c.
Proof.
  induction k; intro c.
  - rewrite Q_0. apply Rle_0_sqr.
  - rewrite Q_step. apply rsum_nonneg. intros. apply IHk.
Qed.
Lemma Q_scal : forall k a c, Qk k (fun i => a * c i) = a * a * Qk k c.
Proof. intros. unfold Qk. rewrite <- rsum_scal_l. apply rsum_ext. intros i Hi. rewrite <- rsum_scal_l. apply rsum_ext. intros. ring. Qed.
Lemma Q_par : forall k u v, Qk k (fun i => u i + v i) + Qk k (fun i => u i - v i) = 2 * Qk k u + 2 * Qk k v.
Proof.
  intros. unfold Qk. rewrite <- !rsum_scal_l, <- !rsum_plus. apply rsum_ext. intros i Hi. rewrite <- !rsum_scal_l, <- !rsum_plus. apply rsum_ext. intros. ring.
Qed.
(** c has no mass in any power *)
Definition Zk (c : nat -> R) : Prop := forall k, Qk k c = 0.
Lemma Z_ext : forall c c', (forall i, (i < M)%nat -> c i = c' i) -> Zk c -> Zk c'.
Proof. intros c c' E Z k. rewrite <- (Qk_ext k c c' E). apply Z. Qed.
Lemma Z_mul : forall c l, (l < d)%nat -> Zk c -> Zk (fun i => c i * y i l).
Proof. intros c l Hl Z k. apply (rsum_zero_inv d (fun l => Qk k (fun i => c i * y i l))); [intros; apply Q_nonneg|rewrite <- Q_step; apply Z|exact Hl]. Qed.
Lemma Z_scal : forall a c, Zk c -> Zk (fun i => a * c i).
Proof. intros a c Z k. rewrite Q_scal, Z. ring. Qed.
Lemma Z_add : forall u v, Zk u -> Zk v -> Zk (fun i => u i + v i).
Proof. intros u v Zu Zv k. pose proof (Q_par k u v) as E. rewrite Zu, Zv in E. pose proof (Q_nonneg k (fun i => u i + v i)). pose proof (Q_nonneg k (fun i => u i - v i)). lra. Qed.
Lemma Z_shift : forall c l a, (l < d)%nat -> Zk c -> Zk (fun i => c i * (y i l - a)).
Proof.
  intros c l a Hl Z. apply (Z_ext (fun i => c i * y i l + (- a) * c i)); [intros; ring|].
  apply Z_add; [apply Z_mul; auto|apply Z_scal; auto].
Qed.
Definition dist2 (i j : nat) : R := rsum d (fun l => (y i l - y j l) * (y i l - y j l)).
Lemma Z_dist : forall c j, Zk c -> Zk (fun i => c i * dist2 i j).
Proof.
  intros c j Z. unfold dist2.
  assert (P : forall n, (n <= d)%nat -> Zk (fun i => c i * rsum n (fun l => (y i l - y j l) * (y i l - y j l)))).
  { induction n; intro Hn; cbn [rsum].
    - apply (Z_ext (fun i => 0 * c i)); [intros; ring|]. apply Z_scal; auto.
    - apply (Z_ext (fun i => c i * rsum n (fun l => (y i l - y j l) * (y i l - y j l)) + (c i * (y i n - y j n)) * (y i n - y j n))); [intros; ring|].
      apply Z_add; [apply IHn; lia|]. apply Z_shift; [lia|]. apply Z_shift; [lia|auto]. }
  apply P. lia.
Qed.
Fixpoint dprod (js : list nat) (i : nat) : R := match js with [] => 1 | j :: r => dprod r i * dist2 i j end.
Lemma Z_dprod : forall js c, Zk c -> Zk (fun i => c i * dprod js i).
Proof.
  induction js; intros c Z; cbn [dprod].
  - apply (Z_ext c); [intros; ring|auto].
  - apply (Z_ext (fun i => c i * dprod js i * dist2 i a)); [intros; ring|]. apply Z_dist. auto.
Qed.
Lemma dist2_refl : forall i, dist2 i i = 0. Proof. intros. apply rsum_zero. intros. ring. Qed.
Lemma dist2_nonneg : forall i j, 0 <= dist2 i j. Proof. intros. apply rsum_nonneg. intros. apply Rle_0_sqr. Qed.
Lemma dprod_in : forall js i, In i js -> dprod js i = 0.
Proof. induction js; intros i H; [destruct H|]. cbn [dprod]. destruct H as [->|H]; [rewrite dist2_refl; ring|rewrite IHjs by auto; ring]. Qed.
Lemma dprod_out : forall js i, (forall j, In j js -> dist2 i j <> 0) -> dprod js i <> 0.
Proof.
  induction js; intros i H; cbn [dprod]; [lra|]. apply Rmult_integral_contrapositive_currified; [apply IHjs; intros; apply H; right; auto|apply H; left; auto].
Qed.
Lemma Z_distinct : forall c, (forall i j, (i < M)%nat -> (j < M)%nat -> i <> j -> dist2 i j <> 0) -> Zk c -> forall i, (i < M)%nat -> c i = 0.
Proof.
  intros c D Z i Hi. set (js := filter (fun j => negb (Nat.eqb j i)) (seq 0 M)).
  pose proof (Z_dprod js c Z 0%nat) as E. rewrite Q_0 in E.
  assert (S : rsum M (fun k => c k * dprod js k) = c i * dprod js i).
  { apply (rsum_single M i (fun k => c k * dprod js k) Hi). intros k Hk Hn. rewrite dprod_in; [ring|]. apply filter_In. split; [apply in_seq; lia|]. apply negb_true_iff, Nat.eqb_neq; auto. }
  rewrite S in E. apply Rsqr_0_uniq in E. apply Rmult_integral in E. destruct E as [E|E]; [exact E|]. exfalso. revert E. apply dprod_out.
  intros j Hj. apply filter_In in Hj. destruct Hj as [Hj Hn]. apply in_seq in Hj. apply negb_true_iff, Nat.eqb_neq in Hn. apply D; try lia.
Qed.

(** exponential of the inner products *)
Definition Ek (c : nat -> R) : R := rsum M (fun i => rsum M (fun j => c i * c j * exp (dotf i j))).
Lemma E_series : forall c, Un_cv (sum_f_R0 (fun k => / INR (fact k) * Qk k c)) (Ek c).
Proof.
  intro c.
  assert (C : Un_cv (fun n => rsum M (fun i => rsum M (fun j => c i * c j * sum_f_R0 (fun k => / INR (fact k) * dotf i j ^ k) n))) (Ek c)).
  { apply (cv_rsum M (fun i n => rsum M (fun j => c i * c j * sum_f_R0 (fun k => / INR (fact k) * dotf i j ^ k) n)) (fun i => rsum M (fun j => c i * c j * exp (dotf i j)))). intros i Hi.
    apply (cv_rsum M (fun j n => c i * c j * sum_f_R0 (fun k => / INR (fact k) * dotf i j ^ k) n) (fun j => c i * c j * exp (dotf i j))). intros j Hj.
    apply (CV_mult (fun _ => c i * c j)).
    - intros eps He. exists O. intros. unfold R_dist. rewrite Rminus_diag_eq by reflexivity. rewrite Rabs_R0. auto.
    - unfold exp. destruct (exist_exp (dotf i j)) as [l Hl]. cbn. exact Hl. }
  intros eps He. destruct (C eps He) as [n0 Hn]. exists n0. intros n Hn'. specialize (Hn n Hn').
  replace (sum_f_R0 (fun k => / INR (fact k) * Qk k c) n) with (rsum M (fun i => rsum M (fun j => c i * c j * sum_f_R0 (fun k => / INR (fact k) * dotf i j ^ k) n))); [exact Hn|].
  clear. induction n.
  - cbn [sum_f_R0]. unfold Qk. rewrite <- rsum_scal_l. apply rsum_ext. intros. rewrite <- rsum_scal_l. apply rsum_ext. intros. ring.
  - cbn [sum_f_R0]. rewrite <- IHn. unfold Qk. rewrite <- rsum_scal_l, <- rsum_plus. apply rsum_ext. intros. rewrite <- rsum_scal_l, <- rsum_plus. apply rsum_ext. intros. ring.
Qed.
Lemma fact_inv_pos : forall k, 0 < / INR (fact k). Proof. intros. apply Rinv_0_lt_compat, INR_fact_lt_0. Qed.
Lemma E_partial_sums : forall c n, sum_f_R0 (fun k => / INR (fact k) * Qk k c) n <= Ek c.
Proof.
  intros c n. apply (growing_ineq (sum_f_R0 (fun k => / INR (fact k) * Qk k c))); [|apply E_series].
  intro k. cbn [sum_f_R0]. pose proof (Rmult_le_pos _ _ (Rlt_le _ _ (fact_inv_pos (S k))) (Q_nonneg (S k) c)). lra.
Qed.
Lemma E_term : forall c k, / INR (fact k) * Qk k c <= Ek c.
Proof.
  intros c k. eapply Rle_trans; [|apply (E_partial_sums c k)]. destruct k; cbn [sum_f_R0]; [lra|].
  assert (0 <= sum_f_R0 (fun k => / INR (fact k) * Qk k c) k); [|lra]. apply cond_pos_sum. intro j. apply Rmult_le_pos; [apply Rlt_le, fact_inv_pos|apply Q_nonneg].
Qed.
Lemma E_nonneg : forall c, 0 <= Ek c.
Proof. intro c. eapply Rle_trans; [|apply (E_term c 0)]. apply Rmult_le_pos; [apply Rlt_le, fact_inv_pos|apply Q_nonneg]. Qed.
Lemma E_zero : forall c, Ek c = 0 -> Zk c.
Proof.
  intros c E k. pose proof (E_term c k) as T. rewrite E in T. pose proof (Q_nonneg k c). pose proof (fact_inv_pos k). nra.
Qed.

(** the Gaussian kernel *)
Definition Gk (c : nat -> R) : R := rsum M (fun i => rsum M (fun j => c i * c j * exp (- / 2 * dist2 i j))).
Lemma G_E : forall c, Gk c = Ek (fun i => c i * exp (- / 2 * dotf i i)).
Proof.
  intro c. unfold Gk, Ek. apply rsum_ext. intros i Hi. apply rsum_ext. intros j Hj.
  assert (D : dist2 i j = dotf i i + dotf j j - 2 * dotf i j).
  { unfold dist2, dotf. rewrite <- rsum_scal_l, <- rsum_plus, <- rsum_minus. apply rsum_ext. intros. ring. }
  rewrite D. replace (- / 2 * (dotf i i + dotf j j - 2 * dotf i j)) with (- / 2 * dotf i i + - / 2 * dotf j j + dotf i j) by field.
  rewrite !exp_plus. ring.
Qed.
Lemma gauss_psd : forall c, 0 <= Gk c. Proof. intro c. rewrite G_E. apply E_nonneg. Qed.
Lemma gauss_pd : forall c, (forall i j, (i < M)%nat -> (j < M)%nat -> i <> j -> dist2 i j <> 0) -> (exists i, (i < M)%nat /\ c i <> 0) -> 0 < Gk c.
Proof.
  intros c D [i [Hi Hc]]. destruct (Rle_lt_or_eq_dec 0 (Gk c) (gauss_psd c)) as [L|E]; [exact L|]. exfalso. apply Hc.
  symmetry in E. rewrite G_E in E. pose proof (Z_distinct _ D (E_zero _ E) i Hi) as Z. cbn beta in Z.
  apply Rmult_integral in Z. destruct Z as [Z|Z]; [exact Z|]. pose proof (exp_pos (- / 2 * dotf i i)). lra.
Qed.
End Pow.
