(** Lower triangular factors with a positive diagonal: injective, unique, compatible with scaling of the variables. *)
Require Import Reals Lra Lia List Bool Arith.
From Verif Require Import RVec Sums MatLib GrassLib.
Import ListNotations.
Local Open Scope R_scope.

Definition ent (A : mat) (i j : nat) : R := vget (nth i A []) j.
Definition sq_mat (m : nat) (A : mat) : Prop := length A = m /\ Forall (fun r => length r = m) A.
(** contract of scipy.linalg.cholesky(cov, lower = True) *)
Definition chol_ok (m : nat) (cov L : mat) : Prop :=
  sq_mat m L /\ (forall i j, (i < m)%nat -> (j < m)%nat -> (i < j)%nat -> ent L i j = 0) /\ (forall i, (i < m)%nat -> 0 < ent L i i) /\
  forall i j, (i < m)%nat -> (j < m)%nat -> dot (nth i L []) (nth j L []) = ent cov i j.
(** contract of scipy.linalg.solve_triangular(L, eye, lower = True) *)
Definition inv_ok (m : nat) (L Linv : mat) : Prop := sq_mat m Linv /\ forall x, length x = m -> mv L (mv Linv x) = x.

Lemma sq_row : forall m A i, sq_mat m A -> (i < m)%nat -> length (nth i A []) = m.
Proof. intros m A i [L F] Hi. apply (proj1 (Forall_forall _ _) F). apply nth_In. lia. Qed.
Lemma sq_ext : forall m A B, sq_mat m A -> sq_mat m B -> (forall i j, (i < m)%nat -> (j < m)%nat -> ent A i j = ent B i j) -> A = B.
Proof.
  intros m A B SA SB E. pose proof SA as [LA _]. pose proof SB as [LB _]. apply (nth_ext A B [] []); [congruence|]. intros i Hi. rewrite LA in Hi.
  apply vec_ext; [rewrite !(sq_row m) by auto; auto|]. intros j Hj. rewrite (sq_row m) in Hj by auto. apply E; auto.
Qed.
Lemma sq_mv : forall m A x, sq_mat m A -> length (mv A x) = m.
Proof. intros m A x [L _]. rewrite mv_length. auto. Qed.
(** the sum over a triangular row stops at the diagonal *)
Lemma rsum_cut : forall n m f, (n <= m)%nat -> (forall k, (n <= k < m)%nat -> f k = 0) -> rsum m f = rsum n f.
Proof.
  intros n m f H Z. induction m as [|m IH]; [replace n with 0%nat by lia; auto|]. destruct (Nat.eq_dec n (S m)) as [->|N]; auto. simpl. rewrite IH by (auto; try lia; intros; apply Z; lia). rewrite Z by lia. ring.
Qed.
(** forward substitution *)
Lemma tri_injective : forall m L, sq_mat m L -> (forall i j, (i < m)%nat -> (j < m)%nat -> (i < j)%nat -> ent L i j = 0) -> (forall i, (i < m)%nat -> 0 < ent L i i) ->
  forall x y, length x = m -> length y = m -> mv L x = mv L y -> x = y.
Proof.
  intros m L SL T P x y Lx Ly E. apply vec_ext; [congruence|]. intros i Hi. rewrite Lx in Hi. revert Hi. induction i as [i IH] using lt_wf_ind. intro Hi.
  assert (K : dot (nth i L []) x = dot (nth i L []) y). { pose proof (f_equal (fun v => vget v i) E) as Q. cbv beta in Q. destruct SL as [LL _]. rewrite !mv_get in Q by lia. auto. }
  rewrite !(dot_rs m) in K by (auto; apply sq_row; auto). rewrite !(rsum_cut (S i) m) in K by (try lia; intros k Hk; fold (ent L i k); rewrite (T i k) by lia; ring).
  simpl in K. rewrite (rsum_ext i (fun k => vget (nth i L []) k * vget x k) (fun k => vget (nth i L []) k * vget y k)) in K by (intros k Hk; rewrite IH by lia; auto).
  fold (ent L i i) in K. specialize (P i Hi). nra.
Qed.
Lemma chol_inv_left : forall m cov L Linv, chol_ok m cov L -> inv_ok m L Linv -> forall w, length w = m -> mv Linv (mv L w) = w.
Proof. intros m cov L Linv (SL & T & P & _) [SI I] w Lw. apply (tri_injective m L SL T P); auto; [apply sq_mv; auto|]. apply I. apply sq_mv; auto. Qed.
(** the factor is determined by the matrix *)
Theorem chol_unique : forall m cov L K, chol_ok m cov L -> chol_ok m cov K -> L = K.
Proof.
  intros m cov L K (SL & TL & PL & GL) (SK & TK & PK & GK). apply (sq_ext m); auto.
  assert (M : forall j, (j < m)%nat -> forall i, (j <= i < m)%nat -> ent L i j = ent K i j).
  { induction j as [j IH] using lt_wf_ind. intro Hj.
    assert (G : forall i, (j <= i < m)%nat -> ent L i j * ent L j j = ent K i j * ent K j j).
    { intros i Hi. pose proof (GL i j ltac:(lia) Hj) as A. pose proof (GK i j ltac:(lia) Hj) as B. rewrite <- B in A. clear B.
      rewrite !(dot_rs m) in A by (apply sq_row; auto; lia). rewrite !(rsum_cut (S j) m) in A by (try lia; intros k Hk; first [fold (ent L j k); rewrite (TL j k) by lia; ring|fold (ent K j k); rewrite (TK j k) by lia; ring]).
      simpl in A. rewrite (rsum_ext j (fun k => vget (nth i L []) k * vget (nth j L []) k) (fun k => vget (nth i K []) k * vget (nth j K []) k)) in A.
      - unfold ent. lra.
      - intros k Hk. fold (ent L i k) (ent L j k) (ent K i k) (ent K j k). rewrite (IH k ltac:(lia) ltac:(lia) i ltac:(lia)), (IH k ltac:(lia) ltac:(lia) j ltac:(lia)). auto. }
    assert (D : ent L j j = ent K j j). { pose proof (G j ltac:(lia)). pose proof (PL j Hj). pose proof (PK j Hj). nra. }
    intros i Hi. pose proof (G i Hi) as A. rewrite D in A. pose proof (PK j Hj). nra. }
  intros i j Hi Hj. destruct (Nat.le_gt_cases j i) as [H|H]; [apply M; lia|]. rewrite TL, TK by auto. auto.
Qed.
(** scaled variables *)
Definition scale_rows (s : vec) (A : mat) : mat := map (fun i => vscale (vget s i) (nth i A [])) (seq 0 (length s)).
Lemma scale_rows_row : forall s A i, (i < length s)%nat -> nth i (scale_rows s A) [] = vscale (vget s i) (nth i A []).
Proof. intros s A i Hi. unfold scale_rows. apply (nth_map_seq _ (fun i => vscale (vget s i) (nth i A []))). auto. Qed.
Lemma scale_rows_sq : forall m s A, length s = m -> sq_mat m A -> sq_mat m (scale_rows s A).
Proof.
  intros m s A Ls SA. split; [unfold scale_rows; rewrite map_length, seq_length; auto|]. apply Forall_forall. intros r Hr. unfold scale_rows in Hr. apply in_map_iff in Hr. destruct Hr as (i & <- & Hi). apply in_seq in Hi.
  rewrite vscale_length. apply sq_row; auto. lia.
Qed.
Theorem chol_scaled : forall m cov cov' s L, length s = m -> (forall i, (i < m)%nat -> 0 < vget s i) -> (forall i j, (i < m)%nat -> (j < m)%nat -> ent cov' i j = vget s i * ent cov i j * vget s j) ->
  chol_ok m cov L -> chol_ok m cov' (scale_rows s L).
Proof.
  intros m cov cov' s L Ls PS E (SL & T & P & G). split; [apply scale_rows_sq; auto|].
  assert (EN : forall i j, (i < m)%nat -> ent (scale_rows s L) i j = vget s i * ent L i j) by (intros i j Hi; unfold ent; rewrite scale_rows_row by lia; apply vscale_get).
  split; [intros i j Hi Hj H; rewrite EN, T by auto; ring|]. split; [intros i Hi; rewrite EN by auto; apply Rmult_lt_0_compat; auto|].
  intros i j Hi Hj. rewrite !scale_rows_row by lia. rewrite dot_vscale_l, dot_vscale_r, G, E by auto. ring.
Qed.
Lemma scale_rows_mv : forall m s A x, length s = m -> sq_mat m A -> mv (scale_rows s A) x = vmul s (mv A x).
Proof.
  intros m s A x Ls SA. pose proof SA as [LA _]. apply vec_ext.
  - rewrite mv_length. rewrite vmul_length by (rewrite mv_length; lia). unfold scale_rows. rewrite map_length, seq_length. auto.
  - intros i Hi. rewrite mv_length in Hi. assert (i < m)%nat by (unfold scale_rows in Hi; rewrite map_length, seq_length in Hi; lia). rewrite mv_get by auto. rewrite scale_rows_row by lia. rewrite dot_vscale_l. rewrite vmul_get by (rewrite mv_length; lia). rewrite mv_get by lia. auto.
Qed.
(** hence the whitened vector does not change *)
Theorem whiten_scaled : forall m cov cov' s L Linv L' Linv', length s = m -> (forall i, (i < m)%nat -> 0 < vget s i) ->
  (forall i j, (i < m)%nat -> (j < m)%nat -> ent cov' i j = vget s i * ent cov i j * vget s j) -> chol_ok m cov L -> inv_ok m L Linv -> chol_ok m cov' L' -> inv_ok m L' Linv' ->
  L' = scale_rows s L /\ forall v, length v = m -> mv Linv' (vmul s v) = mv Linv v.
Proof.
  intros m cov cov' s L Linv L' Linv' Ls PS E C I C' I'. assert (EL : L' = scale_rows s L) by (apply (chol_unique m cov'); auto; apply (chol_scaled m cov); auto). split; auto.
  intros v Lv. pose proof I as [SI II]. pose proof C as (SL & _). rewrite <- (II v Lv) at 1. rewrite <- (scale_rows_mv m) by auto. rewrite <- EL. apply (chol_inv_left m cov'); auto. apply sq_mv; auto.
Qed.
