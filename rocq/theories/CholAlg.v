(** The contracts of cholesky, solve_triangular and det are met: explicit factorization, and it exists exactly for symmetric positive definite matrices. *)
Require Import Reals Lra Lia List Bool Arith.
From Verif Require Import RVec Sums MatLib GrassLib CholProofs RandModel RandProofs.
Import ListNotations.
Local Open Scope R_scope.

(** forward substitution *)
Fixpoint fsub (F : nat -> nat -> R) (b : nat -> R) (n : nat) : nat -> R :=
  match n with
  | O => fun _ => 0
  | S n' => let y := fsub F b n' in fun l => if Nat.eqb l n' then (b n' - rsum n' (fun k => F n' k * y k)) / F n' n' else y l
  end.
Lemma fsub_stable : forall F b n j, (j < n)%nat -> fsub F b n j = fsub F b (S j) j.
Proof. intros F b n j H. induction n as [|n IH]; [lia|]. destruct (Nat.eq_dec j n) as [->|N]; auto. transitivity (fsub F b n j); [cbn [fsub]; destruct (Nat.eqb_spec j n); [lia|auto]|apply IH; lia]. Qed.
Lemma fsub_eq : forall F b n j, (j < n)%nat -> F j j <> 0 -> rsum (S j) (fun k => F j k * fsub F b n k) = b j.
Proof.
  intros F b n j H N. cbn [rsum]. rewrite (fsub_stable F b n j) by auto. cbn [fsub]. rewrite Nat.eqb_refl. rewrite (rsum_ext j (fun k => F j k * fsub F b n k) (fun k => F j k * fsub F b j k)) by (intros k Hk; rewrite (fsub_stable F b n k), (fsub_stable F b j k) by lia; auto). field. auto.
Qed.
Lemma fsub_over : forall F b n j, (n <= j)%nat -> fsub F b n j = 0.
Proof. intros F b n j H. induction n as [|n IH]; auto. simpl. destruct (Nat.eqb_spec j n); [lia|]. apply IH. lia. Qed.
(** back substitution: the transposed system *)
Lemma bsub_exists : forall n F b, (forall i, (i < n)%nat -> F i i <> 0) -> (forall i j, (i < j)%nat -> F i j = 0) ->
  exists z, forall l, (l < n)%nat -> rsum n (fun j => F j l * z j) = b l.
Proof.
  induction n as [|n IH]; intros F b D T; [exists (fun _ => 0); intros; lia|]. set (zn := b n / F n n). destruct (IH F (fun l => b l - F n l * zn)) as [z Z]; auto.
  exists (fun j => if Nat.eqb j n then zn else z j). intros l Hl. cbn [rsum]. rewrite Nat.eqb_refl. rewrite (rsum_ext n _ (fun j => F j l * z j)) by (intros j Hj; destruct (Nat.eqb_spec j n); [lia|auto]).
  destruct (Nat.eq_dec l n) as [->|N].
  - rewrite rsum_zero by (intros j Hj; rewrite T by auto; ring). unfold zn. field. auto.
  - rewrite Z by lia. ring.
Qed.
(** rows one after the other *)
Fixpoint cholf (A : nat -> nat -> R) (n : nat) : nat -> nat -> R :=
  match n with
  | O => fun _ _ => 0
  | S n' => let F := cholf A n' in let y := fsub F (A n') n' in
            fun i j => if Nat.eqb i n' then (if Nat.eqb j n' then sqrt (A n' n' - rsum n' (fun k => y k * y k)) else y j) else F i j
  end.
Definition posdef (m : nat) (A : nat -> nat -> R) : Prop :=
  (forall i j, (i < m)%nat -> (j < m)%nat -> A i j = A j i) /\ forall x, (exists i, (i < m)%nat /\ x i <> 0) -> 0 < rsum m (fun i => rsum m (fun j => x i * A i j * x j)).
Lemma posdef_shrink : forall n A, posdef (S n) A -> posdef n A.
Proof.
  intros n A [S P]. split; [intros; apply S; lia|]. intros x (i & Hi & N). specialize (P (fun k => if Nat.eqb k n then 0 else x k)). cbn [rsum] in P. rewrite Nat.eqb_refl in P.
  rewrite (rsum_zero n (fun j => 0 * A n j * _)) in P by (intros; ring). rewrite (rsum_ext n _ (fun i => rsum n (fun j => x i * A i j * x j))) in P.
  - match type of P with ?a -> 0 < ?b => assert (K : a); [exists i; split; [lia|]; destruct (Nat.eqb_spec i n); [lia|auto]|] end. specialize (P K). lra.
  - intros k Hk. destruct (Nat.eqb_spec k n); [lia|]. rewrite Rmult_0_r, Rplus_0_r. apply rsum_ext. intros j Hj. destruct (Nat.eqb_spec j n); [lia|auto].
Qed.
Definition cholf_ok (n : nat) (A F : nat -> nat -> R) : Prop :=
  (forall i j, (i < j)%nat -> F i j = 0) /\ (forall i, (i < n)%nat -> 0 < F i i) /\ forall i j, (i < n)%nat -> (j < n)%nat -> rsum n (fun k => F i k * F j k) = A i j.
Lemma cholf_over : forall A n i j, (n <= i)%nat -> cholf A n i j = 0.
Proof. intros A n i j H. induction n as [|n IH]; auto. simpl. destruct (Nat.eqb_spec i n); [lia|]. apply IH. lia. Qed.
Theorem cholf_correct : forall n A, posdef n A -> cholf_ok n A (cholf A n).
Proof.
  induction n as [|n IH]; intros A PD.
  - split; [intros; simpl; auto|]. split; intros; lia.
  - destruct (IH A (posdef_shrink n A PD)) as (T & P & G). set (F := cholf A n) in *. set (y := fsub F (A n) n).
    assert (Y : forall j, (j < n)%nat -> rsum n (fun k => F j k * y k) = A n j). { intros j Hj. rewrite (rsum_cut (S j) n) by (try lia; intros k Hk; rewrite T by lia; ring). apply fsub_eq; auto. specialize (P j Hj). lra. }
    assert (D : 0 < A n n - rsum n (fun k => y k * y k)).
    { destruct (bsub_exists n F y) as [z Z]; [intros i Hi; specialize (P i Hi); lra|auto|]. destruct PD as [SY PD]. specialize (PD (fun i => if Nat.eqb i n then 1 else - z i)). cbn [rsum] in PD. rewrite Nat.eqb_refl in PD.
      match type of PD with ?a -> 0 < ?b => assert (K : a); [exists n; split; [lia|]; rewrite Nat.eqb_refl; lra|]; specialize (PD K); clear K end.
      assert (C1 : rsum n (fun j => 1 * A n j * (if Nat.eqb j n then 1 else - z j)) = - rsum n (fun k => y k * y k)).
      { rewrite (rsum_ext n _ (fun j => rsum n (fun k => - z j * F j k * y k))) by (intros j Hj; destruct (Nat.eqb_spec j n); [lia|]; rewrite <- Y by auto; rewrite <- (rsum_scal_l n 1), <- rsum_scal_r; apply rsum_ext; intros; ring).
        rewrite rsum_swap, <- rsum_opp. apply rsum_ext. intros k Hk. transitivity (- rsum n (fun j => F j k * z j) * y k); [rewrite <- rsum_opp, <- rsum_scal_r; apply rsum_ext; intros; ring|rewrite Z by auto; ring]. }
      assert (C2 : rsum n (fun i => rsum n (fun j => - z i * A i j * - z j)) = rsum n (fun k => y k * y k)).
      { rewrite (rsum_ext n _ (fun i => rsum n (fun k => z i * F i k * y k))).
        - rewrite rsum_swap. apply rsum_ext. intros k Hk. transitivity (rsum n (fun j => F j k * z j) * y k); [rewrite <- rsum_scal_r; apply rsum_ext; intros; ring|rewrite Z by auto; ring].
        - intros i Hi. rewrite (rsum_ext n _ (fun j => rsum n (fun k => z i * F i k * (F j k * z j)))) by (intros j Hj; rewrite <- G by auto; rewrite <- rsum_scal_l, <- rsum_scal_r; apply rsum_ext; intros; ring).
          rewrite rsum_swap. apply rsum_ext. intros k Hk. rewrite rsum_scal_l. rewrite Z by auto. auto. }
      assert (C3 : rsum n (fun i => rsum n (fun j => (if Nat.eqb i n then 1 else - z i) * A i j * (if Nat.eqb j n then 1 else - z j)) + (if Nat.eqb i n then 1 else - z i) * A i n * 1) = rsum n (fun k => y k * y k) - rsum n (fun k => y k * y k)).
      { rewrite rsum_plus. unfold Rminus. apply f_equal2.
        - rewrite <- C2. apply rsum_ext. intros i Hi. destruct (Nat.eqb_spec i n); [lia|]. apply rsum_ext. intros j Hj. destruct (Nat.eqb_spec j n); [lia|auto].
        - rewrite <- C1. apply rsum_ext. intros i Hi. destruct (Nat.eqb_spec i n); [lia|]. rewrite (SY i n) by lia. ring. }
      rewrite C1 in PD. rewrite C3 in PD. lra. }
    set (lam := sqrt (A n n - rsum n (fun k => y k * y k))). assert (LP : 0 < lam) by (apply sqrt_lt_R0; auto). assert (LL : lam * lam = A n n - rsum n (fun k => y k * y k)) by (apply sqrt_sqrt; lra).
    assert (E : forall i j, cholf A (S n) i j = if Nat.eqb i n then (if Nat.eqb j n then lam else y j) else F i j) by (intros; reflexivity).
    destruct PD as [SY _]. split; [|split].
    + intros i j H. rewrite E. destruct (Nat.eqb_spec i n) as [->|N]; [|apply T; auto]. destruct (Nat.eqb_spec j n); [lia|]. apply fsub_over. lia.
    + intros i Hi. rewrite E. destruct (Nat.eqb_spec i n) as [->|N]; [auto|]. apply P. lia.
    + assert (R1 : forall i, (i < n)%nat -> rsum (S n) (fun k => cholf A (S n) i k * cholf A (S n) n k) = A n i).
      { intros i Hi. cbn [rsum]. assert (Z0 : cholf A (S n) i n = 0) by (rewrite E; destruct (Nat.eqb_spec i n); [lia|apply T; auto]). rewrite Z0, Rmult_0_l, Rplus_0_r. rewrite <- (Y i Hi). apply rsum_ext. intros k Hk. rewrite !E. rewrite Nat.eqb_refl. destruct (Nat.eqb_spec i n); [lia|]. destruct (Nat.eqb_spec k n); [lia|]. auto. }
      intros i j Hi Hj. destruct (Nat.eq_dec i n) as [->|Ni]; [destruct (Nat.eq_dec j n) as [->|Nj]|destruct (Nat.eq_dec j n) as [->|Nj]].
      * cbn [rsum]. assert (Z0 : cholf A (S n) n n = lam) by (rewrite E, !Nat.eqb_refl; auto). rewrite Z0, LL. rewrite (rsum_ext n _ (fun k => y k * y k)); [ring|]. intros k Hk. rewrite !E, Nat.eqb_refl. destruct (Nat.eqb_spec k n); [lia|auto].
      * rewrite (rsum_ext (S n) _ (fun k => cholf A (S n) j k * cholf A (S n) n k)) by (intros; apply Rmult_comm). apply R1. lia.
      * rewrite R1 by lia. apply SY; lia.
      * cbn [rsum]. assert (Z0 : cholf A (S n) i n = 0) by (rewrite E; destruct (Nat.eqb_spec i n); [lia|apply T; lia]). rewrite Z0, Rmult_0_l, Rplus_0_r. rewrite <- G by lia. apply rsum_ext. intros k Hk. rewrite !E. destruct (Nat.eqb_spec i n); [lia|]. destruct (Nat.eqb_spec j n); [lia|auto].
Qed.

(** * on arrays *)
Definition of_fun (m : nat) (F : nat -> nat -> R) : mat := map (fun i => map (fun j => F i j) (seq 0 m)) (seq 0 m).
Lemma of_fun_row : forall m F i, (i < m)%nat -> nth i (of_fun m F) [] = map (fun j => F i j) (seq 0 m).
Proof. intros m F i Hi. unfold of_fun. apply (nth_map_seq _ (fun i => map (fun j => F i j) (seq 0 m))). auto. Qed.
Lemma of_fun_ent : forall m F i j, (i < m)%nat -> (j < m)%nat -> ent (of_fun m F) i j = F i j.
Proof. intros m F i j Hi Hj. unfold ent. rewrite of_fun_row by auto. apply (vget_map_seq (fun j => F i j)). auto. Qed.
Lemma of_fun_sq : forall m F, sq_mat m (of_fun m F).
Proof. intros m F. split; [unfold of_fun; rewrite map_length, seq_length; auto|]. apply Forall_forall. intros r Hr. unfold of_fun in Hr. apply in_map_iff in Hr. destruct Hr as (i & <- & _). rewrite map_length, seq_length. auto. Qed.
Definition cholesky (cov : mat) : mat := of_fun (length cov) (cholf (ent cov) (length cov)).
Definition tri_inv (L : mat) : mat := let m := length L in of_fun m (fun i j => fsub (ent L) (fun k => if Nat.eqb k j then 1 else 0) m i).
Definition det_chol (cov : mat) : R := let L := cholesky cov in let p := vprod (map (fun i => ent L i i) (seq 0 (length cov))) in p * p.

Lemma factors_posdef : forall m cov L, chol_ok m cov L -> posdef m (ent cov).
Proof.
  intros m cov L (SL & T & P & G). split; [intros i j Hi Hj; rewrite <- !G by auto; apply dot_comm|].
  intros x NZ. assert (E : rsum m (fun i => rsum m (fun j => x i * ent cov i j * x j)) = rsum m (fun k => rsum m (fun i => x i * ent L i k) * rsum m (fun i => x i * ent L i k))).
  { rewrite (rsum_ext m _ (fun i => rsum m (fun j => rsum m (fun k => x i * ent L i k * (x j * ent L j k))))).
    - rewrite (rsum_ext m _ (fun i => rsum m (fun k => rsum m (fun j => x i * ent L i k * (x j * ent L j k))))) by (intros i Hi; apply rsum_swap). rewrite rsum_swap. apply rsum_ext. intros k Hk. rewrite rsum_prod. auto.
    - intros i Hi. apply rsum_ext. intros j Hj. rewrite <- G by auto. rewrite (dot_rs m) by (apply sq_row; auto). rewrite <- rsum_scal_l, <- rsum_scal_r. apply rsum_ext. intros k Hk. unfold ent. ring. }
  rewrite E. apply rsum_pos; [intros; nra|]. assert (B : forall n, (n <= m)%nat -> (exists i, (i < n)%nat /\ x i <> 0) -> (forall i, (n <= i < m)%nat -> x i = 0) -> exists i, (i < m)%nat /\ 0 < rsum m (fun i0 => x i0 * ent L i0 i) * rsum m (fun i0 => x i0 * ent L i0 i)).
  { induction n as [|n IH]; intros Hn (i & Hi & N) Z; [lia|]. destruct (Req_dec (x n) 0) as [Q|Q].
    - apply IH; [lia| |]; [exists i; split; auto; destruct (Nat.eq_dec i n) as [->|]; [contradiction|lia]|]. intros k Hk. destruct (Nat.eq_dec k n) as [->|]; auto. apply Z. lia.
    - exists n. split; [lia|]. assert (V : rsum m (fun i0 => x i0 * ent L i0 n) = x n * ent L n n). { apply (rsum_single m n (fun i0 => x i0 * ent L i0 n)); [lia|]. intros k Hk Nk. destruct (Nat.lt_ge_cases k n) as [H|H]; [rewrite T by lia; ring|rewrite Z by lia; ring]. } rewrite V. specialize (P n ltac:(lia)). assert (x n * ent L n n <> 0) by (apply Rmult_integral_contrapositive_currified; lra). nra. }
  apply (B m); auto. intros; lia.
Qed.
(** exactly the symmetric positive definite matrices have a factor, and the algorithm finds it *)
Theorem factors_iff : forall m cov, sq_mat m cov -> (factors m cov <-> posdef m (ent cov)).
Proof.
  intros m cov SC. split; [intros [_ [L C]]; apply (factors_posdef m cov L C)|]. intro PD. split; auto. exists (of_fun m (cholf (ent cov) m)). destruct (cholf_correct m _ PD) as (T & P & G).
  split; [apply of_fun_sq|]. split; [intros; rewrite of_fun_ent by auto; auto|]. split; [intros; rewrite of_fun_ent by auto; auto|].
  intros i j Hi Hj. rewrite <- G by auto. rewrite (dot_rs m) by (apply sq_row; auto; apply of_fun_sq). apply rsum_ext. intros k Hk. fold (ent (of_fun m (cholf (ent cov) m)) i k). fold (ent (of_fun m (cholf (ent cov) m)) j k). rewrite !of_fun_ent by auto. auto.
Qed.
Lemma cholesky_spec : chol_spec cholesky.
Proof.
  intros m cov [SC [L C]]. pose proof (factors_posdef m cov L C) as PD. unfold cholesky. destruct SC as [LC FC]. rewrite LC. destruct (cholf_correct m _ PD) as (T & P & G).
  split; [apply of_fun_sq|]. split; [intros; rewrite of_fun_ent by auto; auto|]. split; [intros; rewrite of_fun_ent by auto; auto|].
  intros i j Hi Hj. rewrite <- G by auto. rewrite (dot_rs m) by (apply sq_row; auto; apply of_fun_sq). apply rsum_ext. intros k Hk. fold (ent (of_fun m (cholf (ent cov) m)) i k). fold (ent (of_fun m (cholf (ent cov) m)) j k). rewrite !of_fun_ent by auto. auto.
Qed.
Lemma tri_inv_spec : tinv_spec tri_inv.
Proof.
  intros m cov L (SL & T & P & _). unfold tri_inv. pose proof SL as [LL FL]. rewrite LL. split; [apply of_fun_sq|]. intros x Lx. set (W := of_fun m _). assert (SW : sq_mat m W) by apply of_fun_sq.
  apply vec_ext; [rewrite mv_length; congruence|]. intros i Hi. rewrite mv_length, LL in Hi. rewrite mv_get by lia. rewrite (dot_rs m) by (try apply sq_row; auto; apply sq_mv; auto).
  rewrite (rsum_ext m _ (fun k => rsum m (fun j => ent L i k * ent W k j * vget x j))).
  - rewrite rsum_swap. rewrite (rsum_single m i); auto.
    + rewrite rsum_scal_r. rewrite (rsum_cut (S i) m) by (try lia; intros k Hk; rewrite T by lia; ring). rewrite (rsum_ext (S i) _ (fun k => ent L i k * fsub (ent L) (fun k => if Nat.eqb k i then 1 else 0) m k)) by (intros k Hk; unfold W; rewrite of_fun_ent by lia; auto).
      rewrite fsub_eq by (auto; specialize (P i Hi); lra). rewrite Nat.eqb_refl. ring.
    + intros j Hj N. rewrite rsum_scal_r. rewrite (rsum_cut (S i) m) by (try lia; intros k Hk; rewrite T by lia; ring). rewrite (rsum_ext (S i) _ (fun k => ent L i k * fsub (ent L) (fun k => if Nat.eqb k j then 1 else 0) m k)) by (intros k Hk; unfold W; rewrite of_fun_ent by lia; auto).
      rewrite fsub_eq by (auto; specialize (P i Hi); lra). destruct (Nat.eqb_spec i j); [congruence|ring].
  - intros k Hk. destruct SW as [LW FW]. rewrite mv_get by lia. rewrite (dot_rs m) by (auto; apply sq_row; auto; split; auto). rewrite <- rsum_scal_l. apply rsum_ext. intros j Hj. unfold ent. ring.
Qed.
Lemma det_chol_spec : det_spec det_chol.
Proof.
  intros m cov L SC C. unfold det_chol. pose proof SC as [LC _]. rewrite LC. rewrite (chol_unique m cov (cholesky cov) L); auto. apply cholesky_spec. split; auto. exists L. auto.
Qed.
