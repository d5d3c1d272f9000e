(** log_entropy and perplexity_bandwidth (local_linear.py 16-107). *)
Require Import Reals List Bool Arith ZArith Lia Lra Psatz.
From Verif Require Import RVec Num Sums Deriv DomMoreModel SweepProofs HullIneqProofs LipModel SubModel.
Import ListNotations.
Local Open Scope R_scope.

(* ---------- specification ---------- *)
(** the normalized weights q_i = e^(-beta d_i) / sum_j e^(-beta d_j) and Shannon's entropy - sum q ln q *)
Definition psum (beta : R) (d : vec) : R := rsum (length d) (fun j => exp (- (beta * vget d j))).
Definition qw (beta : R) (d : vec) (i : nat) : R := exp (- (beta * vget d i)) / psum beta d.
Definition shannon (n : nat) (q : nat -> R) : R := - rsum n (fun i => q i * ln (q i)).
(** mean distance *)
Definition dbar (beta : R) (d : vec) : R := rsum (length d) (fun i => qw beta d i * vget d i).

Lemma ln_upper : forall x, 0 < x -> ln x <= x - 1.
Proof. intros x H. pose proof (exp_ineq1_le (ln x)) as E. rewrite exp_ln in E by auto. lra. Qed.
Lemma ln_upper_strict : forall x, 0 < x -> x <> 1 -> ln x < x - 1.
Proof.
  intros x H N. assert (ln x <> 0). { intros E. apply N. rewrite <- (exp_ln x) by auto. rewrite E. apply exp_0. }
  pose proof (exp_ineq1 (ln x) H0) as E. rewrite exp_ln in E by auto. lra.
Qed.
Lemma ln_lower : forall x, 0 < x -> 1 - / x <= ln x.
Proof. intros x H. pose proof (ln_upper (/ x) (Rinv_0_lt_compat _ H)) as E. rewrite ln_Rinv in E by auto. lra. Qed.

Lemma ln_div : forall a b, 0 < a -> 0 < b -> ln (a / b) = ln a - ln b.
Proof. intros a b A B. unfold Rdiv. rewrite ln_mult by (auto; apply Rinv_0_lt_compat; auto). rewrite ln_Rinv by auto. ring. Qed.
Lemma psum_pos : forall beta d, d <> [] -> 0 < psum beta d.
Proof.
  intros beta d N. unfold psum. apply rsum_pos; [intros; left; apply exp_pos|]. exists 0%nat. split; [destruct d; [congruence|simpl; lia]|apply exp_pos].
Qed.
Lemma qw_pos : forall beta d i, d <> [] -> 0 < qw beta d i.
Proof. intros. unfold qw. apply Rmult_lt_0_compat; [apply exp_pos|apply Rinv_0_lt_compat, psum_pos; auto]. Qed.
Lemma qw_sum : forall beta d, d <> [] -> rsum (length d) (qw beta d) = 1.
Proof.
  intros beta d N. pose proof (psum_pos beta d N). unfold qw. rewrite (rsum_ext _ _ (fun i => exp (- (beta * vget d i)) * / psum beta d)) by auto.
  rewrite rsum_scal_r. fold (psum beta d). field. lra.
Qed.
Lemma ln_qw : forall beta d i, d <> [] -> ln (qw beta d i) = - (beta * vget d i) - ln (psum beta d).
Proof. intros beta d i N. unfold qw. rewrite ln_div by (auto using exp_pos, psum_pos). rewrite ln_exp. auto. Qed.

Lemma kern_length : forall beta d, length (kern beta d) = length d.
Proof. intros. unfold kern. apply map_length. Qed.
Lemma kern_sum : forall beta d, vsum (kern beta d) = psum beta d.
Proof.
  intros. rewrite vsum_rsum, kern_length. unfold psum. apply rsum_ext. intros i Hi. unfold kern, vget.
  rewrite nth_indep with (d' := exp (- beta * 0)) by (rewrite map_length; auto). rewrite (map_nth (fun a => exp (- beta * a))). f_equal. ring.
Qed.
Lemma log_entropy_eq : forall beta d, d <> [] -> log_entropy beta d = beta * dbar beta d + ln (psum beta d).
Proof.
  intros beta d N. unfold log_entropy. rewrite kern_sum. f_equal. f_equal. rewrite vsum_rsum, map_length, combine_length, kern_length, Nat.min_id.
  unfold dbar. apply rsum_ext. intros i Hi. unfold vget at 1.
  rewrite nth_indep with (d' := (fun pd => fst pd * snd pd / psum beta d) (exp (- beta * 0), 0)) by (rewrite map_length, combine_length, kern_length; lia).
  rewrite (map_nth (fun pd => fst pd * snd pd / psum beta d)). rewrite combine_nth by apply kern_length. cbn [fst snd]. unfold kern. rewrite (map_nth (fun a => exp (- beta * a))).
  fold (vget d i). unfold qw. replace (- beta * vget d i) with (- (beta * vget d i)) by ring. unfold Rdiv. ring.
Qed.

(** the "more stable formula" is the entropy of the normalized weights *)
Theorem entropy_shannon : forall beta d, d <> [] ->
  (forall i, (i < length d)%nat -> 0 < qw beta d i) /\ rsum (length d) (qw beta d) = 1 /\ log_entropy beta d = shannon (length d) (qw beta d).
Proof.
  intros beta d N. split; [intros; apply qw_pos; auto|]. split; [apply qw_sum; auto|]. rewrite log_entropy_eq by auto. unfold shannon.
  rewrite (rsum_ext _ (fun i => qw beta d i * ln (qw beta d i)) (fun i => - beta * (qw beta d i * vget d i) - qw beta d i * ln (psum beta d))) by (intros; rewrite ln_qw by auto; ring).
  rewrite rsum_minus, rsum_scal_l, rsum_scal_r, qw_sum by auto. fold (dbar beta d). ring.
Qed.

(* ---------- Gibbs' inequality ---------- *)
Lemma gibbs : forall n p q, (forall i, (i < n)%nat -> 0 < p i) -> (forall i, (i < n)%nat -> 0 < q i) -> rsum n p = 1 -> rsum n q = 1 ->
  rsum n (fun i => p i * ln (q i)) <= rsum n (fun i => p i * ln (p i)) /\
  ((exists i, (i < n)%nat /\ p i <> q i) -> rsum n (fun i => p i * ln (q i)) < rsum n (fun i => p i * ln (p i))).
Proof.
  intros n p q Hp Hq Sp Sq.
  assert (T : forall i, (i < n)%nat -> 0 <= (q i - p i) - (p i * ln (q i) - p i * ln (p i))).
  { intros i Hi. pose proof (Hp i Hi). pose proof (Hq i Hi). pose proof (ln_upper (q i / p i) ltac:(apply Rmult_lt_0_compat; auto; apply Rinv_0_lt_compat; auto)) as E.
    rewrite ln_div in E by auto. assert (p i * (ln (q i) - ln (p i)) <= p i * (q i / p i - 1)) by (apply Rmult_le_compat_l; lra). replace (p i * (q i / p i - 1)) with (q i - p i) in H1 by (field; lra). lra. }
  assert (E : rsum n (fun i => (q i - p i) - (p i * ln (q i) - p i * ln (p i))) = rsum n (fun i => p i * ln (p i)) - rsum n (fun i => p i * ln (q i))).
  { rewrite !rsum_minus. lra. }
  split.
  - pose proof (rsum_nonneg _ _ T). lra.
  - intros [i [Hi Ni]]. assert (0 < rsum n (fun i => (q i - p i) - (p i * ln (q i) - p i * ln (p i)))); [|lra]. apply rsum_pos; auto. exists i. split; auto.
    pose proof (Hp i Hi). pose proof (Hq i Hi).
    assert (NE : q i / p i <> 1). { intros X. apply Ni. apply Rmult_eq_compat_r with (r := p i) in X. unfold Rdiv in X. rewrite Rmult_assoc, Rinv_l in X by lra. lra. }
    pose proof (ln_upper_strict (q i / p i) ltac:(apply Rmult_lt_0_compat; auto; apply Rinv_0_lt_compat; auto) NE) as EE.
    rewrite ln_div in EE by auto. assert (p i * (ln (q i) - ln (p i)) < p i * (q i / p i - 1)) by (apply Rmult_lt_compat_l; lra). replace (p i * (q i / p i - 1)) with (q i - p i) in H1 by (field; lra). lra.
Qed.
(** relative entropy of two weight families *)
Lemma kl_weights : forall b1 b2 d, d <> [] -> 0 <= (b2 - b1) * dbar b1 d + ln (psum b2 d) - ln (psum b1 d) /\
  (b1 <> b2 -> (exists i j, (i < length d)%nat /\ (j < length d)%nat /\ vget d i <> vget d j) -> 0 < (b2 - b1) * dbar b1 d + ln (psum b2 d) - ln (psum b1 d)).
Proof.
  intros b1 b2 d N. destruct (gibbs (length d) (qw b1 d) (qw b2 d)) as [G1 G2]; try (intros; apply qw_pos; auto); try (apply qw_sum; auto).
  assert (E : rsum (length d) (fun i => qw b1 d i * ln (qw b1 d i)) - rsum (length d) (fun i => qw b1 d i * ln (qw b2 d i)) = (b2 - b1) * dbar b1 d + ln (psum b2 d) - ln (psum b1 d)).
  { rewrite <- rsum_minus. rewrite (rsum_ext _ _ (fun i => (b2 - b1) * (qw b1 d i * vget d i) + qw b1 d i * (ln (psum b2 d) - ln (psum b1 d)))) by (intros; rewrite !ln_qw by auto; ring).
    rewrite rsum_plus, rsum_scal_l, rsum_scal_r, qw_sum by auto. unfold dbar. ring. }
  split; [lra|]. intros Nb [i [j [Hi [Hj Nd]]]]. rewrite <- E. enough (rsum (length d) (fun i => qw b1 d i * ln (qw b2 d i)) < rsum (length d) (fun i => qw b1 d i * ln (qw b1 d i))) by lra.
  apply G2. destruct (Req_dec (qw b1 d i) (qw b2 d i)) as [Ei|]; [|exists i; auto]. destruct (Req_dec (qw b1 d j) (qw b2 d j)) as [Ej|]; [|exists j; auto]. exfalso.
  apply (f_equal ln) in Ei. apply (f_equal ln) in Ej. rewrite !ln_qw in Ei, Ej by auto. assert ((b1 - b2) * (vget d i - vget d j) = 0) by lra. apply Rmult_integral in H. destruct H; lra.
Qed.

(** the entropy is between 0 and ln n ... *)
Theorem entropy_bounds : forall beta d, d <> [] -> 0 <= log_entropy beta d <= ln (INR (length d)) /\ log_entropy 0 d = ln (INR (length d)).
Proof.
  intros beta d N. assert (L : (0 < length d)%nat) by (destruct d; [congruence|simpl; lia]). assert (LR : 0 < INR (length d)) by (apply lt_0_INR; auto).
  destruct (entropy_shannon beta d N) as [P [S1 E]]. split; [split|].
  - rewrite E. unfold shannon. enough (rsum (length d) (fun i => qw beta d i * ln (qw beta d i)) <= rsum (length d) (fun _ => 0)) by (rewrite rsum_const, Rmult_0_r in H; lra).
    apply rsum_le. intros i Hi. assert (Q1 : qw beta d i <= 1). { rewrite <- S1. rewrite (rsum_split _ i) by auto. pose proof (rsum_nonneg (length d) (fun k => if Nat.eqb k i then 0 else qw beta d k)) as Q.
      assert (0 <= rsum (length d) (fun k => if Nat.eqb k i then 0 else qw beta d k)) by (apply Q; intros k Hk; destruct (Nat.eqb k i); [lra|left; apply P; auto]). lra. }
    pose proof (P i Hi). pose proof (ln_upper (qw beta d i) H). assert (ln (qw beta d i) <= 0) by lra. nra.
  - rewrite E. unfold shannon. destruct (gibbs (length d) (qw beta d) (fun _ => / INR (length d))) as [G _]; auto.
    + intros; apply Rinv_0_lt_compat; auto.
    + rewrite rsum_const. field. lra.
    + rewrite rsum_scal_r, S1, ln_Rinv in G by auto. lra.
  - rewrite log_entropy_eq by auto. rewrite Rmult_0_l, Rplus_0_l. f_equal. unfold psum. rewrite (rsum_ext _ _ (fun _ => 1)).
    + rewrite rsum_const. ring.
    + intros. rewrite Rmult_0_l, Ropp_0, exp_0. auto.
Qed.
(** ... and decreasing in beta >= 0, strictly unless all distances are equal *)
Theorem entropy_decreasing : forall b1 b2 d, d <> [] -> 0 <= b1 < b2 -> log_entropy b2 d <= log_entropy b1 d /\
  ((exists i j, (i < length d)%nat /\ (j < length d)%nat /\ vget d i <> vget d j) -> log_entropy b2 d < log_entropy b1 d).
Proof.
  intros b1 b2 d N [P1 P2]. rewrite !log_entropy_eq by auto. destruct (kl_weights b1 b2 d N) as [K1 K1s]. destruct (kl_weights b2 b1 d N) as [K2 K2s].
  assert (D : dbar b2 d <= dbar b1 d). { assert (0 <= (b2 - b1) * (dbar b1 d - dbar b2 d)) by lra. nra. } split.
  - nra.
  - intros NC. specialize (K1s ltac:(lra) NC). specialize (K2s ltac:(lra) NC). nra.
Qed.
(** hence at most one nonnegative bandwidth has a given perplexity *)
Theorem bandwidth_unique : forall d perp b1 b2, (exists i j, (i < length d)%nat /\ (j < length d)%nat /\ vget d i <> vget d j) ->
  0 <= b1 -> 0 <= b2 -> log_entropy b1 d = ln perp -> log_entropy b2 d = ln perp -> b1 = b2.
Proof.
  intros d perp b1 b2 NC P1 P2 E1 E2. assert (N : d <> []) by (intros ->; destruct NC as [i [j [Hi _]]]; simpl in Hi; lia).
  destruct (Rtotal_order b1 b2) as [H|[H|H]]; auto.
  - destruct (entropy_decreasing b1 b2 d N ltac:(lra)) as [_ D]. specialize (D NC). lra.
  - destruct (entropy_decreasing b2 b1 d N ltac:(lra)) as [_ D]. specialize (D NC). lra.
Qed.

(* ---------- the bracket ---------- *)
Lemma entropy_lower : forall beta d, d <> [] -> ln (INR (length d)) - beta * (dbar 0 d - dbar beta d) <= log_entropy beta d.
Proof.
  intros beta d N. destruct (kl_weights 0 beta d N) as [K _]. destruct (entropy_bounds beta d N) as [_ E0]. rewrite log_entropy_eq in E0 |- * by auto. lra.
Qed.
Lemma qw_0 : forall d i, d <> [] -> qw 0 d i = / INR (length d).
Proof.
  intros d i N. unfold qw, psum. rewrite Rmult_0_l, Ropp_0, exp_0. rewrite (rsum_ext _ _ (fun _ => 1)) by (intros; rewrite Rmult_0_l, Ropp_0, exp_0; auto). rewrite rsum_const, Rmult_1_r. unfold Rdiv. ring.
Qed.
Lemma rsum_one : forall n k a b, (k < n)%nat -> rsum n (fun i => if Nat.eqb i k then a else b) = a + (INR n - 1) * b.
Proof.
  intros n k a b H. rewrite (rsum_ext _ _ (fun i => b + (if Nat.eqb i k then a - b else 0))) by (intros i Hi; destruct (Nat.eqb i k); ring).
  rewrite rsum_plus, rsum_const, (rsum_single n k); auto; [rewrite Nat.eqb_refl; ring|]. intros i Hi Ni. destruct (Nat.eqb_spec i k); [lia|auto].
Qed.
Lemma dbar_lower : forall beta d c, d <> [] -> (forall i, (i < length d)%nat -> c <= vget d i) -> c <= dbar beta d.
Proof.
  intros beta d c N H. replace c with (c * rsum (length d) (qw beta d)) by (rewrite qw_sum by auto; ring). rewrite <- rsum_scal_l. apply rsum_le. intros i Hi. pose proof (qw_pos beta d i N). pose proof (H i Hi). nra.
Qed.
Lemma dbar0_upper : forall d k c, (k < length d)%nat -> (forall i, (i < length d)%nat -> vget d i <= c) -> dbar 0 d <= (vget d k + (INR (length d) - 1) * c) / INR (length d).
Proof.
  intros d k c Hk H. assert (N : d <> []) by (intros ->; simpl in Hk; lia). unfold dbar. rewrite (rsum_ext _ _ (fun i => vget d i * / INR (length d))) by (intros; rewrite qw_0 by auto; ring). rewrite rsum_scal_r.
  unfold Rdiv. apply Rmult_le_compat_r; [left; apply Rinv_0_lt_compat, lt_0_INR; lia|]. rewrite <- (rsum_one (length d) k) by auto. apply rsum_le. intros i Hi. destruct (Nat.eqb_spec i k); [subst; lra|apply H; auto].
Qed.
Lemma dbar_second : forall beta d k c, 0 <= beta -> (k < length d)%nat -> (forall i, (i < length d)%nat -> vget d k <= vget d i <= c) -> dbar 0 d - dbar beta d <= beta * (c - vget d k) ^ 2.
Proof.
  intros beta d k c Hb Hk H. assert (N : d <> []) by (intros ->; simpl in Hk; lia). assert (LM : 0 < INR (length d)) by (apply lt_0_INR; lia).
  pose proof (qw_sum 0 d N) as S0. pose proof (qw_sum beta d N) as Sb.
  replace (dbar 0 d - dbar beta d) with (rsum (length d) (fun i => (qw 0 d i - qw beta d i) * (vget d i - vget d k))).
  2:{ unfold dbar. rewrite <- rsum_minus. rewrite (rsum_ext _ _ (fun i => (qw 0 d i * vget d i - qw beta d i * vget d i) - (qw 0 d i * vget d k - qw beta d i * vget d k))) by (intros; ring).
      rewrite (rsum_minus _ _ (fun i => qw 0 d i * vget d k - qw beta d i * vget d k)). rewrite (rsum_minus _ (fun i => qw 0 d i * vget d k)). rewrite !rsum_scal_r, S0, Sb. ring. }
  replace (beta * (c - vget d k) ^ 2) with (rsum (length d) (fun _ => / INR (length d) * (beta * (c - vget d k) ^ 2))) by (rewrite rsum_const; field; lra).
  apply rsum_le. intros i Hi. rewrite qw_0 by auto. destruct (H i Hi) as [H1 H2].
  assert (Q : / INR (length d) * (1 - beta * (vget d i - vget d k)) <= qw beta d i).
  { apply Rle_trans with (/ INR (length d) * exp (- (beta * vget d i) + beta * vget d k)).
    - apply Rmult_le_compat_l; [left; apply Rinv_0_lt_compat; auto|]. pose proof (exp_ineq1_le (- (beta * vget d i) + beta * vget d k)). lra.
    - unfold qw. rewrite exp_plus. set (E := exp (- (beta * vget d i))). assert (0 < E) by apply exp_pos.
      assert (SS : psum beta d <= INR (length d) * exp (- (beta * vget d k))). { unfold psum. rewrite <- rsum_const. apply rsum_le. intros j Hj. destruct (H j Hj) as [Hj1 _].
        destruct (Rle_lt_or_eq_dec (- (beta * vget d j)) (- (beta * vget d k)) ltac:(nra)) as [L|L]; [left; apply exp_increasing; auto|rewrite L; lra]. }
      pose proof (psum_pos beta d N). assert (IP : / (INR (length d) * exp (- (beta * vget d k))) <= / psum beta d) by (apply Rinv_le_contravar; auto).
      replace (exp (beta * vget d k)) with (/ exp (- (beta * vget d k))). 2:{ rewrite <- exp_Ropp. f_equal. ring. }
      pose proof (exp_pos (- (beta * vget d k))). rewrite Rinv_mult in IP. unfold Rdiv. nra. }
  assert (IL : 0 < / INR (length d)) by (apply Rinv_0_lt_compat; auto). set (L := / INR (length d)) in *. set (t := vget d i - vget d k) in *.
  assert (T : 0 <= t <= c - vget d k) by (unfold t; lra). apply Rle_trans with (L * (beta * t) * t).
  - apply Rmult_le_compat_r; [lra|]. lra.
  - assert (t * t <= (c - vget d k) ^ 2) by nra. assert (0 <= L * beta) by nra. nra.
Qed.

(** grouping: with e = 1 - q_k the entropy is at most - (1 - e) ln (1 - e) - e ln (e / (n - 1)) *)
Lemma qw_rest : forall beta d k, (k < length d)%nat -> (2 <= length d)%nat -> 0 < qw beta d k < 1.
Proof.
  intros beta d k Hk L. assert (N : d <> []) by (intros ->; simpl in Hk; lia). split; [apply qw_pos; auto|]. rewrite <- (qw_sum beta d N). rewrite (rsum_split (length d) k) by auto.
  assert (0 < rsum (length d) (fun i => if Nat.eqb i k then 0 else qw beta d i)); [|lra]. apply rsum_pos.
  - intros i Hi. destruct (Nat.eqb i k); [lra|left; apply qw_pos; auto].
  - exists (if Nat.eqb k 0 then 1%nat else 0%nat). destruct (Nat.eqb_spec k 0).
    + split; [lia|]. subst. simpl. apply qw_pos; auto.
    + split; [lia|]. destruct (Nat.eqb_spec 0 k); [lia|]. apply qw_pos; auto.
Qed.
Lemma entropy_group : forall beta d k, (k < length d)%nat -> (2 <= length d)%nat -> let e := 1 - qw beta d k in
  log_entropy beta d <= - (1 - e) * ln (1 - e) - e * ln (e / (INR (length d) - 1)).
Proof.
  intros beta d k Hk L e. assert (N : d <> []) by (intros ->; simpl in Hk; lia). destruct (qw_rest beta d k Hk L) as [Q0 Q1].
  assert (LR : 2 <= INR (length d)) by (change 2 with (INR 2); apply le_INR; auto).
  destruct (entropy_shannon beta d N) as [P [S1 ->]]. unfold shannon.
  destruct (gibbs (length d) (qw beta d) (fun i => if Nat.eqb i k then 1 - e else e / (INR (length d) - 1))) as [G _]; auto.
  - intros i Hi. destruct (Nat.eqb i k); unfold e; [lra|]. apply Rmult_lt_0_compat; [lra|apply Rinv_0_lt_compat; lra].
  - rewrite rsum_one by auto. field. lra.
  - assert (E : rsum (length d) (fun i => qw beta d i * ln (if Nat.eqb i k then 1 - e else e / (INR (length d) - 1))) = (1 - e) * ln (1 - e) + e * ln (e / (INR (length d) - 1))); [|lra].
    rewrite (rsum_ext _ _ (fun i => qw beta d i * ln (e / (INR (length d) - 1)) + (if Nat.eqb i k then qw beta d i * (ln (1 - e) - ln (e / (INR (length d) - 1))) else 0))).
    + rewrite rsum_plus, rsum_scal_r, S1. rewrite (rsum_single _ k); auto.
      * rewrite Nat.eqb_refl. unfold e. ring.
      * intros i Hi Ni. destruct (Nat.eqb_spec i k); [lia|auto].
    + intros i Hi. destruct (Nat.eqb i k); ring.
Qed.
Lemma ln_4 : ln (/ 4) = - (2 * ln 2).
Proof. rewrite ln_Rinv by lra. replace 4 with (2 * 2) by ring. rewrite ln_mult by lra. ring. Qed.
Lemma group_bound : forall M e, 2 <= M -> 0 < e <= / 4 -> - (1 - e) * ln (1 - e) - e * ln (e / (M - 1)) < 2 * e * ln M - 2 * e * ln (2 * e).
Proof.
  intros M e HM [E0 E1].
  assert (A : - (1 - e) * ln (1 - e) <= e). { pose proof (ln_lower (1 - e) ltac:(lra)) as L. assert ((1 - e) * (1 - / (1 - e)) <= (1 - e) * ln (1 - e)) by (apply Rmult_le_compat_l; lra). replace ((1 - e) * (1 - / (1 - e))) with (- e) in H by (field; lra). lra. }
  rewrite ln_div by lra. rewrite ln_mult by lra.
  assert (B : ln e <= - (2 * ln 2)). { rewrite <- ln_4. destruct E1 as [E1|E1]; [left; apply ln_increasing; lra|rewrite E1; lra]. }
  assert (C : 1 + ln (M - 1) < 2 * ln M). { replace 1 with (ln (exp 1)) at 1 by apply ln_exp. rewrite <- ln_mult by (try apply exp_pos; lra). replace (2 * ln M) with (ln M + ln M) by ring. rewrite <- ln_mult by lra.
    apply ln_increasing; [apply Rmult_lt_0_compat; [apply exp_pos|lra]|]. pose proof exp_le_3. apply Rle_lt_trans with (3 * (M - 1)); nra. }
  assert (D : e * (1 + ln (M - 1) + 2 * ln 2 + ln e) < e * (2 * ln M)) by (apply Rmult_lt_compat_l; lra). lra.
Qed.
(** x ln (M/x) increases on (0, 1/2] *)
Lemma g_mono : forall M a b, 2 <= M -> 0 < a <= b -> b <= / 2 -> a * ln M - a * ln a <= b * ln M - b * ln b.
Proof.
  intros M a b HM [A B] C. pose proof (ln_upper (b / a) ltac:(apply Rmult_lt_0_compat; [lra|apply Rinv_0_lt_compat; lra])) as L. rewrite ln_div in L by lra.
  assert (a * (ln b - ln a) <= a * (b / a - 1)) by (apply Rmult_le_compat_l; lra). replace (a * (b / a - 1)) with (b - a) in H by (field; lra).
  assert (Q : ln b + 1 <= ln M). { replace 1 with (ln (exp 1)) by apply ln_exp. rewrite <- ln_mult by (try apply exp_pos; lra). pose proof exp_le_3. pose proof (exp_pos 1).
    destruct (Rle_lt_or_eq_dec (b * exp 1) M ltac:(nra)) as [X|X]; [left; apply ln_increasing; nra|rewrite X; lra]. }
  assert ((b - a) * (ln b + 1) <= (b - a) * ln M) by (apply Rmult_le_compat_l; lra). lra.
Qed.
Lemma ln_min_pos : forall M perp, 2 <= M -> 2 <= perp -> 0 < ln (Rmin (sqrt (2 * M)) perp) <= ln perp.
Proof.
  intros M perp HM HP. assert (S2 : 2 <= sqrt (2 * M)). { replace 2 with (sqrt (2 * 2)) at 1 by (apply sqrt_square; lra). apply sqrt_le_1_alt. nra. }
  assert (2 <= Rmin (sqrt (2 * M)) perp) by (apply Rmin_glb; auto). split.
  - rewrite <- ln_1. apply ln_increasing; lra.
  - destruct (Rmin_r (sqrt (2 * M)) perp) as [X|X]; [left; apply ln_increasing; lra|rewrite X; lra].
Qed.
Lemma p1_range : forall M perp p1, 2 <= M -> 2 <= perp -> p1_post M perp p1 -> 3 / 4 <= p1 < 1.
Proof.
  intros M perp p1 HM HP [x [Hx [E ->]]]. destruct (Req_dec x 0) as [Z|Z]; [|lra]. exfalso. unfold p1_fun in E. rewrite Z in E. pose proof (ln_min_pos M perp HM HP). rewrite !Rmult_0_l in E. lra.
Qed.
(** any bandwidth above ln (p1/(1-p1) (M-1)) / delta, delta a lower bound on the gap to the nearest point, has too little entropy *)
Lemma entropy_upper : forall beta d k delta perp p1, (k < length d)%nat -> (2 <= length d)%nat -> 2 <= perp -> p1_post (INR (length d)) perp p1 ->
  0 < delta -> (forall i, (i < length d)%nat -> i <> k -> vget d k + delta <= vget d i) ->
  1 / delta * ln (p1 / (1 - p1) * (INR (length d) - 1)) <= beta -> log_entropy beta d < ln perp.
Proof.
  intros beta d k delta perp p1 Hk L HP PP Hd Hg Hb. assert (N : d <> []) by (intros ->; simpl in Hk; lia).
  assert (LR : 2 <= INR (length d)) by (change 2 with (INR 2); apply le_INR; auto). set (M := INR (length d)) in *.
  destruct (p1_range M perp p1 LR HP PP) as [P0 P1]. assert (A3 : 3 <= p1 / (1 - p1)). { apply Rmult_le_reg_r with (1 - p1); [lra|]. unfold Rdiv. rewrite Rmult_assoc, Rinv_l by lra. lra. }
  set (A := p1 / (1 - p1) * (M - 1)) in *. assert (A0 : 3 <= A) by (unfold A; nra).
  assert (LA : 0 < ln A) by (rewrite <- ln_1; apply ln_increasing; lra).
  assert (Bd : ln A <= beta * delta). { apply Rmult_le_compat_r with (r := delta) in Hb; [|lra]. replace (1 / delta * ln A * delta) with (ln A) in Hb by (field; lra). auto. }
  assert (B0 : 0 <= beta) by nra.
  assert (EX : exp (- (beta * delta)) <= (1 - p1) / p1 / (M - 1)).
  { replace ((1 - p1) / p1 / (M - 1)) with (/ A) by (unfold A; field; lra). rewrite <- (exp_ln (/ A)) by (apply Rinv_0_lt_compat; lra). rewrite ln_Rinv by lra.
    destruct Bd as [Bd|Bd]; [left; apply exp_increasing; lra|rewrite Bd; lra]. }
  assert (Q : p1 <= qw beta d k).
  { unfold qw. pose proof (psum_pos beta d N) as PS. pose proof (exp_pos (- (beta * vget d k))) as EK. set (ek := exp (- (beta * vget d k))) in *.
    assert (SS : psum beta d <= ek * / p1).
    { apply Rle_trans with (rsum (length d) (fun i => if Nat.eqb i k then ek else ek * ((1 - p1) / p1 / (M - 1)))).
      - apply rsum_le. intros i Hi. destruct (Nat.eqb_spec i k) as [->|Ni]; [unfold ek; lra|]. apply Rle_trans with (ek * exp (- (beta * delta))).
        + unfold ek. rewrite <- exp_plus. pose proof (Hg i Hi Ni). destruct (Rle_lt_or_eq_dec (- (beta * vget d i)) (- (beta * vget d k) + - (beta * delta)) ltac:(nra)) as [X|X]; [left; apply exp_increasing; auto|rewrite X; lra].
        + apply Rmult_le_compat_l; lra.
      - rewrite rsum_one by auto. fold M. right. field. lra. }
    apply Rmult_le_reg_r with (psum beta d); auto. unfold Rdiv. rewrite Rmult_assoc, Rinv_l by lra. apply Rle_trans with (p1 * (ek * / p1)); [nra|right; field; lra]. }
  destruct (qw_rest beta d k Hk L) as [Q0 Q1]. set (e := 1 - qw beta d k). assert (E0 : 0 < e <= / 4) by (unfold e; lra).
  eapply Rle_lt_trans; [apply (entropy_group beta d k Hk L)|]. fold e. eapply Rlt_le_trans; [apply (group_bound M e LR E0)|].
  destruct PP as [x [Hx [Ex Ep]]]. unfold p1_fun in Ex. pose proof (ln_min_pos M perp LR HP) as [_ LM].
  pose proof (g_mono M (2 * e) x LR) as G. assert (2 * e * ln M - 2 * e * ln (2 * e) <= x * ln M - x * ln x) by (apply G; unfold e in *; lra). lra.
Qed.

(* ---------- derivative and continuity in beta ---------- *)
Definition dvar (beta : R) (d : vec) : R := rsum (length d) (fun i => qw beta d i * (vget d i - dbar beta d) ^ 2).
Lemma dvar_eq : forall beta d, d <> [] -> dvar beta d = rsum (length d) (fun i => qw beta d i * (vget d i * vget d i)) - dbar beta d * dbar beta d.
Proof.
  intros beta d N. unfold dvar. set (c := dbar beta d). rewrite (rsum_ext _ _ (fun i => qw beta d i * (vget d i * vget d i) - (2 * c) * (qw beta d i * vget d i) + (c * c) * qw beta d i)) by (intros; ring).
  rewrite rsum_plus, rsum_minus, !rsum_scal_l, qw_sum by auto. fold (dbar beta d). fold c. ring.
Qed.
Lemma d_expw : forall a x, derivable_pt_lim (fun b => exp (- (b * a))) x (- a * exp (- (x * a))).
Proof.
  intros a x. eapply d_ext; [| |apply (d_comp exp (fun b => - a * b + 0))]; [| |apply d_lin|apply derivable_pt_lim_exp].
  - intros t. simpl. f_equal. ring.
  - simpl. replace (- a * x + 0) with (- (x * a)) by ring. ring.
Qed.
Lemma d_inv : forall f x a, f x <> 0 -> derivable_pt_lim f x a -> derivable_pt_lim (fun t => / f t) x (- a / (f x * f x)).
Proof.
  intros f x a N H. eapply d_ext; [| |apply (derivable_pt_lim_div (fun _ => 1) f x 0 a (d_const 1 x) H N)].
  - intros t. unfold div_fct. unfold Rdiv. ring.
  - unfold Rsqr. field. auto.
Qed.
Lemma d_psum : forall d x, derivable_pt_lim (fun b => psum b d) x (- rsum (length d) (fun i => exp (- (x * vget d i)) * vget d i)).
Proof.
  intros d x. unfold psum. eapply d_ext; [| |apply (d_rsum (length d) (fun i b => exp (- (b * vget d i))) (fun i => - vget d i * exp (- (x * vget d i))))].
  - auto.
  - rewrite <- rsum_opp. apply rsum_ext. intros; ring.
  - intros. apply d_expw.
Qed.
Lemma dbar_ratio : forall b d, dbar b d = rsum (length d) (fun i => exp (- (b * vget d i)) * vget d i) * / psum b d.
Proof. intros. unfold dbar, qw. rewrite <- rsum_scal_r. apply rsum_ext. intros. unfold Rdiv. ring. Qed.
(** the derivative of the entropy is - beta times the variance of the distances under the weights *)
Theorem entropy_derivative : forall d beta, d <> [] -> derivable_pt_lim (fun b => log_entropy b d) beta (- beta * dvar beta d).
Proof.
  intros d x N. pose proof (psum_pos x d N) as PS.
  set (Nf := fun b => rsum (length d) (fun i => exp (- (b * vget d i)) * vget d i)).
  assert (DN : derivable_pt_lim Nf x (- rsum (length d) (fun i => exp (- (x * vget d i)) * (vget d i * vget d i)))).
  { unfold Nf. eapply d_ext; [| |apply (d_rsum (length d) (fun i b => exp (- (b * vget d i)) * vget d i) (fun i => - vget d i * exp (- (x * vget d i)) * vget d i + exp (- (x * vget d i)) * 0))].
    - auto.
    - rewrite <- rsum_opp. apply rsum_ext. intros; ring.
    - intros i Hi. apply (d_mult (fun b => exp (- (b * vget d i))) (fun _ => vget d i)); [apply d_expw|apply d_const]. }
  pose proof (d_psum d x) as DS. fold (Nf x) in DS.
  pose proof (d_inv (fun b => psum b d) x _ ltac:(lra) DS) as DI. simpl in DI.
  pose proof (d_mult Nf (fun t => / psum t d) x _ _ DN DI) as DB. simpl in DB.
  pose proof (d_mult (fun t => t) (fun t => Nf t * / psum t d) x _ _ (d_id x) DB) as D1. simpl in D1.
  pose proof (d_comp ln (fun b => psum b d) x _ _ DS (derivable_pt_lim_ln _ PS)) as D2. simpl in D2.
  eapply d_ext; [| |apply (d_plus _ _ _ _ _ D1 D2)].
  - intros t. simpl. rewrite log_entropy_eq by auto. rewrite dbar_ratio. auto.
  - rewrite dvar_eq by auto. rewrite dbar_ratio. fold (Nf x).
    replace (rsum (length d) (fun i => qw x d i * (vget d i * vget d i))) with (rsum (length d) (fun i => exp (- (x * vget d i)) * (vget d i * vget d i)) * / psum x d).
    + field. lra.
    + rewrite <- rsum_scal_r. apply rsum_ext. intros. unfold qw, Rdiv. ring.
Qed.
Lemma entropy_continuous : forall d c, d <> [] -> continuity (fun b => log_entropy b d - c).
Proof.
  intros d c N x. apply derivable_continuous_pt. exists (- x * dvar x d - 0). apply (d_minus (fun b => log_entropy b d) (fun _ => c)); [apply entropy_derivative; auto|apply d_const].
Qed.

(* ---------- correctness under the conditions of the bounds used ---------- *)
Lemma filter_id : forall (f : R -> bool) l, (forall x, In x l -> f x = true) -> filter f l = l.
Proof. induction l as [|a l IH]; intros H; simpl; auto. rewrite (H a) by (simpl; auto). f_equal. apply IH. intros. apply H. simpl; auto. Qed.
Lemma vget_In : forall (d : vec) i, (i < length d)%nat -> In (vget d i) d.
Proof. intros. apply nth_In; auto. Qed.
(** the bracket for positive distances with a unique smallest one *)
Lemma bracket_eq : forall p1 d perp k, Forall (fun a => 0 < a) d -> (k < length d)%nat -> (2 <= length d)%nat ->
  (forall i, (i < length d)%nat -> i <> k -> vget d k < vget d i) ->
  exists delta, 0 < delta /\ (forall i, (i < length d)%nat -> i <> k -> vget d k + delta <= vget d i) /\ vget d k < vmax d /\
    let M := INR (length d) in
    pb_bracket p1 d perp = Some (Rmax (M * ln (M / perp) / ((M - 1) * (vmax d - vget d k))) (sqrt (ln (M / perp) / (vmax d ^ 4 - vget d k ^ 4))), 1 / delta * ln (p1 / (1 - p1) * (M - 1))).
Proof.
  intros p1 d perp k FP Hk L Hm. assert (N : d <> []) by (intros ->; simpl in Hk; lia). rewrite Forall_forall in FP.
  assert (Ex : exists j, (j < length d)%nat /\ j <> k). { destruct (Nat.eq_dec k 0); [exists 1%nat|exists 0%nat]; lia. }
  destruct (vmin_spec d N) as [V1 V2]. destruct (vmax_spec d N) as [W1 W2].
  assert (E1 : vmin d = vget d k). { apply In_nth with (d := 0) in V2. destruct V2 as [i [Hi Ei]]. fold (vget d i) in Ei. destruct (Nat.eq_dec i k) as [->|Ni]; auto.
    pose proof (V1 _ (vget_In d k Hk)). pose proof (Hm i Hi Ni). lra. }
  set (l2 := positives (map (fun a => a - vget d k) d)).
  assert (I2 : forall i, (i < length d)%nat -> i <> k -> In (vget d i - vget d k) l2).
  { intros i Hi Ni. unfold l2, positives. apply filter_In. split; [apply in_map_iff; exists (vget d i); split; auto; apply vget_In; auto|]. pose proof (Hm i Hi Ni). apply Rltb_true. lra. }
  destruct Ex as [j [Hj Nj]]. assert (N2 : l2 <> []) by (intros Z; pose proof (I2 j Hj Nj) as Q; rewrite Z in Q; auto).
  destruct (vmin_spec l2 N2) as [X1 X2]. exists (vmin l2). split; [|split; [|split]].
  - assert (X3 : In (vmin l2) (positives (map (fun a => a - vget d k) d))) by exact X2. unfold positives in X3. clear X2. rename X3 into X2. apply filter_In in X2. destruct X2 as [_ X2]. apply Rltb_true in X2. auto.
  - intros i Hi Ni. pose proof (X1 _ (I2 i Hi Ni)). lra.
  - pose proof (W1 _ (vget_In d j Hj)). pose proof (Hm j Hj Nj). lra.
  - unfold pb_bracket. unfold positives at 1. rewrite filter_id by (intros; apply Rltb_true; auto). unfold omin_list at 1. destruct d as [|d0 d']; [congruence|]. rewrite E1. fold l2. unfold omin_list. destruct l2; [congruence|]. auto.
Qed.
Theorem bandwidth_bracket_partial : forall d perp p1 k, Forall (fun a => 0 < a) d -> (k < length d)%nat ->
  (forall i, (i < length d)%nat -> i <> k -> vget d k < vget d i) -> 1 <= vmax d ^ 2 + vget d k ^ 2 ->
  2 <= perp < INR (length d) -> p1_post (INR (length d)) perp p1 ->
  exists b1 b2, pb_bracket p1 d perp = Some (b1, b2) /\ 0 < b1 < b2 /\ ln perp <= log_entropy b1 d /\ log_entropy b2 d < ln perp.
Proof.
  intros d perp p1 k FP Hk Hm Hs [HP1 HP2] PP. assert (L : (2 <= length d)%nat). { apply INR_le. simpl. lra. }
  assert (N : d <> []) by (intros ->; simpl in Hk; lia). destruct (bracket_eq p1 d perp k FP Hk L Hm) as [delta [D0 [D1 [DM E]]]]. simpl in E. set (M := INR (length d)) in *.
  rewrite E. eexists _, _. split; [reflexivity|]. pose proof FP as FP'. rewrite Forall_forall in FP'. pose proof (FP' _ (vget_In d k Hk)) as Pk. destruct (vmax_spec d N) as [W1 _].
  assert (LP : 0 < ln (M / perp)). { rewrite <- ln_1. apply ln_increasing; [lra|]. apply Rmult_lt_reg_r with perp; [lra|]. unfold Rdiv. rewrite Rmult_assoc, Rinv_l by lra. lra. }
  set (d1 := vget d k) in *. set (dM := vmax d) in *. set (lp := ln (M / perp)) in *.
  assert (LPE : lp = ln M - ln perp) by (unfold lp; apply ln_div; lra).
  assert (R0 : forall i, (i < length d)%nat -> d1 <= vget d i <= dM). { intros i Hi. split; [|apply W1, vget_In; auto]. destruct (Nat.eq_dec i k) as [->|Ni]; [unfold d1; lra|]. pose proof (Hm i Hi Ni). lra. }
  set (t1 := M * lp / ((M - 1) * (dM - d1))). set (t2 := sqrt (lp / (dM ^ 4 - d1 ^ 4))).
  assert (T1p : 0 < t1). { unfold t1. apply Rmult_lt_0_compat; [nra|]. apply Rinv_0_lt_compat. nra. }
  assert (D2 : 0 < dM ^ 2 - d1 ^ 2) by nra. assert (D4 : dM ^ 2 - d1 ^ 2 <= dM ^ 4 - d1 ^ 4) by (replace (dM ^ 4 - d1 ^ 4) with ((dM ^ 2 - d1 ^ 2) * (dM ^ 2 + d1 ^ 2)) by ring; nra).
  assert (H1 : ln perp <= log_entropy t1 d).
  { eapply Rle_trans; [|apply entropy_lower; auto]. fold M.
    assert (dbar 0 d - dbar t1 d <= (M - 1) / M * (dM - d1)). { pose proof (dbar0_upper d k dM Hk ltac:(intros; apply R0; auto)) as A. fold M d1 in A. pose proof (dbar_lower t1 d d1 N ltac:(intros; apply R0; auto)) as B.
      replace ((M - 1) / M * (dM - d1)) with ((d1 + (M - 1) * dM) / M - d1) by (field; lra). lra. }
    assert (t1 * (dbar 0 d - dbar t1 d) <= t1 * ((M - 1) / M * (dM - d1))) by (apply Rmult_le_compat_l; lra).
    replace (t1 * ((M - 1) / M * (dM - d1))) with lp in H0 by (unfold t1; field; lra). lra. }
  assert (T2p : 0 <= t2) by apply sqrt_pos.
  assert (H2 : ln perp <= log_entropy t2 d).
  { eapply Rle_trans; [|apply entropy_lower; auto]. fold M. pose proof (dbar_second t2 d k dM T2p Hk R0) as B. fold d1 in B.
    assert (t2 * (dbar 0 d - dbar t2 d) <= t2 * (t2 * (dM - d1) ^ 2)) by (apply Rmult_le_compat_l; lra).
    assert (T22 : t2 * t2 = lp / (dM ^ 4 - d1 ^ 4)) by (unfold t2; apply sqrt_sqrt; apply Rmult_le_pos; [lra|left; apply Rinv_0_lt_compat; lra]).
    assert (t2 * (t2 * (dM - d1) ^ 2) <= lp); [|lra]. rewrite <- Rmult_assoc, T22. unfold Rdiv. rewrite Rmult_assoc. rewrite <- (Rmult_1_r lp) at 2. apply Rmult_le_compat_l; [lra|].
    apply Rmult_le_reg_l with (dM ^ 4 - d1 ^ 4); [lra|]. rewrite <- Rmult_assoc, Rinv_r by lra. assert ((dM - d1) ^ 2 <= dM ^ 2 - d1 ^ 2) by nra. lra. }
  assert (H3 : log_entropy (1 / delta * ln (p1 / (1 - p1) * (M - 1))) d < ln perp) by (apply (entropy_upper _ d k delta perp p1); auto; fold M; lra).
  assert (HB : ln perp <= log_entropy (Rmax t1 t2) d) by (unfold Rmax; destruct (Rle_dec t1 t2); auto).
  assert (B1 : 0 < Rmax t1 t2) by (apply Rlt_le_trans with t1; auto; apply Rmax_l).
  split; [|split; auto]. split; auto. destruct (Rlt_le_dec (Rmax t1 t2) (1 / delta * ln (p1 / (1 - p1) * (M - 1)))) as [|C]; auto. exfalso.
  assert (0 <= 1 / delta * ln (p1 / (1 - p1) * (M - 1))).
  { assert (2 <= M) by lra. destruct (p1_range M perp p1 H HP1 PP) as [P0 P1]. assert (3 <= p1 / (1 - p1)). { apply Rmult_le_reg_r with (1 - p1); [lra|]. unfold Rdiv. rewrite Rmult_assoc, Rinv_l by lra. lra. }
    apply Rmult_le_pos; [apply Rmult_le_pos; [lra|left; apply Rinv_0_lt_compat; auto]|]. rewrite <- ln_1. left. apply ln_increasing; nra. }
  destruct C as [C|C].
  - destruct (entropy_decreasing _ (Rmax t1 t2) d N (conj H C)) as [Q _]. lra.
  - rewrite C in H3. lra.
Qed.
(** so perplexity_bandwidth succeeds and returns the unique nonnegative bandwidth with that perplexity *)
Theorem bandwidth_correct_partial : forall root d perp p1 k, root_ok root -> Forall (fun a => 0 < a) d -> (k < length d)%nat ->
  (forall i, (i < length d)%nat -> i <> k -> vget d k < vget d i) -> 1 <= vmax d ^ 2 + vget d k ^ 2 ->
  2 <= perp < INR (length d) -> p1_post (INR (length d)) perp p1 ->
  exists b, perplexity_bandwidth root p1 d perp = Some b /\ 0 < b /\ exp (shannon (length d) (qw b d)) = perp /\
    forall b', 0 <= b' -> exp (shannon (length d) (qw b' d)) = perp -> b' = b.
Proof.
  intros root d perp p1 k RO FP Hk Hm Hs HP PP. destruct (bandwidth_bracket_partial d perp p1 k FP Hk Hm Hs HP PP) as [b1 [b2 [E [B [H1 H2]]]]].
  assert (N : d <> []) by (intros ->; simpl in Hk; lia). assert (L : (2 <= length d)%nat) by (apply INR_le; simpl; lra).
  unfold perplexity_bandwidth. rewrite E. destruct (RO (fun beta => log_entropy beta d - ln perp) b1 b2) as [_ [R1 R2]].
  destruct R2 as [r Er]; [apply entropy_continuous; auto|simpl; nra|]. exists r. split; auto. destruct (R1 r Er) as [Z [Rl Rr]]. simpl in Z. rewrite Rmin_left in Rl by lra.
  assert (P0 : 0 < r) by lra. split; auto. destruct (entropy_shannon r d N) as [_ [_ Es]]. split.
  - rewrite <- Es. replace (log_entropy r d) with (ln perp) by lra. apply exp_ln. lra.
  - intros b' Hb Eb. destruct (entropy_shannon b' d N) as [_ [_ Eb']]. rewrite <- Eb' in Eb. apply (bandwidth_unique d perp); auto; try lra.
    + destruct (Nat.eq_dec k 0); [exists k, 1%nat|exists k, 0%nat]; (split; [lia|split; [lia|]]); [pose proof (Hm 1%nat ltac:(lia) ltac:(lia))|pose proof (Hm 0%nat ltac:(lia) ltac:(lia))]; lra.
    + rewrite <- Eb. rewrite ln_exp. auto.
Qed.

(* ---------- failures ---------- *)
Lemma entropy_anti : forall b1 b2 d, d <> [] -> 0 <= b1 <= b2 -> log_entropy b2 d <= log_entropy b1 d.
Proof. intros b1 b2 d N [P [H|H]]; [apply entropy_decreasing; auto; lra|rewrite H; lra]. Qed.
(** adding a constant to all distances changes nothing *)
Lemma entropy_shift : forall beta d c, d <> [] -> log_entropy beta (map (fun a => a + c) d) = log_entropy beta d.
Proof.
  intros beta d c N. assert (N' : map (fun a => a + c) d <> []) by (destruct d; [congruence|discriminate]).
  assert (G : forall i, (i < length d)%nat -> vget (map (fun a => a + c) d) i = vget d i + c) by (intros i Hi; unfold vget; rewrite nth_indep with (d' := 0 + c) by (rewrite map_length; auto); apply (map_nth (fun a => a + c))).
  assert (PS : psum beta (map (fun a => a + c) d) = psum beta d * exp (- (beta * c))). { unfold psum. rewrite map_length, <- rsum_scal_r. apply rsum_ext. intros i Hi. rewrite G by auto. rewrite <- exp_plus. f_equal. ring. }
  destruct (entropy_shannon beta d N) as [_ [_ ->]]. destruct (entropy_shannon beta _ N') as [_ [_ ->]]. unfold shannon. rewrite map_length. f_equal. apply rsum_ext. intros i Hi.
  assert (Q : qw beta (map (fun a => a + c) d) i = qw beta d i). { unfold qw. rewrite PS, G by auto. replace (- (beta * (vget d i + c))) with (- (beta * vget d i) + - (beta * c)) by ring. rewrite exp_plus. pose proof (exp_pos (- (beta * c))). pose proof (psum_pos beta d N). field. lra. }
  rewrite Q. auto.
Qed.
(** one distance zero: H <= beta sum p d + sum of the other p *)
Lemma entropy3 : forall beta a b, 0 <= beta -> 0 <= a -> 0 <= b -> log_entropy beta [0; a; b] <= (beta * a + 1) * exp (- (beta * a)) + (beta * b + 1) * exp (- (beta * b)).
Proof.
  intros beta a b Hb Ha Hb'. rewrite log_entropy_eq by discriminate. rewrite dbar_ratio. unfold psum. cbn [length rsum vget nth]. replace (- (beta * 0)) with 0 by ring. rewrite exp_0.
  pose proof (exp_pos (- (beta * a))) as P. pose proof (exp_pos (- (beta * b))) as Q. set (p := exp (- (beta * a))) in *. set (q := exp (- (beta * b))) in *.
  set (S := 0 + 1 + p + q). assert (S1 : 1 <= S) by (unfold S; lra). pose proof (ln_upper S ltac:(lra)) as L.
  assert (I1 : / S <= 1) by (rewrite <- Rinv_1; apply Rinv_le_contravar; lra). assert (I0 : 0 < / S) by (apply Rinv_0_lt_compat; lra).
  assert (N0 : 0 <= p * a + q * b) by nra. assert ((0 + 1 * 0 + p * a + q * b) * / S <= p * a + q * b) by nra.
  assert (beta * ((0 + 1 * 0 + p * a + q * b) * / S) <= beta * (p * a + q * b)) by (apply Rmult_le_compat_l; auto). assert (SE : S = 1 + p + q) by (unfold S; ring). lra.
Qed.
Lemma exp_neg_pow : forall x n c, 0 <= x -> 0 < c -> c <= (1 + x) ^ n -> exp (- (INR n * x)) <= / c.
Proof.
  intros x n c Hx Hc H. rewrite exp_Ropp. apply Rinv_le_contravar; auto. eapply Rle_trans; [apply H|].
  assert (E : exp (INR n * x) = exp x ^ n). { clear. induction n; [simpl; rewrite Rmult_0_l, exp_0; auto|]. rewrite S_INR. replace ((INR n + 1) * x) with (INR n * x + x) by ring. rewrite exp_plus, IHn. simpl. ring. }
  rewrite E. apply pow_incr. pose proof (exp_ineq1_le x). lra.
Qed.
(** the constant p1 exists *)
Lemma p1_exists : forall M perp, 2 <= M -> 2 <= perp -> exists p1, p1_post M perp p1.
Proof.
  intros M perp HM HP. pose proof (ln_min_pos M perp HM HP) as [C0 C1]. set (c := ln (Rmin (sqrt (2 * M)) perp)) in *.
  assert (Cs : c <= / 2 * ln (2 * M)). { unfold c. replace (/ 2 * ln (2 * M)) with (ln (sqrt (2 * M))).
    - assert (S2 : 2 <= sqrt (2 * M)). { replace 2 with (sqrt (2 * 2)) at 1 by (apply sqrt_square; lra). apply sqrt_le_1_alt. nra. }
      assert (2 <= Rmin (sqrt (2 * M)) perp) by (apply Rmin_glb; auto). destruct (Rmin_l (sqrt (2 * M)) perp) as [X|X]; [left; apply ln_increasing; lra|rewrite X; lra].
    - assert (0 < sqrt (2 * M)) by (apply sqrt_lt_R0; lra). rewrite <- (sqrt_sqrt (2 * M)) at 2 by lra. rewrite ln_mult by auto. field. }
  (* work with y = ln x: x = exp y, y in [y0, ln (1/2)] where the function is continuous *)
  set (g := fun y => exp y * (ln M - y) - c).
  assert (CG : continuity g). { intros y. apply derivable_continuous_pt. exists (exp y * (ln M - y) + exp y * (0 - 1) - 0). unfold g. apply (d_minus (fun y => exp y * (ln M - y)) (fun _ => c)); [|apply d_const]. apply (d_mult exp (fun y => ln M - y)); [apply derivable_pt_lim_exp|]. apply (d_minus (fun _ => ln M) (fun y => y)); [apply d_const|apply d_id]. }
  (* at y0 = ln x0 with x0 small: x0 (ln M - ln x0) <= x0 ln M + 2 sqrt x0 *)
  set (s := Rmin (/ 2) (c / (ln M + 2))). assert (LM : 0 < ln M) by (rewrite <- ln_1; apply ln_increasing; lra).
  assert (S0 : 0 < s) by (unfold s; apply Rmin_glb_lt; [lra|apply Rmult_lt_0_compat; [lra|apply Rinv_0_lt_compat; lra]]).
  assert (S1 : s <= / 2) by apply Rmin_l. assert (S2 : s * (ln M + 2) <= c). { assert (s <= c / (ln M + 2)) by apply Rmin_r. apply Rmult_le_compat_r with (r := ln M + 2) in H; [|lra]. unfold Rdiv in H. rewrite Rmult_assoc, Rinv_l in H by lra. lra. }
  assert (G0 : g (ln (s * s)) <= 0). { unfold g. rewrite exp_ln by nra. rewrite ln_mult by auto. pose proof (ln_lower s S0) as L. assert (s * (1 - / s) <= s * ln s) by (apply Rmult_le_compat_l; lra). replace (s * (1 - / s)) with (s - 1) in H by (field; lra). assert (s * (s - 1) <= s * (s * ln s)) by (apply Rmult_le_compat_l; lra). assert (s * s * ln M <= s * ln M) by (assert (0 <= s * ln M) by nra; nra). assert (0 < s * s) by nra. lra. }
  assert (G1 : 0 <= g (ln (/ 2))). { unfold g. rewrite exp_ln by lra. rewrite ln_Rinv by lra. rewrite ln_mult in Cs by lra. lra. }
  destruct (IVT_cor g (ln (s * s)) (ln (/ 2)) CG) as [z [[Z1 Z2] Z3]].
  - left. apply ln_increasing; nra.
  - nra.
  - exists (1 - exp z / 2), (exp z). split; [split; [left; apply exp_pos|]|split; auto].
    + rewrite <- (exp_ln (/ 2)) by lra. destruct Z2 as [Z2|Z2]; [left; apply exp_increasing; auto|rewrite Z2; lra].
    + unfold p1_fun. fold c. rewrite ln_exp. unfold g in Z3. lra.
Qed.
(** a point in the middle of a regular grid: np.min of an empty selection raises, although a bandwidth exists *)
Theorem bandwidth_grid_refuted : exists X x d, sqdist X x = d /\ 2 <= 2 < INR (length d) /\
  (forall root p1, perplexity_bandwidth root p1 d 2 = None) /\ exists b, 0 <= b /\ log_entropy b d = ln 2.
Proof.
  exists [[-1]; [0]; [1]], [0], [1; 0; 1]. split; [|split; [|split]].
  - unfold sqdist. cbn [map]. unfold norm2sq, vsub, zipw. simpl. rewrite !dot_cons, !dot_nil_l. f_equal; [lra|]. f_equal; [lra|]. f_equal. lra.
  - simpl. lra.
  - intros root p1. unfold perplexity_bandwidth, pb_bracket. assert (E : positives [1; 0; 1] = [1; 1]).
    { unfold positives. cbn [filter]. replace (Rltb 0 1) with true by (symmetry; apply Rltb_true; lra). replace (Rltb 0 0) with false by (symmetry; apply Rltb_false; lra). auto. }
    rewrite E. cbn [omin_list]. replace (vmin [1; 1]) with 1 by (unfold vmin; simpl; unfold Rmin; destruct (Rle_dec 1 1); auto).
    unfold positives. cbn [map filter]. replace (Rltb 0 (1 - 1)) with false by (symmetry; apply Rltb_false; lra). replace (Rltb 0 (0 - 1)) with false by (symmetry; apply Rltb_false; lra). auto.
  - assert (SH : log_entropy 8 [1; 0; 1] < ln 2).
    { assert (P : log_entropy 8 [1; 0; 1] = log_entropy 8 [0; 1; 1]). { rewrite !log_entropy_eq by discriminate. rewrite !dbar_ratio. unfold psum, vget. cbn [length rsum nth]. f_equal; [f_equal; f_equal; [ring|f_equal; ring]|f_equal; ring]. }
      rewrite P. pose proof (entropy3 8 1 1 ltac:(lra) ltac:(lra) ltac:(lra)) as H. pose proof (exp_neg_pow 1 8 256 ltac:(lra) ltac:(lra) ltac:(lra)) as E. simpl INR in E. replace (1 + 1 + 1 + 1 + 1 + 1 + 1 + 1) with 8 in E by ring. pose proof ln_lt_2. lra. }
    destruct (IVT_cor (fun b => - (log_entropy b [1; 0; 1] - ln 2)) 0 8) as [z [Z1 Z2]].
    + apply (continuity_opp (fun b => log_entropy b [1; 0; 1] - ln 2)). apply entropy_continuous. discriminate.
    + lra.
    + destruct (entropy_bounds 0 [1; 0; 1] ltac:(discriminate)) as [_ E0]. rewrite E0. simpl length. assert (ln 2 < ln (INR 3)) by (apply ln_increasing; simpl; lra). nra.
    + exists z. split; lra.
Qed.
Lemma ln_32 : 1 / 3 <= ln (3 / 2).
Proof. pose proof (ln_lower (3 / 2) ltac:(lra)). lra. Qed.
Lemma pos3 : forall a b, 0 < a -> 0 < b -> positives [0; a; b] = [a; b].
Proof.
  intros a b A B. unfold positives. cbn [filter]. replace (Rltb 0 0) with false by (symmetry; apply Rltb_false; lra).
  replace (Rltb 0 a) with true by (symmetry; apply Rltb_true; auto). replace (Rltb 0 b) with true by (symmetry; apply Rltb_true; auto). auto.
Qed.
(** an isolated sample (default arguments: the sample itself is at distance 0): both ends of the bracket are above the root,
    brenth raises ValueError *)
Theorem bandwidth_isolated_refuted : exists X x d, sqdist X x = d /\ In x X /\ 2 <= 2 < INR (length d) /\
  (exists p1, p1_post (INR (length d)) 2 p1) /\ (exists b, 0 <= b /\ log_entropy b d = ln 2) /\
  forall root p1, root_ok root -> p1_post (INR (length d)) 2 p1 -> perplexity_bandwidth root p1 d 2 = None.
Proof.
  exists [[0]; [3]; [16 / 5]], [0], [0; 9; 256 / 25].
  assert (H4 : log_entropy (2 / 5) [0; 9; 256 / 25] < / 2).
  { pose proof (entropy3 (2 / 5) 9 (256 / 25) ltac:(lra) ltac:(lra) ltac:(lra)) as H. pose proof (exp_neg_pow (3 / 10) 12 23 ltac:(lra) ltac:(lra) ltac:(simpl; lra)) as E.
    replace (INR 12 * (3 / 10)) with (2 / 5 * 9) in E by (simpl; field).
    assert (E2 : exp (- (2 / 5 * (256 / 25))) <= exp (- (2 / 5 * 9))) by (left; apply exp_increasing; lra). lra. }
  assert (ND : [0; 9; 256 / 25] <> []) by discriminate.
  split; [|split; [simpl; auto|split; [simpl; lra|split; [apply p1_exists; simpl; lra|split]]]].
  - unfold sqdist. cbn [map]. unfold norm2sq, vsub, zipw. simpl. rewrite !dot_cons, !dot_nil_l. f_equal; [lra|]. f_equal; [lra|]. f_equal. lra.
  - destruct (IVT_cor (fun b => - (log_entropy b [0; 9; 256 / 25] - ln 2)) 0 (2 / 5)) as [z [Z1 Z2]].
    + apply (continuity_opp (fun b => log_entropy b [0; 9; 256 / 25] - ln 2)). apply entropy_continuous. auto.
    + lra.
    + destruct (entropy_bounds 0 _ ND) as [_ E0]. rewrite E0. simpl length. assert (ln 2 < ln (INR 3)) by (apply ln_increasing; simpl; lra). pose proof ln_lt_2. nra.
    + exists z. split; lra.
  - intros root p1 RO PP. unfold perplexity_bandwidth, pb_bracket. rewrite pos3 by lra. cbn [omin_list].
    replace (vmin [9; 256 / 25]) with 9 by (unfold vmin; simpl; unfold Rmin; repeat destruct (Rle_dec _ _); lra).
    assert (E : positives (map (fun a => a - 9) [0; 9; 256 / 25]) = [256 / 25 - 9]).
    { unfold positives. cbn [map filter]. replace (Rltb 0 (0 - 9)) with false by (symmetry; apply Rltb_false; lra). replace (Rltb 0 (9 - 9)) with false by (symmetry; apply Rltb_false; lra). replace (Rltb 0 (256 / 25 - 9)) with true by (symmetry; apply Rltb_true; lra). auto. }
    rewrite E. cbn [omin_list]. replace (vmin [256 / 25 - 9]) with (31 / 25) by (unfold vmin; simpl; lra).
    replace (vmax [0; 9; 256 / 25]) with (256 / 25) by (unfold vmax; simpl; unfold Rmax; repeat destruct (Rle_dec _ _); lra).
    cbn [length] in PP |- *. replace (INR 3) with 3 in PP |- * by (simpl; lra). destruct (p1_range 3 2 p1 ltac:(lra) ltac:(lra) PP) as [P0 P1].
    match goal with |- root ?f ?a ?b = None => set (b1 := a); set (b2 := b) end.
    assert (B1 : 2 / 5 <= b1). { unfold b1. eapply Rle_trans; [|apply Rmax_l]. pose proof ln_32. replace (3 * ln (3 / 2) / ((3 - 1) * (256 / 25 - 9))) with (ln (3 / 2) * (75 / 62)) by field. lra. }
    assert (B2 : 2 / 5 <= b2). { unfold b2. assert (3 <= p1 / (1 - p1)). { apply Rmult_le_reg_r with (1 - p1); [lra|]. unfold Rdiv. rewrite Rmult_assoc, Rinv_l by lra. lra. }
      assert (ln 6 <= ln (p1 / (1 - p1) * (3 - 1))). { destruct (Rle_lt_or_eq_dec 6 (p1 / (1 - p1) * (3 - 1)) ltac:(lra)) as [X|X]; [left; apply ln_increasing; lra|rewrite <- X; lra]. }
      pose proof (ln_lower 6 ltac:(lra)). lra. }
    apply RO. cbv beta. pose proof (entropy_anti (2 / 5) b1 _ ND ltac:(lra)). pose proof (entropy_anti (2 / 5) b2 _ ND ltac:(lra)). pose proof ln_lt_2. nra.
Qed.
(** distances are already squared, so the fourth powers make the lower end far too large for close samples: with the
    distances 1/1000, 2/1000, 4/1000 (all other hypotheses of bandwidth_correct_partial hold) brenth raises ValueError *)
Theorem bandwidth_scale_refuted : exists d, Forall (fun a => 0 < a) d /\ (forall i, (i < length d)%nat -> i <> 0%nat -> vget d 0 < vget d i) /\ 2 <= 2 < INR (length d) /\
  (exists p1, p1_post (INR (length d)) 2 p1) /\ (exists b, 0 <= b /\ log_entropy b d = ln 2) /\
  forall root p1, root_ok root -> p1_post (INR (length d)) 2 p1 -> perplexity_bandwidth root p1 d 2 = None.
Proof.
  set (d := [1 / 1000; 2 / 1000; 4 / 1000]). assert (ND : d <> []) by discriminate. exists d.
  assert (HF : Forall (fun a => 0 < a) d) by (repeat constructor; lra).
  assert (HM : forall i, (i < length d)%nat -> i <> 0%nat -> vget d 0 < vget d i) by (intros [|[|[|i]]] Hi Ni; simpl in Hi; try lia; unfold vget, d; simpl; lra).
  assert (HH : log_entropy 10000 d < / 2).
  { assert (Ed : d = map (fun a => a + 1 / 1000) [0; 1 / 1000; 3 / 1000]) by (unfold d; cbn [map]; f_equal; [lra|]; f_equal; [lra|]; f_equal; lra).
    rewrite Ed, entropy_shift by discriminate. pose proof (entropy3 10000 (1 / 1000) (3 / 1000) ltac:(lra) ltac:(lra) ltac:(lra)) as H.
    pose proof (exp_neg_pow 1 10 1024 ltac:(lra) ltac:(lra) ltac:(simpl; lra)) as E. replace (INR 10 * 1) with (10000 * (1 / 1000)) in E by (simpl; field).
    assert (E2 : exp (- (10000 * (3 / 1000))) <= exp (- (10000 * (1 / 1000)))) by (left; apply exp_increasing; lra). lra. }
  split; auto. split; auto. split; [simpl; lra|]. split; [apply p1_exists; simpl; lra|]. split.
  - destruct (IVT_cor (fun b => - (log_entropy b d - ln 2)) 0 10000) as [z [Z1 Z2]].
    + apply (continuity_opp (fun b => log_entropy b d - ln 2)). apply entropy_continuous. auto.
    + lra.
    + destruct (entropy_bounds 0 _ ND) as [_ E0]. rewrite E0. simpl length. assert (ln 2 < ln (INR 3)) by (apply ln_increasing; simpl; lra). pose proof ln_lt_2. nra.
    + exists z. split; lra.
  - intros root p1 RO PP. destruct (bracket_eq p1 d 2 0 HF ltac:(simpl; lia) ltac:(simpl; lia) HM) as [delta [D0 [D1 [DM E]]]].
    assert (VM : vmax d = 4 / 1000) by (unfold vmax, d; simpl; unfold Rmax; repeat destruct (Rle_dec _ _); lra). assert (V0 : vget d 0 = 1 / 1000) by auto.
    assert (N3 : INR (length d) = 3) by (simpl; lra). cbv zeta in E. rewrite VM, V0, N3 in E. unfold perplexity_bandwidth. rewrite E. clear E. apply RO. cbv beta.
    assert (H2 : log_entropy (1 / delta * ln (p1 / (1 - p1) * (3 - 1))) d < ln 2) by (apply (entropy_upper _ d 0 delta 2 p1); auto; try (simpl; lia); try lra; rewrite N3; lra).
    match goal with |- 0 < (log_entropy ?b _ - _) * _ => assert (H1 : log_entropy b d < ln 2) end; [|nra].
    match goal with |- log_entropy (Rmax ?t1 ?t2) d < _ => assert (B : 10000 <= Rmax t1 t2) end.
    { eapply Rle_trans; [|apply Rmax_r]. replace 10000 with (sqrt (10000 * 10000)) at 1 by (apply sqrt_square; lra). apply sqrt_le_1_alt. pose proof ln_32.
      apply Rmult_le_reg_r with ((4 / 1000) ^ 4 - (1 / 1000) ^ 4); [lra|]. set (D := (4 / 1000) ^ 4 - (1 / 1000) ^ 4). assert (DD : 0 < D) by (unfold D; lra). replace (ln (3 / 2) / D * D) with (ln (3 / 2)) by (field; lra). unfold D. lra. }
    assert (Z4 : 0 <= 10000) by lra. pose proof (entropy_anti 10000 _ d ND (conj Z4 B)). pose proof ln_lt_2. lra.
Qed.
(** distances 1, 2, 3: the hypotheses of bandwidth_correct_partial *)
Example bandwidth_case : Forall (fun a => 0 < a) [1; 2; 3] /\ (forall i, (i < 3)%nat -> i <> 0%nat -> vget [1; 2; 3] 0 < vget [1; 2; 3] i) /\
  1 <= vmax [1; 2; 3] ^ 2 + vget [1; 2; 3] 0 ^ 2 /\ 2 <= 2 < INR 3 /\ exists p1, p1_post (INR 3) 2 p1.
Proof.
  split; [repeat constructor; lra|]. split; [intros [|[|[|i]]] Hi Ni; try lia; unfold vget; simpl; lra|]. split; [|split; [simpl; lra|apply p1_exists; simpl; lra]].
  unfold vget; simpl nth. pose proof (pow2_ge_0 (vmax [1; 2; 3])). lra.
Qed.
