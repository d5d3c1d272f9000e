(** Standardized data of OuterProductGradient, and which perplexities local_linear accepts. *)
Require Import Reals Lra Lia List Bool Arith.
From Verif Require Import RVec Num Sums DomMoreModel BasisModel SweepProofs HullProofs HullIneqProofs QuadProofs LipModel LipTight SubModel LocalLinProofs.
Import ListNotations.
Local Open Scope R_scope.

Definition entries (X : mat) (k : nat) : vec := map (fun x => vget x k) X.
Lemma vsum_shift : forall (x : vec) mu, vsum (map (fun a => a - mu) x) = vsum x - INR (length x) * mu.
Proof. induction x as [|a x IH]; intro mu; [simpl; lra|]. cbn [map length]. rewrite !vsum_cons, IH, S_INR. ring. Qed.
Lemma vsum_mul_r : forall (A : Type) (f : A -> R) c l, vsum (map (fun x => f x * c) l) = vsum (map f l) * c.
Proof. intros A f c l. induction l as [|a l IH]; [simpl; lra|]. cbn [map]. rewrite !vsum_cons, IH. ring. Qed.
(** entries with two different values *)
Lemma spread_pos : forall (x : vec) a b, In a x -> In b x -> a <> b -> 0 < vsum (map (fun c => (c - mean x) * (c - mean x)) x).
Proof.
  intros x a b Ia Ib D. destruct (vsum_nonneg_pos R (fun c => (c - mean x) * (c - mean x)) x) as [_ P]; [intros c _; cbv beta; apply Rle_0_sqr|]. apply P. destruct (Req_dec a (mean x)) as [E|E]; [exists b|exists a]; (split; [auto|]); [apply (Rsqr_pos_lt (b - mean x)); lra|apply (Rsqr_pos_lt (a - mean x)); lra].
Qed.
Lemma opg_entry : forall m X k, Forall (fun x => length x = m) X -> (k < m)%nat -> entries (opg_z m X) k = map (fun a => (a - mean (entries X k)) * / pstd (entries X k)) (entries X k).
Proof.
  intros m X k FX Hk. unfold entries at 1. unfold opg_z. rewrite map_map. unfold entries at 3. rewrite map_map. apply map_ext_in. intros x Ix. rewrite Forall_forall in FX. pose proof (FX x Ix) as Lx. pose proof (opg_mean_len m X). pose proof (opg_std_len m X).
  assert (Lv : length (vsub x (opg_mean m X)) = m) by (rewrite vsub_length; lia).
  rewrite vmul_get by (rewrite map_length; lia). rewrite vsub_get by lia. f_equal.
  - unfold opg_mean. rewrite vget_map_seq by auto. reflexivity.
  - unfold vget. rewrite (nth_indep _ 0 (/ 0)) by (rewrite map_length; lia). rewrite map_nth. f_equal. unfold opg_std. apply (vget_map_seq (fun k0 => pstd (col X k0)) m k). auto.
Qed.
(** the standardized samples have mean zero and variance one in every coordinate that is not constant *)
Theorem opg_standardize : forall m X k, Forall (fun x => length x = m) X -> (k < m)%nat -> (exists a b, In a (entries X k) /\ In b (entries X k) /\ a <> b) ->
  let z := entries (opg_z m X) k in length z = length X /\ vsum z = 0 /\ vsum (map (fun a => a ^ 2) z) = INR (length X).
Proof.
  intros m X k FX Hk (a & b & Ia & Ib & D) z. unfold z. rewrite opg_entry by auto. set (x := entries X k) in *. pose proof (spread_pos x a b Ia Ib D) as SP. assert (Lx : length x = length X) by apply map_length.
  assert (PN : 0 < INR (length x)) by (apply lt_0_INR; destruct x; [contradiction|simpl; lia]).
  assert (PV : 0 < vsum (map (fun c => (c - mean x) * (c - mean x)) x) / INR (length x)) by (apply Rdiv_lt_0_compat; auto).
  assert (ES : pstd x * pstd x = vsum (map (fun c => (c - mean x) * (c - mean x)) x) / INR (length x)). { unfold pstd. rewrite sqrt_sqrt; unfold mean at 1; rewrite map_length; [reflexivity|lra]. }
  assert (PS : pstd x <> 0) by (intro E; rewrite E in ES; lra).
  split; [rewrite map_length; auto|]. split.
  - rewrite vsum_mul_r, vsum_shift. unfold mean. field_simplify_eq; [|split; auto; lra]. ring.
  - rewrite map_map. rewrite (map_ext (fun c => ((c - mean x) * / pstd x) ^ 2) (fun c => (c - mean x) * (c - mean x) * (/ (pstd x * pstd x)))) by (intro; field; auto). rewrite vsum_mul_r, ES, <- Lx. field. split; lra.
Qed.
(** but not identity covariance as documented: equal coordinates stay equal *)
Theorem opg_covariance_refuted : exists m X, Forall (fun x => length x = m) X /\ (forall k, (k < m)%nat -> exists a b, In a (entries X k) /\ In b (entries X k) /\ a <> b) /\ (2 <= m)%nat /\
  vsum (map (fun z => vget z 0 * vget z 1) (opg_z m X)) <> 0.
Proof.
  exists 2%nat, [[0; 0]; [2; 2]]. assert (FX : Forall (fun x : vec => length x = 2%nat) [[0; 0]; [2; 2]]) by repeat constructor. assert (SP : forall k, (k < 2)%nat -> exists a b, In a (entries [[0; 0]; [2; 2]] k) /\ In b (entries [[0; 0]; [2; 2]] k) /\ a <> b).
  { intros [|[|k]] H; [| |lia]; exists 0, 2; cbn; repeat split; auto; lra. }
  split; [auto|]. split; [auto|]. split; [lia|]. destruct (opg_standardize 2 _ 0 FX ltac:(lia) (SP O ltac:(lia))) as (_ & _ & Q). pose proof (opg_entry 2 _ 0 FX ltac:(lia)) as E0. pose proof (opg_entry 2 _ 1 FX ltac:(lia)) as E1.
  change (entries [[0; 0]; [2; 2]] 1) with (entries [[0; 0]; [2; 2]] 0) in E1. rewrite <- E0 in E1. unfold entries in E1, Q. rewrite map_map in Q. set (Z := opg_z 2 [[0; 0]; [2; 2]]) in *.
  rewrite (map_ext_in (fun z => vget z 0 * vget z 1) (fun z => vget z 0 ^ 2)); [rewrite Q; cbn; lra|]. intros z Iz. apply (In_nth _ _ []) in Iz. destruct Iz as (i & Hi & <-).
  assert (G : vget (nth i Z []) 1 = vget (nth i Z []) 0). { pose proof (f_equal (fun l => nth i l (vget [] 1)) E1) as H. cbv beta in H. rewrite (map_nth (fun x => vget x 1)) in H. rewrite H. rewrite (nth_indep _ (vget [] 1) (vget [] 0)) by (rewrite map_length; auto). apply (map_nth (fun x => vget x 0)). }
  rewrite G. ring.
Qed.
Example opg_standardize_case : Forall (fun x => length x = 2%nat) [[0; 1]; [2; 1]; [4; 7]] /\ exists a b, In a (entries [[0; 1]; [2; 1]; [4; 7]] 1) /\ In b (entries [[0; 1]; [2; 1]; [4; 7]] 1) /\ a <> b.
Proof. split; [repeat constructor|]. exists 1, 7. cbn. repeat split; auto. lra. Qed.
(** models are returned exactly for perplexities in [2, M), at most M points and a factor for each of them *)
Lemma loop_iff : forall coef Xt A, (exists B, ll_loop coef Xt A = Some B) <-> (length Xt <= length A)%nat /\ Forall (fun x => coef x <> None) Xt.
Proof.
  intros coef. induction Xt as [|x Xt IH]; intros A; cbn [ll_loop].
  - split; [intros _; split; [simpl; lia|constructor]|intros _; eexists; reflexivity].
  - destruct A as [|a A]; [split; [intros (B & H); discriminate|intros (H & _); simpl in H; lia]|]. destruct (coef x) as [c|] eqn:E.
    + split.
      * intros (B & H). destruct (ll_loop coef Xt A) as [B'|] eqn:EL; [|discriminate]. destruct (proj1 (IH A) (ex_intro _ B' EL)) as [H1 H2]. split; [simpl; lia|]. constructor; [congruence|auto].
      * intros (H1 & H2). inversion H2; subst. destruct (proj2 (IH A)) as (B' & EB); [split; [simpl in H1; lia|auto]|]. rewrite EB. eexists. reflexivity.
    + split; [intros (B & H); discriminate|]. intros (_ & H). inversion H. congruence.
Qed.
Theorem ll_perplexity : forall pb lstsq m X fX p bw Xt, (exists A, local_linear pb lstsq m X fX (Some p) bw Xt = Some A) <->
  length fX = length X /\ 2 <= p < INR (length X) /\ (length (points X Xt) <= length X)%nat /\ Forall (fun x => pb (sqdist X x) p <> None) (points X Xt).
Proof.
  intros pb lstsq m X fX p bw Xt. unfold local_linear. destruct (Nat.eqb_spec (length fX) (length X)) as [EL|NL]; cbn [negb]; [|split; [intros (A & H); discriminate|intros (H & _); congruence]].
  unfold ll_beta. destruct (Rleb 2 p) eqn:E1; [destruct (Rltb p (INR (length X))) eqn:E2|]; cbn [andb].
  - apply Rleb_true in E1. apply Rltb_true in E2. fold (points X Xt). rewrite loop_iff, repeat_length. split.
    + intros (H1 & H2). repeat split; auto. eapply Forall_impl; [|exact H2]. cbv beta. intros x H Q. apply H. rewrite Q. reflexivity.
    + intros (_ & _ & H1 & H2). split; auto. eapply Forall_impl; [|exact H2]. cbv beta. intros x H Q. destruct (pb (sqdist X x) p); [discriminate|congruence].
  - split; [intros (A & H); discriminate|]. intros (_ & (_ & H) & _). apply Rltb_true in H. congruence.
  - split; [intros (A & H); discriminate|]. intros (_ & (H & _) & _). apply Rleb_true in H. congruence.
Qed.
(** without options: more than m + 1 samples in at least one dimension *)
Theorem ll_default : forall pb lstsq m X fX Xt, (exists A, local_linear pb lstsq m X fX None None Xt = Some A) <->
  length fX = length X /\ (1 <= m)%nat /\ (m + 1 < length X)%nat /\ (length (points X Xt) <= length X)%nat /\ Forall (fun x => pb (sqdist X x) (INR (m + 1)) <> None) (points X Xt).
Proof.
  intros pb lstsq m X fX Xt. change (local_linear pb lstsq m X fX None None Xt) with (local_linear pb lstsq m X fX (Some (INR (Nat.min (m + 1) (length X)))) None Xt). rewrite ll_perplexity. change 2 with (INR 2). split.
  - intros (H1 & (H2 & H3) & H4 & H5). apply INR_le in H2. apply INR_lt in H3. rewrite Nat.min_l in H5 by lia. repeat split; auto; lia.
  - intros (H1 & H2 & H3 & H4 & H5). rewrite Nat.min_l by lia. repeat split; auto; [apply le_INR; lia|apply lt_INR; lia].
Qed.
Example ll_perplexity_case : let X := [[0]; [1]; [3]; [4]] in 2 <= 3 < INR (length X) /\ le (length (points X (Some [[2]]))) (length X) /\ Forall (fun x => (fun (_ : vec) (_ : R) => Some 1) (sqdist X x) 3 <> None) (points X (Some [[2]])).
Proof. cbn. repeat split; try lra; try lia. constructor; [discriminate|constructor]. Qed.
