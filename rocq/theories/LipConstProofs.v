(** LipschitzConstant.fit (C29). *)
Require Import Reals Lra Lia List Bool Arith.
From Verif Require Import RVec Num Sums DomMoreModel HullIneqProofs VecTac ArnoldiMoreProofs MatLib LipModel LipProofs.
Import ListNotations.
Local Open Scope R_scope.

Lemma in_pairs : forall n i j, In (i, j) (pairs n) <-> (i < j < n)%nat.
Proof.
  intros n i j. unfold pairs. rewrite in_flat_map. split.
  - intros [a [Ha H]]. apply in_map_iff in H. destruct H as [b [E H]]. injection E as <- <-. apply in_seq in Ha, H. lia.
  - intros [H1 H2]. exists i. split; [apply in_seq; lia|]. apply in_map_iff. exists j. split; auto. apply in_seq. lia.
Qed.
Lemma pairs_ne : forall n, (2 <= n)%nat -> pairs n <> [].
Proof. intros n H E. assert (I : In (0, 1)%nat (pairs n)) by (apply in_pairs; lia). rewrite E in I. auto. Qed.
Lemma pairs_short : forall n, (n < 2)%nat -> pairs n = [].
Proof. intros [|[|n]] H; auto. lia. Qed.

(** ** specification *)
(** a constant l explaining all the data up to e *)
Definition lip_ok (X : mat) (fX : vec) (grads : mat) (e l : R) : Prop :=
  0 <= l /\ (forall i j, (i < j < length X)%nat -> Rabs (vget fX i - vget fX j) <= l * norm2 (vsub (nth i X []) (nth j X [])) + e)
  /\ (forall g, In g grads -> norm2 g <= l).
Definition least (P : R -> Prop) (l : R) : Prop := P l /\ forall l', P l' -> l <= l'.
(** sample points pairwise different *)
Definition apart (X : mat) : Prop := forall i j, (i < j < length X)%nat -> 0 < norm2 (vsub (nth i X []) (nth j X [])).

Lemma npmax_fin : forall l, l <> [] -> npmax (map Fin l) = Some (Fin (vmax l)).
Proof.
  intros [|a l] H; [congruence|]. unfold npmax. cbn [map vmax]. rewrite <- nmax_fold, fold_map. reflexivity.
Qed.
Lemma pymax_fin : forall a b, pymax (Fin a) (Fin b) = Fin (Rmax a b).
Proof.
  intros a b. unfold pymax, nltb. destruct (Rltb a b) eqn:E.
  - apply Rltb_true in E. rewrite Rmax_right; [auto|lra].
  - apply Rltb_false in E. rewrite Rmax_left; [auto|lra].
Qed.
Lemma ratios_fin : forall X fX e, apart X ->
  lc_ratios X fX (Fin e) = map Fin (map (fun ij => (Rabs (vget fX (fst ij) - vget fX (snd ij)) - e) / norm2 (vsub (nth (fst ij) X []) (nth (snd ij) X []))) (pairs (length X))).
Proof.
  intros X fX e A. unfold lc_ratios. rewrite map_map. apply map_ext_in. intros [i j] H. apply in_pairs in H. cbn [fst snd nsub nadd nopp ndivr].
  specialize (A i j H). destruct (Req_EM_T _ 0); [lra|]. f_equal.
Qed.
Lemma scale_pos : forall fX grads, fX = [] \/ grads = [] -> 1 <= lip_scale fX grads.
Proof. intros fX grads [->| ->]; unfold lip_scale; [apply Rmax_l|apply Rmax_r]. Qed.
Lemma match_ne : forall A B (l : list A) (a b : B), l <> [] -> match l with [] => a | _ => b end = b.
Proof. intros A B [|x l] a b H; congruence. Qed.
(** what fit computes: the smallest constant for the tolerance epsilon/scale *)
Theorem lc_fit_least : forall eps X fX grads, (length X <> 1)%nat -> apart X -> (eps <> None -> 0 < lip_scale fX grads) ->
  exists l, lc_fit eps X fX grads = Some (Fin l) /\ least (lip_ok X fX grads (slack eps / lip_scale fX grads)) l.
Proof.
  intros eps X fX grads N1 A SP. set (e := slack eps / lip_scale fX grads).
  assert (E : lip_eps eps (lip_scale fX grads) = Fin e).
  { unfold lip_eps, e. destruct eps as [e'|]; cbn [slack].
    - specialize (SP ltac:(discriminate)). cbn [ndivr]. destruct (Req_EM_T _ 0); [lra|]. reflexivity.
    - f_equal. unfold Rdiv. ring. }
  assert (G : exists l1, match X with [] => Some (Fin 0) | _ => match npmax (lc_ratios X fX (Fin e)) with None => None | Some s => Some (pymax (Fin 0) s) end end = Some (Fin l1)
     /\ least (lip_ok X fX [] e) l1).
  { assert (DX : X = [] \/ (2 <= length X)%nat) by (destruct X as [|x0 [|x1 X']]; [left; auto|simpl in N1; lia|right; simpl; lia]). destruct DX as [->|N2].
    - exists 0. split; auto. split; [|intros l' [H _]; auto]. split; [lra|split; [intros i j H; simpl in H; lia|intros g []]].
    - rewrite match_ne by (intros ->; simpl in N2; lia). rewrite ratios_fin by auto. set (rs := map _ (pairs (length X))).
      assert (NE : rs <> []) by (unfold rs; intro Z; apply map_eq_nil in Z; exact (pairs_ne _ N2 Z)).
      rewrite npmax_fin by auto. rewrite pymax_fin. exists (Rmax 0 (vmax rs)). split; [reflexivity|]. destruct (vmax_spec rs NE) as [U I]. split.
      + split; [apply Rmax_l|split; [|intros g []]]. intros i j Hij. specialize (A i j Hij).
        assert (B : (Rabs (vget fX i - vget fX j) - e) / norm2 (vsub (nth i X []) (nth j X [])) <= Rmax 0 (vmax rs)).
        { eapply Rle_trans; [|apply Rmax_r]. apply U. unfold rs. apply in_map_iff. exists (i, j). split; auto. apply in_pairs. auto. }
        apply Rmult_le_compat_r with (r := norm2 (vsub (nth i X []) (nth j X []))) in B; [|lra]. unfold Rdiv in B. rewrite Rmult_assoc, Rinv_l, Rmult_1_r in B by lra. lra.
      + intros l' [P0 [P1 _]]. apply Rmax_lub; auto. apply in_map_iff in I. destruct I as [[i j] [EI I]]. rewrite <- EI. apply in_pairs in I. cbn [fst snd]. specialize (A i j I). specialize (P1 i j I).
        apply Rmult_le_reg_r with (norm2 (vsub (nth i X []) (nth j X []))); auto. unfold Rdiv. rewrite Rmult_assoc, Rinv_l, Rmult_1_r by lra. lra. }
  destruct G as [l1 [G1 [[Ga [Gb _]] Gc]]]. unfold lc_fit. rewrite E. rewrite G1. destruct grads as [|g0 gs] eqn:EG.
  - exists l1. split; auto. split; [split; [auto|split; [auto|intros g []]]|]. intros l' P. apply Gc. exact P.
  - clear EG SP E. set (gr := g0 :: gs) in *. rewrite pymax_fin. exists (Rmax l1 (vmax (map norm2 gr))). split; auto.
    destruct (vmax_spec (map norm2 gr)) as [U I]; [discriminate|]. split.
    + split; [eapply Rle_trans; [exact Ga|apply Rmax_l]|split].
      * intros i j Hij. eapply Rle_trans; [apply Gb; auto|]. apply Rplus_le_compat_r, Rmult_le_compat_r; [apply norm2_nonneg|apply Rmax_l].
      * intros g Hg. eapply Rle_trans; [apply U, in_map; exact Hg|apply Rmax_r].
    + intros l' [P0 [P1 P2]]. apply Rmax_lub; [apply Gc; split; auto; split; auto; intros g []|]. apply in_map_iff in I. destruct I as [g [<- Hg]]. auto.
Qed.
(** without a tolerance it is the smallest consistent constant *)
Theorem lc_fit_exact : forall X fX grads, (length X <> 1)%nat -> apart X ->
  exists l, lc_fit None X fX grads = Some (Fin l) /\ least (lip_ok X fX grads 0) l.
Proof.
  intros X fX grads N1 A. destruct (lc_fit_least None X fX grads N1 A) as [l [E H]]; [congruence|]. exists l. split; auto.
  cbn [slack] in H. unfold Rdiv in H. rewrite Rmult_0_l in H. auto.
Qed.
(** the result decreases as the tolerance grows, and never falls below the gradients *)
Theorem lc_fit_feasible_small_scale : forall e X fX grads, (length X <> 1)%nat -> apart X -> 0 <= e -> 1 <= lip_scale fX grads ->
  exists l, lc_fit (Some e) X fX grads = Some (Fin l) /\ lip_ok X fX grads e l.
Proof.
  intros e X fX grads N1 A E0 S1. destruct (lc_fit_least (Some e) X fX grads N1 A) as [l [E [[H0 [H1 H2]] _]]]; [intros _; lra|]. exists l. split; auto. split; auto. split; auto.
  intros i j Hij. eapply Rle_trans; [apply H1; auto|]. apply Rplus_le_compat_l. cbn [slack]. unfold Rdiv. rewrite <- (Rmult_1_r e) at 2. apply Rmult_le_compat_l; auto.
  rewrite <- Rinv_1. apply Rinv_le_contravar; lra.
Qed.
(** one sample: np.max of an empty list raises *)
Theorem lc_single_refuted : exists X fX, length X = 1%nat /\ length fX = 1%nat /\ least (lip_ok X fX [] 0) 0 /\ forall eps grads, lc_fit eps X fX grads = None.
Proof.
  exists [[0]], [5]. split; auto. split; auto. split.
  - split; [split; [lra|split; [intros i j H; simpl in H; lia|intros g []]]|]. intros l' [H _]. auto.
  - intros eps grads. reflexivity.
Qed.

Lemma vget2_0 : forall a b : R, vget [a; b] 0 = a. Proof. reflexivity. Qed.
Lemma vget2_1 : forall a b : R, vget [a; b] 1 = b. Proof. reflexivity. Qed.
Example ex_apart : apart [[0]; [1]].
Proof.
  intros i j H. simpl in H. assert (i = 0%nat /\ j = 1%nat) as [-> ->] by lia. cbn [nth]. n1. unfold Rabs. destruct (Rcase_abs _); lra.
Qed.
Lemma ok2 : forall a b gs e l, 0 <= l -> Rabs (a - b) <= l + e -> (forall g, In g gs -> norm2 g <= l) -> lip_ok [[0]; [1]] [a; b] gs e l.
Proof.
  intros a b gs e l H0 H1 H2. split; auto. split; auto. intros i j H. simpl in H. assert (i = 0%nat /\ j = 1%nat) as [-> ->] by lia. rewrite vget2_0, vget2_1. cbn [nth]. n1.
  replace (Rabs (0 - 1)) with 1 by (rewrite Rabs_left; lra). lra.
Qed.
Lemma ok2_inv : forall a b gs e l, lip_ok [[0]; [1]] [a; b] gs e l -> Rabs (a - b) <= l + e.
Proof.
  intros a b gs e l [_ [H _]]. specialize (H 0%nat 1%nat ltac:(simpl; lia)). rewrite vget2_0, vget2_1 in H. cbn [nth] in H. revert H. n1.
  replace (Rabs (0 - 1)) with 1 by (rewrite Rabs_left; lra). lra.
Qed.
(** finding: epsilon is divided by the scale although the values are not.  Too large: values 0, 4, epsilon 1 give 15/4 instead of 3 *)
Theorem lc_eps_large_refuted : exists X fX e, (length X = 2)%nat /\ apart X /\ 0 <= e /\ least (lip_ok X fX [] e) 3 /\ lc_fit (Some e) X fX [] = Some (Fin (15 / 4)).
Proof.
  exists [[0]; [1]], [0; 4], 1. split; auto. split; [apply ex_apart|]. split; [lra|]. split.
  - split; [apply ok2; [lra| |intros g []]; rewrite Rabs_left; lra|]. intros l' H. apply ok2_inv in H. rewrite Rabs_left in H; lra.
  - unfold lc_fit, lip_eps, lip_scale, lc_ratios. cbn [vmax vmin fold_left]. rewrite (Rmax_right 0 4), (Rmin_left 0 4) by lra. rewrite (Rmax_left (4 - 0) 1) by lra.
    cbn [ndivr]. destruct (Req_EM_T _ 0) as [Z|Z]; [lra|]. cbn [length]. change (pairs 2) with [(0, 1)%nat]. cbn [map fst snd nth]. rewrite vget2_0, vget2_1. n1.
    cbn [nsub nadd nopp ndivr]. destruct (Req_EM_T _ 0) as [Z'|Z']; [rewrite Rabs_left in Z'; lra|]. cbn [npmax fold_left]. rewrite pymax_fin. do 2 f_equal.
    replace (Rabs (0 - 4)) with 4 by (rewrite Rabs_left; lra). replace (Rabs (0 - 1)) with 1 by (rewrite Rabs_left; lra). rewrite Rmax_right; lra.
Qed.
(** ... and too small, hence violating the data: values 0, 1/2, gradient 1/10, epsilon 1/5 give 1/10 *)
Theorem lc_eps_small_refuted : exists X fX grads e l, (length X = 2)%nat /\ apart X /\ 0 <= e /\ 0 < lip_scale fX grads /\ lc_fit (Some e) X fX grads = Some (Fin l) /\ ~ lip_ok X fX grads e l.
Proof.
  exists [[0]; [1]], [0; / 2], [[/ 10]], (/ 5), (/ 10). split; auto. split; [apply ex_apart|]. split; [lra|].
  assert (S : lip_scale [0; / 2] [[/ 10]] = / 2).
  { unfold lip_scale. cbn [vmax vmin fold_left map]. rewrite norm2_1. rewrite (Rmax_right 0 (/ 2)), (Rmin_left 0 (/ 2)) by lra. rewrite Rabs_right by lra. rewrite Rmax_left; lra. }
  split; [rewrite S; lra|]. split.
  - unfold lc_fit, lip_eps. rewrite S. unfold lc_ratios. cbn [ndivr]. destruct (Req_EM_T _ 0) as [Z|Z]; [lra|]. cbn [length]. change (pairs 2) with [(0, 1)%nat]. cbn [map fst snd nth]. rewrite vget2_0, vget2_1. n1.
    cbn [nsub nadd nopp ndivr]. destruct (Req_EM_T _ 0) as [Z'|Z']; [rewrite Rabs_left in Z'; lra|]. cbn [npmax fold_left]. rewrite !pymax_fin. cbn [vmax fold_left]. do 2 f_equal.
    replace (Rabs (0 - / 2)) with (/ 2) by (rewrite Rabs_left; lra). replace (Rabs (0 - 1)) with 1 by (rewrite Rabs_left; lra). rewrite Rabs_right by lra.
    unfold Rmax. repeat destruct (Rle_dec _ _); lra.
  - intro H. apply ok2_inv in H. rewrite Rabs_left in H; lra.
Qed.
