(** One-dimensional designs, coffeehouse design, Sobol sampling. *)
Require Import Reals Lra Lia List Bool Arith ZArith.
From Verif Require Import RVec Num Sums DomModel DomSpec DomProofs DomMoreModel SweepProofs HullIneqProofs LipModel LipProofs SampModel PigeonLib LatinProofs PoissonProofs PoissonGrid PoissonCases.
Import ListNotations.
Local Open Scope R_scope.

(* ------------------------------------------------------------------ *)
(** * Points on a line *)

(** n points cannot cover n+1 equispaced points better than half their spacing *)
Lemma cover_lower : forall lo w N (Y : list R), (0 < N)%nat -> 0 <= w -> length Y = N ->
  exists k, (k <= N)%nat /\ forall y, In y Y -> w / (2 * INR N) <= Rabs (lo + INR k * (w / INR N) - y).
Proof.
  intros lo w N Y HN Hw HY. assert (NP : 0 < INR N) by (apply lt_0_INR; auto). set (p := fun k : nat => lo + INR k * (w / INR N)).
  set (f := fun k => argmin_idx (map (fun y => Rabs (p k - y)) Y)).
  assert (YN : Y <> []) by (intros ->; simpl in HY; lia).
  assert (F : forall k, (f k < N)%nat /\ forall y, In y Y -> Rabs (p k - nth (f k) Y 0) <= Rabs (p k - y)).
  { intros k. assert (NE : map (fun y => Rabs (p k - y)) Y <> []) by (destruct Y; [congruence|discriminate]). destruct (argmin_spec _ NE) as [A B]. fold (f k) in *. rewrite map_length, HY in *. split; auto.
    intros y Hy. destruct (In_nth _ _ 0 Hy) as [i [Hi E]]. rewrite HY in Hi. pose proof (B i Hi) as C.
    assert (G : forall i, (i < length Y)%nat -> vget (map (fun y => Rabs (p k - y)) Y) i = Rabs (p k - nth i Y 0)).
    { intros j Hj. unfold vget. rewrite nth_indep with (d' := (fun y => Rabs (p k - y)) 0) by (rewrite map_length; auto). apply (map_nth (fun y => Rabs (p k - y))). }
    rewrite !G in C by lia. rewrite E in C. auto. }
  destruct (pigeonhole N f) as [i [j [Hij E]]]; [intros i _; apply F|].
  destruct (Rle_or_lt (w / (2 * INR N)) (Rabs (p i - nth (f i) Y 0))) as [C|C].
  - exists i. split; [lia|]. intros y Hy. destruct (F i) as [_ G]. pose proof (G y Hy). fold (p i). lra.
  - destruct (Rle_or_lt (w / (2 * INR N)) (Rabs (p j - nth (f j) Y 0))) as [D|D].
    + exists j. split; [lia|]. intros y Hy. destruct (F j) as [_ G]. pose proof (G y Hy). fold (p j). lra.
    + exfalso. rewrite E in C. set (y := nth (f j) Y 0) in *. assert (P : w / INR N <= p j - p i).
      { unfold p. replace (lo + INR j * (w / INR N) - (lo + INR i * (w / INR N))) with ((INR j - INR i) * (w / INR N)) by ring.
        assert (1 <= INR j - INR i) by (rewrite <- minus_INR by lia; change 1 with (INR 1); apply le_INR; lia).
        assert (0 <= w / INR N) by (apply Rmult_le_pos; [auto|left; apply Rinv_0_lt_compat; auto]). nra. }
      assert (Q : w / (2 * INR N) + w / (2 * INR N) = w / INR N) by (field; lra).
      pose proof (Rle_abs (p j - y)). pose proof (Rle_abs (- (p i - y))). rewrite Rabs_Ropp in *. lra.
Qed.

(** n points of an interval cannot be pairwise farther apart than its width over n - 1 *)
Lemma pack_upper : forall lo w N (Y : list R), (2 <= N)%nat -> length Y = N -> (forall y, In y Y -> lo <= y <= lo + w) ->
  exists i j, (i < j < N)%nat /\ Rabs (nth i Y 0 - nth j Y 0) <= w / INR (N - 1).
Proof.
  intros lo w N Y HN HY HB. assert (NP : 0 < INR (N - 1)) by (apply lt_0_INR; lia).
  assert (B : forall i, (i < N)%nat -> lo <= nth i Y 0 <= lo + w) by (intros i Hi; apply HB, nth_In; lia).
  assert (W : 0 <= w) by (pose proof (B O ltac:(lia)); lra).
  destruct (Req_dec w 0) as [->|Wn].
  - exists O, 1%nat. split; [lia|]. pose proof (B O ltac:(lia)). pose proof (B 1%nat ltac:(lia)). replace (nth 0 Y 0 - nth 1 Y 0) with 0 by lra. rewrite Rabs_R0. unfold Rdiv. lra.
  - set (s := w / INR (N - 1)). assert (S0 : 0 < s) by (apply Rmult_lt_0_compat; [lra|apply Rinv_0_lt_compat; auto]).
    assert (SW : INR (N - 1) * s = w) by (unfold s; field; lra).
    set (f := fun i => Nat.min (Z.to_nat (Int_part ((nth i Y 0 - lo) / s))) (N - 2)).
    destruct (pigeonhole (N - 1) f) as [i [j [Hij E]]]; [intros i _; unfold f; lia|].
    exists i, j. split; [lia|].
    assert (R : forall k, (k < N)%nat -> INR (f k) * s <= nth k Y 0 - lo <= INR (f k) * s + s).
    { intros k Hk. destruct (B k Hk) as [B1 B2]. set (t := (nth k Y 0 - lo) / s) in *. assert (T : nth k Y 0 - lo = t * s) by (unfold t; field; lra).
      assert (T0 : 0 <= t) by (apply Rmult_le_pos; [lra|left; apply Rinv_0_lt_compat; auto]).
      pose proof (int_part_nonneg t T0) as Z0. destruct (int_part_bounds t) as [I1 I2]. assert (IE : INR (Z.to_nat (Int_part t)) = IZR (Int_part t)) by (rewrite INR_IZR_INZ, Z2Nat.id; auto).
      unfold f. fold t. rewrite T. destruct (Nat.min_spec (Z.to_nat (Int_part t)) (N - 2)) as [[Hm ->]|[Hm ->]]; [rewrite IE; split; nra|].
      assert (M1 : INR (N - 2) <= IZR (Int_part t)) by (rewrite <- IE; apply le_INR; auto).
      assert (M2 : INR (N - 1) = INR (N - 2) + 1) by (replace (N - 1)%nat with (S (N - 2)) by lia; apply S_INR). split; nra. }
    pose proof (R i ltac:(lia)) as Ri. pose proof (R j ltac:(lia)) as Rj. rewrite E in Ri. apply Rabs_le. split; lra.
Qed.

(* ------------------------------------------------------------------ *)
(** * minimax_design_1d and maximin_design_1d *)

(** what domain.corner promises: c1 maximises a.x over the domain, c2 minimises it *)
Definition corners (P : vec -> Prop) (a c1 c2 : vec) : Prop := P c1 /\ P c2 /\ length c1 = length c2 /\ forall x, P x -> dot a c2 <= dot a x <= dot a c1.
Definition convexP (P : vec -> Prop) : Prop := forall x y t, P x -> P y -> 0 <= t <= 1 -> P (seg x y t).
(** the distance for a one row metric *)
Lemma Ldist_row : forall a x y, Ldist [a] x y = Rabs (dot a x - dot a y).
Proof. intros. unfold Ldist, mv. cbn [map]. unfold vsub. cbn [vmap2]. apply norm2_1. Qed.

Lemma minimax_point : forall c1 c2 N k, (k < N)%nat -> length c1 = length c2 -> exists X, minimax_1d c1 c2 N = Some X /\ length X = N /\
  nth k X [] = seg c2 c1 ((INR k + / 2) / INR N).
Proof.
  intros c1 c2 N k Hk HL. assert (NP : 0 < INR N) by (apply lt_0_INR; lia). unfold minimax_1d. destruct N as [|n]; [lia|]. set (N := S n) in *. eexists. split; [reflexivity|]. rewrite !map_length, seq_length. split; auto.
  rewrite map_map, (nth_map_seq vec (fun k => vadd (vscale (1 / INR N / 2 + 1 / INR N * INR k) c1) (vscale (1 - (1 / INR N / 2 + 1 / INR N * INR k)) c2))) by auto.
  replace (1 / INR N / 2 + 1 / INR N * INR k) with ((INR k + / 2) / INR N) by (field; lra). set (t := (INR k + / 2) / INR N).
  apply vec_ext; [rewrite seg_length, vadd_length; rewrite ?vscale_length; auto|]. intros i Hi. rewrite seg_get by auto. rewrite vadd_get by (rewrite !vscale_length; auto). rewrite !vscale_get. ring.
Qed.
Theorem minimax_1d_optimal : forall (P : vec -> Prop) a c1 c2 N, (0 < N)%nat -> convexP P -> corners P a c1 c2 ->
  let w := dot a c1 - dot a c2 in
  exists X, minimax_1d c1 c2 N = Some X /\ length X = N /\ Forall P X /\
    (forall x, P x -> exists y, In y X /\ Ldist [a] x y <= w / (2 * INR N)) /\
    (forall Y : mat, length Y = N -> exists x, P x /\ forall y, In y Y -> w / (2 * INR N) <= Ldist [a] x y).
Proof.
  intros P a c1 c2 N HN HC [P1 [P2 [HL HB]]] w. assert (NP : 0 < INR N) by (apply lt_0_INR; auto).
  destruct (minimax_point c1 c2 N O HN HL) as [X [EX [LX _]]]. exists X. split; auto. split; auto.
  assert (G : forall k, (k < N)%nat -> nth k X [] = seg c2 c1 ((INR k + / 2) / INR N)).
  { intros k Hk. destruct (minimax_point c1 c2 N k Hk HL) as [X' [EX' [_ E]]]. assert (X' = X) by congruence. subst. auto. }
  assert (T : forall k, (k < N)%nat -> 0 <= (INR k + / 2) / INR N <= 1).
  { intros k Hk. pose proof (pos_INR k). assert (INR k + 1 <= INR N) by (rewrite <- S_INR; apply le_INR; lia). split; [apply Rmult_le_pos; [lra|left; apply Rinv_0_lt_compat; auto]|].
    apply Rmult_le_reg_r with (INR N); auto. unfold Rdiv. rewrite Rmult_assoc, Rinv_l by lra. lra. }
  assert (W : 0 <= w) by (unfold w; pose proof (HB c1 P1); lra).
  split; [|split].
  - apply Forall_forall. intros x Hx. destruct (In_nth _ _ [] Hx) as [k [Hk <-]]. rewrite LX in Hk. rewrite G by auto. apply HC; auto.
  - intros x Px. destruct (HB x Px) as [B1 B2]. destruct (Req_dec w 0) as [W0|W0].
    + exists (nth O X []). split; [apply nth_In; lia|]. rewrite Ldist_row, G, dot_seg by auto. replace (dot a x - _) with 0; [rewrite Rabs_R0, W0; unfold Rdiv; lra|]. unfold w in W0. replace (dot a c1) with (dot a c2) by lra. assert (dot a x = dot a c2) by lra. rewrite H. ring.
    + set (s := w / INR N). assert (S0 : 0 < s) by (apply Rmult_lt_0_compat; [lra|apply Rinv_0_lt_compat; auto]).
      assert (SW : INR N * s = w) by (unfold s; field; lra). set (t := (dot a x - dot a c2) / s).
      assert (TE : dot a x - dot a c2 = t * s) by (unfold t; field; lra). assert (T0 : 0 <= t) by (apply Rmult_le_pos; [lra|left; apply Rinv_0_lt_compat; auto]).
      pose proof (int_part_nonneg t T0) as Z0. destruct (int_part_bounds t) as [I1 I2]. assert (IE : INR (Z.to_nat (Int_part t)) = IZR (Int_part t)) by (rewrite INR_IZR_INZ, Z2Nat.id; auto).
      set (k := Nat.min (Z.to_nat (Int_part t)) (N - 1)). assert (Hk : (k < N)%nat) by (unfold k; lia).
      exists (nth k X []). split; [apply nth_In; lia|]. rewrite Ldist_row, G, dot_seg by auto.
      replace (dot a x - ((1 - (INR k + / 2) / INR N) * dot a c2 + (INR k + / 2) / INR N * dot a c1)) with (t * s - (INR k + / 2) * s) by (rewrite <- TE; unfold s, w; field; lra).
      replace (w / (2 * INR N)) with (s / 2) by (unfold s; field; lra).
      assert (K : INR k <= t <= INR k + 1).
      { unfold k. destruct (Nat.min_spec (Z.to_nat (Int_part t)) (N - 1)) as [[Hm ->]|[Hm ->]]; [rewrite IE; lra|].
        assert (M1 : INR (N - 1) <= IZR (Int_part t)) by (rewrite <- IE; apply le_INR; auto).
        assert (M2 : INR N = INR (N - 1) + 1) by (replace N with (S (N - 1)) at 1 by lia; apply S_INR).
        assert (dot a x - dot a c2 <= w) by (unfold w; lra). split; [lra|]. apply Rmult_le_reg_r with s; auto. nra. }
      apply Rabs_le. split; nra.
  - intros Y HY. destruct (cover_lower (dot a c2) w N (map (dot a) Y) HN W) as [k [Hk HK]]; [rewrite map_length; auto|].
    exists (seg c2 c1 (INR k / INR N)). split.
    + apply HC; auto. pose proof (pos_INR k). assert (INR k <= INR N) by (apply le_INR; auto). split; [apply Rmult_le_pos; [lra|left; apply Rinv_0_lt_compat; auto]|].
      apply Rmult_le_reg_r with (INR N); auto. unfold Rdiv. rewrite Rmult_assoc, Rinv_l by lra. lra.
    + intros y Hy. rewrite Ldist_row, dot_seg by auto. replace ((1 - INR k / INR N) * dot a c2 + INR k / INR N * dot a c1) with (dot a c2 + INR k * (w / INR N)) by (unfold w; field; lra).
      apply HK. apply in_map. auto.
Qed.
Theorem minimax_1d_none : forall c1 c2, minimax_1d c1 c2 0 = None.
Proof. reflexivity. Qed.

Lemma maximin_point : forall c1 c2 N k, (k < N)%nat -> length c1 = length c2 -> nth k (maximin_1d c1 c2 N) [] = seg c2 c1 (INR k / INR (N - 1)).
Proof.
  intros c1 c2 N k Hk HL. unfold maximin_1d. rewrite nth_indep with (d' := (fun a => vadd (vscale a c1) (vscale (1 - a) c2)) 0) by (rewrite map_length, linspace_length; auto).
  rewrite (map_nth (fun a => vadd (vscale a c1) (vscale (1 - a) c2))). change (nth k (linspace 0 1 N) 0) with (vget (linspace 0 1 N) k). rewrite linspace_get by auto. rewrite Rminus_0_r, Rplus_0_l.
  replace (INR k * (1 / INR (N - 1))) with (INR k / INR (N - 1)) by (unfold Rdiv; ring).
  apply vec_ext; [rewrite seg_length, vadd_length; rewrite ?vscale_length; auto|]. intros i Hi. rewrite seg_get by auto. rewrite vadd_get by (rewrite !vscale_length; auto). rewrite !vscale_get. ring.
Qed.
Lemma maximin_len : forall c1 c2 N, length (maximin_1d c1 c2 N) = N.
Proof. intros. unfold maximin_1d. rewrite map_length, linspace_length. auto. Qed.
Theorem maximin_1d_optimal : forall (P : vec -> Prop) a c1 c2 N, (2 <= N)%nat -> convexP P -> corners P a c1 c2 ->
  let w := dot a c1 - dot a c2 in let X := maximin_1d c1 c2 N in
  length X = N /\ Forall P X /\ (forall i j, (i < j < N)%nat -> w / INR (N - 1) <= Ldist [a] (nth i X []) (nth j X [])) /\
  (forall Y : mat, length Y = N -> Forall P Y -> exists i j, (i < j < N)%nat /\ Ldist [a] (nth i Y []) (nth j Y []) <= w / INR (N - 1)).
Proof.
  intros P a c1 c2 N HN HC [P1 [P2 [HL HB]]] w X. assert (NP : 0 < INR (N - 1)) by (apply lt_0_INR; lia). unfold X.
  assert (W : 0 <= w) by (unfold w; pose proof (HB c1 P1); lra).
  split; [apply maximin_len|]. split; [|split].
  - apply Forall_forall. intros x Hx. destruct (In_nth _ _ [] Hx) as [k [Hk <-]]. rewrite maximin_len in Hk. rewrite maximin_point by auto. apply HC; auto.
    pose proof (pos_INR k). assert (INR k <= INR (N - 1)) by (apply le_INR; lia). split; [apply Rmult_le_pos; [lra|left; apply Rinv_0_lt_compat; auto]|].
    apply Rmult_le_reg_r with (INR (N - 1)); auto. unfold Rdiv. rewrite Rmult_assoc, Rinv_l by lra. lra.
  - intros i j Hij. rewrite Ldist_row, !maximin_point, !dot_seg by (auto; lia).
    replace (_ - _) with (- ((INR j - INR i) * (w / INR (N - 1)))) by (unfold w; field; lra). rewrite Rabs_Ropp.
    assert (1 <= INR j - INR i) by (rewrite <- minus_INR by lia; change 1 with (INR 1); apply le_INR; lia).
    assert (0 <= w / INR (N - 1)) by (apply Rmult_le_pos; [auto|left; apply Rinv_0_lt_compat; auto]). rewrite Rabs_right; nra.
  - intros Y HY FY. destruct (pack_upper (dot a c2) w N (map (dot a) Y) HN) as [i [j [Hij HD]]].
    + rewrite map_length. auto.
    + intros y Hy. apply in_map_iff in Hy. destruct Hy as [x [<- Hx]]. rewrite Forall_forall in FY. pose proof (HB x (FY x Hx)). unfold w. lra.
    + exists i, j. split; auto. rewrite Ldist_row. assert (G : forall k, (k < N)%nat -> nth k (map (dot a) Y) 0 = dot a (nth k Y [])).
      { intros k Hk. rewrite nth_indep with (d' := dot a []) by (rewrite map_length; lia). apply map_nth. }
      rewrite !G in HD by lia. auto.
Qed.
(** a linear domain is convex, so both theorems apply to it *)
Lemma member_convexP : forall d, dom_wf d -> convexP (member d).
Proof. intros d W x y t Hx Hy Ht. apply member_convex; auto. Qed.

(** the box [0,1] x [0,2], metric a = (1,1): width 3 *)
Definition ex_sq (x : vec) : Prop := exists p q, x = [p; q] /\ 0 <= p <= 1 /\ 0 <= q <= 2.
Example ex_corners : convexP ex_sq /\ corners ex_sq [1; 1] [1; 2] [0; 0] /\ dot [1; 1] [1; 2] - dot [1; 1] [0; 0] = 3.
Proof.
  assert (D : forall p q, dot [1; 1] [p; q] = p + q) by (intros; rewrite !dot_cons; change (dot [] []) with 0; ring).
  split; [|split].
  - intros x y t [p [q [-> [H1 H2]]]] [p' [q' [-> [H3 H4]]]] Ht. exists ((1 - t) * p + t * p'), ((1 - t) * q + t * q'). split; [reflexivity|]. split; nra.
  - split; [|split; [|split; [reflexivity|]]]; [exists 1, 2|exists 0, 0|]; try (split; [reflexivity|lra]). intros x [p [q [-> [H1 H2]]]]. rewrite !D. lra.
  - rewrite !D. lra.
Qed.
