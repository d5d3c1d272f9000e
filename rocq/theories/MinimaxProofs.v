(** Integer bisection, clustering, covering, Lloyd iteration and scaling of minimax designs. *)
Require Import Reals Lra Lia List Bool Arith ZArith.
From Verif Require Import RVec Num Sums DomModel DomSpec DomProofs DomMoreModel SweepProofs HullProofs HullIneqProofs LipModel LipProofs MatLib SampModel PigeonLib LatinProofs PoissonProofs PoissonCases DesignProofs CoffeeProofs GeoModel GeoProofs VoronoiProofs SampMoreModel.
Import ListNotations.
Local Open Scope R_scope.

(* ------------------------------------------------------------------ *)
(** * _int_bisect *)
Lemma mid_adj : forall n1 n2, (n1 < n2)%Z -> let n3 := (if Z.eqb ((n1 + n2) / 2) n1 then (n1 + n2) / 2 + 1 else (n1 + n2) / 2)%Z in
  (n3 = n2 /\ n2 = n1 + 1)%Z \/ (n1 < n3 < n2)%Z.
Proof.
  intros n1 n2 H n3. unfold n3. pose proof (Z.div_mod (n1 + n2) 2 ltac:(lia)). pose proof (Z.mod_pos_bound (n1 + n2) 2 ltac:(lia)).
  destruct (Z.eqb_spec ((n1 + n2) / 2) n1); lia.
Qed.
Lemma same_sign : forall a b c, 0 < a * b -> 0 < b * c -> 0 < a * c.
Proof. intros a b c H1 H2. destruct (Rtotal_order b 0) as [B|[B|B]]; [|subst; lra|]; [assert (a < 0) by nra; assert (c < 0) by nra; nra|assert (0 < a) by nra; assert (0 < c) by nra; nra]. Qed.
Lemma opp_sign : forall a b c, 0 < a * b -> c * a <= 0 -> c * b <= 0.
Proof. intros a b c H1 H2. destruct (Rtotal_order b 0) as [B|[B|B]]; [|subst; lra|]; [assert (a < 0) by nra; assert (0 <= c) by nra; nra|assert (0 < a) by nra; assert (c <= 0) by nra; nra]. Qed.
Lemma bisect_loop_spec : forall fuel f n1 n2, (n1 < n2)%Z -> (Z.to_nat (n2 - n1) <= fuel)%nat -> f n1 <> 0 -> f n2 * f n1 <= 0 ->
  exists n, bisect_loop fuel f n1 n2 = Some (if Rltb 0 (f n1) then n else (n + 1)%Z) /\ (n1 <= n < n2)%Z /\ 0 < f n * f n1 /\ f (n + 1)%Z * f n1 <= 0.
Proof.
  induction fuel as [|fu IH]; intros f n1 n2 H HF NZ HS; [lia|]. cbn [bisect_loop]. pose proof (mid_adj n1 n2 H) as M. cbv zeta in M.
  set (n3 := (if Z.eqb ((n1 + n2) / 2) n1 then (n1 + n2) / 2 + 1 else (n1 + n2) / 2)%Z) in *. destruct M as [[E1 E2]|M].
  - rewrite E1, Z.eqb_refl. exists n1. rewrite <- E2. split; [destruct (Rltb 0 (f n1)); auto|]. split; [lia|]. split; auto. pose proof (Rle_0_sqr (f n1)) as Q. unfold Rsqr in Q. destruct (Req_dec (f n1 * f n1) 0) as [Z|Z]; [|lra]. apply Rmult_integral in Z. tauto.
  - destruct (Z.eqb_spec n3 n2) as [E0|E0]; [lia|]. destruct (Rltb 0 (f n3 * f n1)) eqn:E.
    + apply Rltb_true in E. destruct (IH f n3 n2) as [n [-> [R1 [R2 R3]]]]; [lia|lia|intro Z; rewrite Z in E; lra| |].
      * apply (opp_sign (f n1)); auto. rewrite Rmult_comm. auto.
      * exists n. assert (S1 : Rltb 0 (f n3) = Rltb 0 (f n1)).
        { destruct (Rltb 0 (f n1)) eqn:B; [apply Rltb_true in B; apply Rltb_true; nra|apply Rltb_false in B; apply Rltb_false; nra]. }
        rewrite S1. split; auto. split; [lia|]. split; [eapply same_sign; eauto|eapply opp_sign; eauto].
    + apply Rltb_false in E. destruct (IH f n1 n3) as [n [-> [R1 [R2 R3]]]]; [lia|lia|auto|auto|]. exists n. split; auto. split; [lia|]. auto.
Qed.

(** _int_bisect ends after at most n2 - n1 halvings at two neighbouring integers between which the sign of f(n1) is lost,
    and returns the one where f is positive if f(n1) > 0, the other one otherwise. *)
Theorem int_bisect_correct : forall f n1 n2, (n1 < n2)%Z -> f n1 * f n2 < 0 ->
  exists n, int_bisect (Z.to_nat (n2 - n1)) f n1 n2 = BVal (if Rltb 0 (f n1) then n else (n + 1)%Z) /\ (n1 <= n < n2)%Z /\ 0 < f n * f n1 /\ f (n + 1)%Z * f n1 <= 0.
Proof.
  intros f n1 n2 H HS. unfold int_bisect. assert (E1 : Z.ltb n1 n2 = true) by (apply Z.ltb_lt; auto). assert (E2 : Rltb (f n1 * f n2) 0 = true) by (apply Rltb_true; auto). rewrite E1, E2. simpl negb. cbv iota.
  destruct (bisect_loop_spec (Z.to_nat (n2 - n1)) f n1 n2) as [n [-> Q]]; auto; [intro Z; rewrite Z in HS; lra|lra|]. exists n. auto.
Qed.
Theorem int_bisect_asserts : forall fuel f n1 n2, (n2 <= n1)%Z \/ 0 <= f n1 * f n2 -> int_bisect fuel f n1 n2 = BAssert.
Proof.
  intros fuel f n1 n2 H. unfold int_bisect. destruct (Z.ltb_spec n1 n2); auto. simpl. destruct H as [H|H]; [lia|]. assert (E : Rltb (f n1 * f n2) 0 = false) by (apply Rltb_false; auto). rewrite E. auto.
Qed.
(** for an increasing function the result is the smallest integer of [n1, n2] where f is not negative *)
Theorem int_bisect_increasing : forall f n1 n2, (n1 < n2)%Z -> f n1 < 0 -> 0 < f n2 -> (forall a b, (n1 <= a <= b)%Z -> (b <= n2)%Z -> f a <= f b) ->
  exists n, int_bisect (Z.to_nat (n2 - n1)) f n1 n2 = BVal n /\ (n1 <= n <= n2)%Z /\ 0 <= f n /\ forall k, (n1 <= k <= n2)%Z -> 0 <= f k -> (n <= k)%Z.
Proof.
  intros f n1 n2 H H1 H2 MO. destruct (int_bisect_correct f n1 n2 H) as [n [E [R [A B]]]]; [nra|]. assert (Ef : Rltb 0 (f n1) = false) by (apply Rltb_false; lra). rewrite Ef in E.
  exists (n + 1)%Z. split; auto. split; [lia|]. split; [nra|]. intros k Hk Pk. destruct (Z_lt_le_dec k (n + 1)); auto. pose proof (MO k n ltac:(lia) ltac:(lia)). nra.
Qed.
Theorem int_bisect_smallest_partial : forall f n1 n2, (n1 < n2)%Z -> f n1 < 0 -> 0 < f n2 -> (forall a b, (n1 <= a <= b)%Z -> (b <= n2)%Z -> f a <= f b) -> (forall k, (n1 <= k <= n2)%Z -> f k <> 0) ->
  exists n, int_bisect (Z.to_nat (n2 - n1)) f n1 n2 = BVal n /\ 0 < f n /\ forall k, (n1 <= k <= n2)%Z -> 0 < f k -> (n <= k)%Z.
Proof.
  intros f n1 n2 H H1 H2 MO NZ. destruct (int_bisect_increasing f n1 n2 H H1 H2 MO) as [n [E [R [A B]]]]. exists n. split; auto. split; [pose proof (NZ n R); lra|]. intros k Hk Pk. apply B; auto. lra.
Qed.
(** "the smallest integer where fun is positive" fails when the function has a zero ... *)
Theorem int_bisect_zero_refuted : exists (f : Z -> R) n1 n2 n, (n1 < n2)%Z /\ f n1 * f n2 < 0 /\ (forall a b, (a <= b)%Z -> f a <= f b) /\ int_bisect (Z.to_nat (n2 - n1)) f n1 n2 = BVal n /\ ~ 0 < f n.
Proof.
  exists IZR, (-1)%Z, 2%Z, 0%Z. split; [lia|]. split; [lra|]. split; [intros; apply IZR_le; auto|]. split; [|lra].
  unfold int_bisect. change (Z.ltb (-1) 2) with true. cbn [negb]. assert (E : Rltb (-1 * 2) 0 = true) by (apply Rltb_true; lra). rewrite E. cbn [negb]. change (Z.to_nat (2 - -1)) with 3%nat. cbn [bisect_loop].
  change ((-1 + 2) / 2)%Z with 0%Z. cbn [Z.eqb]. assert (E2 : Rltb 0 (0 * -1) = false) by (apply Rltb_false; lra). rewrite E2. change ((-1 + 0) / 2)%Z with (-1)%Z. cbn [Z.eqb Z.add Pos.eqb Z.pos_sub].
  assert (E3 : Rltb 0 (-1) = false) by (apply Rltb_false; lra). rewrite E3. reflexivity.
Qed.
(** ... or is decreasing, where it returns the largest such integer *)
Theorem int_bisect_decreasing_refuted : exists (f : Z -> R) n1 n2 n, (n1 < n2)%Z /\ f n1 * f n2 < 0 /\ (forall a b, (a <= b)%Z -> f b <= f a) /\ (forall k, f k <> 0) /\
  int_bisect (Z.to_nat (n2 - n1)) f n1 n2 = BVal n /\ exists k, (n1 <= k < n)%Z /\ 0 < f k.
Proof.
  exists (fun k => 3/2 - IZR k), 0%Z, 3%Z, 1%Z. split; [lia|]. split; [lra|]. split; [intros a b H; apply IZR_le in H; lra|]. split.
  { intros k H. assert (E : IZR (2 * k) = IZR 3) by (rewrite mult_IZR; lra). apply eq_IZR in E. lia. }
  split; [|exists 0%Z; split; [lia|lra]].
  unfold int_bisect. change (Z.ltb 0 3) with true. cbn [negb]. assert (E : Rltb ((3/2 - 0) * (3/2 - 3)) 0 = true) by (apply Rltb_true; lra). rewrite E. cbn [negb]. change (Z.to_nat (3 - 0)) with 3%nat. cbn [bisect_loop].
  change ((0 + 3) / 2)%Z with 1%Z. cbn [Z.eqb Pos.eqb]. assert (E2 : Rltb 0 ((3/2 - 1) * (3/2 - 0)) = true) by (apply Rltb_true; lra). rewrite E2. change ((1 + 3) / 2)%Z with 2%Z. cbn [Z.eqb Pos.eqb].
  assert (E3 : Rltb 0 ((3/2 - 2) * (3/2 - 1)) = false) by (apply Rltb_false; lra). rewrite E3. change ((1 + 2) / 2)%Z with 1%Z. cbn [Z.eqb Pos.eqb Z.add Pos.add Pos.succ].
  assert (E4 : Rltb 0 (3/2 - 1) = true) by (apply Rltb_true; lra). rewrite E4. reflexivity.
Qed.
Example ex_bisect : exists n, int_bisect (Z.to_nat (10 - 0)) (fun k => IZR k - 13/2) 0 10 = BVal n /\ 0 < IZR n - 13/2 /\ forall k, (0 <= k <= 10)%Z -> 0 < IZR k - 13/2 -> (n <= k)%Z.
Proof.
  apply (int_bisect_smallest_partial (fun k => IZR k - 13/2)); try lia; try lra.
  - intros a b H _. destruct H as [_ H]. apply IZR_le in H. lra.
  - intros k _ H. assert (E : IZR (2 * k) = IZR 13) by (rewrite mult_IZR; lra). apply eq_IZR in E. lia.
Qed.

(* ------------------------------------------------------------------ *)
(** * minimax_cluster *)
(** the designs whose distance is evaluated *)
Fixpoint scored (n it : nat) (L X : mat) (N : nat) (xtol : R) (center : nat -> mat -> vec -> vec) (Xhat : mat) (Iold : list nat) : list mat :=
  match n with
  | O => []
  | S n' => let I := assign L Xhat X in
            let Xnew := map (fun i => center it (cluster_of I i (map (mv L) X)) (nth i Xhat [])) (seq 0 N) in
            Xhat :: (if nat_list_eqb Iold I then [] else if Rltb (move_max Xnew Xhat) xtol then [] else scored n' (S it) L X N xtol center Xnew I)
  end.
Lemma mc_best_spec : forall best Xhat d, exists v, snd (mc_best best Xhat d) = Some v /\ v <= d /\ (forall b, snd best = Some b -> v <= b) /\ (mc_best best Xhat d = best \/ mc_best best Xhat d = (Xhat, Some d)).
Proof.
  intros [Xb [b|]] Xhat d; unfold mc_best; cbn [snd].
  - destruct (Rltb d b) eqn:E; cbn [snd]; [apply Rltb_true in E; exists d|apply Rltb_false in E; exists b]; (split; [auto|split; [lra|split; [intros b' Hb; inversion Hb; subst; lra|auto]]]).
  - exists d. cbn [snd]. split; auto. split; [lra|]. split; [discriminate|auto].
Qed.
Lemma mc_loop_spec : forall n it L X N xtol center Xhat Iold best, (exists b, snd best = Some b) \/ (0 < n)%nat ->
  exists v, snd (mc_loop n it L X N xtol center Xhat Iold best) = Some v /\ (forall b, snd best = Some b -> v <= b) /\ (forall Z, In Z (scored n it L X N xtol center Xhat Iold) -> v <= mm_dist L Z X) /\
   (mc_loop n it L X N xtol center Xhat Iold best = best \/ exists Z, In Z (scored n it L X N xtol center Xhat Iold) /\ mc_loop n it L X N xtol center Xhat Iold best = (Z, Some (mm_dist L Z X))).
Proof.
  induction n as [|n IH]; intros it L X N xtol center Xhat Iold best HB.
  - destruct HB as [[b Hb]|HB]; [|lia]. cbn [mc_loop scored]. exists b. split; auto. split; [intros b' Hb'; rewrite Hb in Hb'; inversion Hb'; lra|]. split; [intros Z []|auto].
  - cbn [mc_loop scored]. set (I := assign L Xhat X). set (d := mm_dist L Xhat X). set (b1 := mc_best best Xhat d). set (Xnew := map (fun i => center it (cluster_of I i (map (mv L) X)) (nth i Xhat [])) (seq 0 N)).
    destruct (mc_best_spec best Xhat d) as [v1 [E1 [E2 [E3 E4]]]]. fold b1 in E1, E4.
    assert (ST : exists v, snd b1 = Some v /\ (forall b, snd best = Some b -> v <= b) /\ (forall Z, In Z [Xhat] -> v <= mm_dist L Z X) /\ (b1 = best \/ exists Z, In Z [Xhat] /\ b1 = (Z, Some (mm_dist L Z X)))).
    { exists v1. split; auto. split; auto. split; [intros Z [<-|[]]; auto|]. destruct E4 as [->| ->]; auto. right. exists Xhat. split; [left; auto|auto]. }
    destruct (nat_list_eqb Iold I); [exact ST|]. destruct (Rltb (move_max Xnew Xhat) xtol); [exact ST|].
    destruct (IH (S it) L X N xtol center Xnew I b1) as [v [F1 [F2 [F3 F4]]]]; [eauto|]. exists v. split; auto. split; [intros b Hb; pose proof (F2 v1 E1); pose proof (E3 b Hb); lra|]. split.
    + intros Z [<-|HZ]; [pose proof (F2 v1 E1); unfold d in E2; lra|auto].
    + destruct F4 as [->|[Z [HZ ->]]].
      * destruct E4 as [-> | ->]; [auto|right; exists Xhat; split; [left; auto|auto]].
      * right. exists Z. split; [right; auto|auto].
Qed.
(** the returned design is one of those evaluated and none of those is better; in particular it is not worse than the initial one *)
Theorem cluster_best_partial : forall maxiter L X N xtol center Xhat, (0 < maxiter)%nat ->
  let S := scored maxiter 0 L X N xtol center Xhat (repeat O (length X)) in let D := minimax_cluster maxiter L X N xtol center Xhat in
  In Xhat S /\ In D S /\ forall Z, In Z S -> mm_dist L D X <= mm_dist L Z X.
Proof.
  intros maxiter L X N xtol center Xhat HM S D. destruct (mc_loop_spec maxiter 0 L X N xtol center Xhat (repeat O (length X)) (Xhat, None)) as [v [A1 [A2 [A3 A4]]]]; [right; auto|]. fold S in A3, A4.
  assert (I0 : In Xhat S) by (unfold S; destruct maxiter; [lia|left; auto]). split; auto. unfold D, minimax_cluster. destruct A4 as [E|[Z [IZ E]]]; [rewrite E in A1; discriminate|]. rewrite E in A1 |- *. cbn [fst]. split; auto.
  intros Z' HZ'. pose proof (A3 Z' HZ'). cbn [snd] in A1. inversion A1. lra.
Qed.
Lemma scored_rows : forall n it L X N xtol center Xhat Iold Z, length Xhat = N -> In Z (scored n it L X N xtol center Xhat Iold) -> length Z = N.
Proof.
  induction n as [|n IH]; intros it L X N xtol center Xhat Iold Z HL HZ; [destruct HZ|]. cbn [scored] in HZ. destruct HZ as [<-|HZ]; auto.
  destruct (nat_list_eqb Iold (assign L Xhat X)); [destruct HZ|]. destruct (Rltb _ xtol); [destruct HZ|]. eapply IH; [|exact HZ]. rewrite map_length, seq_length. auto.
Qed.
Theorem cluster_rows : forall maxiter L X N xtol center Xhat, length Xhat = N -> length (minimax_cluster maxiter L X N xtol center Xhat) = N.
Proof.
  intros maxiter L X N xtol center Xhat HL. destruct maxiter as [|n]; [exact HL|]. destruct (cluster_best_partial (S n) L X N xtol center Xhat ltac:(lia)) as [_ [HD _]]. eapply scored_rows; eauto.
Qed.
(** what is evaluated is the largest distance of a sample to its nearest centre *)
Theorem cluster_dist : forall L Xhat X, Xhat <> [] -> X <> [] ->
  (forall x, In x X -> exists c, In c Xhat /\ Ldist L c x <= mm_dist L Xhat X) /\ exists x, In x X /\ forall c, In c Xhat -> mm_dist L Xhat X <= Ldist L c x.
Proof.
  intros L Xhat X N1 N2. unfold mm_dist. split.
  - intros x Ix. destruct (mind_at L Xhat x N1) as [c [Ic E]]. exists c. split; auto. rewrite <- E. apply (vmax_map_ge vec (mind L Xhat)); auto.
  - destruct (vmax_map_at vec (mind L Xhat) X N2) as [x [Ix ->]]. exists x. split; auto. intros c Ic. apply mind_le. auto.
Qed.
Lemma argmin_one : forall d, argmin_idx [d] = O. Proof. reflexivity. Qed.
(** a single centre is returned unchanged whatever the centres computed would have been: the assignments equal the initial zeros *)
Theorem cluster_single : forall maxiter L X xtol center x0, minimax_cluster maxiter L X 1 xtol center [x0] = [x0].
Proof.
  intros maxiter L X xtol center x0. destruct maxiter as [|n]; [reflexivity|]. unfold minimax_cluster. cbn [mc_loop].
  assert (E : nat_list_eqb (repeat O (length X)) (assign L [x0] X) = true).
  { unfold nat_list_eqb. destruct (list_eq_dec Nat.eq_dec (repeat O (length X)) (assign L [x0] X)) as [|NE]; auto. exfalso. apply NE. unfold assign. clear NE. induction X as [|x X IH]; [reflexivity|]. cbn [length repeat map]. rewrite argmin_one, IH. reflexivity. }
  rewrite E. reflexivity.
Qed.
(** exact centre of a cluster: smallest largest distance to its points *)
Definition exact_center (center : nat -> mat -> vec -> vec) : Prop := forall it (Y : mat) xh, Y <> [] -> Forall (fun y => length y = 1%nat) Y ->
  length (center it Y xh) = 1%nat /\ forall z, length z = 1%nat -> vmax (map (edist (center it Y xh)) Y) <= vmax (map (edist z) Y).
Definition midrange (it : nat) (Y : mat) (xh : vec) : vec := [(vmax (map (fun y => vget y 0) Y) + vmin (map (fun y => vget y 0) Y)) / 2].
Lemma vec1 : forall y : vec, length y = 1%nat -> y = [vget y 0]. Proof. intros [|a [|b y]] H; try discriminate. reflexivity. Qed.
Lemma midrange_exact : exact_center midrange.
Proof.
  intros it Y xh NE FY. rewrite Forall_forall in FY. split; [reflexivity|]. intros z Lz.
  destruct (vmax_map_at vec (fun y => vget y 0) Y NE) as [a [Ia Ea]]. destruct (vmin_map_at vec (fun y => vget y 0) Y NE) as [b [Ib Eb]].
  assert (B : forall y, In y Y -> vget b 0 <= vget y 0 <= vget a 0).
  { intros y Iy. pose proof (vmax_map_ge vec (fun y => vget y 0) Y y Iy). pose proof (vmin_map_le vec (fun y => vget y 0) Y y Iy). cbv beta in *. lra. }
  apply vmax_map_ub; auto. intros y Iy. unfold midrange. rewrite Ea, Eb. rewrite (vec1 y) by auto. rewrite edist1. pose proof (B y Iy) as By. pose proof (B a Ia) as Ba.
  pose proof (vmax_map_ge vec (edist z) Y a Ia) as Qa. pose proof (vmax_map_ge vec (edist z) Y b Ib) as Qb. cbv beta in Qa, Qb. rewrite (vec1 z), (vec1 a) in Qa by auto. rewrite (vec1 z), (vec1 b) in Qb by auto. rewrite edist1 in Qa, Qb. rewrite <- (vec1 z) in Qa, Qb by auto.
  apply Rle_trans with ((vget a 0 - vget b 0) / 2); [apply Rabs_le; lra|]. pose proof (Rle_abs (vget z 0 - vget b 0)). pose proof (Rle_abs (- (vget z 0 - vget a 0))) as Q. rewrite Rabs_Ropp in Q. lra.
Qed.
Lemma argmin2_0 : forall a b, a <= b -> argmin_idx [a; b] = O.
Proof. intros a b H. unfold argmin_idx. cbn. assert (E : Rltb (- a) (- b) = false) by (apply Rltb_false; lra). rewrite E. reflexivity. Qed.
Lemma argmin2_1 : forall a b, b < a -> argmin_idx [a; b] = 1%nat.
Proof. intros a b H. unfold argmin_idx. cbn. assert (E : Rltb (- a) (- b) = true) by (apply Rltb_true; lra). rewrite E. reflexivity. Qed.
Lemma Ld1 : forall a b, Ldist [[1]] [a] [b] = Rabs (a - b).
Proof. intros a b. unfold Ldist, mv. cbn [map]. rewrite !dot_cons, !dot_nil_l. replace (1 * a + 0) with a by ring. replace (1 * b + 0) with b by ring. apply edist1. Qed.
Lemma mv11 : forall a, mv [[1]] [a] = [a]. Proof. intro a. unfold mv. cbn [map]. rewrite !dot_cons, !dot_nil_l. replace (1 * a + 0) with a by ring. auto. Qed.
Lemma list2_eq : forall a b c d : R, a = c -> b = d -> [[a]; [b]] = [[c]; [d]]. Proof. intros; subst; auto. Qed.
Ltac rabs := repeat match goal with |- context [Rabs ?t] => first [rewrite (Rabs_right t) by lra | rewrite (Rabs_left t) by lra] end.
Ltac minmax := repeat match goal with |- context [Rmin ?a ?b] => first [rewrite (Rmin_left a b) by lra | rewrite (Rmin_right a b) by lra] | |- context [Rmax ?a ?b] => first [rewrite (Rmax_left a b) by lra | rewrite (Rmax_right a b) by lra] end.
Lemma vmax4 : forall a b c d, vmax [a; b; c; d] = Rmax (Rmax (Rmax a b) c) d. Proof. reflexivity. Qed.
Lemma vmin2 : forall a b, vmin [a; b] = Rmin a b. Proof. reflexivity. Qed.
(** the design computed last is never evaluated: with exact centres every move is to the left, np.max of the signed differences
    is negative, and the loop stops at once with the initial design although the new one is twice as good *)
Theorem cluster_moves_refuted : exists L X Xhat xtol center, exact_center center /\ 0 < xtol /\ forall maxiter, (0 < maxiter)%nat ->
  let D := minimax_cluster maxiter L X 2 xtol center Xhat in
  D = Xhat /\ mm_dist L (map (fun i => center 0%nat (cluster_of (assign L Xhat X) i (map (mv L) X)) (nth i Xhat [])) (seq 0 2)) X < mm_dist L D X.
Proof.
  exists [[1]], [[-2]; [0]; [8]; [10]], [[0]; [10]], (/ 100000), midrange. split; [apply midrange_exact|]. split; [lra|]. intros maxiter HM. destruct maxiter as [|n]; [lia|].
  assert (EI : assign [[1]] [[0]; [10]] [[-2]; [0]; [8]; [10]] = [0; 0; 1; 1]%nat).
  { unfold assign. cbn [map]. rewrite !Ld1. rabs. rewrite !argmin2_0 by lra. rewrite !argmin2_1 by lra. reflexivity. }
  assert (EY : map (mv [[1]]) [[-2]; [0]; [8]; [10]] = [[-2]; [0]; [8]; [10]]).
  { cbn [map]. rewrite !mv11. reflexivity. }
  assert (EN : map (fun i => midrange 0%nat (cluster_of [0; 0; 1; 1]%nat i [[-2]; [0]; [8]; [10]]) (nth i [[0]; [10]] [])) (seq 0 2) = [[-1]; [9]]).
  { cbn [seq map nth]. unfold cluster_of. cbn [map Nat.eqb select]. unfold midrange. cbn [map]. unfold vget. cbn [nth]. unfold vmax, vmin. cbn [fold_left].
    rewrite (Rmax_right (-2) 0), (Rmin_left (-2) 0), (Rmax_right 8 10), (Rmin_left 8 10) by lra. apply list2_eq; lra. }
  assert (ED : minimax_cluster (S n) [[1]] [[-2]; [0]; [8]; [10]] 2 (/ 100000) midrange [[0]; [10]] = [[0]; [10]]).
  { unfold minimax_cluster. cbn [mc_loop]. rewrite EI, EY, EN. change (nat_list_eqb (repeat 0%nat (length [[-2]; [0]; [8]; [10]])) [0; 0; 1; 1]%nat) with false. cbv iota.
    assert (EM : Rltb (move_max [[-1]; [9]] [[0]; [10]]) (/ 100000) = true).
    { apply Rltb_true. unfold move_max. cbn. unfold Rminus. rewrite Rmax_left by lra. lra. }
    rewrite EM. reflexivity. }
  cbv zeta. rewrite ED, EI, EY, EN. split; auto. unfold mm_dist, mind. cbn [map]. rewrite !Ld1. rabs. rewrite !vmax4, !vmin2. minmax. lra.
Qed.
Theorem cluster_single_refuted : exists L X x0 xtol center y, exact_center center /\ 0 < xtol /\ forall maxiter,
  mm_dist L [y] X < mm_dist L (minimax_cluster maxiter L X 1 xtol center [x0]) X.
Proof.
  exists [[1]], [[0]; [1]], [0], (/ 100000), midrange, [1/2]. split; [apply midrange_exact|]. split; [lra|]. intros maxiter. rewrite cluster_single. unfold mm_dist, mind, vmax, vmin. cbn [map fold_left]. rewrite !Ld1. rabs. minmax. lra.
Qed.
Example ex_cluster : exists D, minimax_cluster 3 [[1]] [[-2]; [0]; [8]; [10]] 2 (/ 100000) midrange [[0]; [10]] = D /\ length D = 2%nat /\ mm_dist [[1]] D [[-2]; [0]; [8]; [10]] <= mm_dist [[1]] [[0]; [10]] [[-2]; [0]; [8]; [10]].
Proof.
  eexists. split; [reflexivity|]. split; [apply cluster_rows; reflexivity|]. destruct (cluster_best_partial 3 [[1]] [[-2]; [0]; [8]; [10]] 2 (/ 100000) midrange [[0]; [10]] ltac:(lia)) as [A [_ B]]. apply B. exact A.
Qed.

(* ------------------------------------------------------------------ *)
(** * minimax_covering *)
Lemma cover_iff : forall L X r sel, Forall (fun c => (1 <= c)%nat) (cover_rows L X r sel) <-> forall x, In x X -> exists y, In y (select sel X) /\ Ldist L x y < r.
Proof.
  intros L X r sel. unfold cover_rows. rewrite Forall_map, Forall_forall. split; intros H x Ix; specialize (H x Ix).
  - destruct (filter _ (select sel X)) as [|y l] eqn:E; [simpl in H; lia|]. exists y. assert (Iy : In y (y :: l)) by (left; auto). rewrite <- E in Iy. apply filter_In in Iy. destruct Iy as [Iy Dy]. apply Rltb_true in Dy. auto.
  - destruct H as [y [Iy Dy]]. assert (In y (filter (fun y => Rltb (Ldist L x y) r) (select sel X))) by (apply filter_In; split; auto; apply Rltb_true; auto). destruct (filter _ (select sel X)); [destruct H|simpl; lia].
Qed.
Lemma select_card : forall (X : mat) sel, length sel = length X -> length (select sel X) = card sel.
Proof. induction X as [|x X IH]; intros [|b sel] H; try discriminate; auto. unfold card in *. cbn. destruct b; simpl; rewrite IH by (simpl in H; lia); auto. Qed.
(** any list of points of X is contained in a selection that is not larger *)
Lemma mask_for : forall Z X : mat, incl Z X -> exists sel, length sel = length X /\ incl Z (select sel X) /\ (card sel <= length Z)%nat.
Proof.
  induction Z as [|z Z IH]; intros X HI.
  - exists (repeat false (length X)). split; [apply repeat_length|]. split; [intros z []|]. unfold card. induction (length X); simpl; auto.
  - destruct (IH X) as [sel [H1 [H2 H3]]]; [intros y Iy; apply HI; right; auto|]. assert (Iz : In z X) by (apply HI; left; auto). clear IH HI.
    assert (G : exists sel', length sel' = length X /\ incl (select sel X) (select sel' X) /\ In z (select sel' X) /\ (card sel' <= S (card sel))%nat).
    { clear H2 H3. revert sel H1. induction X as [|x X IHX]; intros sel H1; [destruct Iz|]. destruct sel as [|b sel]; [discriminate|]. simpl in H1. destruct Iz as [->|Iz].
      - exists (true :: sel). split; [simpl; lia|]. split; [intros y Iy; cbn in *; destruct b; [auto|right; auto]|]. split; [left; auto|]. unfold card. cbn. destruct b; simpl; lia.
      - destruct (IHX Iz sel ltac:(lia)) as [s' [G1 [G2 [G3 G4]]]]. exists (b :: s'). split; [simpl; lia|]. split.
        + intros y Iy. cbn in *. destruct b; [destruct Iy as [->|Iy]; [left; auto|right; auto]|auto].
        + split; [cbn; destruct b; [right; auto|auto]|]. unfold card in *. cbn. destruct b; simpl; lia. }
    destruct G as [s' [G1 [G2 [G3 G4]]]]. exists s'. split; auto. split; [intros y [->|Iy]; auto|]. simpl. lia.
Qed.
(** the selected points cover X with radius r and no smaller list of points of X does *)
Theorem covering_discrete : forall L X r sel, cover_optimal L X r sel ->
  (forall x, In x X -> exists y, In y (select sel X) /\ Ldist L x y < r) /\ incl (select sel X) X /\
  forall Z, incl Z X -> (forall x, In x X -> exists y, In y Z /\ Ldist L x y < r) -> (length (select sel X) <= length Z)%nat.
Proof.
  intros L X r sel [[HL HC] HO]. rewrite cover_iff in HC. split; auto. split; [intros y Iy; eapply select_incl; eauto|]. intros Z HZ CZ. destruct (mask_for Z X HZ) as [s' [S1 [S2 S3]]].
  rewrite select_card by auto. assert (card sel <= card s')%nat; [|lia]. apply HO. split; auto. rewrite cover_iff. intros x Ix. destruct (CZ x Ix) as [y [Iy Dy]]. exists y. auto.
Qed.
(** the program is feasible exactly for positive radii *)
Theorem covering_feasible : forall L X r, X <> [] -> ((exists sel, cover_feasible L X r sel) <-> 0 < r).
Proof.
  intros L X r NE. split.
  - intros [sel [HL HC]]. rewrite cover_iff in HC. destruct X as [|x X]; [congruence|]. destruct (HC x ltac:(left; auto)) as [y [_ Dy]]. pose proof (Ldist_nonneg L x y). lra.
  - intro Hr. exists (repeat true (length X)). split; [apply repeat_length|]. rewrite cover_iff. intros x Ix. exists x. split; [|rewrite Ldist_refl; auto]. clear NE. induction X as [|y X IH]; [destruct Ix|]. cbn. destruct Ix as [->|Ix]; [left; auto|right; auto].
Qed.
(** every point of the domain within 3r/4 < r of the design if the Poisson disk sample is maximal *)
Theorem covering_domain : forall (P : vec -> Prop) L poisson ilp r, 0 < r -> (forall x, P x -> exists y, In y (poisson (r / 4)) /\ Ldist L x y <= r / 4) ->
  (forall X rr, X <> [] -> 0 < rr -> cover_optimal L X rr (ilp X rr)) -> forall x, P x -> exists y, In y (minimax_covering poisson ilp r) /\ Ldist L x y < 3 * r / 4.
Proof.
  intros P L poisson ilp r Hr HP HI x Px. destruct (HP x Px) as [z [Iz Dz]]. set (X := poisson (r / 4)) in *. assert (NE : X <> []) by (intro E; rewrite E in Iz; destruct Iz).
  destruct (covering_discrete L X (r / 2) (ilp X (r / 2)) (HI X (r / 2) NE ltac:(lra))) as [C _]. destruct (C z Iz) as [y [Iy Dy]]. exists y. split; [exact Iy|]. pose proof (Ldist_triangle L x z y). lra.
Qed.
Example ex_covering : cover_optimal [[1]] [[0]; [1]; [2]] (3/2) [false; true; false].
Proof.
  split; [split; [reflexivity|]|].
  - rewrite cover_iff. intros x Ix. exists [1]. split; [left; auto|]. destruct Ix as [<-|[<-|[<-|[]]]]; rewrite Ld1; unfold Rabs; destruct Rcase_abs; lra.
  - intros sel' [HL HC]. rewrite cover_iff in HC. destruct (HC [0] ltac:(left; auto)) as [y [Iy _]]. rewrite <- (select_card [[0]; [1]; [2]] sel' HL). destruct (select sel' _); [destruct Iy|]. unfold card. simpl. lia.
Qed.
