(** What shadow_uncertainty reports. *)
Require Import Reals Lra Lia List Bool Arith.
From Verif Require Import RVec Num Sums DomMoreModel MatLib LipModel LipProofs LipMoreProofs PigeonLib ShadowUncModel.
Import ListNotations.
Local Open Scope R_scope.

(** domain.corner: a point of the domain that is largest in the direction *)
Definition corner_of (P : vec -> Prop) (corner : vec -> vec) (p : vec) : Prop := P (corner p) /\ forall x, P x -> dot p x <= dot p (corner p).
(** f is consistent with the data and L on the domain *)
Definition consistent (P : vec -> Prop) (L : mat) (D : list (vec * R)) (f : vec -> R) : Prop :=
  forall x d, P x -> In d D -> Rabs (f x - snd d) <= Ldist L x (fst d).
(** values of u.x between two points of the domain *)
Definition between (P : vec -> Prop) (u : vec) (y : R) : Prop := exists a b, P a /\ P b /\ dot u a <= y <= dot u b.
(** the true bounds at one point *)
Definition low (L : mat) (D : list (vec * R)) (x : vec) : R := vmax (map (fun d => snd d - Ldist L x (fst d)) D).
Definition upp (L : mat) (D : list (vec * R)) (x : vec) : R := vmin (map (fun d => snd d + Ldist L x (fst d)) D).

Lemma su_len : forall slice ys r, su_interior slice ys = Some r -> length r = length ys.
Proof. induction ys as [|y ys IH]; intros r E; simpl in E; [injection E as <-; auto|]. destruct (slice y) as [[lb ub]|]; [|discriminate]. destruct (su_interior slice ys) as [r'|]; [|discriminate]. injection E as <-. simpl. f_equal. auto. Qed.
Lemma su_nth : forall slice ys r, su_interior slice ys = Some r -> forall i, (i < length ys)%nat -> exists lb ub, slice (nth i ys 0) = Some (lb, ub) /\ nth i r (NInf, PInf) = (Fin lb, Fin ub).
Proof.
  induction ys as [|y ys IH]; intros r E i Hi; [simpl in Hi; lia|]. simpl in E. destruct (slice y) as [[lb ub]|] eqn:Es; [|discriminate]. destruct (su_interior slice ys) as [r'|]; [|discriminate]. injection E as <-. destruct i as [|i]; [exists lb, ub; auto|]. simpl in Hi. cbn [nth]. apply IH; auto. lia.
Qed.
Lemma su_some : forall slice ys, (forall i, (i < length ys)%nat -> slice (nth i ys 0) <> None) -> exists r, su_interior slice ys = Some r.
Proof.
  induction ys as [|y ys IH]; intro H; [exists []; reflexivity|]. simpl. pose proof (H 0%nat (Nat.lt_0_succ _)) as H0. cbn [nth] in H0. destruct (slice y) as [[lb ub]|]; [|congruence]. destruct IH as [r ->]; [|eauto]. intros i Hi. apply (H (S i)). simpl. lia.
Qed.
Lemma ls_len : forall a b n, length (linspace a b n) = n.
Proof. intros. unfold linspace. rewrite map_length, seq_length. auto. Qed.
Lemma ls_get : forall a b n i, (i < n)%nat -> nth i (linspace a b n) 0 = a + INR i * ((b - a) / INR (n - 1)).
Proof. intros. unfold linspace. apply (nth_map_seq _ (fun k => a + INR k * ((b - a) / INR (n - 1)))). auto. Qed.
Lemma ls_last : forall a b n, nth (S n) (linspace a b (S (S n))) 0 = b.
Proof. intros. rewrite ls_get by lia. replace (S (S n) - 1)%nat with (S n) by lia. field. apply not_0_INR. lia. Qed.
Lemma ls_first : forall a b n, nth 0 (linspace a b (S n)) 0 = a.
Proof. intros. rewrite ls_get by lia. change (INR 0) with 0. ring. Qed.
Lemma ls_between : forall (P : vec -> Prop) u c1 c2 n i, P c1 -> P c2 -> dot u c1 <= dot u c2 -> (i < S (S n))%nat -> between P u (nth i (linspace (dot u c1) (dot u c2) (S (S n))) 0).
Proof.
  intros P u c1 c2 n i P1 P2 H Hi. exists c1, c2. split; [auto|]. split; [auto|]. rewrite ls_get by auto. replace (S (S n) - 1)%nat with (S n) by lia. set (d := dot u c2 - dot u c1). assert (0 <= d) by (unfold d; lra).
  assert (I1 : 0 < INR (S n)) by (apply lt_0_INR; lia). assert (I2 : 0 <= INR i <= INR (S n)) by (split; [apply pos_INR|apply le_INR; lia]).
  assert (Q : INR i * (d / INR (S n)) = (INR i / INR (S n)) * d) by (field; lra). rewrite Q.
  assert (R0 : 0 <= INR i / INR (S n) <= 1). { split; [apply Rmult_le_pos; [lra|left; apply Rinv_0_lt_compat; auto]|]. apply Rmult_le_reg_r with (INR (S n)); auto. unfold Rdiv. rewrite Rmult_assoc, Rinv_l by lra. lra. }
  unfold d in *. nra.
Qed.
(** bounds at a point in [num] *)
Lemma unc_low : forall L D x, D <> [] -> unc1 L None D x = (Fin (low L D x), Fin (upp L D x)).
Proof.
  intros L D x NE. unfold unc1. rewrite unc_lb0_vmax, unc_ub0_vmin by auto. unfold low, upp, lvals, uvals. f_equal; do 2 f_equal; apply map_ext; intro d; rewrite (Ldist_sym L x); auto.
Qed.
Section SU.
Variables (P : vec -> Prop) (corner : vec -> vec) (starts : R -> mat) (mmx : R -> (vec -> vec) -> vec -> vec) (L : mat) (D : list (vec * R)) (u : vec) (n : nat).
Hypothesis C1 : corner_of P corner u.
Hypothesis C2 : corner_of P corner (vscale (-1) u).
Hypothesis NS : forall y, between P u y -> starts y <> [].
(** the two ends *)
Lemma su_shape : forall eps, exists c1 c2 r, let ys := linspace (dot u c1) (dot u c2) (S (S n)) in
  shadow_unc corner starts mmx L eps D u (S (S n)) = Some (ys, unc1 L eps D c1 :: r ++ [unc1 L eps D c2]) /\
  (c1 = corner u /\ c2 = corner (vscale (-1) u) \/ c2 = corner u /\ c1 = corner (vscale (-1) u)) /\ P c1 /\ P c2 /\ (forall x, P x -> dot u c1 <= dot u x <= dot u c2) /\ length r = n /\
  forall i, (i < n)%nat -> exists lb ub, unc_domain (mmx (nth (S i) ys 0)) L D (starts (nth (S i) ys 0)) = Some (lb, ub) /\ nth i r (NInf, PInf) = (Fin lb, Fin ub).
Proof using C1 C2 NS.
  intro eps. set (sl := fun y => unc_domain (mmx y) L D (starts y)). assert (SS : forall y, between P u y -> sl y <> None) by (intros y HB; unfold sl, unc_domain; pose proof (NS y HB); destruct (starts y); [congruence|discriminate]).
  destruct C1 as [P1 M1]. destruct C2 as [P2 M2].
  assert (G : forall c1 c2, P c1 -> P c2 -> (forall x, P x -> dot u c1 <= dot u x <= dot u c2) -> (c1 = corner u /\ c2 = corner (vscale (-1) u) \/ c2 = corner u /\ c1 = corner (vscale (-1) u)) ->
    (let ys := linspace (dot u c1) (dot u c2) (S (S n)) in shadow_unc corner starts mmx L eps D u (S (S n)) = match su_interior sl (firstn n (tl ys)) with Some r => Some (ys, unc1 L eps D c1 :: r ++ [unc1 L eps D c2]) | None => None end) ->
    exists c1 c2 r, let ys := linspace (dot u c1) (dot u c2) (S (S n)) in
  shadow_unc corner starts mmx L eps D u (S (S n)) = Some (ys, unc1 L eps D c1 :: r ++ [unc1 L eps D c2]) /\
  (c1 = corner u /\ c2 = corner (vscale (-1) u) \/ c2 = corner u /\ c1 = corner (vscale (-1) u)) /\ P c1 /\ P c2 /\ (forall x, P x -> dot u c1 <= dot u x <= dot u c2) /\ length r = n /\
  forall i, (i < n)%nat -> exists lb ub, sl (nth (S i) ys 0) = Some (lb, ub) /\ nth i r (NInf, PInf) = (Fin lb, Fin ub)).
  { intros c1 c2 Q1 Q2 B CC E. set (ys := linspace (dot u c1) (dot u c2) (S (S n))) in *. cbv zeta in E. fold ys in E. assert (LY : length ys = S (S n)) by apply ls_len. assert (LT : length (firstn n (tl ys)) = n) by (rewrite firstn_length; destruct ys; simpl in *; lia).
    assert (NI : forall i, (i < n)%nat -> nth i (firstn n (tl ys)) 0 = nth (S i) ys 0). { intros i Hi. destruct ys as [|y0 ys']; [discriminate|]. cbn [tl nth]. clear - Hi LT. cbn [tl] in LT. rewrite <- (firstn_skipn n ys') at 2. rewrite app_nth1 by lia. auto. }
    destruct (su_some sl (firstn n (tl ys))) as [r Er]; [intros i Hi; apply SS; rewrite NI by lia; apply ls_between; auto; [apply B; auto|lia]|]. rewrite Er in E. exists c1, c2, r. cbv zeta. fold ys. split; [auto|]. split; [auto|]. split; [auto|]. split; [auto|]. split; [auto|]. split; [rewrite <- LT; eapply su_len; eauto|].
    intros i Hi. destruct (su_nth sl _ r Er i ltac:(lia)) as (lb & ub & E1 & E2). exists lb, ub. split; auto. rewrite <- E1. f_equal. symmetry. apply NI. auto. }
  unfold shadow_unc in *. destruct (Rltb (dot u (corner (vscale (-1) u))) (dot u (corner u))) eqn:Q.
  - apply (G (corner (vscale (-1) u)) (corner u)); auto. intros x Px. split; [|auto]. pose proof (M2 x Px) as H. rewrite !dot_vscale_l in H. lra.
  - apply Rltb_false in Q. apply (G (corner u) (corner (vscale (-1) u))); auto. intros x Px. pose proof (M1 x Px). pose proof (M2 x Px) as H2. pose proof (M2 _ P1) as H3. pose proof (M1 _ P2) as H4. rewrite !dot_vscale_l in H2, H3. lra.
Qed.
End SU.
(** evenly spaced values from the smallest to the largest u.x *)
Theorem su_grid : forall P corner starts mmx L eps D u n, corner_of P corner u -> corner_of P corner (vscale (-1) u) -> (forall y, between P u y -> starts y <> []) ->
  exists lo hi ys bs, shadow_unc corner starts mmx L eps D u (S (S n)) = Some (ys, bs) /\ length ys = S (S n) /\ length bs = S (S n) /\
    (exists x, P x /\ dot u x = lo) /\ (exists x, P x /\ dot u x = hi) /\ (forall x, P x -> lo <= dot u x <= hi) /\
    forall i, (i < S (S n))%nat -> nth i ys 0 = lo + INR i * ((hi - lo) / INR (S n)).
Proof.
  intros P corner starts mmx L eps D u n C1 C2 NS. destruct (su_shape P corner starts mmx L D u n C1 C2 NS eps) as (c1 & c2 & r & H). cbv zeta in H. destruct H as (E & _ & P1 & P2 & B & Lr & _).
  exists (dot u c1), (dot u c2), (linspace (dot u c1) (dot u c2) (S (S n))), (unc1 L eps D c1 :: r ++ [unc1 L eps D c2]). split; [exact E|]. split; [apply ls_len|]. split; [simpl; rewrite app_length; simpl; lia|]. split; [eauto|]. split; [eauto|]. split; [exact B|].
  intros i Hi. rewrite ls_get by auto. replace (S (S n) - 1)%nat with (S n) by lia. auto.
Qed.
(** every reported bound is the bound at a point of the slice *)
Theorem su_attained : forall P corner starts mmx L D u n ys bs, corner_of P corner u -> corner_of P corner (vscale (-1) u) -> (forall y, between P u y -> starts y <> []) -> D <> [] ->
  (forall y f x0, between P u y -> In x0 (starts y) -> P (mmx y f x0) /\ dot u (mmx y f x0) = y) -> shadow_unc corner starts mmx L None D u (S (S n)) = Some (ys, bs) ->
  forall i, (i < S (S n))%nat -> exists x x', P x /\ dot u x = nth i ys 0 /\ P x' /\ dot u x' = nth i ys 0 /\
    nth i bs (NInf, PInf) = (Fin (vmax (map (fun d => snd d - Ldist L x (fst d)) D)), Fin (vmin (map (fun d => snd d + Ldist L x' (fst d)) D))).
Proof.
  intros P corner starts mmx L D u n ys bs C1 C2 NS ND MM E i Hi. destruct (su_shape P corner starts mmx L D u n C1 C2 NS None) as (c1 & c2 & r & H). cbv zeta in H. destruct H as (E' & _ & P1 & P2 & B & Lr & HR).
  rewrite E in E'. rewrite !unc_low in E' by auto. injection E' as -> ->. destruct (Nat.eq_dec i 0) as [->|N0].
  { exists c1, c1. rewrite ls_first. cbn [nth]. unfold low, upp. auto. }
  destruct (Nat.eq_dec i (S n)) as [->|N1].
  { exists c2, c2. rewrite ls_last. cbn [nth]. rewrite app_nth2 by lia. replace (n - length r)%nat with 0%nat by lia. cbn [nth]. unfold low, upp. auto 6. }
  destruct i as [|i]; [lia|]. destruct (HR i ltac:(lia)) as (lb & ub & EU & ER). set (y := nth (S i) (linspace (dot u c1) (dot u c2) (S (S n))) 0) in *. cbn [nth]. rewrite app_nth1 by lia. rewrite ER.
  assert (BY : between P u y) by (apply ls_between; auto; apply B; auto).
  destruct (unc_domain_attained (fun x => P x /\ dot u x = y) (mmx y) L D (starts y) (fun f x0 I => MM y f x0 BY I) (NS y BY)) as (lb' & ub' & EU' & (x & [Px Ex] & Elb) & (x' & [Px' Ex'] & Eub)). rewrite EU in EU'. injection EU' as <- <-. exists x, x'. rewrite Elb, Eub. auto 6.
Qed.
(** where the endpoints are single points (up to L) and minimax solves the slices, the interval holds every value possible on the slice *)
Lemma low_le : forall P L D f x, D <> [] -> consistent P L D f -> P x -> low L D x <= f x <= upp L D x.
Proof.
  intros P L D f x ND C Px. unfold low, upp. split.
  - destruct (vmax_map_at _ (fun d : vec * R => snd d - Ldist L x (fst d)) D ND) as [d [I ->]]. pose proof (C x d Px I) as H. assert (HA := Rle_abs (f x - snd d)); assert (HB := Rle_abs (- (f x - snd d))); rewrite Rabs_Ropp in HB; lra.
  - destruct (vmin_map_at _ (fun d : vec * R => snd d + Ldist L x (fst d)) D ND) as [d [I ->]]. pose proof (C x d Px I) as H. assert (HA := Rle_abs (f x - snd d)); assert (HB := Rle_abs (- (f x - snd d))); rewrite Rabs_Ropp in HB; lra.
Qed.
Lemma low_same : forall L D x y, mv L x = mv L y -> low L D x = low L D y /\ upp L D x = upp L D y.
Proof. intros L D x y E. unfold low, upp, Ldist. rewrite E. auto. Qed.
Theorem su_encloses : forall P corner starts mmx L D u n ys bs f, corner_of P corner u -> corner_of P corner (vscale (-1) u) -> (forall y, between P u y -> starts y <> []) -> D <> [] ->
  (forall x, P x -> dot u x = dot u (corner u) -> mv L x = mv L (corner u)) -> (forall x, P x -> dot u x = dot u (corner (vscale (-1) u)) -> mv L x = mv L (corner (vscale (-1) u))) ->
  shadow_unc corner starts mmx L None D u (S (S n)) = Some (ys, bs) ->
  (forall i z, (0 < i < S n)%nat -> P z -> dot u z = nth i ys 0 ->
     (exists x0, In x0 (starts (nth i ys 0)) /\ vmax (lowerb L D (mmx (nth i ys 0) (lowerb L D) x0)) <= vmax (lowerb L D z)) /\
     (exists x0, In x0 (starts (nth i ys 0)) /\ vmax (upperb L D (mmx (nth i ys 0) (upperb L D) x0)) <= vmax (upperb L D z))) ->
  consistent P L D f -> forall i x, (i < S (S n))%nat -> P x -> dot u x = nth i ys 0 ->
    nleb (fst (nth i bs (NInf, PInf))) (Fin (f x)) = true /\ nleb (Fin (f x)) (snd (nth i bs (NInf, PInf))) = true.
Proof.
  intros P corner starts mmx L D u n ys bs f C1 C2 NS ND U1 U2 E MM CF i x Hi Px Ex. destruct (su_shape P corner starts mmx L D u n C1 C2 NS None) as (c1 & c2 & r & H). cbv zeta in H. destruct H as (E' & CC & P1 & P2 & B & Lr & HR).
  rewrite E in E'. rewrite !unc_low in E' by auto. injection E' as -> ->. destruct (low_le P L D f x ND CF Px) as [FL FU].
  assert (S1 : dot u x = dot u c1 -> mv L x = mv L c1) by (destruct CC as [[-> _]|[_ ->]]; auto). assert (S2 : dot u x = dot u c2 -> mv L x = mv L c2) by (destruct CC as [[_ ->]|[-> _]]; auto).
  destruct (Nat.eq_dec i 0) as [->|N0].
  { rewrite ls_first in Ex. cbn [nth]. destruct (low_same L D x c1 (S1 Ex)) as [<- <-]. cbn [fst snd nleb]. split; apply Rleb_true; auto. }
  destruct (Nat.eq_dec i (S n)) as [->|N1].
  { rewrite ls_last in Ex. cbn [nth]. rewrite app_nth2 by lia. replace (n - length r)%nat with 0%nat by lia. cbn [nth]. destruct (low_same L D x c2 (S2 Ex)) as [<- <-]. cbn [fst snd nleb]. split; apply Rleb_true; auto. }
  destruct i as [|i]; [lia|]. destruct (MM (S i) x ltac:(lia) Px Ex) as [(x0 & I0 & H0) (x1 & I1 & H1)]. destruct (HR i ltac:(lia)) as (lb & ub & EU & ER). set (y := nth (S i) (linspace (dot u c1) (dot u c2) (S (S n))) 0) in *. cbn [nth]. rewrite app_nth1 by lia. rewrite ER. cbn [fst snd nleb].
  assert (BY : between P u y) by (apply ls_between; auto; apply B; auto).
  assert (EU' : unc_domain (mmx y) L D (starts y) = Some (vmin (map (fun x0 => vmax (lowerb L D (mmx y (lowerb L D) x0))) (starts y)), vmax (map (fun x0 => vmin (vscale (-1) (upperb L D (mmx y (upperb L D) x0)))) (starts y)))) by (unfold unc_domain; pose proof (NS y BY) as NY; destruct (starts y); [congruence|reflexivity]).
  rewrite EU in EU'. assert (Elb : lb = vmin (map (fun x0 => vmax (lowerb L D (mmx y (lowerb L D) x0))) (starts y))) by congruence. assert (Eub : ub = vmax (map (fun x0 => vmin (vscale (-1) (upperb L D (mmx y (upperb L D) x0)))) (starts y))) by congruence.
  assert (LX : vmax (lowerb L D x) = low L D x) by reflexivity.
  assert (UX : forall z, vmin (vscale (-1) (upperb L D z)) = - vmax (upperb L D z)).
  { intro z. assert (G : forall v : vec, v <> [] -> vmin (vscale (-1) v) = - vmax v).
    { intros v Hv. destruct v as [|a v]; [congruence|]. clear. unfold vmin, vmax, vscale. cbn [map]. replace (-1 * a) with (- a) by ring. revert a. induction v as [|b v IH]; intro a; [reflexivity|]. cbn [map fold_left]. rewrite <- IH. f_equal. unfold Rmin, Rmax. destruct (Rle_dec (- a) (-1 * b)), (Rle_dec a b); lra. }
    apply G. unfold upperb. destruct D; [congruence|discriminate]. }
  split; apply Rleb_true.
  - rewrite Elb. eapply Rle_trans; [apply (vmin_map_le vec (fun x0 => vmax (lowerb L D (mmx y (lowerb L D) x0))) (starts y) x0 I0)|]. rewrite LX in H0. lra.
  - rewrite Eub. eapply Rle_trans; [|apply (vmax_map_ge vec (fun x0 => vmin (vscale (-1) (upperb L D (mmx y (upperb L D) x0)))) (starts y) x1 I1)]. cbv beta. rewrite UX. 
    assert (UE : upp L D x = - vmax (upperb L D x)). { rewrite <- UX. unfold upp, upperb, vscale. rewrite map_map. f_equal. apply map_ext. intro d. unfold Ldist. ring. }
    lra.
Qed.
