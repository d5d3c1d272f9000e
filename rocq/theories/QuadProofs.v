(** Gauss quadrature and quadrature rules on domains (C17), lognormal domains (C18). *)
Require Import Reals Lra Lia List Bool Arith ZArith.
From Verif Require Import RVec Num Sums DomModel DomSpec DomProofs NormProofs DomOpsProofs DomExamples DomMoreModel SweepProofs.
Import ListNotations.
Local Open Scope R_scope.

(* ---------------- the Jacobi matrix ---------------- *)
Definition tri (i j : nat) : R := if Nat.eqb j (S i) then gbeta (S i) else if Nat.eqb i (S j) then gbeta (S j) else 0.

Lemma jacobi_tri : forall n, jacobi n = map (fun i => map (tri i) (seq 0 n)) (seq 0 n).
Proof. reflexivity. Qed.

Lemma jacobi_mv : forall n v, length v = n -> mv (jacobi n) v = map (fun i => rsum n (fun j => tri i j * vget v j)) (seq 0 n).
Proof.
  intros n v L. rewrite jacobi_tri. unfold mv. rewrite map_map. apply map_ext_in. intros i Hi.
  rewrite dot_rsum by (rewrite map_length, seq_length; auto). rewrite map_length, seq_length.
  apply rsum_ext. intros j Hj. rewrite vget_map_seq; auto.
Qed.

Definition qform (n : nat) (v : nat -> R) : R := rsum n (fun i => rsum n (fun j => tri i j * v j * v i)).

Lemma jacobi_qform : forall n v, length v = n -> dot v (mv (jacobi n) v) = qform n (vget v).
Proof.
  intros n v L. rewrite jacobi_mv by auto. rewrite dot_rsum by (rewrite map_length, seq_length; auto). rewrite L.
  apply rsum_ext. intros i Hi. rewrite vget_map_seq by auto. rewrite Rmult_comm, <- rsum_scal_r. reflexivity.
Qed.

Lemma qform_step : forall n v, qform (S (S n)) v = qform (S n) v + 2 * gbeta (S n) * v n * v (S n).
Proof.
  intros n v. unfold qform. set (m := S n). 
  change (rsum (S m) (fun i => rsum (S m) (fun j => tri i j * v j * v i))) with
    (rsum m (fun i => rsum m (fun j => tri i j * v j * v i) + tri i m * v m * v i) +
     (rsum m (fun j => tri m j * v j * v m) + tri m m * v m * v m)).
  rewrite rsum_plus.
  rewrite (rsum_single m n (fun i => tri i m * v m * v i)).
  - rewrite (rsum_single m n (fun j => tri m j * v j * v m)).
    + unfold tri, m. rewrite !Nat.eqb_refl.
      destruct (Nat.eqb_spec n (S (S n))); [lia|]. destruct (Nat.eqb_spec (S n) (S (S n))); [lia|]. ring.
    + unfold m; lia.
    + intros j Hj Hn. unfold tri, m in *. destruct (Nat.eqb_spec j (S (S n))); [lia|]. destruct (Nat.eqb_spec (S n) (S j)); [lia|]. ring.
  - unfold m; lia.
  - intros j Hj Hn. unfold tri, m in *. destruct (Nat.eqb_spec (S n) (S j)); [lia|]. destruct (Nat.eqb_spec j (S (S n))); [lia|]. ring.
Qed.

Lemma gbeta_sq : forall n, gbeta (S n) * gbeta (S n) = (INR n + 1) * (INR n + 1) / ((2 * INR n + 1) * (2 * INR n + 3)) /\ 0 < gbeta (S n).
Proof.
  intro n. unfold gbeta. rewrite mult_INR. rewrite !S_INR. change (INR 0) with 0. pose proof (pos_INR n) as P.
  assert (D : 0 < 1 - / ((0 + 1 + 1) * (INR n + 1) * ((0 + 1 + 1) * (INR n + 1)))).
  { assert (H : / ((0 + 1 + 1) * (INR n + 1) * ((0 + 1 + 1) * (INR n + 1))) < / 1) by (apply Rinv_lt_contravar; nra). rewrite Rinv_1 in H. lra. }
  assert (S0 := sqrt_lt_R0 _ D). split; [|apply Rdiv_lt_0_compat; lra].
  replace (1 / 2 / sqrt (1 - / ((0 + 1 + 1) * (INR n + 1) * ((0 + 1 + 1) * (INR n + 1)))) *
   (1 / 2 / sqrt (1 - / ((0 + 1 + 1) * (INR n + 1) * ((0 + 1 + 1) * (INR n + 1)))))) with
   (1/4 / (sqrt (1 - / ((0 + 1 + 1) * (INR n + 1) * ((0 + 1 + 1) * (INR n + 1)))) * sqrt (1 - / ((0 + 1 + 1) * (INR n + 1) * ((0 + 1 + 1) * (INR n + 1))))))
   by (field; lra).
  rewrite sqrt_sqrt by lra. field. repeat split; nra.
Qed.

Lemma qform_bound : forall s n v, s * s = 1 ->
  (INR n + 1) / (2 * INR n + 1) * (v n * v n) <= rsum (S n) (fun i => v i * v i) + s * qform (S n) v.
Proof.
  intros s n v Hs. induction n as [|n IH].
  - unfold qform; simpl. unfold tri. simpl. lra.
  - rewrite qform_step. change (rsum (S (S n)) (fun i => v i * v i)) with (rsum (S n) (fun i => v i * v i) + v (S n) * v (S n)).
    destruct (gbeta_sq n) as [G1 G2]. rewrite S_INR. pose proof (pos_INR n) as P.
    set (g := gbeta (S n)) in *. set (x := v n) in *. set (y := v (S n)) in *. set (k := INR n) in *.
    assert (A : (k + 1) / (2 * k + 1) * ((x + s * ((2 * k + 1) / (k + 1) * g) * y) * (x + s * ((2 * k + 1) / (k + 1) * g) * y)) =
                (k + 1) / (2 * k + 1) * (x * x) + 2 * s * g * x * y + (2 * k + 1) / (k + 1) * (g * g) * (s * s) * (y * y)).
    { field. lra. }
    rewrite Hs, G1 in A.
    assert (A2 : (2 * k + 1) / (k + 1) * ((k + 1) * (k + 1) / ((2 * k + 1) * (2 * k + 3))) = 1 - (k + 1 + 1) / (2 * (k + 1) + 1)) by (field; lra).
    rewrite A2 in A.
    assert (B : 0 <= (k + 1) / (2 * k + 1) * ((x + s * ((2 * k + 1) / (k + 1) * g) * y) * (x + s * ((2 * k + 1) / (k + 1) * g) * y))).
    { apply Rmult_le_pos; [apply Rlt_le, Rdiv_lt_0_compat; lra|apply Rle_0_sqr]. }
    rewrite A in B. nra.
Qed.

(** every eigenvalue of the Jacobi matrix lies in [-1,1] *)
Theorem jacobi_eig : forall n v l, length v = n -> dot v v = 1 -> mv (jacobi n) v = vscale l v -> -1 <= l <= 1.
Proof.
  intros n v l L U E. destruct n as [|n]; [destruct v; [rewrite dot_nil_l in U; lra|discriminate]|].
  assert (Q : qform (S n) (vget v) = l) by (rewrite <- jacobi_qform, E, dot_vscale_r, U by auto; ring).
  assert (N : rsum (S n) (fun i => vget v i * vget v i) = 1) by (rewrite <- U, dot_rsum, L; auto).
  pose proof (qform_bound 1 n (vget v) ltac:(ring)) as B1. pose proof (qform_bound (-1) n (vget v) ltac:(ring)) as B2.
  rewrite Q, N in *. pose proof (pos_INR n) as P.
  assert (0 <= (INR n + 1) / (2 * INR n + 1) * (vget v n * vget v n)).
  { apply Rmult_le_pos; [apply Rlt_le, Rdiv_lt_0_compat; lra|apply Rle_0_sqr]. }
  lra.
Qed.

Lemma gauss_w_sum : forall ev a b, vsum (gauss_w ev a b) = (b - a) * vsum (map (fun c => vget c 0 * vget c 0) ev).
Proof.
  intros ev a b. unfold gauss_w. induction ev as [|c ev IH]; cbn [map]; [unfold vsum; simpl; ring|].
  rewrite !vsum_cons, IH. field.
Qed.

Theorem gauss_correct : forall n ew ev a b, eigh_contract n (jacobi n) ew ev -> a <= b ->
  length (gauss_x ew a b) = n /\ length (gauss_w ev a b) = n /\
  Forall (fun x => a <= x <= b) (gauss_x ew a b) /\ Forall (fun w => 0 <= w) (gauss_w ev a b) /\
  vsum (gauss_w ev a b) = b - a.
Proof.
  intros n ew ev a b [L1 [L2 [F [H S]]]] AB. unfold gauss_x, gauss_w. rewrite !map_length. split; auto. split; auto.
  split; [|split].
  - apply Forall_forall. intros x Hx. apply in_map_iff in Hx. destruct Hx as [t [E T]]. subst x.
    destruct (In_nth _ _ 0 T) as [j [J1 J2]]. destruct (H j ltac:(lia)) as [U M].
    assert (B : -1 <= t <= 1).
    { apply (jacobi_eig n (nth j ev [])); auto.
      - rewrite Forall_forall in F. apply F, nth_In. lia.
      - rewrite <- J2. exact M. }
    split; [|replace b with (a + (b - a) / 2 * 2) at 2 by field]; nra.
  - apply Forall_forall. intros w Hw. apply in_map_iff in Hw. destruct Hw as [c [E _]]. subst w.
    assert (0 <= vget c 0 * vget c 0) by apply Rle_0_sqr. apply Rmult_le_pos; lra.
  - fold (gauss_w ev a b). rewrite gauss_w_sum, S. ring.
Qed.


(* ---------------- tensor rules ---------------- *)
Fixpoint rprod (l : list R) : R := match l with [] => 1 | x :: l' => x * rprod l' end.

Lemma vsum_map_scale : forall (A : Type) (f : A -> R) c l, vsum (map (fun x => c * f x) l) = c * vsum (map f l).
Proof. intros A f c l. induction l; cbn [map]; [unfold vsum; simpl; ring|]. rewrite !vsum_cons, IHl. ring. Qed.

Lemma cart_w_sum : forall rules, Forall (fun r => length (fst r) = length (snd r)) rules ->
  vsum (map snd (cart_w rules)) = rprod (map (fun r => vsum (snd r)) rules).
Proof.
  induction 1 as [|[x w] rs E F IH]; cbn [cart_w map rprod snd fst].
  - simpl. unfold vsum; simpl; ring.
  - rewrite <- IH. simpl in E. revert w E. induction x as [|a x IHx]; intros w E; destruct w as [|b w]; simpl in E; try lia.
    + unfold vsum; simpl. ring.
    + cbn [combine flat_map]. rewrite map_app, vsum_app, IHx by lia. rewrite map_map. cbn [fst snd].
      rewrite vsum_map_scale, vsum_cons. ring.
Qed.

Lemma cart_w_in : forall rules p w, In (p, w) (cart_w rules) ->
  exists ws, Forall2 (fun r aw => In aw (combine (fst r) (snd r))) rules (combine p ws) /\ length p = length rules /\ length ws = length rules /\ w = rprod ws.
Proof.
  induction rules as [|[x wx] rs IH]; intros p w H; cbn [cart_w] in H.
  - destruct H as [E|[]]. injection E as <- <-. exists []. simpl. repeat split; auto.
  - apply in_flat_map in H. destruct H as [[a wa] [H1 H2]]. apply in_map_iff in H2. destruct H2 as [[p' w'] [E H2]].
    cbn [fst snd] in E. injection E as <- <-. destruct (IH _ _ H2) as [ws [I1 [I2 [I3 I4]]]].
    exists (wa :: ws). simpl. repeat split; auto; try lia; try congruence.
Qed.

Lemma cart_w_length : forall rules q, Forall (fun r => length (fst r) = q /\ length (snd r) = q) rules ->
  length (cart_w rules) = Nat.pow q (length rules).
Proof.
  induction 1 as [|[x w] rs [E1 E2] F IH]; cbn [cart_w length Nat.pow]; auto. simpl in E1, E2.
  rewrite <- IH. assert (G : length (combine x w) = q) by (rewrite combine_length; lia).
  rewrite <- G. generalize (combine x w). induction l as [|aw l IHl]; simpl; auto. rewrite app_length, map_length. rewrite IHl. auto.
Qed.

(** a family of Gauss rules on the box [nlb, nub] *)
Definition gauss_rules (nlb nub : vec) (rules : nat -> list (vec * vec)) : Prop :=
  forall q, Forall2 (fun lu r => exists ew ev, eigh_contract q (jacobi q) ew ev /\
     r = (gauss_x ew (fst lu) (snd lu), gauss_w ev (fst lu) (snd lu))) (combine nlb nub) (rules q).

Definition ordered (l u : vec) : Prop := length l = length u /\ forall i, (i < length l)%nat -> vget l i <= vget u i.

Lemma ordered_cons : forall a l b u, ordered (a :: l) (b :: u) -> a <= b /\ ordered l u.
Proof.
  intros a l b u [E H]. simpl in E. split; [apply (H O); simpl; lia|]. split; [lia|]. intros i Hi. apply (H (S i)). simpl; lia.
Qed.

Lemma gauss_rules_facts : forall nlb nub rs q, ordered nlb nub ->
  Forall2 (fun lu r => exists ew ev, eigh_contract q (jacobi q) ew ev /\
     r = (gauss_x ew (fst lu) (snd lu), gauss_w ev (fst lu) (snd lu))) (combine nlb nub) rs ->
  length rs = length nlb /\ Forall (fun r => length (fst r) = q /\ length (snd r) = q) rs /\
  rprod (map (fun r => vsum (snd r)) rs) = rprod (vsub nub nlb) /\
  (forall p ws, length p = length rs -> length ws = length rs -> Forall2 (fun r aw => In aw (combine (fst r) (snd r))) rs (combine p ws) ->
     0 <= rprod ws /\ forall i, (i < length nlb)%nat -> vget nlb i <= vget p i <= vget nub i).
Proof.
  induction nlb as [|a nlb IH]; intros nub rs q O F; destruct nub as [|b nub]; try (destruct O; discriminate).
  - inversion F; subst. simpl. repeat split; auto; try (intros; lia). destruct ws; [simpl; lra|discriminate].
  - apply ordered_cons in O. destruct O as [AB O]. simpl in F. inversion F as [|lu r c rs' [ew [ev [C E]]] F' G1 G2]; subst. clear F.
    destruct (IH nub rs' q O F') as [I1 [I2 [I3 I4]]]. cbn [fst snd] in *.
    destruct (gauss_correct q ew ev a b C AB) as [A1 [A2 [A3 [A4 A5]]]].
    split; [simpl; lia|]. split; [constructor; auto|]. split.
    + simpl. rewrite A5, I3. reflexivity.
    + intros p ws Lp Lw FF. destruct p as [|x p]; [discriminate|]. destruct ws as [|w ws]; [discriminate|].
      simpl in FF. inversion FF as [|? ? ? ? H1 H2]; subst. simpl in Lp, Lw. destruct (I4 p ws ltac:(lia) ltac:(lia) H2) as [J1 J2].
      cbn [fst snd] in H1. pose proof (in_combine_l _ _ _ _ H1) as X1. pose proof (in_combine_r _ _ _ _ H1) as X2.
      rewrite Forall_forall in A3, A4. split.
      * simpl. apply Rmult_le_pos; auto.
      * intros i Hi. destruct i as [|i]; [apply A3; auto|]. apply (J2 i). simpl in Hi; lia.
Qed.

Lemma filter_length_le' : forall (A : Type) (f : A -> bool) l, (length (filter f l) <= length l)%nat.
Proof. intros A f l. induction l; simpl; auto. destruct (f a); simpl; lia. Qed.

Lemma quad_loop_inv : forall (P : list (vec * R) -> Prop) fuel d tol rules N q cur res,
  P cur -> (forall k, (length (quad_inside d tol (rules k)) <= N)%nat -> P (quad_inside d tol (rules k))) ->
  quad_loop fuel d tol rules N q cur = Some res -> P res.
Proof.
  intros P. induction fuel as [|f IH]; intros d tol rules N q cur res H0 H E; cbn [quad_loop] in E; [discriminate|].
  destruct (Nat.leb_spec (length (quad_inside d tol (rules (S q)))) N).
  - eapply IH in E; eauto.
  - injection E as <-. auto.
Qed.

(** every rule returned has at most N points, all inside the domain, with non-negative weights *)
Theorem quadrature_gauss_correct : forall fuel d tol rules nlb nub N q res, length nlb = dim d -> ordered nlb nub -> gauss_rules nlb nub rules ->
  (Nat.pow q (dim d) <= N)%nat ->
  quadrature_gauss fuel d tol rules N q = Some res ->
  (length res <= N)%nat /\ Forall (fun pw => inside1 d (fst pw) tol = true /\ 0 <= snd pw) res.
Proof.
  intros fuel d tol rules nlb nub N q res LD O G HN E. unfold quadrature_gauss in E.
  assert (K : forall k, Forall (fun pw => inside1 d (fst pw) tol = true /\ 0 <= snd pw) (quad_inside d tol (rules k))).
  { intro k. apply Forall_forall. intros [p w] H. unfold quad_inside in H. apply filter_In in H. destruct H as [H1 H2].
    split; auto. apply cart_w_in in H1. destruct H1 as [ws [W1 [W2 [W3 W4]]]]. simpl. subst w.
    destruct (gauss_rules_facts nlb nub (rules k) k O (G k)) as [_ [_ [_ X]]]. apply (X p ws); auto. }
  assert (C : (length (quad_inside d tol (rules q)) <= N)%nat).
  { unfold quad_inside. eapply Nat.le_trans; [apply filter_length_le'|].
    destruct (gauss_rules_facts nlb nub (rules q) q O (G q)) as [X1 [X2 _]]. rewrite (cart_w_length _ q) by auto. rewrite X1, LD. auto. }
  destruct (Nat.eqb _ _).
  - injection E as <-. split; auto.
  - apply (quad_loop_inv (fun r => (length r <= N)%nat /\ Forall (fun pw => inside1 d (fst pw) tol = true /\ 0 <= snd pw) r)) in E; auto.
Qed.

Lemma filter_all : forall (A : Type) (f : A -> bool) l, (forall x, In x l -> f x = true) -> filter f l = l.
Proof. intros A f l. induction l as [|a l IH]; intro H; simpl; auto. rewrite (H a) by (simpl; auto). f_equal. apply IH. intros; apply H; simpl; auto. Qed.

(** on a box the first rule is returned: q^m points, weights summing to the volume *)
Theorem quadrature_box : forall fuel l u tol rules N q, ordered l u -> 0 < tol -> gauss_rules l u rules ->
  exists res, quadrature_gauss fuel (box_of l u) tol rules N q = Some res /\ length res = Nat.pow q (length l) /\
    vsum (map snd res) = rprod (vsub u l) /\ Forall (fun pw => member (box_of l u) (fst pw)) res.
Proof.
  intros fuel l u tol rules N q O Ht G. destruct (gauss_rules_facts l u (rules q) q O (G q)) as [X1 [X2 [X3 X4]]].
  assert (MM : forall pw, In pw (cart_w (rules q)) -> member (box_of l u) (fst pw)).
  { intros [p w] H. apply cart_w_in in H. destruct H as [ws [W1 [W2 [W3 W4]]]]. apply box_member; [apply O|]. simpl.
    split; [lia|]. apply (X4 p ws); auto. }
  assert (A : quad_inside (box_of l u) tol (rules q) = cart_w (rules q)).
  { apply filter_all. intros pw H. apply inside1_spec; [apply box_of_wf; apply O|discriminate|]. apply member_relaxed1; auto. }
  exists (cart_w (rules q)). unfold quadrature_gauss. rewrite A. rewrite (cart_w_length _ q) by auto.
  assert (DD : dim (box_of l u) = length l) by reflexivity. rewrite DD, X1, Nat.eqb_refl. split; auto. split; auto. split.
  - rewrite cart_w_sum; auto. apply Forall_impl with (2 := X2). intros r [E1 E2]. congruence.
  - apply Forall_forall. auto.
Qed.

(** q^m <= N for q = floor(N^(1/m)) *)
Theorem quad_q_bound : forall N m, (1 <= N)%nat -> (1 <= m)%nat -> (Nat.pow (quad_q N m) m <= N)%nat.
Proof.
  intros N m HN Hm. apply INR_le. rewrite pow_INR. unfold quad_q. set (r := Rpower (INR N) (/ INR m)).
  assert (R0 : 0 < r) by apply exp_pos.
  assert (Nm : 0 < INR N) by (apply lt_0_INR; lia).
  assert (Mm : 0 < INR m) by (apply lt_0_INR; lia).
  destruct (base_Int_part r) as [I1 I2].
  assert (I0 : (0 <= Int_part r)%Z). { apply Z.lt_succ_r, lt_IZR. rewrite succ_IZR. simpl. lra. }
  rewrite INR_IZR_INZ, Z2Nat.id by auto.
  apply Rle_trans with (r ^ m).
  - apply pow_incr. split; [apply IZR_le in I0; auto|auto].
  - rewrite <- Rpower_pow by auto. unfold r. rewrite Rpower_mult. rewrite Rinv_l by lra. rewrite Rpower_1; lra.
Qed.

Theorem mc_weights_sum : forall N vol, (1 <= N)%nat -> vsum (mc_weights N vol) = vol /\ length (mc_weights N vol) = N.
Proof.
  intros N vol HN. unfold mc_weights. split; [|apply repeat_length].
  assert (G : forall n c, vsum (repeat c n) = INR n * c).
  { induction n; intro c; [unfold vsum; simpl; ring|]. rewrite S_INR. simpl repeat. rewrite vsum_cons, IHn. ring. }
  rewrite G. field. apply not_0_INR. lia.
Qed.

(* ---------------- lognormal ---------------- *)
(** membership in [lb, ub] *)
Definition between (l u : num) (x : R) : Prop :=
  (forall v, l = Fin v -> v <= x) /\ (forall v, u = Fin v -> x <= v) /\ l <> NaN /\ u <> NaN.

Theorem logn_truncated : forall offset scaling nlb nub y, 0 <= scaling -> nlb <= y <= nub ->
  between (logn_lb offset scaling (Some (nlb, nub))) (logn_ub offset scaling (Some (nlb, nub))) (logn_sample offset scaling y).
Proof.
  intros o s a b y Hs [H1 H2]. unfold between, logn_lb, logn_ub, logn_sample.
  assert (E1 : exp a <= exp y) by (destruct H1; [left; apply exp_increasing; auto|subst; lra]).
  assert (E2 : exp y <= exp b) by (destruct H2; [left; apply exp_increasing; auto|subst; lra]).
  repeat split; try discriminate; intros v E; injection E as <-; nra.
Qed.

Theorem logn_untruncated : forall offset scaling y, 0 <= scaling -> 0 <= offset ->
  between (logn_lb offset scaling None) (logn_ub offset scaling None) (logn_sample offset scaling y).
Proof.
  intros o s y Hs Ho. unfold between, logn_lb, logn_ub, logn_sample. pose proof (exp_pos y).
  repeat split; try discriminate; intros v E; injection E as <-; nra.
Qed.

Theorem logn_negative_scaling : forall offset scaling nlb nub y, scaling < 0 -> nlb < nub -> nlb <= y <= nub ->
  ~ between (logn_lb offset scaling (Some (nlb, nub))) (logn_ub offset scaling (Some (nlb, nub))) (logn_sample offset scaling y).
Proof.
  intros o s a b y Hs AB [H1 H2] [B1 [B2 _]]. unfold logn_lb, logn_ub, logn_sample in *.
  specialize (B1 _ eq_refl). specialize (B2 _ eq_refl). pose proof (exp_increasing _ _ AB). nra.
Qed.

Theorem logn_refuted : exists offset scaling y, 0 < scaling /\
  ~ between (logn_lb offset scaling None) (logn_ub offset scaling None) (logn_sample offset scaling y).
Proof.
  exists (-2), 1, 0. split; [lra|]. intros [B _]. specialize (B 0 eq_refl). unfold logn_sample in B. rewrite exp_0 in B. lra.
Qed.

(** [logn_pdf] is lognormal.py 77-80.  A density p of offset + scaling*exp(Y) satisfies
    p(x) dx = phi(y) dy with dx/dy = scaling*exp(y). *)
Definition normal_density (mean cov y : R) : R := exp (- ((y - mean) * (y - mean) / (2 * cov))) / sqrt (2 * PI * cov).
Definition is_logn_density (mean cov offset scaling : R) (p : R -> R) : Prop :=
  forall y, p (offset + scaling * exp y) * (scaling * exp y) = normal_density mean cov y.

Theorem logn_pdf_spec : forall mean cov offset scaling, 0 < cov -> 0 < scaling ->
  (is_logn_density mean cov offset scaling (logn_pdf mean cov offset scaling) <-> scaling * scaling = cov).
Proof.
  intros m c o s Hc Hs. unfold is_logn_density, logn_pdf, normal_density.
  assert (P : 0 < sqrt (2 * PI)) by (apply sqrt_lt_R0; pose proof PI_RGT_0; lra).
  assert (Q : 0 < sqrt c) by (apply sqrt_lt_R0; auto).
  assert (A : forall y, (o + s * exp y - o) / s = exp y) by (intro y; field; lra).
  assert (S2 : sqrt (2 * PI * c) = sqrt (2 * PI) * sqrt c) by (apply sqrt_mult; pose proof PI_RGT_0; lra).
  assert (SS : sqrt c * sqrt c = c) by (apply sqrt_sqrt; lra).
  rewrite S2. split.
  - intro H. specialize (H m). rewrite A, ln_exp in H. replace (m - m) with 0 in H by ring.
    replace (- (0 * 0 / (2 * c))) with 0 in H by (field; lra). rewrite exp_0 in H. pose proof (exp_pos m) as E.
    assert (G : s * sqrt c = c).
    { apply (f_equal (fun t => t * (c * sqrt (2 * PI) * sqrt c))) in H.
      replace (1 / (exp m * c * sqrt (2 * PI)) * (s * exp m) * (c * sqrt (2 * PI) * sqrt c)) with (s * sqrt c) in H by (field; lra).
      rewrite H. field. lra. }
    assert (G2 : s = sqrt c) by (apply Rmult_eq_reg_r with (sqrt c); lra). rewrite G2. auto.
  - intros H y. rewrite A, ln_exp. pose proof (exp_pos y) as E.
    assert (G : sqrt c = s) by (rewrite <- H; apply sqrt_square; lra).
    rewrite G, <- H. field. lra.
Qed.
