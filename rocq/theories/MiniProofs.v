(** Smallest enclosing ball, convergence study, empirical percentiles. *)
Require Import Reals Lra Lia List Bool Arith ZArith Sorted Permutation.
From Verif Require Import RVec Num Sums DomModel DomMoreModel HullIneqProofs LipModel SampModel LatinProofs MiniModel.
Import ListNotations.
Local Open Scope R_scope.

(* ------------------------------------------------------------------ smallest enclosing ball *)
(** the ball of centre c and radius r in the metric |L .| contains the points X *)
Definition encloses (L X : mat) (c : vec) (r : R) : Prop := forall p, In p X -> norm2 (mv L (vsub c p)) <= r.
(** the contract of the solver: it returns a point of the right size minimizing the objective given *)
Definition solves (m : nat) (solve : (vec -> R) -> vec) (f : vec -> R) : Prop :=
  length (solve f) = m /\ forall y, length y = m -> f (solve f) <= f y.

Lemma mb_obj_spec : forall L X x, X <> [] ->
  encloses L X x (mb_obj L X x) /\ exists p, In p X /\ norm2 (mv L (vsub x p)) = mb_obj L X x.
Proof.
  intros L X x N. unfold mb_obj. destruct (vmax_spec (map (fun p => norm2 (mv L (vsub x p))) X)) as [A B].
  - destruct X; [congruence|discriminate].
  - split.
    + intros p Hp. apply A. apply in_map_iff. exists p. auto.
    + apply in_map_iff in B. destruct B as (p & E & Hp). exists p. auto.
Qed.
Lemma mb_obj_le : forall L X x r, X <> [] -> encloses L X x r -> mb_obj L X x <= r.
Proof. intros L X x r N E. destruct (mb_obj_spec L X x N) as (_ & p & Hp & <-). auto. Qed.

(** the ball returned contains the points, touches one, and no smaller ball contains them *)
Theorem miniball_optimal : forall solve X L m x r, miniball solve X (Some L) = Some (x, r) -> (forall p, In p X -> length p = m) ->
  solves m solve (mb_obj L X) ->
  encloses L X x r /\ (exists p, In p X /\ norm2 (mv L (vsub x p)) = r) /\
  forall c rho, length c = m -> encloses L X c rho -> r <= rho.
Proof.
  intros solve X L m x r E LX [SL SO]. destruct X as [|p0 X']; [discriminate|]. simpl in E. injection E as <- <-. set (X := p0 :: X') in *.
  assert (N : X <> []) by discriminate. destruct (mb_obj_spec L X (solve (mb_obj L X)) N) as (A & B). split; [exact A|]. split; [exact B|].
  intros c rho Lc Ec. eapply Rle_trans; [apply (SO c Lc)|]. apply mb_obj_le; auto.
Qed.

Lemma comb_norm : forall a b t, length a = length b ->
  norm2sq (vadd (vscale (1 - t) a) (vscale t b)) = (1 - t) * norm2sq a + t * norm2sq b - t * (1 - t) * norm2sq (vsub a b).
Proof.
  intros a b t H. unfold norm2sq. rewrite !dot_rsum by (rewrite ?vadd_length, ?vsub_length, ?vscale_length; rewrite ?vscale_length; auto).
  rewrite vadd_length by (rewrite !vscale_length; auto). rewrite vscale_length, vsub_length, <- H by auto.
  rewrite <- !rsum_scal_l, <- rsum_plus, <- rsum_minus. apply rsum_ext. intros i Hi.
  rewrite vadd_get, vsub_get, !vscale_get by (rewrite ?vscale_length; auto). ring.
Qed.

(** quadratic growth: a ball of any other centre must be larger by the distance of the centres (Pythagoras) *)
Theorem miniball_growth : forall solve X L m x r, miniball solve X (Some L) = Some (x, r) -> (forall p, In p X -> length p = m) ->
  solves m solve (mb_obj L X) ->
  forall c rho, length c = m -> encloses L X c rho -> r * r + norm2sq (mv L (vsub x c)) <= rho * rho.
Proof.
  intros solve X L m x r E LX S c rho Lc Ec. destruct (miniball_optimal solve X L m x r E LX S) as (A & (p1 & Hp1 & Ep1) & O).
  destruct X as [|p0 X']; [discriminate|]. simpl in E. injection E as Ex Er. set (X := p0 :: X') in *.
  assert (Lx : length x = m) by (rewrite <- Ex; apply S). clear Ex Er.
  assert (R0 : 0 <= r) by (rewrite <- Ep1; apply norm2_nonneg).
  assert (H0 : 0 <= rho) by (eapply Rle_trans; [apply norm2_nonneg|apply (Ec p0); simpl; auto]).
  set (D := norm2sq (mv L (vsub x c))).
  assert (T : forall t, 0 < t < 1 -> (1 - t) * D <= rho * rho - r * r).
  { intros t Ht. set (z := vadd (vscale (1 - t) x) (vscale t c)).
    assert (Lz : length z = m) by (unfold z; rewrite vadd_length; rewrite ?vscale_length; lia).
    set (q := (1 - t) * (r * r) + t * (rho * rho) - t * (1 - t) * D).
    assert (B : forall p, In p X -> norm2sq (mv L (vsub z p)) <= q).
    { intros p Hp. pose proof (LX p Hp) as Lp.
      replace (mv L (vsub z p)) with (vadd (vscale (1 - t) (mv L (vsub x p))) (vscale t (mv L (vsub c p)))).
      - rewrite comb_norm by (rewrite !mv_length; auto). replace (vsub (mv L (vsub x p)) (mv L (vsub c p))) with (mv L (vsub x c)).
        + fold D. assert (norm2sq (mv L (vsub x p)) <= r * r) by (apply norm2_le_iff; auto).
          assert (norm2sq (mv L (vsub c p)) <= rho * rho) by (apply norm2_le_iff; auto). unfold q.
          assert ((1 - t) * norm2sq (mv L (vsub x p)) <= (1 - t) * (r * r)) by (apply Rmult_le_compat_l; lra).
          assert (t * norm2sq (mv L (vsub c p)) <= t * (rho * rho)) by (apply Rmult_le_compat_l; lra). lra.
        + rewrite <- mv_vsub by (rewrite !vsub_length; lia). f_equal. apply vec_ext; [rewrite !vsub_length; rewrite ?vsub_length; lia|].
          intros i _. rewrite !vsub_get by (rewrite ?vsub_length; lia). ring.
      - rewrite <- !mv_vscale, <- mv_vadd by (rewrite !vscale_length, !vsub_length; lia). f_equal. unfold z. apply vec_ext.
        + rewrite vadd_length, vsub_length, vadd_length; rewrite ?vscale_length, ?vsub_length; rewrite ?vadd_length; rewrite ?vscale_length; lia.
        + intros i _. rewrite vadd_get, vsub_get, vadd_get by (rewrite ?vadd_length; rewrite ?vscale_length, ?vsub_length; rewrite ?vscale_length; lia).
          rewrite !vscale_get, !vsub_get by lia. ring. }
    assert (Q0 : 0 <= q) by (eapply Rle_trans; [apply norm2sq_nonneg|apply (B p0); simpl; auto]).
    assert (RQ : r <= sqrt q).
    { apply (O z); auto. intros p Hp. apply norm2_le_iff; [apply sqrt_pos|]. rewrite sqrt_sqrt by auto. auto. }
    assert (r * r <= q) by (rewrite <- (sqrt_sqrt q Q0); apply Rmult_le_compat; auto). unfold q in H.
    apply Rmult_le_reg_l with t; [lra|]. lra. }
  assert (D0 : 0 <= D) by apply norm2sq_nonneg.
  destruct (Rle_lt_dec (r * r + D) (rho * rho)) as [Y|Y]; [exact Y|exfalso].
  pose proof (T (/ 2) ltac:(lra)) as T2.
  destruct (Req_dec D 0) as [Z|Z]; [lra|].
  set (w := (r * r + D - rho * rho) / (2 * D)). assert (WD : w * D = (r * r + D - rho * rho) / 2) by (unfold w; field; auto).
  assert (W0 : 0 < w) by (unfold w; apply Rdiv_lt_0_compat; lra).
  assert (W1 : w < 1).
  { apply Rmult_lt_reg_r with D; [lra|]. rewrite WD. pose proof (O c rho Lc Ec). assert (r * r <= rho * rho) by (apply Rmult_le_compat; auto). lra. }
  specialize (T w ltac:(lra)). lra.
Qed.

(** the centre is unique up to the kernel of L *)
Theorem miniball_unique : forall solve X L m x r, miniball solve X (Some L) = Some (x, r) -> (forall p, In p X -> length p = m) ->
  solves m solve (mb_obj L X) -> forall c, length c = m -> encloses L X c r -> norm2 (mv L (vsub x c)) = 0.
Proof.
  intros solve X L m x r E LX S c Lc Ec. pose proof (miniball_growth solve X L m x r E LX S c r Lc Ec) as G.
  pose proof (norm2sq_nonneg (mv L (vsub x c))). unfold norm2. replace (norm2sq (mv L (vsub x c))) with 0 by lra. apply sqrt_0.
Qed.

(** the radius is between half the diameter and the diameter *)
Theorem miniball_radius : forall solve X L m x r, miniball solve X (Some L) = Some (x, r) -> (forall p, In p X -> length p = m) ->
  solves m solve (mb_obj L X) -> forall d, (forall p q, In p X -> In q X -> norm2 (mv L (vsub p q)) <= d) ->
  r <= d /\ forall p q, In p X -> In q X -> norm2 (mv L (vsub p q)) <= 2 * r.
Proof.
  intros solve X L m x r E LX S d Hd. destruct (miniball_optimal solve X L m x r E LX S) as (A & (p1 & Hp1 & _) & O). split.
  - apply (O p1); auto. intros p Hp. auto.
  - assert (Lx : length x = m) by (destruct X; [discriminate|]; simpl in E; injection E as <- _; apply S).
    intros p q Hp Hq. pose proof (LX p Hp). pose proof (LX q Hq).
    replace (mv L (vsub p q)) with (vadd (mv L (vsub x q)) (vscale (- 1) (mv L (vsub x p)))).
    + eapply Rle_trans; [apply norm2_triangle; rewrite vscale_length, !mv_length; auto|]. rewrite norm2_vscale.
      rewrite (Rabs_left (- 1)) by lra. pose proof (A p Hp). pose proof (A q Hq). lra.
    + rewrite <- mv_vscale, <- mv_vadd by (rewrite vscale_length, !vsub_length; lia). f_equal. apply vec_ext.
      * rewrite vadd_length by (rewrite ?vscale_length, !vsub_length; lia). rewrite !vsub_length; lia.
      * intros i _. rewrite vadd_get by (rewrite ?vscale_length, ?vsub_length; lia). rewrite vscale_get, !vsub_get by lia. ring.
Qed.

Lemma mv_meye : forall m x, length x = m -> mv (meye m) x = x.
Proof.
  intros m x H. apply vec_ext; [unfold meye; rewrite mv_length, map_length, seq_length; auto|].
  intros i Hi. unfold meye, mv in *. rewrite !map_length, seq_length in Hi. rewrite map_map, vget_map_seq by auto.
  rewrite dot_rsum by (unfold unitv; rewrite map_length, seq_length; auto). unfold unitv. rewrite map_length, seq_length.
  rewrite (rsum_single _ i); auto.
  - rewrite vget_map_seq by auto. rewrite Nat.eqb_refl. ring.
  - intros k Hk N. rewrite vget_map_seq by auto. destruct (Nat.eqb_spec k i); [congruence|]; ring.
Qed.

(** without a metric the identity is used, and the centre lies in the bounding box of the points *)
Theorem miniball_default : forall solve X m x r, miniball solve X None = Some (x, r) -> (forall p, In p X -> length p = m) ->
  solves m solve (mb_obj (meye m) X) ->
  (forall p, In p X -> norm2 (vsub x p) <= r) /\ (forall c, length c = m -> (forall p, In p X -> norm2 (vsub c p) <= r) -> c = x) /\
  forall a b i, (i < m)%nat -> (forall p, In p X -> a <= vget p i <= b) -> a <= vget x i <= b.
Proof.
  intros solve X m x r E LX S. assert (E' : miniball solve X (Some (meye m)) = Some (x, r)).
  { destruct X as [|p0 X']; [discriminate|]. cbn [miniball] in E |- *. rewrite (LX p0) in E by (simpl; auto). exact E. }
  assert (NE : X <> []) by (intros ->; discriminate).
  assert (Lx : length x = m) by (destruct X; [congruence|]; simpl in E'; injection E' as <- _; apply S).
  destruct (miniball_optimal solve X _ m x r E' LX S) as (A & _ & O).
  assert (N : forall c p, length c = m -> In p X -> norm2 (mv (meye m) (vsub c p)) = norm2 (vsub c p)).
  { intros c p Lc Hp. rewrite mv_meye; auto. rewrite vsub_length; auto. rewrite (LX p Hp). auto. }
  assert (U : forall c, length c = m -> (forall p, In p X -> norm2 (vsub c p) <= r) -> c = x).
  { intros c Lc Hc. assert (Ec : encloses (meye m) X c r) by (intros p Hp; rewrite N; auto).
    pose proof (miniball_unique solve X _ m x r E' LX S c Lc Ec) as Z. rewrite mv_meye in Z by (rewrite vsub_length; lia).
    apply vec_ext; [lia|]. intros i Hi. pose proof (norm2_sq (vsub x c)) as Q. rewrite Z, Rmult_0_l in Q. symmetry in Q.
    apply norm2sq_zero in Q. assert (V : vget (vsub x c) i = 0).
    { unfold vget. apply (proj1 (Forall_forall _ _) Q). apply nth_In. rewrite vsub_length; lia. }
    rewrite vsub_get in V by lia. lra. }
  split; [intros p Hp; rewrite <- N by auto; apply A; auto|]. split; [exact U|].
  intros a b i Hi B.
  destruct X as [|p0 X'] eqn:EX; [congruence|]. rewrite <- EX in *. clear EX. assert (Hp0 : exists p, In p X) by (destruct X as [|q ?]; [congruence|exists q; simpl; auto]).
  destruct Hp0 as [q0 Hq0]. pose proof (B q0 Hq0) as B0.
  set (c := map (fun k => if Nat.eqb k i then Rmax a (Rmin b (vget x k)) else vget x k) (seq 0 m)).
  assert (Lc : length c = m) by (unfold c; rewrite map_length, seq_length; auto).
  assert (CX : c = x).
  { apply U; auto. intros p Hp. apply Rle_trans with (norm2 (vsub x p)); [|rewrite <- (N x p Lx Hp); apply (A p Hp)].
    apply norm2_le_iff; [apply norm2_nonneg|]. rewrite norm2_sq. unfold norm2sq. pose proof (LX p Hp) as Lp.
    rewrite !dot_rsum by auto. rewrite !vsub_length, Lc, Lx by lia. apply rsum_le. intros k Hk. rewrite !vsub_get by lia.
    unfold c. rewrite vget_map_seq by auto. destruct (Nat.eqb_spec k i) as [->|]; [|lra].
    specialize (B p Hp). pose proof (Rle_0_sqr (vget x i - vget p i)). unfold Rsqr in *.
    unfold Rmax, Rmin. destruct (Rle_dec b (vget x i)); destruct (Rle_dec a _); nra. }
  rewrite <- CX. unfold c. rewrite vget_map_seq by auto. rewrite Nat.eqb_refl. unfold Rmax, Rmin.
  destruct (Rle_dec b (vget x i)); destruct (Rle_dec a _); lra.
Qed.

(** two points: centre the midpoint, radius half the distance *)
Lemma mb_pair : forall c, length c = 2%nat -> 5 <= mb_obj (meye 2) [[0; 0]; [6; 8]] c.
Proof.
  intros c Lc. destruct c as [|a [|b [|? ?]]]; try discriminate. destruct (mb_obj_spec (meye 2) [[0; 0]; [6; 8]] [a; b] ltac:(discriminate)) as (A & _).
  set (r := mb_obj _ _ _) in *. clearbody r. pose proof (A [0; 0] ltac:(simpl; auto)) as A1. pose proof (A [6; 8] ltac:(simpl; auto)) as A2.
  rewrite mv_meye in A1 by reflexivity. rewrite mv_meye in A2 by reflexivity.
  assert (R0 : 0 <= r) by (eapply Rle_trans; [apply norm2_nonneg|exact A1]).
  apply norm2_le_iff in A1; auto. apply norm2_le_iff in A2; auto. unfold norm2sq in A1, A2. cbn in A1, A2. rewrite !dot_cons, dot_nil_l in A1. rewrite !dot_cons, dot_nil_l in A2.
  pose proof (Rle_0_sqr (a - 3)). pose proof (Rle_0_sqr (b - 4)). unfold Rsqr in *.
  assert (25 <= r * r) by lra. destruct (Rle_lt_dec 5 r); auto. exfalso. assert (r * r < 5 * 5) by (apply Rmult_le_0_lt_compat; auto). lra.
Qed.
Example miniball_case : let solve := fun _ : vec -> R => [3; 4] in
  solves 2 solve (mb_obj (meye 2) [[0; 0]; [6; 8]]) /\ miniball solve [[0; 0]; [6; 8]] None = Some ([3; 4], 5).
Proof.
  assert (V : mb_obj (meye 2) [[0; 0]; [6; 8]] [3; 4] = 5).
  { apply Rle_antisym; [|apply mb_pair; auto]. apply mb_obj_le; [discriminate|].
    intros p [<-|[<-|[]]]; rewrite mv_meye by reflexivity; apply norm2_le_iff; try lra; unfold norm2sq; cbn; rewrite !dot_cons, dot_nil_l; lra. }
  split.
  - split; [reflexivity|]. intros y Ly. rewrite V. apply mb_pair; auto.
  - unfold miniball. cbn [length]. rewrite V. auto.
Qed.

(* ------------------------------------------------------------------ convergence study *)
(** one angle per sample size, the first a placeholder of pi/2; angle i+1 compares the subspaces of sizes i and i+1 *)
Theorem study_angles : forall pi2 angle fit Ns k, Ns <> [] -> let (a, Ms) := subspace_convergence pi2 angle fit Ns k in
  length a = length Ns /\ length Ms = length Ns /\ nth 0 a 0 = pi2 /\
  (forall i, (S i < length Ns)%nat -> nth (S i) a 0 =
     angle (map (firstn k) (snd (fit (nth i Ns 0%nat)))) (map (firstn k) (snd (fit (nth (S i) Ns 0%nat))))) /\
  forall i, (i < length Ns)%nat -> nth i Ms 0%nat = fst (fit (nth i Ns 0%nat)).
Proof.
  intros pi2 angle fit Ns k N. unfold subspace_convergence. destruct Ns as [|N0 Ns]; [congruence|]. set (l := N0 :: Ns).
  assert (G : forall i, (i < length l)%nat -> nth i (map (fun N => first_cols k (snd (fit N))) l) [] = map (firstn k) (snd (fit (nth i l 0%nat)))).
  { intros i Hi. rewrite (nth_indep _ [] (first_cols k (snd (fit 0%nat)))) by (rewrite map_length; auto).
    rewrite (map_nth (fun N => first_cols k (snd (fit N)))). reflexivity. }
  split; [|split; [|split; [|split]]].
  - cbn [length]. rewrite map_length, seq_length, map_length. unfold l. simpl. lia.
  - rewrite map_length. auto.
  - reflexivity.
  - intros i Hi. cbn [nth]. rewrite nth_map_seq by (rewrite map_length; lia). rewrite !G by lia. auto.
  - intros i Hi. rewrite (nth_indep _ 0%nat (fst (fit 0%nat))) by (rewrite map_length; auto). apply (map_nth (fun N => fst (fit N))).
Qed.
(** finding: no sample sizes give one angle but no counts *)
Theorem study_lengths_refuted : exists pi2 angle fit Ns k, let (a, Ms) := subspace_convergence pi2 angle fit Ns k in length a <> length Ms.
Proof. exists 0, (fun _ _ => 0), (fun _ => (0%nat, [])), [], 1%nat. simpl. discriminate. Qed.
Example study_case : let (a, Ms) := subspace_convergence 2 (fun U V => vget (nth 0 U []) 0 + vget (nth 0 V []) 0) (fun N => ((N * N)%nat, [[INR N; 7]])) [1; 3]%nat 1 in
  nth 1 a 0 = 1 + 3 /\ Ms = [1; 9]%nat.
Proof. unfold subspace_convergence, vget. simpl. split; [ring|reflexivity]. Qed.

(* ------------------------------------------------------------------ percentiles *)
Lemma sorted_get : forall s : vec, StronglySorted Rle s -> forall i j, (i <= j)%nat -> (j < length s)%nat -> vget s i <= vget s j.
Proof.
  intros s S. induction S as [|a s S IH F]; intros i j Hij Hj; [simpl in Hj; lia|]. destruct j as [|j].
  - assert (i = 0)%nat by lia. subst. lra.
  - simpl in Hj. destruct i as [|i].
    + unfold vget. simpl. rewrite Forall_forall in F. apply F. apply nth_In. lia.
    + apply (IH i j); lia.
Qed.
Lemma rfloor_spec : forall v, 0 <= v -> INR (rfloor v) <= v < INR (rfloor v) + 1.
Proof.
  intros v Hv. unfold rfloor. destruct (base_Int_part v) as [A B].
  assert (P : (0 <= Int_part v)%Z).
  { assert (IZR (-1) < IZR (Int_part v)) by (simpl; lra). apply lt_IZR in H. lia. }
  rewrite INR_IZR_INZ, Z2Nat.id by auto. lra.
Qed.
(** how many entries satisfy a test *)
Definition countb (f : R -> bool) (l : vec) : nat := length (filter f l).
Lemma countb_perm : forall f l l', Permutation l l' -> countb f l = countb f l'.
Proof.
  intros f l l' P. unfold countb. induction P; simpl; auto.
  - destruct (f x); simpl; auto.
  - destruct (f x), (f y); simpl; auto.
  - congruence.
Qed.
Lemma countb_app : forall f a b, countb f (a ++ b) = (countb f a + countb f b)%nat.
Proof. intros. unfold countb. rewrite filter_app, app_length. auto. Qed.
Lemma countb_le : forall f l, (countb f l <= length l)%nat.
Proof. intros f l. unfold countb. induction l; simpl; auto. destruct (f a); simpl; lia. Qed.
Lemma countb_none : forall f l, (forall a, In a l -> f a = false) -> countb f l = 0%nat.
Proof. intros f l H. unfold countb. induction l; simpl; auto. rewrite H by (simpl; auto). apply IHl. intros. apply H. simpl. auto. Qed.

Lemma percentile_pos : forall y q t, percentile y q = Some t -> let s := rsort y in let n := length y in let v := q / 100 * INR (n - 1) in
  (0 < n)%nat /\ 0 <= q <= 100 /\ (rfloor v <= n - 1)%nat /\ INR (rfloor v) <= v < INR (rfloor v) + 1 /\
  t = vget s (rfloor v) + (v - INR (rfloor v)) * (vget s (Nat.min (S (rfloor v)) (n - 1)) - vget s (rfloor v)).
Proof.
  intros y q t E s n v. unfold percentile in E. destruct y as [|a y']; [discriminate|]. set (y := a :: y') in *.
  unfold Rleb in E. destruct (Rle_dec 0 q) as [q0|]; [|discriminate]. destruct (Rle_dec q 100) as [q1|]; [|discriminate]. cbn [andb] in E.
  match type of E with Some ?a = Some ?b => assert (E' : b = a) by congruence end. cbv zeta in E'.
  rewrite rsort_len in E'. fold s n v in E'.
  assert (V0 : 0 <= v) by (unfold v; apply Rmult_le_pos; [lra|apply pos_INR]).
  pose proof (rfloor_spec v V0) as F.
  assert (V1 : v <= INR (n - 1)).
  { unfold v. pose proof (pos_INR (n - 1)). replace (INR (n - 1)) with (1 * INR (n - 1)) at 2 by ring. apply Rmult_le_compat_r; lra. }
  split; [unfold n, y; simpl; lia|]. split; [lra|]. split; [|split; [exact F|exact E']].
  apply INR_le. lra.
Qed.

Lemma percentile_between : forall y q t, percentile y q = Some t -> let v := q / 100 * INR (length y - 1) in
  vget (rsort y) (rfloor v) <= t <= vget (rsort y) (Nat.min (S (rfloor v)) (length y - 1)).
Proof.
  intros y q t E v. destruct (percentile_pos y q t E) as (N & Q & J & F & T). fold v in J, F, T.
  assert (G : vget (rsort y) (rfloor v) <= vget (rsort y) (Nat.min (S (rfloor v)) (length y - 1))).
  { apply sorted_get; [apply rsort_sorted|lia|rewrite rsort_len; lia]. }
  set (a := vget _ _) in *. set (b := vget _ (Nat.min _ _)) in *. rewrite T. set (w := v - INR (rfloor v)) in *. assert (0 <= w < 1) by (unfold w; lra). split; nra.
Qed.

(** the value is within the range of the sample and monotone data give the ends *)
Theorem percentile_range : forall y q t, percentile y q = Some t -> vmin y <= t <= vmax y.
Proof.
  intros y q t E. pose proof (percentile_between y q t E) as B. cbv zeta in B. destruct (percentile_pos y q t E) as (N & _ & J & _).
  assert (NE : y <> []) by (intros ->; simpl in N; lia).
  assert (I : forall k, (k < length y)%nat -> In (vget (rsort y) k) y).
  { intros k Hk. apply (Permutation_in _ (rsort_perm y)). apply nth_In. rewrite rsort_len. auto. }
  destruct (vmin_spec y NE) as [A _]. destruct (vmax_spec y NE) as [C _].
  split; [eapply Rle_trans; [apply A, (I (rfloor (q / 100 * INR (length y - 1)))); lia|apply B]|].
  eapply Rle_trans; [apply B|]. apply C, I. lia.
Qed.

(** fewer than prob (n-1) + 1 of the n sample values exceed the upper safety factor; likewise below for the lower one *)
Theorem safety_upper : forall p y t, safety_factor true p y = Some t ->
  INR (countb (fun a => Rltb t a) y) < p * INR (length y - 1) + 1.
Proof.
  intros p y t E. unfold safety_factor in E. pose proof (percentile_between y _ t E) as B. destruct (percentile_pos y _ t E) as (N & Q & J & F & T).
  cbv zeta in B. set (v := 100 * (1 - p) / 100 * INR (length y - 1)) in *. set (j := rfloor v) in *.
  rewrite <- (countb_perm _ _ _ (rsort_perm y)). rewrite <- (firstn_skipn (S j) (rsort y)). rewrite countb_app.
  rewrite (countb_none _ (firstn (S j) (rsort y))).
  - simpl plus. assert (C : (countb (fun a => Rltb t a) (skipn (S j) (rsort y)) <= length y - S j)%nat).
    { eapply Nat.le_trans; [apply countb_le|]. rewrite skipn_length, rsort_len. auto. }
    apply le_INR in C. eapply Rle_lt_trans; [apply C|]. rewrite minus_INR by lia. rewrite S_INR.
    assert (VE : v = (1 - p) * INR (length y - 1)) by (unfold v; field). rewrite minus_INR in * by lia. simpl INR in *. lra.
  - intros a Ha. apply (In_nth _ _ 0) in Ha. destruct Ha as (k & Hk & <-). rewrite firstn_length, rsort_len in Hk.
    assert (KE : nth k (firstn (S j) (rsort y)) 0 = vget (rsort y) k).
    { unfold vget. rewrite <- (firstn_skipn (S j) (rsort y)) at 2. rewrite app_nth1; auto. rewrite firstn_length, rsort_len. lia. }
    rewrite KE. unfold Rltb. destruct (Rlt_dec t (vget (rsort y) k)) as [C|]; auto.
    pose proof (sorted_get (rsort y) (rsort_sorted y) k j ltac:(lia) ltac:(rewrite rsort_len; lia)). lra.
Qed.

Theorem safety_lower : forall p y t, safety_factor false p y = Some t ->
  INR (countb (fun a => Rltb a t) y) < p * INR (length y - 1) + 1.
Proof.
  intros p y t E. unfold safety_factor in E. pose proof (percentile_between y _ t E) as B. destruct (percentile_pos y _ t E) as (N & Q & J & F & T).
  cbv zeta in B. set (v := 100 * p / 100 * INR (length y - 1)) in *. set (j := rfloor v) in *.
  assert (VE : v = p * INR (length y - 1)) by (unfold v; field).
  rewrite <- (countb_perm _ _ _ (rsort_perm y)).
  (* entries at positions above j, or at j itself when v = j, are not below t *)
  assert (UP : forall k, (k < length y)%nat -> v <= INR k -> t <= vget (rsort y) k).
  { intros k Hk Vk. destruct (Req_dec v (INR j)) as [Z|Z].
    - rewrite T. rewrite Z. rewrite Rminus_diag_eq by auto. rewrite Rmult_0_l, Rplus_0_r.
      apply sorted_get; [apply rsort_sorted| |rewrite rsort_len; auto]. apply INR_le. lra.
    - eapply Rle_trans; [apply B|]. apply sorted_get; [apply rsort_sorted| |rewrite rsort_len; auto].
      assert (j < k)%nat by (apply INR_lt; lra). lia. }
  set (c := if Req_EM_T v (INR j) then j else S j).
  assert (CB : INR c < v + 1 /\ v <= INR c).
  { unfold c. destruct (Req_EM_T v (INR j)) as [Z|Z]; [lra|]. rewrite S_INR. lra. }
  rewrite <- (firstn_skipn c (rsort y)), countb_app. rewrite (countb_none _ (skipn c (rsort y))).
  - rewrite Nat.add_0_r. assert (C : (countb (fun a => Rltb a t) (firstn c (rsort y)) <= c)%nat).
    { eapply Nat.le_trans; [apply countb_le|]. rewrite firstn_length. lia. }
    apply le_INR in C. lra.
  - intros a Ha. apply (In_nth _ _ 0) in Ha. destruct Ha as (k & Hk & <-). rewrite skipn_length, rsort_len in Hk.
    assert (KE : nth k (skipn c (rsort y)) 0 = vget (rsort y) (c + k)).
    { unfold vget. rewrite <- (firstn_skipn c (rsort y)) at 2. rewrite app_nth2; rewrite firstn_length, rsort_len; [f_equal; lia|lia]. }
    rewrite KE. unfold Rltb. destruct (Rlt_dec (vget (rsort y) (c + k)) t) as [C|]; auto.
    assert (t <= vget (rsort y) (c + k)); [|lra]. apply UP; [lia|]. rewrite plus_INR. pose proof (pos_INR k). lra.
Qed.

Lemma rsort_01 : rsort [0; 1] = [0; 1].
Proof. unfold rsort. simpl. unfold Rleb. destruct (Rle_dec 0 1); [auto|lra]. Qed.
Lemma floor_34 : rfloor (3 / 4) = 0%nat.
Proof.
  pose proof (rfloor_spec (3 / 4) ltac:(lra)) as [A B]. destruct (rfloor (3 / 4)) as [|k]; auto. rewrite S_INR in A. pose proof (pos_INR k). lra.
Qed.
(** finding: the share of the sample exceeding the factor may be larger than prob *)
Theorem safety_share_refuted : exists p y t, 0 < p < 1 /\ safety_factor true p y = Some t /\
  p < INR (countb (fun a => Rltb t a) y) / INR (length y).
Proof.
  exists (/ 4), [0; 1], (3 / 4). split; [lra|]. split.
  - unfold safety_factor, percentile, Rleb. destruct (Rle_dec 0 _); [|lra]. destruct (Rle_dec _ 100); [|lra]. cbn [andb].
    rewrite rsort_01. cbn [length Nat.sub]. replace (100 * (1 - / 4) / 100 * INR 1) with (3 / 4) by (simpl; field). rewrite floor_34.
    unfold vget. simpl. f_equal. field.
  - unfold countb. simpl. unfold Rltb. destruct (Rlt_dec (3 / 4) 0); [lra|]. destruct (Rlt_dec (3 / 4) 1); [|lra]. simpl. lra.
Qed.
Example percentile_case : percentile [0; 1] 75 = Some (3 / 4).
Proof.
  unfold percentile, Rleb. destruct (Rle_dec 0 75); [|lra]. destruct (Rle_dec 75 100); [|lra]. cbn [andb].
  rewrite rsort_01. cbn [length Nat.sub]. replace (75 / 100 * INR 1) with (3 / 4) by (simpl; field). rewrite floor_34.
  unfold vget. simpl. f_equal. field.
Qed.
