(** Proofs about add_constraints, extent and the box corner. *)
Require Import Reals Lra Lia List Bool.
From Verif Require Import RVec Num DomModel DomSpec DomProofs NormProofs.
Import ListNotations.
Local Open Scope R_scope.

(* ================= add_constraints ================= *)
(** bounds as a user may pass them: lower bounds finite or -inf, upper bounds finite or +inf *)
Definition lower_ok (v : num) : Prop := match v with Fin _ | NInf => True | _ => False end.
Definition upper_ok (v : num) : Prop := match v with Fin _ | PInf => True | _ => False end.
Definition proper (d : dom) : Prop := Forall lower_ok (lb d) /\ Forall upper_ok (ub d).

Lemma zipw_nth_error : forall (A B C : Type) (f : A -> B -> C) x y i v,
  nth_error (zipw f x y) i = Some v <->
  exists a b, nth_error x i = Some a /\ nth_error y i = Some b /\ v = f a b.
Proof.
  induction x as [|a x IH]; intros y i v.
  - simpl. destruct i; simpl; split; try discriminate; intros [? [? [E _]]]; discriminate.
  - destruct y as [|b y].
    + simpl. destruct i; simpl; split; try discriminate; intros [? [? [_ [E _]]]]; discriminate.
    + destruct i; simpl.
      * split.
        -- intro E. inversion E; subst. exists a, b; auto.
        -- intros [a' [b' [E1 [E2 E3]]]]. inversion E1; inversion E2; subst; auto.
      * apply IH.
Qed.

Lemma nth_error_same_length : forall (A B : Type) (x : list A) (y : list B) i a,
  length x = length y -> nth_error x i = Some a -> exists b, nth_error y i = Some b.
Proof.
  intros A B x y i a H E. destruct (nth_error y i) eqn:F; eauto.
  apply nth_error_None in F. assert (i < length x)%nat by (apply nth_error_Some; congruence). lia.
Qed.

Lemma zipw_max_bounds : forall l1 l2 (tol y : R) i, length l1 = length l2 ->
  Forall lower_ok l1 -> Forall lower_ok l2 ->
  ((forall v, nth_error (zipw nmax l1 l2) i = Some (Fin v) -> v - tol <= y) <->
   (forall v, nth_error l1 i = Some (Fin v) -> v - tol <= y) /\
   (forall v, nth_error l2 i = Some (Fin v) -> v - tol <= y)).
Proof.
  intros l1 l2 tol y i H F1 F2. rewrite Forall_forall in F1, F2. split.
  - intro HH. split; intros v Hv.
    + destruct (nth_error_same_length _ _ _ l2 _ _ H Hv) as [w Hw].
      pose proof (F2 _ (nth_error_In _ _ Hw)) as Ow. destruct w; simpl in Ow; try contradiction.
      * destruct (Rle_dec v r).
        -- apply Rle_trans with (r - tol); [lra|]. apply HH. apply zipw_nth_error.
           exists (Fin v), (Fin r). repeat split; auto. unfold nmax, nleb.
           destruct (Rleb v r) eqn:E; auto. apply Rleb_false in E; lra.
        -- apply HH. apply zipw_nth_error. exists (Fin v), (Fin r). repeat split; auto.
           unfold nmax, nleb. destruct (Rleb v r) eqn:E; auto. apply Rleb_true in E; lra.
      * apply HH. apply zipw_nth_error. exists (Fin v), NInf. repeat split; auto.
    + destruct (nth_error_same_length _ _ _ l1 _ _ (eq_sym H) Hv) as [w Hw].
      pose proof (F1 _ (nth_error_In _ _ Hw)) as Ow. destruct w; simpl in Ow; try contradiction.
      * destruct (Rle_dec r v).
        -- apply HH. apply zipw_nth_error. exists (Fin r), (Fin v). repeat split; auto.
           unfold nmax, nleb. destruct (Rleb r v) eqn:E; auto. apply Rleb_false in E; lra.
        -- apply Rle_trans with (r - tol); [lra|]. apply HH. apply zipw_nth_error.
           exists (Fin r), (Fin v). repeat split; auto. unfold nmax, nleb.
           destruct (Rleb r v) eqn:E; auto. apply Rleb_true in E; lra.
      * apply HH. apply zipw_nth_error. exists NInf, (Fin v). repeat split; auto.
  - intros [H1 H2] v Hv. apply zipw_nth_error in Hv. destruct Hv as [a [b [Ha [Hb E]]]].
    unfold nmax in E. destruct a; destruct b; simpl in E; try discriminate.
    + destruct (Rleb r r0); inversion E; subst; auto.
    + inversion E; subst; auto.
    + inversion E; subst; auto.
Qed.

Lemma zipw_min_bounds : forall l1 l2 (tol y : R) i, length l1 = length l2 ->
  Forall upper_ok l1 -> Forall upper_ok l2 ->
  ((forall v, nth_error (zipw nmin l1 l2) i = Some (Fin v) -> y <= v + tol) <->
   (forall v, nth_error l1 i = Some (Fin v) -> y <= v + tol) /\
   (forall v, nth_error l2 i = Some (Fin v) -> y <= v + tol)).
Proof.
  intros l1 l2 tol y i H F1 F2. rewrite Forall_forall in F1, F2. split.
  - intro HH. split; intros v Hv.
    + destruct (nth_error_same_length _ _ _ l2 _ _ H Hv) as [w Hw].
      pose proof (F2 _ (nth_error_In _ _ Hw)) as Ow. destruct w; simpl in Ow; try contradiction.
      * destruct (Rle_dec v r).
        -- apply HH. apply zipw_nth_error. exists (Fin v), (Fin r). repeat split; auto.
           unfold nmin, nleb. destruct (Rleb v r) eqn:E; auto. apply Rleb_false in E; lra.
        -- apply Rle_trans with (r + tol); [|lra]. apply HH. apply zipw_nth_error.
           exists (Fin v), (Fin r). repeat split; auto. unfold nmin, nleb.
           destruct (Rleb v r) eqn:E; auto. apply Rleb_true in E; lra.
      * apply HH. apply zipw_nth_error. exists (Fin v), PInf. repeat split; auto.
    + destruct (nth_error_same_length _ _ _ l1 _ _ (eq_sym H) Hv) as [w Hw].
      pose proof (F1 _ (nth_error_In _ _ Hw)) as Ow. destruct w; simpl in Ow; try contradiction.
      * destruct (Rle_dec r v).
        -- apply Rle_trans with (r + tol); [|lra]. apply HH. apply zipw_nth_error.
           exists (Fin r), (Fin v). repeat split; auto. unfold nmin, nleb.
           destruct (Rleb r v) eqn:E; auto. apply Rleb_false in E; lra.
        -- apply HH. apply zipw_nth_error. exists (Fin r), (Fin v). repeat split; auto.
           unfold nmin, nleb. destruct (Rleb r v) eqn:E; auto. apply Rleb_true in E; lra.
      * apply HH. apply zipw_nth_error. exists PInf, (Fin v). repeat split; auto.
  - intros [H1 H2] v Hv. apply zipw_nth_error in Hv. destruct Hv as [a [b [Ha [Hb E]]]].
    unfold nmin in E. destruct a; destruct b; simpl in E; try discriminate.
    + destruct (Rleb r r0); inversion E; subst; auto.
    + inversion E; subst; auto.
    + inversion E; subst; auto.
Qed.

Lemma nth_error_app_rows : forall (A1 A2 : mat) (b1 b2 : vec) (Q : list R -> R -> Prop), length A1 = length b1 ->
  ((forall k a c, nth_error (A1 ++ A2) k = Some a -> nth_error (b1 ++ b2) k = Some c -> Q a c) <->
   (forall k a c, nth_error A1 k = Some a -> nth_error b1 k = Some c -> Q a c) /\
   (forall k a c, nth_error A2 k = Some a -> nth_error b2 k = Some c -> Q a c)).
Proof.
  intros A1 A2 b1 b2 Q H. split.
  - intro HH. split; intros k a c Ha Hc.
    + assert (k < length A1)%nat by (apply nth_error_Some; congruence).
      apply (HH k); rewrite nth_error_app1; auto; lia.
    + apply (HH (length A1 + k)%nat).
      * rewrite nth_error_app2 by lia. replace (length A1 + k - length A1)%nat with k by lia. auto.
      * rewrite nth_error_app2 by lia. replace (length A1 + k - length b1)%nat with k by lia. auto.
  - intros [H1 H2] k a c Ha Hc. destruct (Nat.lt_ge_cases k (length A1)) as [L|L].
    + rewrite nth_error_app1 in Ha by auto. rewrite nth_error_app1 in Hc by lia. eauto.
    + rewrite nth_error_app2 in Ha by auto. rewrite nth_error_app2 in Hc by lia.
      apply (H2 (k - length A1)%nat); auto. rewrite H; auto.
Qed.

Lemma sat_quad_app : forall q1 q2 tol x, sat_quad (q1 ++ q2) tol x <-> sat_quad q1 tol x /\ sat_quad q2 tol x.
Proof.
  intros. unfold sat_quad. split.
  - intro H. split; intros q Hq; apply H; apply in_or_app; auto.
  - intros [H1 H2] q Hq. apply in_app_or in Hq. destruct Hq; auto.
Qed.

(** constraint sets of the result, before looking at its class *)
Lemma add_constraints_fields : forall d c, dom_wf d -> dom_wf c -> dim c = dim d ->
  let r := add_constraints d c in
  dim r = dim d /\ lb r = zipw nmax (lb c) (lb d) /\ ub r = zipw nmin (ub c) (ub d) /\
  dA r = dA d ++ dA c /\ db r = db d ++ db c /\ dAeq r = dAeq d ++ dAeq c /\
  dbeq r = dbeq d ++ dbeq c /\ quads r = quads d ++ quads c /\ dcls r <> Point.
Proof.
  intros d c [W1 [W2 [W3 [W4 [W5 [W6 _]]]]]] [V1 [V2 [V3 [V4 [V5 [V6 _]]]]]] E r. unfold r, add_constraints.
  destruct (quads d ++ quads c) as [|q qs] eqn:EQ.
  - destruct (Nat.eqb_spec (length (db d ++ db c)) 0) as [E1|E1];
    destruct (Nat.eqb_spec (length (dbeq d ++ dbeq c)) 0) as [E2|E2]; simpl;
      repeat split; auto; try discriminate;
      rewrite app_length in E1, E2;
      try (destruct (dA d); destruct (dA c); simpl in *; auto; lia);
      try (destruct (db d); destruct (db c); simpl in *; auto; lia);
      try (destruct (dAeq d); destruct (dAeq c); simpl in *; auto; lia);
      try (destruct (dbeq d); destruct (dbeq c); simpl in *; auto; lia).
  - simpl. repeat split; auto. discriminate.
Qed.

Lemma add_constraints_wf : forall d c, dom_wf d -> dom_wf c -> dim c = dim d -> dom_wf (add_constraints d c).
Proof.
  intros d c W V E. pose proof (add_constraints_fields d c W V E) as F. cbn zeta in F.
  destruct F as [F1 [F2 [F3 [F4 [F5 [F6 [F7 [F8 F9]]]]]]]].
  destruct W as [W1 [W2 [W3 [W4 [W5 [W6 [W7 W8]]]]]]]. destruct V as [V1 [V2 [V3 [V4 [V5 [V6 [V7 V8]]]]]]].
  unfold dom_wf. rewrite F1, F2, F3, F4, F5, F6, F7, F8.
  rewrite !zipw_length by congruence. rewrite !app_length. rewrite E in *.
  repeat split; try congruence; try (apply Forall_app; auto); try lia.
  - intros H. unfold add_constraints in H. destruct (quads d ++ quads c); auto. simpl in H. congruence.
  - unfold add_constraints in H. destruct (quads d ++ quads c) as [|q l]; simpl in H; [|destruct H; discriminate].
    destruct (Nat.eqb_spec (length (db d ++ db c)) 0) as [E1|E1];
    destruct (Nat.eqb_spec (length (dbeq d ++ dbeq c)) 0) as [E2|E2]; simpl in H; try (destruct H; discriminate).
    rewrite app_length in E1, E2. destruct (dA d); destruct (dA c); simpl in *; auto; lia.
  - unfold add_constraints in H. destruct (quads d ++ quads c) as [|q l]; simpl in H; [|destruct H; discriminate].
    destruct (Nat.eqb_spec (length (db d ++ db c)) 0) as [E1|E1];
    destruct (Nat.eqb_spec (length (dbeq d ++ dbeq c)) 0) as [E2|E2]; simpl in H; try (destruct H; discriminate).
    rewrite app_length in E1, E2. destruct (dAeq d); destruct (dAeq c); simpl in *; auto; lia.
Qed.

Lemma sat_bounds_meet : forall d c tol x, dom_wf d -> dom_wf c -> dim c = dim d -> proper d -> proper c ->
  (sat_bounds (zipw nmax (lb c) (lb d)) (zipw nmin (ub c) (ub d)) tol x <->
   sat_bounds (lb d) (ub d) tol x /\ sat_bounds (lb c) (ub c) tol x).
Proof.
  intros d c tol x W V E [P1 P2] [Q1 Q2].
  destruct W as [W1 [W2 _]]. destruct V as [V1 [V2 _]]. unfold sat_bounds. split.
  - intros H. split; intro i; destruct (H i) as [A B];
      apply zipw_max_bounds in A; try congruence; auto; apply zipw_min_bounds in B; try congruence; auto;
      destruct A, B; split; auto.
  - intros [H1 H2] i. destruct (H1 i), (H2 i). split.
    + apply zipw_max_bounds; auto; congruence.
    + apply zipw_min_bounds; auto; congruence.
Qed.

Lemma add_constraints_relaxed : forall d c tol x, dom_wf d -> dom_wf c -> dim c = dim d -> proper d -> proper c ->
  (relaxed (add_constraints d c) tol x <-> relaxed d tol x /\ relaxed c tol x).
Proof.
  intros d c tol x W V E P Q. pose proof (add_constraints_fields d c W V E) as F. cbn zeta in F.
  destruct F as [F1 [F2 [F3 [F4 [F5 [F6 [F7 [F8 F9]]]]]]]].
  unfold relaxed. rewrite F1, F2, F3, F4, F5, F6, F7, F8, E.
  rewrite sat_bounds_meet by auto. unfold sat_ineq, sat_eq.
  destruct W as [W1 [W2 [W3 [W4 [W5 [W6 _]]]]]].
  rewrite (nth_error_app_rows (dA d) (dA c) (db d) (db c) (fun a c => dot a x <= c + tol)) by auto.
  rewrite (nth_error_app_rows (dAeq d) (dAeq c) (dbeq d) (dbeq c) (fun a c => Rabs (dot a x - c) < tol)) by auto.
  rewrite sat_quad_app. tauto.
Qed.

(** boolean form, as the user observes it *)
Lemma add_constraints_inside : forall d c tol x, dom_wf d -> dom_wf c -> dim c = dim d ->
  proper d -> proper c -> dcls d <> Point -> dcls c <> Point ->
  inside1 (add_constraints d c) x tol = (inside1 d x tol && inside1 c x tol)%bool.
Proof.
  intros d c tol x W V E P Q N1 N2.
  assert (NR : dcls (add_constraints d c) <> Point).
  { apply (add_constraints_fields d c W V E). }
  apply Bool.eq_true_iff_eq. rewrite andb_true_iff.
  rewrite !inside1_spec; auto; [|apply add_constraints_wf; auto].
  apply add_constraints_relaxed; auto.
Qed.

(* ================= extent ================= *)
Lemma nleb_nmin : forall al a b, a <> NaN -> b <> NaN ->
  nleb (Fin al) (nmin a b) = (nleb (Fin al) a && nleb (Fin al) b)%bool.
Proof.
  intros al a b Ha Hb. destruct a; destruct b; try congruence; try reflexivity;
    try (unfold nmin; simpl; rewrite ?andb_true_r, ?andb_false_r; reflexivity).
  unfold nmin, nleb. destruct (Rleb r r0) eqn:E.
  + apply Rleb_true in E. destruct (Rleb al r) eqn:E1; simpl; auto. symmetry. apply Rleb_true.
    apply Rleb_true in E1. lra.
  + apply Rleb_false in E. destruct (Rleb al r0) eqn:E1; rewrite ?andb_false_r; auto.
    rewrite andb_true_r. symmetry. apply Rleb_true. apply Rleb_true in E1. lra.
Qed.

Lemma nmin_not_nan : forall a b, a <> NaN -> b <> NaN -> nmin a b <> NaN.
Proof. intros a b Ha Hb. destruct a; destruct b; unfold nmin; simpl; try congruence. destruct (Rleb r r0); congruence. Qed.

Lemma min_pos_spec : forall y e al, e <> NaN ->
  min_pos e y <> NaN /\
  (nleb (Fin al) (min_pos e y) = true <->
   nleb (Fin al) e = true /\ forall v, In v y -> nltb (Fin 0) v = true -> nleb (Fin al) v = true).
Proof.
  unfold min_pos. induction y as [|v y IH]; intros e al He; cbn [fold_left In].
  - split; auto. intuition.
  - destruct (nltb (Fin 0) v) eqn:E.
    + assert (Hv : v <> NaN) by (intro; subst; discriminate).
      destruct (IH (nmin e v) al (nmin_not_nan e v He Hv)) as [I1 I2]. split; auto.
      rewrite I2, nleb_nmin by auto. rewrite andb_true_iff. split.
      * intros [[H1 H2] H3]. split; auto. intros w [Hw|Hw] Pw; subst; auto.
      * intros [H1 H2]. repeat split; auto.
    + destruct (IH e al He) as [I1 I2]. split; auto. rewrite I2. split.
      * intros [H1 H2]. split; auto. intros w [Hw|Hw] Pw; subst; auto. congruence.
      * intros [H1 H2]. split; auto.
Qed.

Lemma in_ratios : forall bd x p v, length bd = length x -> length x = length p ->
  (In v (ratios bd x p) <-> exists i l, nth_error bd i = Some l /\ vget p i <> 0 /\
     v = ndivr (nsub l (Fin (vget x i))) (vget p i)).
Proof.
  unfold vget. induction bd as [|l bd IH]; destruct x as [|a x]; destruct p as [|c p]; simpl; intros v H1 H2;
    try discriminate.
  - split; [tauto|]. intros [i [l [E _]]]. destruct i; discriminate.
  - destruct (Req_EM_T c 0) as [E|E].
    + rewrite IH by lia. split.
      * intros [i [l0 HH]]. exists (S i), l0. auto.
      * intros [i [l0 [Hl [Hp Hv]]]]. destruct i; [simpl in Hp; congruence|]. exists i, l0; auto.
    + simpl. rewrite IH by lia. split.
      * intros [Hv|[i [l0 HH]]].
        -- exists O, l. repeat split; auto.
        -- exists (S i), l0. auto.
      * intros [i [l0 [Hl [Hp Hv]]]]. destruct i.
        -- left. simpl in Hl. inversion Hl; subst; auto.
        -- right. exists i, l0; auto.
Qed.

Lemma hits_spec : forall bd x p bad, length bd = length x -> length x = length p ->
  (hits bd x p bad = true <-> exists i, nth_error bd i = Some (Fin (vget x i)) /\ bad (vget p i) = true).
Proof.
  unfold hits, vget. induction bd as [|l bd IH]; destruct x as [|a x]; destruct p as [|c p]; simpl; intros bad H1 H2;
    try discriminate.
  - split; [discriminate|]. intros [i [E _]]. destruct i; discriminate.
  - rewrite orb_true_iff, andb_true_iff, IH by lia. split.
    + intros [[E B]|[i [E B]]].
      * exists O. simpl. split; auto. destruct l; simpl in E; try discriminate. apply Reqb_true in E. congruence.
      * exists (S i). auto.
    + intros [i [E B]]. destruct i; simpl in *.
      * left. split; auto. inversion E; subst. simpl. apply Reqb_true; auto.
      * right. exists i; auto.
Qed.

Lemma along_get : forall x p a i, length x = length p -> vget (along x p a) i = vget x i + a * vget p i.
Proof.
  intros. unfold along. rewrite vadd_get by (rewrite vscale_length; auto). rewrite vscale_get. auto.
Qed.
Lemma along_length : forall x p a, length x = length p -> length (along x p a) = length x.
Proof. intros. unfold along. apply vadd_length. rewrite vscale_length; auto. Qed.

Lemma div_pos_le : forall n p al, 0 <= al -> 0 < p -> 0 < n / p -> (al <= n / p <-> al * p <= n).
Proof.
  intros n p al Ha Hp Hn. assert (E : n = n / p * p) by (field; lra). split; intro H.
  - rewrite E. apply Rmult_le_compat_r; lra.
  - apply Rmult_le_reg_r with p; auto. rewrite <- E. auto.
Qed.

(** bounds part: exact for every point satisfying the bounds *)
Lemma extent_bounds_spec : forall d x p al, length (lb d) = length x -> length (ub d) = length x ->
  length x = length p -> sat_bounds (lb d) (ub d) 0 x -> proper d -> 0 <= al ->
  extent_bounds d x p <> NaN /\
  (nleb (Fin al) (extent_bounds d x p) = true <-> sat_bounds (lb d) (ub d) 0 (along x p al)).
Proof.
  intros d x p al Hl Hu Hp S [P1 P2] Hal. unfold extent_bounds.
  rewrite Forall_forall in P1, P2.
  destruct (hits (lb d) x p (fun c => Rltb c 0)) eqn:E1.
  { split; [discriminate|]. apply hits_spec in E1; auto. destruct E1 as [i [Ei Pi]]. apply Rltb_true in Pi.
    simpl. rewrite Rleb_true. split.
    - intro. assert (al = 0) by lra. subst.
      intro j. destruct (S j) as [S1 S2]. rewrite along_get by auto.
      split; intros v Hv; [specialize (S1 v Hv)|specialize (S2 v Hv)]; lra.
    - intros HS. destruct (HS i) as [H1 _]. specialize (H1 _ Ei). rewrite along_get in H1 by auto. nra. }
  destruct (hits (ub d) x p (fun c => Rltb 0 c)) eqn:E2.
  { split; [discriminate|]. apply hits_spec in E2; auto. destruct E2 as [i [Ei Pi]]. apply Rltb_true in Pi.
    simpl. rewrite Rleb_true. split.
    - intro. assert (al = 0) by lra. subst.
      intro j. destruct (S j) as [S1 S2]. rewrite along_get by auto.
      split; intros v Hv; [specialize (S1 v Hv)|specialize (S2 v Hv)]; lra.
    - intros HS. destruct (HS i) as [_ H1]. specialize (H1 _ Ei). rewrite along_get in H1 by auto. nra. }
  assert (N1 : PInf <> NaN) by discriminate.
  destruct (min_pos_spec (ratios (ub d) x p) PInf al N1) as [N2 M2].
  destruct (min_pos_spec (ratios (lb d) x p) _ al N2) as [N3 M3].
  split; auto. rewrite M3, M2. split.
  - intros [[_ HU] HL] i. destruct (S i) as [S1 S2]. rewrite along_get by auto. split; intros v Hv.
    + specialize (S1 v Hv). destruct (Rlt_dec (vget p i) 0) as [Lp|Lp]; [|nra].
      assert (v < vget x i).
      { destruct (Req_dec v (vget x i)) as [E|E]; [|lra]. exfalso.
        assert (hits (lb d) x p (fun c => Rltb c 0) = true); [|congruence].
        apply hits_spec; auto. exists i. rewrite <- E. split; auto. apply Rltb_true; auto. }
      specialize (HL (Fin ((v - vget x i) / vget p i))). simpl in HL. rewrite !Rltb_true, Rleb_true in HL.
      assert (Q : 0 < (v - vget x i) / vget p i).
      { replace ((v - vget x i) / vget p i) with ((vget x i - v) / - vget p i) by (field; lra).
        apply Rdiv_lt_0_compat; lra. }
      assert (HI : In (Fin ((v - vget x i) / vget p i)) (ratios (lb d) x p)).
      { apply in_ratios; auto. exists i, (Fin v). repeat split; auto; [lra|].
        simpl. destruct (Req_EM_T (vget p i) 0); [lra|]. auto. }
      specialize (HL HI Q).
      replace ((v - vget x i) / vget p i) with ((vget x i - v) / - vget p i) in HL, Q by (field; lra).
      apply div_pos_le in HL; auto; lra.
    + specialize (S2 v Hv). destruct (Rlt_dec 0 (vget p i)) as [Lp|Lp]; [|nra].
      assert (vget x i < v).
      { destruct (Req_dec v (vget x i)) as [E|E]; [|lra]. exfalso.
        assert (hits (ub d) x p (fun c => Rltb 0 c) = true); [|congruence].
        apply hits_spec; auto. exists i. rewrite <- E. split; auto. apply Rltb_true; auto. }
      specialize (HU (Fin ((v - vget x i) / vget p i))). simpl in HU. rewrite !Rltb_true, Rleb_true in HU.
      assert (Q : 0 < (v - vget x i) / vget p i) by (apply Rdiv_lt_0_compat; lra).
      assert (HI : In (Fin ((v - vget x i) / vget p i)) (ratios (ub d) x p)).
      { apply in_ratios; auto. exists i, (Fin v). repeat split; auto; [lra|].
        simpl. destruct (Req_EM_T (vget p i) 0); [lra|]. auto. }
      specialize (HU HI Q). apply div_pos_le in HU; auto; lra.
  - intros HS. split; [split; auto|].
    + intros v Hv Pv. apply in_ratios in Hv; auto. destruct Hv as [i [l [Hi [Hpi E]]]].
      pose proof (P2 _ (nth_error_In _ _ Hi)) as Ol. destruct l; simpl in Ol; try contradiction.
      * destruct (S i) as [_ S2]. specialize (S2 _ Hi). destruct (HS i) as [_ H2]. specialize (H2 _ Hi).
        rewrite along_get in H2 by auto. subst v. simpl in *. destruct (Req_EM_T (vget p i) 0); [lra|].
        simpl in Pv. apply Rltb_true in Pv. apply Rleb_true.
        replace (r + - vget x i) with (r - vget x i) in * by ring.
        assert (0 < vget p i).
        { destruct (Rlt_dec 0 (vget p i)); auto. exfalso.
          assert (/ vget p i < 0) by (apply Rinv_lt_0_compat; lra). unfold Rdiv in Pv. nra. }
        apply div_pos_le; auto. lra.
      * subst v. simpl in *. destruct (Rleb 0 (vget p i)); simpl in *; auto; discriminate.
    + intros v Hv Pv. apply in_ratios in Hv; auto. destruct Hv as [i [l [Hi [Hpi E]]]].
      pose proof (P1 _ (nth_error_In _ _ Hi)) as Ol. destruct l; simpl in Ol; try contradiction.
      * destruct (S i) as [S1 _]. specialize (S1 _ Hi). destruct (HS i) as [H1 _]. specialize (H1 _ Hi).
        rewrite along_get in H1 by auto. subst v. simpl in *. destruct (Req_EM_T (vget p i) 0); [lra|].
        simpl in Pv. apply Rltb_true in Pv. apply Rleb_true.
        replace ((r + - vget x i) / vget p i) with ((vget x i - r) / - vget p i) in * by (field; lra).
        assert (0 < - vget p i).
        { destruct (Rlt_dec 0 (- vget p i)); auto. exfalso.
          assert (/ (- vget p i) < 0) by (apply Rinv_lt_0_compat; lra). unfold Rdiv in Pv. nra. }
        apply div_pos_le; auto. lra.
      * subst v. simpl in *. destruct (Rleb 0 (vget p i)); simpl in *; auto; discriminate.
Qed.

(** inequality part: exact unless a row is active and the direction increases it *)
Definition ineq_leaves_free (d : dom) (x p : vec) : Prop :=
  forall k a c, nth_error (dA d) k = Some a -> nth_error (db d) k = Some c ->
    dot a x < c \/ dot a p <= 0.

Lemma extent_ineq_spec : forall d x p al, length (dA d) = length (db d) -> length x = length p ->
  sat_ineq (dA d) (db d) 0 x -> ineq_leaves_free d x p -> 0 <= al ->
  extent_ineq d x p <> NaN /\
  (nleb (Fin al) (extent_ineq d x p) = true <-> sat_ineq (dA d) (db d) 0 (along x p al)).
Proof.
  intros d x p al HA Hp S F Hal. unfold extent_ineq.
  assert (N1 : PInf <> NaN) by discriminate.
  set (y := zipw _ _ _). destruct (min_pos_spec y PInf al N1) as [N2 M2]. split; auto. rewrite M2.
  assert (DA : forall a, dot a (along x p al) = dot a x + al * dot a p).
  { intro a. unfold along. rewrite dot_vadd_r, dot_vscale_r; auto. rewrite vscale_length; auto. }
  assert (HY : forall v, In v y <-> exists k a c, nth_error (dA d) k = Some a /\ nth_error (db d) k = Some c /\
             v = ndivr (Fin (c - dot a x)) (dot a p)).
  { intro v. unfold y. split.
    - intro Hv. apply In_nth_error in Hv. destruct Hv as [k Hk]. apply zipw_nth_error in Hk.
      destruct Hk as [r [q [Hr [Hq E]]]]. apply nth_error_vsub in Hr; [|rewrite mv_length; auto].
      destruct Hr as [c [ax [Hc [Hax E2]]]]. apply nth_error_mv in Hax, Hq.
      destruct Hax as [a [Ha E3]]. destruct Hq as [a' [Ha' E4]]. exists k, a, c.
      assert (a' = a) by congruence. subst. auto.
    - intros [k [a [c [Ha [Hc E]]]]]. apply nth_error_In with k. apply zipw_nth_error.
      exists (c - dot a x), (dot a p). repeat split; auto.
      + apply vsub_nth_error; auto. apply nth_error_mv; eauto.
      + apply nth_error_mv; eauto. }
  split.
  - intros [_ HH] k a c Ha Hc. rewrite DA. specialize (S k a c Ha Hc). specialize (F k a c Ha Hc).
    destruct (Rle_dec (dot a p) 0) as [L|L]; [nra|].
    specialize (HH (ndivr (Fin (c - dot a x)) (dot a p))). simpl in HH.
    destruct (Req_EM_T (dot a p) 0); [lra|]. simpl in HH. rewrite Rltb_true, Rleb_true in HH.
    assert (Q : 0 < (c - dot a x) / dot a p) by (apply Rdiv_lt_0_compat; lra).
    assert (al <= (c - dot a x) / dot a p).
    { apply HH; auto. apply HY. exists k, a, c. repeat split; auto. simpl. destruct (Req_EM_T (dot a p) 0); auto. lra. }
    apply div_pos_le in H; auto; lra.
  - intros HS. split; auto. intros v Hv Pv. apply HY in Hv. destruct Hv as [k [a [c [Ha [Hc E]]]]].
    specialize (S k a c Ha Hc). specialize (HS k a c Ha Hc). rewrite DA in HS. subst v. simpl in *.
    destruct (Req_EM_T (dot a p) 0) as [Z|Z].
    + destruct (Req_EM_T (c - dot a x) 0); simpl in *; [discriminate|].
      destruct (Rltb 0 (c - dot a x)) eqn:E1; simpl in *; auto; discriminate.
    + simpl in Pv. apply Rltb_true in Pv. apply Rleb_true.
      assert (0 < dot a p).
      { destruct (Rlt_dec 0 (dot a p)); auto. exfalso.
        assert (/ dot a p < 0) by (apply Rinv_lt_0_compat; lra). unfold Rdiv in Pv. nra. }
      apply div_pos_le; auto. lra.
Qed.

(** quadratic part *)
Definition qa (q : quad) (p : vec) := norm2sq (mv (qL q) p).
Definition qb (q : quad) (x p : vec) := dot (mv (qL q) p) (mv (qL q) (vsub x (qy q))).
Definition qc (q : quad) (x : vec) := norm2sq (mv (qL q) (vsub x (qy q))) - qrho q * qrho q.

(** exact unless x is on the ellipsoid and the direction points inwards *)
Definition quad_leaves_free (d : dom) (x p : vec) : Prop :=
  forall q, In q (quads d) -> qc q x < 0 \/ 0 <= qb q x p.

Lemma quad_along : forall q x p al, length x = length p -> length (qy q) = length x ->
  norm2sq (mv (qL q) (vsub (along x p al) (qy q))) = qa q p * al * al + 2 * qb q x p * al + norm2sq (mv (qL q) (vsub x (qy q))).
Proof.
  intros q x p al H Hy.
  assert (E : vsub (along x p al) (qy q) = vadd (vsub x (qy q)) (vscale al p)).
  { apply vec_ext.
    - rewrite vsub_length, vadd_length, vsub_length, along_length; auto;
        rewrite ?vsub_length, ?along_length, ?vscale_length; auto; congruence.
    - intros i Hi. rewrite vadd_get by (rewrite vsub_length, vscale_length; auto).
      rewrite !vsub_get by (rewrite ?along_length; auto). rewrite along_get, vscale_get by auto. ring. }
  rewrite E, mv_vadd by (rewrite vsub_length, vscale_length; auto). rewrite mv_vscale.
  unfold qa, qb, norm2sq. set (u := mv (qL q) (vsub x (qy q))). set (w := mv (qL q) p).
  assert (length u = length (vscale al w)) by (unfold u, w; rewrite vscale_length, !mv_length; auto).
  rewrite dot_vadd_l, !dot_vadd_r, !dot_vscale_l, !dot_vscale_r by auto. rewrite (dot_comm u w). ring.
Qed.

Lemma sqrt_ge_abs : forall a b, b * b <= a -> Rabs b <= sqrt a.
Proof. intros a b H. rewrite <- sqrt_Rsqr_abs. apply sqrt_le_1_alt. unfold Rsqr; auto. Qed.

Lemma quad_roots_spec : forall a b c al, 0 <= a -> c <= 0 -> (c < 0 \/ 0 <= b) -> (a = 0 -> b = 0) -> 0 <= al ->
  ((forall r, In r (real_roots a (2*b) c) -> 0 <= r -> al <= r) <-> a * al * al + 2 * b * al + c <= 0).
Proof.
  intros a b c al Ha Hc Hcb Hab Hal. unfold real_roots.
  destruct (Req_EM_T a 0) as [Ea|Ea].
  - rewrite (Hab Ea). destruct (Req_EM_T (2*0) 0); [|lra]. subst. simpl. split; intros; [lra|contradiction].
  - assert (Pa : 0 < a) by lra.
    set (disc := 2 * b * (2 * b) - 4 * a * c).
    assert (D0 : 0 <= disc) by (unfold disc; nra).
    destruct (Rlt_dec disc 0); [lra|].
    set (s := sqrt disc). assert (Ss : s * s = disc) by (apply sqrt_sqrt; auto).
    assert (S0 : 0 <= s) by apply sqrt_pos.
    set (r1 := (- (2*b) - s) / (2 * a)). set (r2 := (- (2*b) + s) / (2 * a)).
    assert (F : forall t, a * t * t + 2 * b * t + c = a * (t - r1) * (t - r2)).
    { intro t. unfold r1, r2. field_simplify; try lra.
      apply Rmult_eq_reg_r with (4 * a); [|lra]. field_simplify; try lra.
      replace (s ^ 2) with disc by (simpl; lra). unfold disc. ring. }
    assert (SB : 2 * Rabs b <= s).
    { unfold s. replace (2 * Rabs b) with (Rabs (2*b)) by (rewrite Rabs_mult, Rabs_right; lra).
      apply sqrt_ge_abs. unfold disc. nra. }
    assert (E1 : r1 * (2*a) = -(2*b) - s) by (unfold r1; field; lra).
    assert (E2 : r2 * (2*a) = -(2*b) + s) by (unfold r2; field; lra).
    assert (R2 : 0 <= r2).
    { apply Rmult_le_reg_r with (2*a); [lra|]. rewrite E2. pose proof (Rle_abs b). lra. }
    assert (R1 : r1 <= 0).
    { apply Rmult_le_reg_r with (2*a); [lra|]. rewrite E1.
      pose proof (Rle_abs (-b)). rewrite Rabs_Ropp in H. lra. }
    rewrite F. split.
    + intros H. assert (al <= r2) by (apply H; simpl; auto).
      assert (0 <= al - r1) by lra. assert (al - r2 <= 0) by lra.
      assert (0 <= a * (al - r1)) by (apply Rmult_le_pos; lra). nra.
    + intros H r Hr Pr. simpl in Hr. destruct Hr as [Hr|[Hr|[]]]; subst r.
      * (* r1 >= 0, hence r1 = 0 *)
        assert (Z : r1 = 0) by lra. rewrite Z in E1.
        assert (b <= 0) by lra.
        destruct Hcb as [Hcb|Hcb].
        -- exfalso. assert (disc = 2*b*(2*b)). { rewrite <- Ss. assert (s = -(2*b)) by lra. rewrite H1. ring. }
           unfold disc in H1. nra.
        -- assert (b = 0) by lra. subst b. assert (s = 0) by lra.
           assert (r2 = 0). { assert (r2 * (2*a) = 0) by lra. nra. }
           rewrite Z, H2 in H. rewrite Z. rewrite !Rminus_0_r in H.
           destruct (Rle_dec al 0); auto. exfalso. assert (0 < a * al) by (apply Rmult_lt_0_compat; lra). nra.
      * destruct (Rle_dec al r2); auto. exfalso. assert (0 < al - r2) by lra. assert (0 < al - r1) by lra.
        assert (0 < a * (al - r1)) by (apply Rmult_lt_0_compat; lra). nra.
Qed.

Lemma min_roots_spec : forall rs e al, e <> NaN ->
  let m := fold_left (fun al0 r => if Rleb 0 r then nmin al0 (Fin r) else al0) rs e in
  m <> NaN /\ (nleb (Fin al) m = true <-> nleb (Fin al) e = true /\ forall r, In r rs -> 0 <= r -> al <= r).
Proof.
  induction rs as [|r rs IH]; intros e al He; cbn [fold_left In].
  - split; auto. intuition.
  - destruct (Rleb 0 r) eqn:E.
    + assert (N : Fin r <> NaN) by discriminate.
      destruct (IH (nmin e (Fin r)) al (nmin_not_nan _ _ He N)) as [I1 I2]. split; auto.
      rewrite I2, nleb_nmin by auto. rewrite andb_true_iff. apply Rleb_true in E. simpl. rewrite Rleb_true.
      split.
      * intros [[H1 H2] H3]. split; auto. intros w [Hw|Hw] Pw; subst; auto.
      * intros [H1 H2]. repeat split; auto.
    + apply Rleb_false in E. destruct (IH e al He) as [I1 I2]. split; auto. rewrite I2. split.
      * intros [H1 H2]. split; auto. intros w [Hw|Hw] Pw; subst; auto. lra.
      * intros [H1 H2]. split; auto.
Qed.

Lemma extent_quad_spec : forall d x p al, Forall (quad_wf (length x)) (quads d) -> length x = length p ->
  sat_quad (quads d) 0 x -> quad_leaves_free d x p -> 0 <= al ->
  extent_quad d x p <> NaN /\
  (nleb (Fin al) (extent_quad d x p) = true <-> sat_quad (quads d) 0 (along x p al)).
Proof.
  intros d x p al W Hp S F Hal. unfold extent_quad, sat_quad in *. unfold quad_leaves_free in F.
  revert W S F. generalize (quads d). intros qs W S F.
  assert (G : forall qs e, Forall (quad_wf (length x)) qs ->
    (forall q, In q qs -> norm2 (mv (qL q) (vsub x (qy q))) <= qrho q + 0) ->
    (forall q, In q qs -> qc q x < 0 \/ 0 <= qb q x p) -> e <> NaN ->
    let m := fold_left (fun alpha q =>
      fold_left (fun al r => if Rleb 0 r then nmin al (Fin r) else al)
       (real_roots (dot (mv (qL q) p) (mv (qL q) p)) (2 * dot (mv (qL q) p) (mv (qL q) (vsub x (qy q))))
          (dot (mv (qL q) (vsub x (qy q))) (mv (qL q) (vsub x (qy q))) - qrho q * qrho q)) alpha) qs e in
    m <> NaN /\ (nleb (Fin al) m = true <-> nleb (Fin al) e = true /\
       forall q, In q qs -> norm2 (mv (qL q) (vsub (along x p al) (qy q))) <= qrho q + 0)).
  { clear qs W S F. induction qs as [|q qs IH]; intros e W S F He; simpl.
    - split; auto. intuition.
    - inversion W as [|q' qs' [Wq1 [Wq2 Wq3]] Wqs]; subst.
      set (rs := real_roots _ _ _).
      destruct (min_roots_spec rs e al He) as [N1 M1]. set (e1 := fold_left _ rs e) in *.
      destruct (IH e1 Wqs ltac:(intros; apply S; simpl; auto) ltac:(intros; apply F; simpl; auto) N1) as [N2 M2].
      split; auto. rewrite M2, M1. clear M1 M2 IH.
      assert (QR : (forall r, In r rs -> 0 <= r -> al <= r) <->
                   norm2 (mv (qL q) (vsub (along x p al) (qy q))) <= qrho q + 0).
      { rewrite Rplus_0_r. rewrite norm2_le_iff by lra. rewrite quad_along by auto.
        unfold rs. specialize (S q ltac:(simpl; auto)). rewrite Rplus_0_r in S. apply norm2_le_iff in S; [|lra].
        assert (HZ : qa q p = 0 -> qb q x p = 0).
        { intro Z. unfold qb. apply norm2sq_zero in Z. revert Z. generalize (mv (qL q) (vsub x (qy q))).
          generalize (mv (qL q) p). intros u w Z. revert w. induction Z; intros w; [reflexivity|].
          destruct w; [reflexivity|]. rewrite dot_cons, IHZ. subst. ring. }
        assert (C0 : qc q x <= 0) by (unfold qc; lra).
        pose proof (quad_roots_spec (qa q p) (qb q x p) (qc q x) al ltac:(apply norm2sq_nonneg) C0
          (F q ltac:(simpl; auto)) HZ Hal) as R.
        change (dot (mv (qL q) p) (mv (qL q) p)) with (qa q p).
        change (dot (mv (qL q) p) (mv (qL q) (vsub x (qy q)))) with (qb q x p).
        change (dot (mv (qL q) (vsub x (qy q))) (mv (qL q) (vsub x (qy q))) - qrho q * qrho q) with (qc q x).
        rewrite R. unfold qc. split; intro; lra. }
      rewrite QR. split.
      + intros [[H1 H2] H3]. split; auto. intros w [Hw|Hw]; subst; auto.
      + intros [H1 H2]. repeat split; auto. }
  destruct (G qs PInf W S F ltac:(discriminate)) as [G1 G2]. split; auto.
  cbv zeta. rewrite G2. simpl. intuition.
Qed.

(** the equality constraints are not left along p *)
Definition eq_kept (d : dom) (p : vec) : Prop := forall a, In a (dAeq d) -> dot a p = 0.

Lemma member_iff : forall d x, member d x <->
  length x = dim d /\ sat_bounds (lb d) (ub d) 0 x /\ sat_ineq (dA d) (db d) 0 x /\
  sat_eq0 (dAeq d) (dbeq d) x /\ sat_quad (quads d) 0 x.
Proof. intros. reflexivity. Qed.

Lemma eq_kept_along : forall d x p al, length x = length p -> eq_kept d p ->
  (sat_eq0 (dAeq d) (dbeq d) (along x p al) <-> sat_eq0 (dAeq d) (dbeq d) x).
Proof.
  intros d x p al H K. unfold sat_eq0.
  assert (DA : forall a, In a (dAeq d) -> dot a (along x p al) = dot a x).
  { intros a Ha. unfold along. rewrite dot_vadd_r, dot_vscale_r by (rewrite vscale_length; auto).
    rewrite K by auto. ring. }
  split; intros S k a c Ha Hc; specialize (S k a c Ha Hc); rewrite DA in * by (eapply nth_error_In; eauto); auto.
Qed.

Lemma extent_correct : forall d tol stol x p, dom_wf d -> proper d -> dcls d <> Point -> 0 < tol -> 0 < stol ->
  length p = dim d -> member d x -> eq_kept d p -> ineq_leaves_free d x p -> quad_leaves_free d x p ->
  exists e, extent d tol stol x p = Some e /\
    forall al, 0 <= al -> (member d (along x p al) <-> nleb (Fin al) e = true).
Proof.
  intros d tol stol x p W P NP Ht Hs Hp M K FI FQ.
  exists (extent_ d stol x p). split.
  { unfold extent. replace (inside1 d x tol) with true; auto. symmetry. apply inside1_spec; auto.
    apply member_relaxed; auto. }
  intros al Hal. rewrite member_iff in M. destruct M as [M1 [M2 [M3 [M4 M5]]]].
  pose proof W as W'. destruct W' as [W1 [W2 [W3 [W4 [W5 [W6 [W7 [W8 [W9 _]]]]]]]]].
  assert (HL : length x = length p) by congruence.
  assert (B1 : length (lb d) = length x) by congruence. assert (B2 : length (ub d) = length x) by congruence.
  destruct (extent_bounds_spec d x p al B1 B2 HL M2 P Hal) as [Nb Eb].
  destruct (extent_ineq_spec d x p al W4 HL M3 FI Hal) as [Ni Ei].
  assert (W7' : Forall (quad_wf (length x)) (quads d)) by (rewrite M1; auto).
  destruct (extent_quad_spec d x p al W7' HL M5 FQ Hal) as [Nq Eq].
  rewrite member_iff, along_length, eq_kept_along by auto.
  rewrite <- Eb, <- Ei, <- Eq. unfold extent_.
  destruct (dcls d) eqn:C; [| | |congruence].
  - replace ((Nat.eqb (length (dAeq d)) 0 || forallb (fun v => Rltb (Rabs v) stol) (mv (dAeq d) p))%bool) with true.
    + rewrite !nleb_nmin by auto using nmin_not_nan. rewrite !andb_true_iff. tauto.
    + symmetry. apply orb_true_iff. right. apply forallb_forall. intros v Hv. unfold mv in Hv.
      apply in_map_iff in Hv. destruct Hv as [a [E Ha]]. rewrite K in E by auto. subst. apply Rltb_true.
      rewrite Rabs_R0. auto.
  - rewrite !nleb_nmin by auto. rewrite !andb_true_iff.
    assert (extent_quad d x p = PInf) by (unfold extent_quad; rewrite W8 by congruence; reflexivity).
    rewrite H. simpl. tauto.
  - assert (extent_quad d x p = PInf) by (unfold extent_quad; rewrite W8 by congruence; reflexivity).
    destruct W9 as [A1 A2]; auto.
    assert (extent_ineq d x p = PInf).
    { unfold extent_ineq. rewrite A1. simpl. destruct (vsub (db d) []); reflexivity. }
    rewrite H, H0. simpl. tauto.
Qed.

(* ================= box corner ================= *)
Lemma box_pick_length : forall l u p, length l = length u -> length u = length p -> length (box_pick l u p) = length l.
Proof. induction l; destruct u; destruct p; simpl; intros; auto; try discriminate; f_equal; apply IHl; lia. Qed.

Lemma box_pick_get : forall l u p i, length l = length u -> length u = length p -> (i < length l)%nat ->
  vget (box_pick l u p) i = if Rle_dec 0 (vget p i) then vget u i else vget l i.
Proof.
  unfold vget. induction l; destruct u; destruct p; simpl; intros; try discriminate; try lia.
  destruct i; auto. apply IHl; lia.
Qed.

Lemma dot_le_sum : forall p x z, length p = length x -> length x = length z ->
  (forall i, (i < length x)%nat -> vget p i * vget z i <= vget p i * vget x i) -> dot p z <= dot p x.
Proof.
  induction p as [|a p IH]; destruct x; destruct z; intros H1 H2 H; try discriminate.
  - rewrite !dot_nil_l. lra.
  - rewrite !dot_cons. pose proof (H O ltac:(simpl; lia)) as H0. unfold vget in H0. simpl in H0.
    assert (dot p z <= dot p x).
    { apply IH; auto. intros i Hi. apply (H (S i)). simpl; lia. }
    lra.
Qed.

Definition box_of (l u : vec) : dom := mkDom Box (length l) (map Fin l) (map Fin u) [] [] [] [] [].

Lemma box_of_wf : forall l u, length l = length u -> dom_wf (box_of l u).
Proof.
  intros. unfold dom_wf, box_of; simpl. rewrite !map_length. repeat split; auto; try discriminate.
Qed.

Lemma nth_error_map_fin : forall l i v, nth_error (map Fin l) i = Some (Fin v) <->
  (i < length l)%nat /\ vget l i = v.
Proof.
  unfold vget. induction l; intros i v; simpl.
  - destruct i; simpl; split; try discriminate; intros [? _]; lia.
  - destruct i; simpl.
    + split.
      * intro E; inversion E; subst; split; auto; lia.
      * intros [_ E]; subst; auto.
    + rewrite IHl. split; intros [? ?]; split; auto; lia.
Qed.

Lemma box_relaxed : forall l u tol x, length l = length u ->
  (relaxed (box_of l u) tol x <-> length x = length l /\
     forall i, (i < length l)%nat -> vget l i - tol <= vget x i <= vget u i + tol).
Proof.
  intros l u tol x H. unfold relaxed, box_of, sat_bounds; simpl. split.
  - intros [H1 [H2 _]]. split; auto. intros i Hi. destruct (H2 i) as [A B]. split.
    + apply A. apply nth_error_map_fin; auto.
    + apply B. apply nth_error_map_fin; split; auto; lia.
  - intros [H1 H2]. repeat split; auto.
    + intros v Hv. apply nth_error_map_fin in Hv. destruct Hv as [Hi E]. subst. apply H2; auto.
    + intros v Hv. apply nth_error_map_fin in Hv. destruct Hv as [Hi E]. subst. apply H2; lia.
    + intros k a c Ha. destruct k; discriminate.
    + intros k a c Ha. destruct k; discriminate.
    + intros q [].
Qed.

Lemma box_member : forall l u x, length l = length u ->
  (member (box_of l u) x <-> length x = length l /\
     forall i, (i < length l)%nat -> vget l i <= vget x i <= vget u i).
Proof.
  intros l u x H. rewrite member_relaxed. split.
  - intro HH. split.
    + specialize (HH 1 ltac:(lra)). apply box_relaxed in HH; auto. tauto.
    + intros i Hi. split; apply Rnot_lt_le; intro L.
      * specialize (HH ((vget l i - vget x i)/2) ltac:(lra)). apply box_relaxed in HH; auto.
        destruct HH as [_ HH]. specialize (HH i Hi). lra.
      * specialize (HH ((vget x i - vget u i)/2) ltac:(lra)). apply box_relaxed in HH; auto.
        destruct HH as [_ HH]. specialize (HH i Hi). lra.
  - intros [H1 H2] tol Ht. apply box_relaxed; auto. split; auto. intros i Hi. specialize (H2 i Hi). lra.
Qed.

Lemma box_corner_optimal : forall l u p tol, length l = length u -> length u = length p -> 0 <= tol ->
  (forall i, (i < length l)%nat -> vget l i <= vget u i) ->
  exists x, box_corner l u p tol = Some x /\ member (box_of l u) x /\
    forall z, member (box_of l u) z -> dot p z <= dot p x.
Proof.
  intros l u p tol H1 H2 Ht HH. exists (box_pick l u p).
  assert (M : member (box_of l u) (box_pick l u p)).
  { apply box_member; auto. rewrite box_pick_length by auto. split; auto. intros i Hi.
    rewrite box_pick_get by auto. specialize (HH i Hi). destruct (Rle_dec 0 (vget p i)); lra. }
  split; [|split]; auto.
  - unfold box_corner. fold (box_of l u).
    replace (inside1 (box_of l u) (box_pick l u p) tol) with true; auto.
    symmetry. apply inside1_spec; [apply box_of_wf; auto|discriminate|].
    apply box_relaxed; auto. apply box_member in M; auto. destruct M as [Ma Mb]. split; auto.
    intros i Hi. specialize (Mb i Hi). lra.
  - intros z Mz. apply box_member in Mz; auto. destruct Mz as [Za Zb]. apply dot_le_sum.
    + rewrite box_pick_length; congruence.
    + rewrite box_pick_length; congruence.
    + rewrite box_pick_length by auto. intros i Hi. rewrite box_pick_get by auto. specialize (Zb i Hi).
      destruct (Rle_dec 0 (vget p i)); nra.
Qed.

Lemma box_corner_empty : forall l u p tol i, length l = length u -> length u = length p ->
  (i < length l)%nat -> vget u i + tol < vget l i -> box_corner l u p tol = None.
Proof.
  intros l u p tol i H1 H2 Hi HH. unfold box_corner. fold (box_of l u).
  destruct (inside1 (box_of l u) (box_pick l u p) tol) eqn:E; auto.
  apply inside1_spec in E; [|apply box_of_wf; auto|discriminate].
  apply box_relaxed in E; auto. destruct E as [_ E]. specialize (E i Hi). rewrite box_pick_get in E by auto.
  destruct (Rle_dec 0 (vget p i)); lra.
Qed.
