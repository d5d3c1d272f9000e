(** Proofs about membership, normalization, constraint addition, extent, box corner. *)
Require Import Reals Lra Lia List Bool.
From Verif Require Import RVec Num DomModel DomSpec.
Import ListNotations.
Local Open Scope R_scope.

(* ---------------- generic list facts ---------------- *)
Lemma band_map : forall (T : Type) (f g : T -> bool) X, band (map f X) (map g X) = map (fun x => f x && g x)%bool X.
Proof. unfold band; induction X; simpl; auto. f_equal; auto. Qed.

Lemma nth_error_vget : forall (x : vec) i v, nth_error x i = Some v -> vget x i = v.
Proof. intros. unfold vget. apply nth_error_nth; auto. Qed.

Lemma forallb_zipw : forall (A B : Type) (f : A -> B -> bool) x y, length x = length y ->
  (forallb (fun c => c) (zipw f x y) = true <->
   forall k a c, nth_error x k = Some a -> nth_error y k = Some c -> f a c = true).
Proof.
  induction x as [|a x IH]; destruct y as [|b y]; simpl; intros H; try discriminate.
  - split; auto. intros _ k a c Hk. destruct k; discriminate.
  - rewrite andb_true_iff, IH by lia. split.
    + intros [H1 H2] k a' c'. destruct k; simpl; [congruence|]. apply H2.
    + intros Hall. split.
      * apply (Hall O); reflexivity.
      * intros k a' c' Ha Hc. apply (Hall (S k)); auto.
Qed.

(* ---------------- bounds ---------------- *)
Definition lb_ok (d : dom) (tol : R) (x : vec) (i : nat) : bool :=
  match nth i (lb d) NaN with Fin l => Rleb (l - tol) (vget x i) | _ => true end.
Definition ub_ok (d : dom) (tol : R) (x : vec) (i : nat) : bool :=
  match nth i (ub d) NaN with Fin u => Rleb (vget x i) (u + tol) | _ => true end.

Lemma bounds_loop_rows : forall d X tol n,
  isinside_bounds_loop d X tol n =
  (map (fun x => forallb (lb_ok d tol x) (seq 0 n)) X,
   map (fun x => forallb (ub_ok d tol x) (seq 0 n)) X).
Proof.
  induction n as [|n IH].
  - reflexivity.
  - cbn [isinside_bounds_loop]. rewrite IH.
    assert (E : forall f, map (fun x : vec => forallb (f x) (seq 0 (S n))) X =
                     map (fun x => (forallb (f x) (seq 0 n) && f x n)%bool) X).
    { intro f. apply map_ext. intro x. rewrite seq_S, forallb_app. simpl.
      rewrite andb_true_r. auto. }
    rewrite (E (lb_ok d tol)), (E (ub_ok d tol)). clear E IH.
    f_equal.
    + assert (Q : forall x, lb_ok d tol x n = match nth n (lb d) NaN with
          Fin l => Rleb (l - tol) (vget x n) | _ => true end) by reflexivity.
      destruct (nth n (lb d) NaN); try rewrite band_map;
        apply map_ext; intro x; rewrite Q, ?andb_true_r; auto.
    + assert (Q : forall x, ub_ok d tol x n = match nth n (ub d) NaN with
          Fin u => Rleb (vget x n) (u + tol) | _ => true end) by reflexivity.
      destruct (nth n (ub d) NaN); try rewrite band_map;
        apply map_ext; intro x; rewrite Q, ?andb_true_r; auto.
Qed.

Lemma isinside_bounds_rows : forall d X tol,
  isinside_bounds d X tol =
  map (fun x => (forallb (lb_ok d tol x) (seq 0 (dim d)) && forallb (ub_ok d tol x) (seq 0 (dim d)))%bool) X.
Proof. intros. unfold isinside_bounds. rewrite bounds_loop_rows. apply band_map. Qed.

Lemma bounds_row_spec : forall d x tol, length (lb d) = dim d -> length (ub d) = dim d ->
  ((forallb (lb_ok d tol x) (seq 0 (dim d)) && forallb (ub_ok d tol x) (seq 0 (dim d)))%bool = true
   <-> sat_bounds (lb d) (ub d) tol x).
Proof.
  intros d x tol Hl Hu. rewrite andb_true_iff, !forallb_forall. unfold sat_bounds. split.
  - intros [H1 H2] i. split; intros v Hv.
    + assert (Hi : (i < length (lb d))%nat) by (apply nth_error_Some; congruence).
      specialize (H1 i). unfold lb_ok in H1. rewrite (nth_error_nth _ _ _ Hv) in H1.
      apply Rleb_true, H1, in_seq. lia.
    + assert (Hi : (i < length (ub d))%nat) by (apply nth_error_Some; congruence).
      specialize (H2 i). unfold ub_ok in H2. rewrite (nth_error_nth _ _ _ Hv) in H2.
      apply Rleb_true, H2, in_seq. lia.
  - intro H. split; intros i Hi; apply in_seq in Hi; destruct (H i) as [Ha Hb].
    + unfold lb_ok. destruct (nth_error (lb d) i) as [v|] eqn:E.
      * rewrite (nth_error_nth _ _ _ E). destruct v; auto. apply Rleb_true, Ha; auto.
      * apply nth_error_None in E. lia.
    + unfold ub_ok. destruct (nth_error (ub d) i) as [v|] eqn:E.
      * rewrite (nth_error_nth _ _ _ E). destruct v; auto. apply Rleb_true, Hb; auto.
      * apply nth_error_None in E. lia.
Qed.

(* ---------------- linear constraints ---------------- *)
Lemma nth_error_mv : forall A x k v, nth_error (mv A x) k = Some v <->
  exists a, nth_error A k = Some a /\ v = dot a x.
Proof.
  intros. unfold mv. rewrite nth_error_map. destruct (nth_error A k); simpl; split.
  - intro E; inversion E; eauto.
  - intros [a [E1 E2]]. inversion E1; subst; auto.
  - discriminate.
  - intros [a [E1 _]]. discriminate.
Qed.

Definition ineq_row (d : dom) (tol : R) (x : vec) : bool :=
  forallb (fun c => c) (zipw (fun l r => Rleb l (r + tol)) (mv (dA d) x) (db d)).
Lemma ineq_row_spec : forall d tol x, length (dA d) = length (db d) ->
  (ineq_row d tol x = true <-> sat_ineq (dA d) (db d) tol x).
Proof.
  intros d tol x H. unfold ineq_row. rewrite forallb_zipw by (rewrite mv_length; auto).
  unfold sat_ineq. split; intros Hall k a c Ha Hc.
  - apply Rleb_true. apply (Hall k); auto. apply nth_error_mv; eauto.
  - apply nth_error_mv in Ha. destruct Ha as [r [Hr E]]. subst. apply Rleb_true. eauto.
Qed.

Definition eq_row (d : dom) (tol : R) (x : vec) : bool :=
  forallb (fun c => c) (zipw (fun l r => Rltb (Rabs (l - r)) tol) (mv (dAeq d) x) (dbeq d)).
Lemma eq_row_spec : forall d tol x, length (dAeq d) = length (dbeq d) ->
  (eq_row d tol x = true <-> sat_eq (dAeq d) (dbeq d) tol x).
Proof.
  intros d tol x H. unfold eq_row. rewrite forallb_zipw by (rewrite mv_length; auto).
  unfold sat_eq. split; intros Hall k a c Ha Hc.
  - apply Rltb_true. apply (Hall k (dot a x) c); auto. apply nth_error_mv; eauto.
  - apply nth_error_mv in Ha. destruct Ha as [r [Hr E]]. subst. apply Rltb_true. eauto.
Qed.

(* ---------------- quadratic constraints ---------------- *)
Lemma sumsq_dot : forall v, vsum (map (fun t => t * t) v) = norm2sq v.
Proof. unfold norm2sq. induction v; simpl; auto. rewrite dot_cons, IHv; auto. Qed.

Definition quad_row (tol : R) (x : vec) (q : quad) : bool :=
  Rleb (sqrt (vsum (map (fun t => t * t) (mv (qL q) (vsub x (qy q)))))) (qrho q + tol).

Lemma isinside_quad_rows : forall d X tol,
  isinside_quad d X tol = map (fun x => forallb (quad_row tol x) (quads d)) X.
Proof.
  intros. unfold isinside_quad.
  assert (G : forall qs (f : vec -> bool),
     fold_left (fun inside q => band inside (map (fun x => quad_row tol x q) X)) qs (map f X)
     = map (fun x => (f x && forallb (quad_row tol x) qs)%bool) X).
  { induction qs as [|q qs IH]; intros f; simpl.
    - apply map_ext; intros; rewrite andb_true_r; auto.
    - rewrite band_map, IH. apply map_ext; intros. rewrite andb_assoc; auto. }
  unfold quad_row in G at 1. etransitivity; [apply (G (quads d) (fun _ => true))|].
  apply map_ext; intros; simpl; auto.
Qed.

Lemma quad_row_spec : forall qs tol x,
  (forallb (quad_row tol x) qs = true <-> sat_quad qs tol x).
Proof.
  intros. rewrite forallb_forall. unfold sat_quad, quad_row.
  split; intros H q Hq; specialize (H q Hq).
  - apply Rleb_true in H. rewrite sumsq_dot in H. exact H.
  - apply Rleb_true. rewrite sumsq_dot. exact H.
Qed.

(* ---------------- isinside ---------------- *)
Definition row_in (d : dom) (tol : R) (x : vec) : bool :=
  (forallb (lb_ok d tol x) (seq 0 (dim d)) && forallb (ub_ok d tol x) (seq 0 (dim d)) &&
   ineq_row d tol x && eq_row d tol x && forallb (quad_row tol x) (quads d))%bool.

Lemma isinside_rows_map : forall d X tol, dom_wf d -> dcls d <> Point ->
  isinside_rows d X tol = map (row_in d tol) X.
Proof.
  intros d X tol W NP. unfold isinside_rows, row_in.
  destruct W as [_ [_ [_ [W1 [_ [W2 [_ [Wq [Wb _]]]]]]]]].
  destruct (dcls d) eqn:E.
  - rewrite isinside_bounds_rows, isinside_quad_rows. unfold isinside_ineq, isinside_eq.
    rewrite !band_map. apply map_ext; intro x. reflexivity.
  - rewrite isinside_bounds_rows. unfold isinside_ineq, isinside_eq.
    rewrite !band_map. rewrite Wq by congruence. apply map_ext; intro x.
    simpl. rewrite andb_true_r. reflexivity.
  - rewrite isinside_bounds_rows. destruct Wb as [E1 E2]; auto.
    unfold ineq_row, eq_row. rewrite E1, E2, Wq by congruence. apply map_ext; intro x.
    simpl. rewrite !andb_true_r. reflexivity.
  - congruence.
Qed.

Lemma row_in_spec : forall d tol x, dom_wf d ->
  (row_in d tol x = true <->
   sat_bounds (lb d) (ub d) tol x /\ sat_ineq (dA d) (db d) tol x /\
   sat_eq (dAeq d) (dbeq d) tol x /\ sat_quad (quads d) tol x).
Proof.
  intros d tol x W. destruct W as [W1 [W2 [_ [W3 [_ [W4 _]]]]]].
  unfold row_in. rewrite !andb_true_iff, <- andb_true_iff.
  rewrite bounds_row_spec, ineq_row_spec, eq_row_spec, quad_row_spec; auto. tauto.
Qed.

Lemma point_row_spec : forall d x xp, lb d = map Fin xp -> length x = length xp ->
  (forallb (fun c => c) (zipw (fun a l => neqb (Fin a) l) x (lb d)) = true <-> x = xp).
Proof.
  intros d x xp E H. rewrite E. clear E. revert xp H.
  induction x as [|a x IH]; destruct xp as [|b xp]; simpl; intros H; try discriminate; [tauto|].
  rewrite andb_true_iff, IH by lia. rewrite Reqb_true. split.
  - intros [E1 E2]; congruence.
  - intros E; inversion E; auto.
Qed.

Lemma inside1_spec : forall d x tol, dom_wf d -> dcls d <> Point ->
  (inside1 d x tol = true <-> relaxed d tol x).
Proof.
  intros d x tol W NP. unfold inside1, isinside, relaxed.
  destruct (Nat.eqb_spec (length x) (dim d)) as [E|E].
  - rewrite isinside_rows_map by auto. simpl. rewrite andb_true_r.
    rewrite row_in_spec by auto. tauto.
  - split; [discriminate|]. tauto.
Qed.

(** C01, row-wise characterisation for 2-d arrays *)
Lemma isinside_arr2 : forall d X tol k, dom_wf d -> dcls d <> Point ->
  Forall (fun x => length x = k) X ->
  exists l, isinside d (Arr2 k X) tol = BArr l /\ length l = length X /\
    forall i x, nth_error X i = Some x ->
      exists v, nth_error l i = Some v /\ (v = true <-> relaxed d tol x).
Proof.
  intros d X tol k W NP HX. unfold isinside.
  destruct (Nat.eqb_spec k (dim d)) as [E|E].
  - rewrite isinside_rows_map by auto. eexists; split; [reflexivity|]. split; [apply map_length|].
    intros i x Hi. exists (row_in d tol x). split.
    + apply map_nth_error; auto.
    + rewrite row_in_spec by auto. unfold relaxed.
      assert (length x = k). { rewrite Forall_forall in HX. apply HX. eapply nth_error_In; eauto. }
      intuition congruence.
  - eexists; split; [reflexivity|]. split; [apply map_length|].
    intros i x Hi. exists false. split.
    + apply (map_nth_error (fun _ => false)) in Hi; auto.
    + split; [discriminate|]. intros [L _].
      assert (length x = k). { rewrite Forall_forall in HX. apply HX. eapply nth_error_In; eauto. }
      congruence.
Qed.

Lemma relaxed_mono : forall d t1 t2 x, t1 <= t2 -> relaxed d t1 x -> relaxed d t2 x.
Proof.
  intros d t1 t2 x H [L [B [I [E Q]]]]. unfold relaxed. repeat split; auto.
  - intros v Hv. destruct (B i) as [B1 _]. specialize (B1 v Hv). lra.
  - intros v Hv. destruct (B i) as [_ B2]. specialize (B2 v Hv). lra.
  - intros k a c Ha Hc. specialize (I k a c Ha Hc). lra.
  - intros k a c Ha Hc. specialize (E k a c Ha Hc). lra.
  - intros q Hq. specialize (Q q Hq). lra.
Qed.

(** the exact set is the limit of the relaxed ones *)
Lemma member_relaxed : forall d x, member d x <-> (forall tol, 0 < tol -> relaxed d tol x).
Proof.
  intros d x. split.
  - intros [L [B [I [E Q]]]] tol Ht. unfold relaxed. repeat split; auto.
    + intros v Hv. destruct (B i) as [B1 _]. specialize (B1 v Hv). lra.
    + intros v Hv. destruct (B i) as [_ B2]. specialize (B2 v Hv). lra.
    + intros k a c Ha Hc. specialize (I k a c Ha Hc). lra.
    + intros k a c Ha Hc. rewrite (E k a c Ha Hc). unfold Rminus. rewrite Rplus_opp_r, Rabs_R0. auto.
    + intros q Hq. specialize (Q q Hq). lra.
  - intros H. assert (Lim : forall a b, (forall t, 0 < t -> a <= b + t) -> a <= b).
    { intros a b Hab. destruct (Rle_dec a b); auto. specialize (Hab ((a - b)/2)). lra. }
    unfold member. destruct (H 1) as [L _]; [lra|]. repeat split; auto.
    + intros v Hv. apply Lim. intros t Ht. destruct (H t Ht) as [_ [B _]].
      destruct (B i) as [B1 _]. specialize (B1 v Hv). lra.
    + intros v Hv. apply Lim. intros t Ht. destruct (H t Ht) as [_ [B _]].
      destruct (B i) as [_ B2]. specialize (B2 v Hv). lra.
    + intros k a c Ha Hc. rewrite Rplus_0_r. apply Lim. intros t Ht.
      destruct (H t Ht) as [_ [_ [I _]]]. apply (I k); auto.
    + intros k a c Ha Hc. assert (Rabs (dot a x - c) <= 0).
      { apply Lim. intros t Ht. destruct (H t Ht) as [_ [_ [_ [E _]]]].
        specialize (E k a c Ha Hc). lra. }
      pose proof (Rabs_pos (dot a x - c)). assert (Rabs (dot a x - c) = 0) by lra.
      destruct (Req_dec (dot a x - c) 0); [lra|]. apply Rabs_no_R0 in H3; contradiction.
    + intros q Hq. rewrite Rplus_0_r. apply Lim. intros t Ht.
      destruct (H t Ht) as [_ [_ [_ [_ Q]]]]. apply Q; auto.
Qed.
