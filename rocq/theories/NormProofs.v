(** Proofs about normalization. *)
Require Import Reals Lra Lia List Bool.
From Verif Require Import RVec Num DomModel DomSpec DomProofs.
Import ListNotations.
Local Open Scope R_scope.

(* ---------------- dense diagonal matrices ---------------- *)
Lemma vget_map_seq : forall (f : nat -> R) n i, (i < n)%nat -> vget (map f (seq 0 n)) i = f i.
Proof.
  intros. unfold vget. rewrite nth_indep with (d' := f O) by (rewrite map_length, seq_length; auto).
  rewrite map_nth, seq_nth; auto.
Qed.

Lemma dot_seq_shift : forall (f : nat -> R) a n x,
  dot (map f (seq (S a) n)) x = dot (map (fun j => f (S j)) (seq a n)) x.
Proof. intros. rewrite <- seq_shift, map_map. auto. Qed.

Lemma dot_unit : forall n x i c, length x = n -> (i < n)%nat ->
  dot (map (fun j => if Nat.eqb i j then c else 0) (seq 0 n)) x = c * vget x i.
Proof.
  induction n as [|n IH]; intros x i c H Hi; [lia|].
  destruct x as [|a x]; [discriminate|]. simpl in H.
  cbn [seq map]. rewrite dot_cons, dot_seq_shift.
  destruct i as [|i].
  - simpl. replace (map (fun _ : nat => 0) (seq 0 n)) with (vzero n).
    + rewrite dot_zero_l. unfold vget; simpl. lra.
    + unfold vzero. clear. generalize O. induction n; intros; simpl; auto. f_equal; auto.
  - cbn [Nat.eqb]. rewrite IH by lia. unfold vget; simpl. lra.
Qed.

Lemma diag_length : forall s, length (diag s) = length s.
Proof. intros. unfold diag. rewrite map_length, seq_length; auto. Qed.

Lemma mv_diag : forall s x, length x = length s -> mv (diag s) x = vmul s x.
Proof.
  intros s x H. apply vec_ext.
  - rewrite mv_length, diag_length, vmul_length; auto.
  - rewrite mv_length, diag_length. intros i Hi. rewrite vmul_get by auto.
    unfold mv, diag. rewrite map_map. rewrite vget_map_seq by auto.
    apply dot_unit; auto.
Qed.

Lemma mat_col_diag : forall s j, (j < length s)%nat ->
  mat_col (diag s) j = map (fun i => if Nat.eqb j i then vget s j else 0) (seq 0 (length s)).
Proof.
  intros s j Hj. unfold mat_col, diag. rewrite map_map. apply map_ext_in.
  intros i Hi. apply in_seq in Hi. rewrite vget_map_seq by auto.
  destruct (Nat.eqb_spec i j); destruct (Nat.eqb_spec j i); subst; auto; congruence.
Qed.

Lemma matmul_diag : forall A s, Forall (fun r => length r = length s) A ->
  matmul A (diag s) (length s) = map (fun r => vmul r s) A.
Proof.
  intros A s HA. unfold matmul. apply map_ext_in. intros r Hr.
  rewrite Forall_forall in HA. specialize (HA r Hr).
  apply vec_ext.
  - rewrite map_length, seq_length, vmul_length; auto.
  - rewrite map_length, seq_length. intros j Hj. rewrite vget_map_seq by auto.
    rewrite mat_col_diag by auto. rewrite dot_comm, dot_unit by auto.
    rewrite vmul_get by auto. lra.
Qed.

(* ---------------- normalize / unnormalize ---------------- *)
Lemma slopes_inv : forall l u, nslope l u * uslope l u = 1.
Proof.
  intros l u. unfold nslope, uslope. destruct l; destruct u; try lra.
  destruct (Req_EM_T r0 r); [lra|]. field. lra.
Qed.

Lemma nslopes_length : forall a b, length a = length b -> length (nslopes a b) = length a.
Proof. intros; apply zipw_length; auto. Qed.
Lemma uslopes_length : forall a b, length a = length b -> length (uslopes a b) = length a.
Proof. intros; apply zipw_length; auto. Qed.
Lemma center_length : forall a b, length a = length b -> length (center a b) = length a.
Proof. intros; apply zipw_length; auto. Qed.

Lemma nslopes_get : forall a b i, length a = length b -> (i < length a)%nat ->
  vget (nslopes a b) i = nslope (nth i a NaN) (nth i b NaN).
Proof. intros. unfold vget, nslopes. apply zipw_nth; auto. Qed.
Lemma uslopes_get : forall a b i, length a = length b -> (i < length a)%nat ->
  vget (uslopes a b) i = uslope (nth i a NaN) (nth i b NaN).
Proof. intros. unfold vget, uslopes. apply zipw_nth; auto. Qed.
Lemma center_get : forall a b i, length a = length b -> (i < length a)%nat ->
  vget (center a b) i = center_i (nth i a NaN) (nth i b NaN).
Proof. intros. unfold vget, center. apply zipw_nth; auto. Qed.

Lemma normalize_length : forall a b x, length a = length b -> length (normalize a b x) = length a.
Proof. intros. unfold normalize. rewrite mv_length, diag_length, nslopes_length; auto. Qed.
Lemma unnormalize_length : forall a b x, length a = length b -> length (unnormalize a b x) = length a.
Proof.
  intros. unfold unnormalize. rewrite vadd_length; rewrite mv_length, diag_length, uslopes_length; auto.
  rewrite center_length; auto.
Qed.

Lemma normalize_get : forall a b x i, length a = length b -> length x = length a -> (i < length a)%nat ->
  vget (normalize a b x) i = nslope (nth i a NaN) (nth i b NaN) * (vget x i - center_i (nth i a NaN) (nth i b NaN)).
Proof.
  intros. unfold normalize. rewrite mv_diag.
  - rewrite vmul_get, vsub_get, nslopes_get, center_get; auto.
    + rewrite center_length; lia.
    + rewrite vsub_length, nslopes_length; auto. rewrite center_length; auto.
  - rewrite vsub_length, nslopes_length; auto. rewrite center_length; auto.
Qed.
Lemma unnormalize_get : forall a b z i, length a = length b -> length z = length a -> (i < length a)%nat ->
  vget (unnormalize a b z) i = uslope (nth i a NaN) (nth i b NaN) * vget z i + center_i (nth i a NaN) (nth i b NaN).
Proof.
  intros. unfold unnormalize. rewrite mv_diag by (rewrite uslopes_length; auto).
  rewrite vadd_get, vmul_get, uslopes_get, center_get; auto.
  - rewrite uslopes_length; auto.
  - rewrite vmul_length, uslopes_length, center_length; auto. rewrite uslopes_length; auto.
Qed.

Lemma unnormalize_normalize : forall a b x, length a = length b -> length x = length a ->
  unnormalize a b (normalize a b x) = x.
Proof.
  intros a b x H Hx. apply vec_ext.
  - rewrite unnormalize_length; auto.
  - rewrite unnormalize_length by auto. intros i Hi.
    rewrite unnormalize_get, normalize_get; auto; [|apply normalize_length; auto].
    pose proof (slopes_inv (nth i a NaN) (nth i b NaN)) as S.
    set (c := center_i _ _). set (n := nslope _ _) in *. set (u := uslope _ _) in *.
    replace (u * (n * (vget x i - c)) + c) with ((n*u) * (vget x i - c) + c) by ring.
    rewrite S. ring.
Qed.
Lemma normalize_unnormalize : forall a b z, length a = length b -> length z = length a ->
  normalize a b (unnormalize a b z) = z.
Proof.
  intros a b z H Hz. apply vec_ext.
  - rewrite normalize_length; auto.
  - rewrite normalize_length by auto. intros i Hi.
    rewrite normalize_get, unnormalize_get; auto; [|apply unnormalize_length; auto].
    pose proof (slopes_inv (nth i a NaN) (nth i b NaN)) as S.
    set (c := center_i _ _). set (n := nslope _ _) in *. set (u := uslope _ _) in *.
    replace (n * (u * vget z i + c - c)) with ((n*u) * vget z i) by ring.
    rewrite S. ring.
Qed.

(* ---------------- unit cube ---------------- *)
Lemma normalize_unit_coord : forall l u x, l < u ->
  (l <= x <= u <-> -1 <= nslope (Fin l) (Fin u) * (x - center_i (Fin l) (Fin u)) <= 1).
Proof.
  intros l u x H. unfold nslope, center_i. destruct (Req_EM_T u l) as [E|E]; [lra|].
  assert (P : 0 < / (u - l)) by (apply Rinv_0_lt_compat; lra).
  replace (2 / (u - l) * (x - (l + u) / 2)) with ((2*x - l - u) * / (u-l)) by (field; lra).
  assert (Q : (u - l) * / (u - l) = 1) by (field; lra).
  split; intros [H1 H2].
  - split; nra.
  - split; nra.
Qed.

(* ---------------- special values in normalizeN ---------------- *)
Lemma ndot_fin : forall a x, length a = length x -> ndot a (map Fin x) = Fin (dot a x).
Proof.
  unfold ndot. induction a as [|c a IH]; destruct x as [|v x]; simpl; intros; try discriminate; auto.
  rewrite IH by lia. rewrite dot_cons. reflexivity.
Qed.
Lemma zipw_sub_fin : forall x c, length x = length c ->
  zipw (fun v c => nsub v (Fin c)) (map Fin x) c = map Fin (vsub x c).
Proof.
  induction x as [|a x IH]; destruct c as [|b c]; simpl; intros; try discriminate; auto.
  f_equal; auto. 
Qed.
Lemma normalizeN_fin : forall a b x, length a = length b -> length x = length a ->
  normalizeN a b (map Fin x) = map Fin (normalize a b x).
Proof.
  intros a b x H Hx. unfold normalizeN, normalize, mv.
  rewrite zipw_sub_fin by (rewrite center_length; auto). rewrite map_map.
  apply map_ext_in. intros r Hr. apply ndot_fin.
  rewrite vsub_length by (rewrite center_length; auto).
  unfold diag in Hr. apply in_map_iff in Hr. destruct Hr as [i [Hr _]]. subst.
  rewrite map_length, seq_length, nslopes_length; auto.
Qed.

Lemma normalizeN_length : forall a b x, length a = length b -> length (normalizeN a b x) = length a.
Proof. intros. unfold normalizeN. rewrite map_length, diag_length, nslopes_length; auto. Qed.

(** bound vectors for which the code's normalization of bounds is exact:
    all finite, or none finite *)
Definition uniform (l : list num) : Prop :=
  (exists x, l = map Fin x) \/ Forall (fun v => is_fin v = false) l.


(** the normalization bounds keep positive orientation (euclidean.py 1032-1034, 1062-1064) *)
Definition oriented (a b : list num) : Prop :=
  forall i v w, nth i a NaN = Fin v -> nth i b NaN = Fin w -> v <= w.

Lemma nslope_pos : forall a b i, oriented a b -> 0 < nslope (nth i a NaN) (nth i b NaN).
Proof.
  intros a b i O. unfold nslope. destruct (nth i a NaN) eqn:E1; destruct (nth i b NaN) eqn:E2; try lra.
  destruct (Req_EM_T r0 r); [lra|]. specialize (O i r r0 E1 E2). apply Rdiv_lt_0_compat; lra.
Qed.

Lemma keep_fin_all : forall (dflt : num) v x, length v = length x ->
  zipw (fun v l => if is_fin l then v else dflt) (map Fin v) (map Fin x) = map Fin v.
Proof. induction v as [|a v IH]; destruct x as [|b x]; simpl; intros; try discriminate; auto. f_equal; auto. Qed.

Lemma keep_fin_none : forall (dflt : num) v l, length v = length l ->
  Forall (fun v => is_fin v = false) l ->
  zipw (fun v l => if is_fin l then v else dflt) v l = map (fun _ => dflt) l.
Proof.
  induction v as [|a v IH]; destruct l as [|b l]; simpl; intros H F; try discriminate; auto.
  inversion F; subst. rewrite H2. f_equal; auto.
Qed.

Lemma nth_error_map_Fin : forall x i v, nth_error (map Fin x) i = Some (Fin v) -> (i < length x)%nat /\ vget x i = v.
Proof.
  intros x i v H. rewrite nth_error_map in H. destruct (nth_error x i) eqn:E; simpl in H; inversion H; subst.
  split.
  - apply nth_error_Some; congruence.
  - apply nth_error_vget; auto.
Qed.
Lemma map_Fin_nth_error : forall x i, (i < length x)%nat -> nth_error (map Fin x) i = Some (Fin (vget x i)).
Proof.
  intros x i H. rewrite nth_error_map. destruct (nth_error x i) eqn:E.
  - simpl. rewrite (nth_error_vget _ _ _ E). auto.
  - apply nth_error_None in E; lia.
Qed.

Lemma nofin_nth_error : forall l i v, Forall (fun v => is_fin v = false) l -> nth_error l i = Some (Fin v) -> False.
Proof.
  intros l i v F H. apply nth_error_In in H. rewrite Forall_forall in F. specialize (F _ H). discriminate.
Qed.

Lemma const_nth_error : forall (l : list num) c i v, is_fin c = false ->
  nth_error (map (fun _ => c) l) i = Some (Fin v) -> False.
Proof.
  intros l c i v C H. rewrite nth_error_map in H. destruct (nth_error l i); simpl in H; inversion H; subst; discriminate.
Qed.

Lemma lb_norm_sat1 : forall a b l x, length a = length b -> length l = length a ->
  length x = length a -> uniform l -> oriented a b ->
  ((forall i v, nth_error (lb_norm a b l) i = Some (Fin v) -> v <= vget (normalize a b x) i) <->
   (forall i v, nth_error l i = Some (Fin v) -> v <= vget x i)).
Proof.
  intros a b l x H Hl Hx [[lv El]|NF] O; unfold lb_norm.
  - subst l. rewrite map_length in Hl. rewrite normalizeN_fin by auto.
    rewrite keep_fin_all by (rewrite normalize_length; auto).
    split; intros HH i v Hv; apply nth_error_map_Fin in Hv; destruct Hv as [Hi Hv]; subst v.
    + specialize (HH i (vget (normalize a b lv) i)).
      rewrite map_Fin_nth_error in HH by (rewrite normalize_length; lia). specialize (HH eq_refl).
      rewrite !normalize_get in HH by (auto; lia).
      pose proof (nslope_pos a b i O). nra.
    + rewrite normalize_length in Hi by auto. rewrite !normalize_get by (auto; lia).
      specialize (HH i (vget lv i)). rewrite map_Fin_nth_error in HH by lia. specialize (HH eq_refl).
      pose proof (nslope_pos a b i O). nra.
  - rewrite keep_fin_none; auto; [|rewrite normalizeN_length; auto].
    split; intros _ i v Hv; exfalso.
    + eapply nofin_nth_error; eauto.
    + eapply const_nth_error; [|eauto]; auto.
Qed.

Lemma ub_norm_sat1 : forall a b l x, length a = length b -> length l = length a ->
  length x = length a -> uniform l -> oriented a b ->
  ((forall i v, nth_error (ub_norm a b l) i = Some (Fin v) -> vget (normalize a b x) i <= v) <->
   (forall i v, nth_error l i = Some (Fin v) -> vget x i <= v)).
Proof.
  intros a b l x H Hl Hx [[lv El]|NF] O; unfold ub_norm.
  - subst l. rewrite map_length in Hl. rewrite normalizeN_fin by auto.
    rewrite keep_fin_all by (rewrite normalize_length; auto).
    split; intros HH i v Hv; apply nth_error_map_Fin in Hv; destruct Hv as [Hi Hv]; subst v.
    + specialize (HH i (vget (normalize a b lv) i)).
      rewrite map_Fin_nth_error in HH by (rewrite normalize_length; lia). specialize (HH eq_refl).
      rewrite !normalize_get in HH by (auto; lia).
      pose proof (nslope_pos a b i O). nra.
    + rewrite normalize_length in Hi by auto. rewrite !normalize_get by (auto; lia).
      specialize (HH i (vget lv i)). rewrite map_Fin_nth_error in HH by lia. specialize (HH eq_refl).
      pose proof (nslope_pos a b i O). nra.
  - rewrite keep_fin_none; auto; [|rewrite normalizeN_length; auto].
    split; intros _ i v Hv; exfalso.
    + eapply nofin_nth_error; eauto.
    + eapply const_nth_error; [|eauto]; auto.
Qed.

Lemma bounds_norm_sat : forall a b l u x, length a = length b -> length l = length a ->
  length u = length a -> length x = length a -> uniform l -> uniform u -> oriented a b ->
  (sat_bounds (lb_norm a b l) (ub_norm a b u) 0 (normalize a b x) <-> sat_bounds l u 0 x).
Proof.
  intros a b l u x H Hl Hu Hx Ul Uu O.
  pose proof (lb_norm_sat1 a b l x H Hl Hx Ul O) as L.
  pose proof (ub_norm_sat1 a b u x H Hu Hx Uu O) as U.
  unfold sat_bounds. split; intros HH i; split; intros v Hv.
  - rewrite Rminus_0_r. revert i v Hv. apply L. intros i v Hv. destruct (HH i) as [A _]. specialize (A v Hv). lra.
  - rewrite Rplus_0_r. revert i v Hv. apply U. intros i v Hv. destruct (HH i) as [_ A]. specialize (A v Hv). lra.
  - rewrite Rminus_0_r. revert i v Hv. apply L. intros i v Hv. destruct (HH i) as [A _]. specialize (A v Hv). lra.
  - rewrite Rplus_0_r. revert i v Hv. apply U. intros i v Hv. destruct (HH i) as [_ A]. specialize (A v Hv). lra.
Qed.

(* ---------------- linear constraints ---------------- *)
Lemma A_norm_rows : forall a b A, length a = length b -> Forall (fun r => length r = length a) A ->
  A_norm a b A = map (fun r => vmul r (uslopes a b)) A.
Proof.
  intros. unfold A_norm. apply matmul_diag. rewrite uslopes_length; auto.
Qed.

Lemma vmul_uslopes_normalize : forall a b x, length a = length b -> length x = length a ->
  vmul (uslopes a b) (normalize a b x) = vsub x (center a b).
Proof.
  intros a b x H Hx.
  pose proof (unnormalize_normalize a b x H Hx) as E.
  unfold unnormalize in E. rewrite mv_diag in E by (rewrite uslopes_length, normalize_length; auto).
  rewrite <- E at 2. rewrite vadd_vsub; auto.
  rewrite vmul_length, uslopes_length, center_length; auto.
  rewrite uslopes_length, normalize_length; auto.
Qed.

Lemma row_norm : forall a b r x, length a = length b -> length r = length a -> length x = length a ->
  dot (vmul r (uslopes a b)) (normalize a b x) = dot r x - dot r (center a b).
Proof.
  intros a b r x H Hr Hx.
  rewrite dot_vmul_swap.
  - rewrite vmul_uslopes_normalize, dot_vsub_r; auto. rewrite center_length; auto.
  - rewrite uslopes_length; auto.
  - rewrite uslopes_length, normalize_length; auto.
Qed.

Lemma nth_error_vsub : forall x y k v, length x = length y -> nth_error (vsub x y) k = Some v ->
  exists p q, nth_error x k = Some p /\ nth_error y k = Some q /\ v = p - q.
Proof.
  unfold vsub. induction x as [|a x IH]; destruct y as [|b y]; simpl; intros k v H Hk; try discriminate.
  - destruct k; discriminate.
  - destruct k; simpl in *.
    + inversion Hk; eauto.
    + apply IH; auto.
Qed.
Lemma vsub_nth_error : forall x y k p q, nth_error x k = Some p -> nth_error y k = Some q ->
  nth_error (vsub x y) k = Some (p - q).
Proof.
  unfold vsub. induction x as [|a x IH]; destruct y as [|b y]; intros k p q Hp Hq; destruct k; simpl in *; try discriminate.
  - congruence.
  - apply IH; auto.
Qed.

(** A z <= b on the normalized side is A x <= b on the original side, row by row *)
Lemma rows_norm : forall (Q : R -> Prop) a b A c x, length a = length b -> length A = length c ->
  Forall (fun r => length r = length a) A -> length x = length a ->
  ((forall k r v, nth_error (A_norm a b A) k = Some r -> nth_error (b_norm a b A c) k = Some v ->
      Q (dot r (normalize a b x) - v)) <->
   (forall k r v, nth_error A k = Some r -> nth_error c k = Some v -> Q (dot r x - v))).
Proof.
  intros Q a b A c x H HA F Hx. rewrite A_norm_rows by auto. unfold b_norm. split; intros HH k r v Hr Hv.
  - assert (Lr : length r = length a).
    { rewrite Forall_forall in F. apply F. eapply nth_error_In; eauto. }
    specialize (HH k (vmul r (uslopes a b)) (v - dot r (center a b))).
    rewrite row_norm in HH by auto.
    replace (dot r x - v) with (dot r x - dot r (center a b) - (v - dot r (center a b))) by ring.
    apply HH.
    + apply (map_nth_error (fun r => vmul r (uslopes a b))); auto.
    + apply vsub_nth_error; auto. apply nth_error_mv; eauto.
  - rewrite nth_error_map in Hr. destruct (nth_error A k) as [r0|] eqn:E; simpl in Hr; [injection Hr as <-|discriminate].
    apply nth_error_vsub in Hv; [|rewrite mv_length; auto].
    destruct Hv as [p [q [Hp [Hq Ev]]]]. apply nth_error_mv in Hq. destruct Hq as [r1 [E1 Eq]].
    assert (r1 = r0) by congruence. subst r1.
    assert (Lr : length r0 = length a).
    { rewrite Forall_forall in F. apply F. eapply nth_error_In; eauto. }
    rewrite row_norm by auto. subst v q.
    replace (dot r0 x - dot r0 (center a b) - (p - dot r0 (center a b))) with (dot r0 x - p) by ring.
    eapply HH; eauto.
Qed.

Lemma ineq_norm_sat : forall a b A c tol x, length a = length b -> length A = length c ->
  Forall (fun r => length r = length a) A -> length x = length a ->
  (sat_ineq (A_norm a b A) (b_norm a b A c) tol (normalize a b x) <-> sat_ineq A c tol x).
Proof.
  intros. pose proof (rows_norm (fun t => t <= tol) a b A c x H H0 H1 H2) as G.
  unfold sat_ineq. split; intros HH k r v Hr Hv.
  - destruct G as [G _]. assert (dot r x - v <= tol); [|lra].
    eapply G; eauto. intros k' r' v' Hr' Hv'. specialize (HH k' r' v' Hr' Hv'). lra.
  - destruct G as [_ G]. assert (dot r (normalize a b x) - v <= tol); [|lra].
    eapply G; eauto. intros k' r' v' Hr' Hv'. specialize (HH k' r' v' Hr' Hv'). lra.
Qed.
Lemma eq_norm_sat : forall a b A c tol x, length a = length b -> length A = length c ->
  Forall (fun r => length r = length a) A -> length x = length a ->
  (sat_eq (A_norm a b A) (b_norm a b A c) tol (normalize a b x) <-> sat_eq A c tol x).
Proof. intros. exact (rows_norm (fun t => Rabs t < tol) a b A c x H H0 H1 H2). Qed.
Lemma eq0_norm_sat : forall a b A c x, length a = length b -> length A = length c ->
  Forall (fun r => length r = length a) A -> length x = length a ->
  (sat_eq0 (A_norm a b A) (b_norm a b A c) (normalize a b x) <-> sat_eq0 A c x).
Proof.
  intros. pose proof (rows_norm (fun t => t = 0) a b A c x H H0 H1 H2) as G.
  unfold sat_eq0. split; intros HH k r v Hr Hv.
  - destruct G as [G _]. assert (dot r x - v = 0); [|lra].
    eapply G; eauto. intros k' r' v' Hr' Hv'. specialize (HH k' r' v' Hr' Hv'). lra.
  - destruct G as [_ G]. assert (dot r (normalize a b x) - v = 0); [|lra].
    eapply G; eauto. intros k' r' v' Hr' Hv'. specialize (HH k' r' v' Hr' Hv'). lra.
Qed.

(* ---------------- quadratic constraints ---------------- *)
(** condition under which the code's [ys_norm] (centre shifted but not scaled) is harmless:
    the constraint's centre differs from the normalization centre only along coordinates
    whose slope is 1 *)
Definition quad_centred (a b : list num) (q : quad) : Prop :=
  forall i, (i < length a)%nat ->
    uslope (nth i a NaN) (nth i b NaN) = 1 \/ vget (qy q) i = center_i (nth i a NaN) (nth i b NaN).

Lemma quad_norm_res : forall a b q x, length a = length b -> quad_wf (length a) q -> length x = length a ->
  quad_centred a b q ->
  mv (qL (quad_norm a b q)) (vsub (normalize a b x) (qy (quad_norm a b q))) = mv (qL q) (vsub x (qy q)).
Proof.
  intros a b q x H [F [Ly _]] Hx C. unfold quad_norm; cbn [qL qy].
  rewrite A_norm_rows by auto. unfold mv. rewrite map_map. apply map_ext_in. intros r Hr.
  assert (Lr : length r = length a) by (rewrite Forall_forall in F; auto).
  assert (Lc : length (qy q) = length (center a b)) by (rewrite center_length; auto).
  rewrite dot_vsub_r by (rewrite normalize_length, vsub_length; auto).
  rewrite row_norm by auto.
  rewrite dot_vmul_swap; [| rewrite uslopes_length; auto | rewrite uslopes_length, vsub_length; auto].
  assert (E : vmul (uslopes a b) (vsub (qy q) (center a b)) = vsub (qy q) (center a b)).
  { apply vec_ext.
    - rewrite vmul_length, uslopes_length, vsub_length; auto. rewrite uslopes_length, vsub_length; auto.
    - rewrite vmul_length by (rewrite uslopes_length, vsub_length; auto).
      rewrite uslopes_length by auto. intros i Hi.
      rewrite vmul_get by (rewrite uslopes_length, vsub_length; auto).
      rewrite vsub_get by auto. rewrite uslopes_get, center_get by auto.
      destruct (C i Hi) as [E|E]; rewrite E; ring. }
  rewrite E. rewrite !dot_vsub_r by (auto; congruence). ring.
Qed.

Lemma quad_norm_sat : forall a b qs tol x, length a = length b -> Forall (quad_wf (length a)) qs ->
  length x = length a -> Forall (quad_centred a b) qs ->
  (sat_quad (map (quad_norm a b) qs) tol (normalize a b x) <-> sat_quad qs tol x).
Proof.
  intros a b qs tol x H W Hx C. rewrite Forall_forall in W, C. unfold sat_quad. split; intros HH q Hq.
  - specialize (HH (quad_norm a b q)). rewrite quad_norm_res in HH by auto. apply HH. apply in_map; auto.
  - apply in_map_iff in Hq. destruct Hq as [q0 [E Hq]]. subst q.
    rewrite quad_norm_res by auto. change (qrho (quad_norm a b q0)) with (qrho q0). apply HH; auto.
Qed.

Lemma sat_ineq_nil : forall b t x, sat_ineq [] b t x.
Proof. intros b t x k a c H. destruct k; discriminate. Qed.
Lemma sat_eq0_nil : forall b x, sat_eq0 [] b x.
Proof. intros b x k a c H. destruct k; discriminate. Qed.

(* ---------------- the whole normalized domain ---------------- *)
Lemma normalized_domain_member : forall a b d x, dom_wf d -> length a = dim d -> length b = dim d ->
  uniform (lb d) -> uniform (ub d) -> oriented a b -> Forall (quad_centred a b) (quads d) ->
  length x = dim d ->
  (member (normalized_domain a b d) (normalize a b x) <-> member d x).
Proof.
  intros a b d x W Ha Hb Ul Uu O C Hx.
  destruct W as [W1 [W2 [W3 [W4 [W5 [W6 [W7 [W8 [W9 W10]]]]]]]]].
  assert (E : length a = length b) by congruence.
  assert (N : length (normalize a b x) = dim d) by (rewrite normalize_length; auto).
  pose proof (bounds_norm_sat a b (lb d) (ub d) x E ltac:(congruence) ltac:(congruence) ltac:(congruence) Ul Uu O) as B.
  rewrite <- Ha in W3, W5, W7.
  pose proof (ineq_norm_sat a b (dA d) (db d) 0 x E W4 W3 ltac:(congruence)) as I.
  pose proof (eq0_norm_sat a b (dAeq d) (dbeq d) x E W6 W5 ltac:(congruence)) as Q.
  pose proof (quad_norm_sat a b (quads d) 0 x E W7 ltac:(congruence) C) as K.
  unfold normalized_domain, member. destruct (dcls d) eqn:EC; cbn [dim lb ub dA db dAeq dbeq quads].
  - rewrite B, I, Q, K. intuition congruence.
  - rewrite B, I, Q. rewrite W8 by congruence. intuition (try congruence; try (intros q [])).
  - destruct W9 as [E1 E2]; auto. rewrite B, W8, E1, E2 by congruence.
    pose proof (sat_ineq_nil (db d) 0 x). pose proof (sat_eq0_nil (dbeq d) x).
    pose proof (sat_ineq_nil [] 0 (normalize a b x)). pose proof (sat_eq0_nil [] (normalize a b x)).
    assert (sat_quad [] 0 x) by (intros q []).
    assert (sat_quad [] 0 (normalize a b x)) by (intros q []). intuition congruence.
  - destruct W9 as [E1 E2]; auto. rewrite B, W8, E1, E2 by congruence.
    pose proof (sat_ineq_nil (db d) 0 x). pose proof (sat_eq0_nil (dbeq d) x).
    pose proof (sat_ineq_nil [] 0 (normalize a b x)). pose proof (sat_eq0_nil [] (normalize a b x)).
    assert (sat_quad [] 0 x) by (intros q []).
    assert (sat_quad [] 0 (normalize a b x)) by (intros q []). intuition congruence.
Qed.
