(** orth and the trajectories on the Grassmann manifold (polyridge.py 100-104, 496-503, 578-602; polyridge_vec.py 16-20). *)
Require Import Reals Lra Lia List Bool Arith.
From Verif Require Import RVec Num Sums DomModel DomMoreModel SweepProofs HullProofs Deriv BasisModel MatLib SpecProofs GrassLib LipModel LipFitProofs SubModel RidgeModel.
Import ListNotations.
Local Open Scope R_scope.

(** specification: the same column span *)
Definition spans (m : nat) (us : list vec) (x : vec) : Prop := exists c, length c = length us /\ x = lincomb m us c.
Definition same_span (m : nat) (us vs : list vec) : Prop := forall x, spans m us x <-> spans m vs x.
Definition independent (m : nat) (us : list vec) : Prop := forall c, length c = length us -> lincomb m us c = vzero m -> c = vzero (length us).

Lemma vzero_len : forall n, length (vzero n) = n. Proof. intros. unfold vzero. apply repeat_length. Qed.
Lemma spans_trans : forall m us vs, Forall (fun u => length u = m) vs -> (forall u, In u us -> spans m vs u) -> forall x, spans m us x -> spans m vs x.
Proof.
  intros m us. induction us as [|u us IH]; intros vs FV H x [c [Lc ->]].
  - exists (vzero (length vs)). split; [apply vzero_len|]. destruct c; [|discriminate]. apply vec_ext; [rewrite !lincomb_length; auto|]. intros i Hi. rewrite lincomb_length in Hi by auto. rewrite !MatLib.lincomb_get by (auto; rewrite ?vzero_len; auto). simpl. symmetry. apply rsum_zero. intros. rewrite vzero_get. ring.
  - assert (FU : Forall (fun u => length u = m) (u :: us)) by (apply Forall_forall; intros w Iw; destruct (H w Iw) as [d [_ ->]]; apply lincomb_length; auto).
    destruct c as [|c0 c]; [discriminate|]. injection Lc as Lc. destruct (H u (or_introl eq_refl)) as [d [Ld Ed]]. assert (FU' : Forall (fun u => length u = m) us) by (inversion FU; auto).
    destruct (IH vs FV (fun w Iw => H w (or_intror Iw)) (lincomb m us c) (ex_intro _ c (conj Lc eq_refl))) as [e [Le Ee]].
    exists (vadd (vscale c0 d) e). split; [rewrite vadd_length; rewrite vscale_length; lia|].
    apply vec_ext; [rewrite !lincomb_length; auto|]. intros i Hi. rewrite lincomb_length in Hi by auto.
    pose proof (f_equal (fun w => vget w i) Ee) as Ei. cbv beta in Ei. rewrite !MatLib.lincomb_get in Ei by auto.
    rewrite !MatLib.lincomb_get by (auto; try rewrite vadd_length; rewrite ?vscale_length; simpl; lia). cbn [length]. rewrite rsum_S_first. rewrite (rsum_ext (length us) _ (fun k => vget c k * vget (nth k us []) i)) by (intros; auto). rewrite Ei.
    change (vget (c0 :: c) 0) with c0. cbn [nth]. rewrite Ed. rewrite MatLib.lincomb_get by auto. rewrite <- rsum_scal_l, <- rsum_plus. apply rsum_ext. intros k Hk. rewrite vadd_get by (rewrite vscale_length; lia). rewrite vscale_get. ring.
Qed.

Lemma spans_col : forall m us k, Forall (fun u => length u = m) us -> (k < length us)%nat -> spans m us (nth k us []).
Proof.
  intros m us k F Hk. exists (unitv (length us) k). split; [apply unitv_len|]. assert (L : length (nth k us []) = m) by (rewrite Forall_forall in F; apply F, nth_In; auto).
  apply vec_ext; [rewrite lincomb_length; auto|]. intros i Hi. rewrite MatLib.lincomb_get by (auto; try apply unitv_len; lia). rewrite (rsum_single _ k); [|auto|].
  - rewrite unitv_get by auto. rewrite Nat.eqb_refl. ring.
  - intros j Hj N. rewrite unitv_get by auto. destruct (Nat.eqb_spec j k); [lia|ring].
Qed.
Lemma lincomb_one : forall m us c k, Forall (fun u => length u = m) us -> length c = length us -> (k < length us)%nat -> (forall i, (i < length us)%nat -> i <> k -> vget c i = 0) -> lincomb m us c = vscale (vget c k) (nth k us []).
Proof.
  intros m us c k F Lc Hk Z. assert (L : length (nth k us []) = m) by (rewrite Forall_forall in F; apply F, nth_In; auto).
  apply vec_ext; [rewrite lincomb_length, vscale_length; auto|]. intros i Hi. rewrite lincomb_length in Hi by auto. rewrite MatLib.lincomb_get by auto. rewrite vscale_get. rewrite (rsum_single _ k); auto. intros j Hj N. rewrite Z by auto. ring.
Qed.
Lemma sgn_unit : forall x, x * x = 1 -> sgn x = x.
Proof. intros x H. assert (D : (x - 1) * (x + 1) = 0) by lra. apply Rmult_integral in D. unfold sgn, Rltb. destruct (Rlt_dec 0 x); [|destruct (Rlt_dec x 0)]; destruct D; lra. Qed.
Lemma sgn_abs : forall x, sgn x * x = Rabs x.
Proof. intro x. unfold sgn, Rltb, Rabs. destruct (Rlt_dec 0 x); destruct (Rcase_abs x); try destruct (Rlt_dec x 0); lra. Qed.
Lemma sgn_sq : forall x, x <> 0 -> sgn x * sgn x = 1.
Proof. intros x H. unfold sgn, Rltb. destruct (Rlt_dec 0 x); [|destruct (Rlt_dec x 0)]; lra. Qed.

Section QR.
Context (m : nat) (us q : list vec) (r : mat).
Hypothesis Q : qr_post m us q r.
Let n := length us.
Lemma qr_gram : forall i j, (i < n)%nat -> (j < n)%nat -> dot (nth i us []) (nth j us []) = rsum n (fun k => vget (nth i r []) k * vget (nth j r []) k).
Proof.
  intros i j Hi Hj. destruct Q as [Lq [Fq [Oq [Lr H]]]]. destruct (H i Hi) as [Li [-> _]]. destruct (H j Hj) as [Lj [-> _]]. rewrite (dot_lincomb2 m) by (auto; lia). apply dot_rs; auto.
Qed.
Lemma qr_diag : orthonormal us -> forall j, (j < n)%nat -> vget (nth j r []) j * vget (nth j r []) j = 1 /\ forall i, (i < n)%nat -> i <> j -> vget (nth j r []) i = 0.
Proof.
  intros OU j. induction j as [j IH] using (well_founded_induction lt_wf). intros Hj.
  assert (Z : forall i, (i < n)%nat -> i <> j -> vget (nth j r []) i = 0).
  { intros i Hi N. destruct (Nat.lt_total i j) as [Hij|[->|Hij]]; [|lia|].
    - destruct (IH i Hij Hi) as [D O']. assert (G := qr_gram i j Hi Hj). rewrite (OU i j) in G by auto. destruct (Nat.eqb_spec i j); [lia|]. rewrite (rsum_single _ i) in G; [|auto|intros k Hk Nk; rewrite O' by auto; ring].
      symmetry in G. apply Rmult_integral in G. destruct G as [G|G]; auto. rewrite G in D. lra.
    - destruct Q as [_ [_ [_ [_ H]]]]. destruct (H j Hj) as [_ [_ T]]. apply T. auto. }
  split; auto. assert (G := qr_gram j j Hj Hj). rewrite (OU j j), Nat.eqb_refl in G by auto. rewrite (rsum_single _ j) in G; auto. intros k Hk Nk. rewrite Z by auto. ring.
Qed.
Lemma tri_solve : forall k, (k <= n)%nat -> (forall i, (i < k)%nat -> vget (nth i r []) i <> 0) -> forall v, length v = n -> (forall i, (k <= i)%nat -> vget v i = 0) ->
  exists c, length c = n /\ (forall i, (k <= i)%nat -> vget c i = 0) /\ forall i, (i < n)%nat -> vget v i = rsum n (fun j => vget c j * vget (nth j r []) i).
Proof.
  destruct Q as [_ [_ [_ [Lr H]]]]. fold n in Lr, H. induction k as [|k IH]; intros Hk D v Lv Z.
  - exists (vzero n). split; [apply vzero_len|]. split; [intros; apply vzero_get|]. intros i Hi. rewrite Z by lia. symmetry. apply rsum_zero. intros. rewrite vzero_get. ring.
  - destruct (H k ltac:(lia)) as [Lk [_ Tk]]. set (a := vget v k / vget (nth k r []) k).
    assert (LS : length v = length (vscale a (nth k r []))) by (rewrite vscale_length; lia).
    destruct (IH ltac:(lia) (fun i Hi => D i ltac:(lia)) (vsub v (vscale a (nth k r [])))) as [c [Lc [Zc Ec]]].
    + rewrite vsub_length; auto.
    + intros i Hi. rewrite vsub_get by auto. rewrite vscale_get. destruct (Nat.eq_dec i k) as [->|].
      * unfold a. field. apply D. lia.
      * rewrite Z by lia. rewrite Tk by lia. ring.
    + exists (vadd c (vscale a (unitv n k))). assert (LA : length c = length (vscale a (unitv n k))) by (rewrite vscale_length, unitv_len; lia). split; [rewrite vadd_length; auto|]. split.
      * intros i Hi. rewrite vadd_get by auto. rewrite vscale_get. rewrite Zc by lia. destruct (lt_dec i n) as [Hn|Hn].
        -- rewrite unitv_get by auto. destruct (Nat.eqb_spec i k); [lia|ring].
        -- rewrite vget_over by (rewrite unitv_len; lia). ring.
      * intros i Hi. specialize (Ec i Hi). rewrite vsub_get in Ec by auto. rewrite vscale_get in Ec.
        rewrite (rsum_ext n _ (fun j => vget c j * vget (nth j r []) i + a * vget (unitv n k) j * vget (nth j r []) i)) by (intros; rewrite vadd_get by auto; rewrite vscale_get; ring).
        rewrite rsum_plus, <- Ec. rewrite (rsum_single n k); [|lia|].
        -- rewrite unitv_get by lia. rewrite Nat.eqb_refl. ring.
        -- intros j Hj N. rewrite unitv_get by auto. destruct (Nat.eqb_spec j k); [lia|ring].
Qed.
Lemma us_dims : Forall (fun u => length u = m) us.
Proof. destruct Q as [Lq [Fq [Oq [Lr H]]]]. apply Forall_forall. intros u I. apply (In_nth _ _ []) in I. destruct I as [j [Hj <-]]. destruct (H j Hj) as [_ [-> _]]. apply lincomb_length. auto. Qed.
(** R c as a vector of coefficients in q *)
Lemma lincomb_us : forall c i, length c = n -> (i < m)%nat -> vget (lincomb m us c) i = rsum n (fun k => rsum n (fun j => vget c j * vget (nth j r []) k) * vget (nth k q []) i).
Proof.
  intros c i Lc Hi. pose proof us_dims as FU. destruct Q as [Lq [Fq [Oq [Lr H]]]]. fold n in Lq, Lr, H. rewrite MatLib.lincomb_get by auto. fold n.
  rewrite (rsum_ext n _ (fun j => rsum n (fun k => vget c j * vget (nth j r []) k * vget (nth k q []) i))).
  - rewrite rsum_swap. apply rsum_ext. intros k Hk. rewrite rsum_scal_r. auto.
  - intros j Hj. destruct (H j Hj) as [Lj [E _]]. rewrite E. rewrite MatLib.lincomb_get by (auto; lia). rewrite Lq. fold n. rewrite <- rsum_scal_l. apply rsum_ext. intros; ring.
Qed.
Lemma qr_nonzero : independent m us -> forall j, (j < n)%nat -> vget (nth j r []) j <> 0.
Proof.
  intros IND j. induction j as [j IH] using (well_founded_induction lt_wf). intros Hj E0. pose proof Q as [Lq [Fq [Oq [Lr H]]]]. destruct (H j Hj) as [Lj [_ Tj]].
  destruct (tri_solve j ltac:(lia) (fun i Hi => IH i Hi ltac:(lia)) (nth j r []) Lj) as [c [Lc [Zc Ec]]].
  { intros i Hi. destruct (Nat.eq_dec i j) as [->|]; auto. apply Tj. lia. }
  assert (LA : length c = length (unitv n j)) by (rewrite unitv_len; auto).
  assert (K : vsub c (unitv n j) = vzero n).
  { apply IND; [rewrite vsub_length; auto|]. apply vec_ext; [rewrite lincomb_length, vzero_len; auto; apply us_dims|]. intros i Hi. rewrite lincomb_length in Hi by apply us_dims. rewrite lincomb_us by (auto; rewrite vsub_length; auto). rewrite vzero_get. apply rsum_zero. intros k Hk.
    rewrite (rsum_ext n _ (fun j0 => vget c j0 * vget (nth j0 r []) k - vget (unitv n j) j0 * vget (nth j0 r []) k)) by (intros; rewrite vsub_get by auto; ring).
    rewrite rsum_minus, <- Ec by auto. rewrite (rsum_single n j); [|auto|].
    - rewrite unitv_get by auto. rewrite Nat.eqb_refl. ring.
    - intros l Hl N. rewrite unitv_get by auto. destruct (Nat.eqb_spec l j); [lia|ring]. }
  apply (f_equal (fun w => vget w j)) in K. rewrite vsub_get, vzero_get in K by auto. rewrite unitv_get, Nat.eqb_refl in K by auto. rewrite Zc in K by auto. lra.
Qed.
End QR.

Lemma orth_nth : forall qr us q r k, qr us = (q, r) -> (k < length q)%nat -> nth k (orth qr us) [] = vscale (sgn (vget (nth k r []) k)) (nth k q []).
Proof. intros qr us q r k E Hk. unfold orth. rewrite E. rewrite scale_cols_nth by (auto; rewrite map_length, seq_length; auto). rewrite vget_map_seq by auto. auto. Qed.
Lemma orth_len : forall qr us q r, qr us = (q, r) -> length (orth qr us) = length q.
Proof. intros qr us q r E. unfold orth. rewrite E. rewrite scale_cols_len; auto. rewrite map_length, seq_length. auto. Qed.
(** orth leaves a matrix with orthonormal columns unchanged, whichever QR decomposition is computed *)
Theorem orth_keeps : forall qr m us, qr_post m us (fst (qr us)) (snd (qr us)) -> orthonormal us -> orth qr us = us.
Proof.
  intros qr m us Q OU. destruct (qr us) as [q r] eqn:E. simpl in Q. pose proof Q as [Lq [Fq [Oq [Lr H]]]].
  apply (nth_ext _ _ [] []); [rewrite (orth_len qr us q r); auto|]. intros k Hk. rewrite (orth_len qr us q r E), Lq in Hk. rewrite (orth_nth qr us q r k E) by lia.
  destruct (qr_diag m us q r Q OU k Hk) as [D Z]. rewrite sgn_unit by auto. destruct (H k Hk) as [Lk [Ek _]]. rewrite Ek at 1. symmetry. apply lincomb_one; auto; rewrite ?Lq; auto.
Qed.
(** on linearly independent columns it returns an orthonormal basis of their span, each column on the side of the original one *)
Theorem orth_full_rank : forall qr m us, qr_post m us (fst (qr us)) (snd (qr us)) -> independent m us ->
  length (orth qr us) = length us /\ Forall (fun u => length u = m) (orth qr us) /\ orthonormal (orth qr us) /\ same_span m (orth qr us) us /\
  forall k, (k < length us)%nat -> 0 < dot (nth k (orth qr us) []) (nth k us []).
Proof.
  intros qr m us Q IND. destruct (qr us) as [q r] eqn:E. simpl in Q. pose proof Q as [Lq [Fq [Oq [Lr H]]]]. pose proof (qr_nonzero m us q r Q IND) as NZ.
  assert (LO : length (orth qr us) = length us) by (rewrite (orth_len qr us q r); auto).
  assert (NO : forall k, (k < length us)%nat -> nth k (orth qr us) [] = vscale (sgn (vget (nth k r []) k)) (nth k q [])) by (intros k Hk; apply (orth_nth qr us q r); auto; lia).
  assert (LQ : forall k, (k < length us)%nat -> length (nth k q []) = m) by (intros k Hk; rewrite Forall_forall in Fq; apply Fq, nth_In; lia).
  assert (FO : Forall (fun u => length u = m) (orth qr us)).
  { apply Forall_forall. intros u I. apply (In_nth _ _ []) in I. destruct I as [k [Hk <-]]. rewrite LO in Hk. rewrite NO by auto. rewrite vscale_length. auto. }
  split; auto. split; auto. split; [|split].
  - intros i j Hi Hj. rewrite LO in Hi, Hj. rewrite !NO by auto. rewrite dot_vscale_l, dot_vscale_r. rewrite (Oq i j) by lia. destruct (Nat.eqb_spec i j) as [->|]; [|ring].
    pose proof (sgn_sq _ (NZ j Hj)). lra.
  - intro x. split.
    + apply spans_trans; [apply (us_dims m us q r Q)|]. intros u I. apply (In_nth _ _ []) in I. destruct I as [k [Hk <-]]. rewrite LO in Hk. rewrite NO by auto.
      destruct (tri_solve m us q r Q (length us) ltac:(lia) (fun i Hi => NZ i Hi) (vscale (sgn (vget (nth k r []) k)) (unitv (length us) k))) as [c [Lc [_ Ec]]]; [rewrite vscale_length, unitv_len; auto|intros i Hi; rewrite vscale_get, (vget_over (unitv _ _)) by (rewrite unitv_len; auto); ring|].
      exists c. split; auto. apply vec_ext; [rewrite lincomb_length, vscale_length; auto; apply (us_dims m us q r Q)|]. intros i Hi. rewrite vscale_length, LQ in Hi by auto. rewrite (lincomb_us m us q r Q) by auto.
      rewrite (rsum_ext _ _ (fun k0 => vget (vscale (sgn (vget (nth k r []) k)) (unitv (length us) k)) k0 * vget (nth k0 q []) i)) by (intros k0 Hk0; rewrite (Ec k0) by auto; auto).
      rewrite vscale_get. rewrite (rsum_single _ k); [|auto|].
      * rewrite vscale_get, unitv_get by auto. rewrite Nat.eqb_refl. ring.
      * intros j Hj N. rewrite vscale_get, unitv_get by auto. destruct (Nat.eqb_spec j k); [lia|ring].
    + apply spans_trans; auto. intros u I. apply (In_nth _ _ []) in I. destruct I as [k [Hk <-]]. destruct (H k Hk) as [Lk [Ek _]].
      exists (map (fun i => sgn (vget (nth i r []) i) * vget (nth k r []) i) (seq 0 (length us))). split; [rewrite map_length, seq_length; auto|]. rewrite Ek at 1.
      apply vec_ext; [rewrite !lincomb_length; auto|]. intros i Hi. rewrite lincomb_length in Hi by auto. rewrite !MatLib.lincomb_get by (auto; rewrite ?map_length, ?seq_length; lia). rewrite Lq, LO. apply rsum_ext. intros j Hj. rewrite vget_map_seq by auto. rewrite NO by auto. rewrite vscale_get.
      pose proof (sgn_sq _ (NZ j Hj)) as SQ. transitivity (vget (nth k r []) j * vget (nth j q []) i * (sgn (vget (nth j r []) j) * sgn (vget (nth j r []) j))); [rewrite SQ; ring|ring].
  - intros k Hk. rewrite NO by auto. destruct (H k Hk) as [Lk [Ek _]]. rewrite Ek at 1. rewrite dot_vscale_l. rewrite (dot_lincomb_r m) by (auto; lia). rewrite Lq. rewrite (rsum_single _ k); [|auto|].
    + rewrite (Oq k k) by lia. rewrite Nat.eqb_refl. rewrite Rmult_1_r. rewrite sgn_abs. apply Rabs_pos_lt. auto.
    + intros j Hj N. rewrite (Oq k j) by lia. destruct (Nat.eqb_spec k j); [lia|ring].
Qed.
(** dependent columns: sign(0) = 0 erases a column, for every QR decomposition *)
Theorem orth_rank_refuted : exists us, (exists q r, qr_post 2 us q r) /\ us = [[1; 0]; [1; 0]] /\
  forall qr, qr_post 2 us (fst (qr us)) (snd (qr us)) -> nth 1 (orth qr us) [] = vzero 2 /\ ~ orthonormal (orth qr us).
Proof.
  exists [[1; 0]; [1; 0]]. split; [|split; auto].
  - exists [[1; 0]; [0; 1]], [[1; 0]; [1; 0]]. split; auto. split; [repeat constructor|]. split.
    + intros i j Hi Hj. simpl in Hi, Hj. destruct i as [|[|]]; destruct j as [|[|]]; try lia; cbn [nth]; rewrite !dot_cons, dot_nil_l; simpl; lra.
    + split; auto. intros j Hj. simpl in Hj. assert (E : lincomb 2 [[1; 0]; [0; 1]] [1; 0] = [1; 0]) by (apply vec_ext; [reflexivity|]; intros i Hi; simpl in Hi; rewrite MatLib.lincomb_get by (auto; repeat constructor); destruct i as [|[|]]; try lia; unfold vget; simpl; ring).
      destruct j as [|[|]]; try lia; cbn [nth]; (split; [auto|]); (split; [auto|]); intros i Hi; destruct i as [|[|[|i]]]; try lia; reflexivity.
  - intros qr Q. destruct (qr [[1; 0]; [1; 0]]) as [q r] eqn:E. simpl in Q. pose proof Q as [Lq [Fq [Oq [Lr H]]]]. destruct (H 0%nat ltac:(simpl; lia)) as [L0 [E0 T0]]. destruct (H 1%nat ltac:(simpl; lia)) as [L1 [E1 T1]]. cbn [nth length] in *.
    assert (ER : nth 1 r [] = nth 0 r []).
    { rewrite <- (mv_lincomb_onb 2 q (nth 1 r [])) by (auto; rewrite Lq; auto). rewrite <- (mv_lincomb_onb 2 q (nth 0 r [])) by (auto; rewrite Lq; auto). f_equal. congruence. }
    assert (Z : nth 1 (orth qr [[1; 0]; [1; 0]]) [] = vzero 2).
    { rewrite (orth_nth qr _ q r 1 E) by (rewrite Lq; simpl; lia). rewrite ER. rewrite (T0 1%nat) by lia. rewrite sgn_0. assert (L : length (nth 1 q []) = 2%nat) by (rewrite Forall_forall in Fq; apply Fq, nth_In; rewrite Lq; simpl; lia).
      apply vec_ext; [rewrite vscale_length; auto|]. intros. rewrite vscale_get, vzero_get. ring. }
    split; auto. intro OR. specialize (OR 1%nat 1%nat). rewrite Z in OR. rewrite (orth_len qr _ q r E), Lq in OR. specialize (OR ltac:(simpl; lia) ltac:(simpl; lia)). unfold vzero in OR. simpl in OR. rewrite !dot_cons, dot_nil_l in OR. lra.
Qed.

(* ---------- trajectories ---------- *)
Definition tangent (us ds : list vec) : Prop := forall u d, In u us -> In d ds -> dot u d = 0.
(** entry (a,b) of U U^T, which identifies the subspace *)
Definition projector (us : list vec) (a b : nat) : R := rsum (length us) (fun k => vget (nth k us []) a * vget (nth k us []) b).
Definition traj_pre (m : nat) (us ds : list vec) : Prop := Forall (fun u => length u = m) us /\ orthonormal us /\ length ds = length us /\ tangent us ds.
Definition svd_good (svd : list vec -> list vec * vec * list vec) (m : nat) (ds : list vec) : Prop :=
  let '(ys, s, zs) := svd ds in svd_post m ds ys s zs.

Lemma geo_projector : forall m us ds ys s zs a b t, Forall (fun u => length u = m) us -> length ds = length us -> svd_post m ds ys s zs -> (a < m)%nat -> (b < m)%nat ->
  projector (geo_cols m us ys s zs t) a b = rsum (length us) (fun k =>
    (cos (vget s k * t) * rsum (length us) (fun c => vget (nth k zs []) c * vget (nth c us []) a) + sin (vget s k * t) * vget (nth k ys []) a) *
    (cos (vget s k * t) * rsum (length us) (fun c => vget (nth k zs []) c * vget (nth c us []) b) + sin (vget s k * t) * vget (nth k ys []) b)).
Proof.
  intros m us ds ys s zs a b t FU LD [Ly [FY [OY [Ls [OZ E]]]]] Ha Hb. unfold projector. rewrite geo_cols_len. apply rsum_ext. intros k Hk. rewrite geo_cols_nth by auto.
  assert (L2 : length (nth k ys []) = m) by (rewrite Forall_forall in FY; apply FY, nth_In; lia). assert (LZ : length (nth k zs []) = length us) by (rewrite <- LD; apply (onb_row (length ds)); auto; lia).
  assert (L1 : length (lincomb m us (nth k zs [])) = m) by (apply lincomb_length; auto).
  rewrite !vadd_get by (rewrite !vscale_length; lia). rewrite !vscale_get. rewrite !MatLib.lincomb_get by auto. auto.
Qed.
(** sum over the rows of Z of s_k y_k[a] (U z_k)[b] is (Delta U^T)[a,b] *)
Lemma svd_pair : forall m us ds ys s zs a b, length ds = length us -> svd_post m ds ys s zs -> (a < m)%nat ->
  rsum (length us) (fun k => vget s k * vget (nth k ys []) a * rsum (length us) (fun c => vget (nth k zs []) c * vget (nth c us []) b)) = rsum (length us) (fun c => vget (nth c ds []) a * vget (nth c us []) b).
Proof.
  intros m us ds ys s zs a b LD [Ly [FY [OY [Ls [OZ E]]]]] Ha. pose proof OZ as [Lz _].
  rewrite (rsum_ext _ _ (fun k => rsum (length us) (fun c => vget s k * vget (nth k ys []) a * (vget (nth k zs []) c * vget (nth c us []) b)))) by (intros; rewrite rsum_scal_l; auto).
  rewrite rsum_swap. apply rsum_ext. intros c Hc. rewrite E by lia. rewrite MatLib.lincomb_get by (auto; unfold vmul; rewrite vmap2_length by (rewrite col_len; lia); lia). rewrite Ly, LD. rewrite <- rsum_scal_r. apply rsum_ext. intros k Hk.
  rewrite vmul_get by (rewrite col_len; lia). rewrite col_get by lia. ring.
Qed.
Lemma geo_projector0 : forall m us ds ys s zs a b, Forall (fun u => length u = m) us -> length ds = length us -> svd_post m ds ys s zs -> (a < m)%nat -> (b < m)%nat ->
  projector (geo_cols m us ys s zs 0) a b = projector us a b.
Proof.
  intros m us ds ys s zs a b FU LD SV Ha Hb. rewrite (geo_projector m us ds) by auto. destruct SV as [Ly [FY [OY [Ls [OZ E]]]]]. pose proof OZ as [Lz _]. unfold projector.
  rewrite (rsum_ext _ _ (fun k => rsum (length us) (fun c => rsum (length us) (fun e => vget (nth k zs []) c * vget (nth k zs []) e * (vget (nth c us []) a * vget (nth e us []) b))))).
  - rewrite rsum_swap. apply rsum_ext. intros c Hc. rewrite rsum_swap. rewrite (rsum_ext _ _ (fun e => (if Nat.eqb c e then 1 else 0) * (vget (nth c us []) a * vget (nth e us []) b))).
    + rewrite (rsum_single _ c); [rewrite Nat.eqb_refl; ring|auto|]. intros j Hj N. destruct (Nat.eqb_spec c j); [lia|ring].
    + intros e He. rewrite rsum_scal_r. f_equal. rewrite <- (onb_cols (length ds) zs c e OZ) by lia. rewrite (dot_rs (length us)) by (rewrite col_len; lia). apply rsum_ext. intros k Hk. rewrite !col_get by lia. auto.
  - intros k Hk. rewrite Rmult_0_r, cos_0, sin_0. rewrite !Rmult_1_l, !Rmult_0_l, !Rplus_0_r. rewrite <- rsum_scal_r. apply rsum_ext. intros c Hc. rewrite <- rsum_scal_l. apply rsum_ext. intros; ring.
Qed.
Lemma geo_projector_deriv : forall m us ds ys s zs a b, Forall (fun u => length u = m) us -> length ds = length us -> svd_post m ds ys s zs -> (a < m)%nat -> (b < m)%nat ->
  derivable_pt_lim (fun t => projector (geo_cols m us ys s zs t) a b) 0 (rsum (length us) (fun c => vget (nth c ds []) a * vget (nth c us []) b + vget (nth c us []) a * vget (nth c ds []) b)).
Proof.
  intros m us ds ys s zs a b FU LD SV Ha Hb. set (n := length us).
  eapply d_ext; [intro t; symmetry; apply (geo_projector m us ds); auto| |].
  2:{ set (g := fun (x : nat) k t => cos (vget s k * t) * rsum n (fun c => vget (nth k zs []) c * vget (nth c us []) x) + sin (vget s k * t) * vget (nth k ys []) x).
      apply (d_rsum n (fun k t => g a k t * g b k t) (fun k => vget s k * vget (nth k ys []) a * g b k 0 + g a k 0 * (vget s k * vget (nth k ys []) b))).
      intros k Hk. assert (D : forall x, derivable_pt_lim (g x k) 0 (vget s k * vget (nth k ys []) x)).
      { intro x. unfold g. set (A := rsum n _). eapply d_ext; [intro; reflexivity| |apply d_plus; apply d_mult; [| apply d_const | |apply d_const]].
        2:{ apply (d_comp cos (fun t => vget s k * t)); [eapply d_ext; [| |apply (d_lin (vget s k) 0)]; [intro; cbv beta; ring|reflexivity]|]. cbv beta. apply derivable_pt_lim_cos. }
        2:{ apply (d_comp sin (fun t => vget s k * t)); [eapply d_ext; [| |apply (d_lin (vget s k) 0)]; [intro; cbv beta; ring|reflexivity]|]. cbv beta. apply derivable_pt_lim_sin. }
        cbv beta. rewrite Rmult_0_r, cos_0, sin_0. ring. }
      apply d_mult; apply D. }
  cbv beta. rewrite (rsum_plus n (fun c => vget (nth c ds []) a * vget (nth c us []) b)). unfold n. rewrite <- (svd_pair m us ds ys s zs a b) by auto. rewrite (rsum_ext (length us) (fun c => vget (nth c us []) a * vget (nth c ds []) b) (fun c => vget (nth c ds []) b * vget (nth c us []) a)) by (intros; ring).
  rewrite <- (svd_pair m us ds ys s zs b a) by auto. rewrite <- rsum_plus. apply rsum_ext. intros k Hk. rewrite Rmult_0_r, cos_0, sin_0. ring.
Qed.
Lemma geo_span0 : forall m us ds ys s zs, Forall (fun u => length u = m) us -> length ds = length us -> svd_post m ds ys s zs -> same_span m (geo_cols m us ys s zs 0) us.
Proof.
  intros m us ds ys s zs FU LD SV x. pose proof SV as [Ly [FY [OY [Ls [OZ E]]]]]. pose proof OZ as [Lz _]. split.
  - apply spans_trans; auto. intros u I. apply (In_nth _ _ []) in I. destruct I as [k [Hk <-]]. rewrite geo_cols_len in Hk. rewrite geo_cols_nth by auto. assert (LZ : length (nth k zs []) = length us) by (rewrite <- LD; apply (onb_row (length ds)); auto; lia).
    exists (nth k zs []). split; auto. assert (L2 : length (nth k ys []) = m) by (rewrite Forall_forall in FY; apply FY, nth_In; lia). assert (L1 : length (lincomb m us (nth k zs [])) = m) by (apply lincomb_length; auto).
    apply vec_ext; [rewrite vadd_length; rewrite !vscale_length; lia|]. intros i Hi. rewrite vadd_get by (rewrite !vscale_length; lia). rewrite !vscale_get, Rmult_0_r, cos_0, sin_0. ring.
  - intros [c [Lc ->]]. exists (mv zs c). split; [rewrite mv_length, geo_cols_len; lia|].
    transitivity (lincomb m us c); auto. rewrite <- (pl_geo_start m us ds ys s zs) at 1 by auto. unfold pl_geo.
    assert (FG : Forall (fun u => length u = m) (geo_cols m us ys s zs 0)) by (apply (geo_rows m us ds); auto).
    apply vec_ext; [rewrite !lincomb_length; auto|]; [|intros i Hi].
    { apply Forall_forall. intros u I. apply in_map_iff in I. destruct I as [j [<- _]]. apply lincomb_length; auto. }
    assert (FM : Forall (fun u => length u = m) (map (fun c0 => lincomb m (geo_cols m us ys s zs 0) (col zs c0)) (seq 0 (length us)))) by (apply Forall_forall; intros u I; apply in_map_iff in I; destruct I as [j [<- _]]; apply lincomb_length; auto).
    rewrite lincomb_length in Hi by auto. rewrite !MatLib.lincomb_get by (auto; rewrite ?map_length, ?seq_length, ?mv_length, ?geo_cols_len; lia). rewrite map_length, seq_length, geo_cols_len.
    rewrite (rsum_ext _ _ (fun k => rsum (length us) (fun j => vget c k * (vget (nth j zs []) k * vget (nth j (geo_cols m us ys s zs 0) []) i)))).
    + rewrite rsum_swap. apply rsum_ext. intros j Hj. rewrite mv_get by lia. rewrite (dot_rs (length us)) by (auto; rewrite <- LD; apply (onb_row (length ds)); auto; lia). rewrite <- rsum_scal_r. apply rsum_ext. intros; ring.
    + intros k Hk. rewrite nth_map_seq by auto. rewrite MatLib.lincomb_get by (auto; rewrite ?col_len, ?geo_cols_len; lia). rewrite geo_cols_len. rewrite <- rsum_scal_l. apply rsum_ext. intros j Hj. rewrite col_get by lia. ring.
Qed.
(** _grassmann_trajectory from an orthonormal U along a horizontal Delta: orthonormal for every step; the additional QR changes
    nothing; step 0 is the same subspace, and the subspace starts to move along Delta *)
Theorem traj_orthonormal : forall qr svd m us ds t, traj_pre m us ds -> svd_good svd m ds -> qr_post m (pv_traj svd m us ds t) (fst (qr (pv_traj svd m us ds t))) (snd (qr (pv_traj svd m us ds t))) ->
  pr_traj qr svd m us ds t = pv_traj svd m us ds t /\ length (pv_traj svd m us ds t) = length us /\ Forall (fun u => length u = m) (pv_traj svd m us ds t) /\ orthonormal (pv_traj svd m us ds t).
Proof.
  intros qr svd m us ds t [FU [OU [LD TG]]] SV. unfold svd_good in SV. unfold pr_traj, pv_traj. destruct (svd ds) as [[ys s] zs]. intro Q.
  assert (OG : orthonormal (geo_cols m us ys s zs t)) by (apply (geo_orthonormal m us ds); auto). split; [apply (orth_keeps qr m); auto|]. split; [apply geo_cols_len|]. split; auto. apply (geo_rows m us ds); auto.
Qed.
Theorem traj_start : forall svd m us ds, traj_pre m us ds -> svd_good svd m ds -> same_span m (pv_traj svd m us ds 0) us /\
  forall a b, (a < m)%nat -> (b < m)%nat -> projector (pv_traj svd m us ds 0) a b = projector us a b /\
    derivable_pt_lim (fun t => projector (pv_traj svd m us ds t) a b) 0 (rsum (length us) (fun c => vget (nth c ds []) a * vget (nth c us []) b + vget (nth c us []) a * vget (nth c ds []) b)).
Proof.
  intros svd m us ds [FU [OU [LD TG]]] SV. unfold svd_good in SV. unfold pv_traj. destruct (svd ds) as [[ys s] zs]. split; [apply (geo_span0 m us ds); auto|].
  intros a b Ha Hb. split; [apply (geo_projector0 m us ds); auto|apply geo_projector_deriv; auto].
Qed.
Lemma horiz_tangent : forall m us ds, Forall (fun u => length u = m) us -> orthonormal us -> Forall (fun d => length d = m) ds -> tangent us (horiz m us ds).
Proof.
  intros m us ds FU OU FD u d Iu Id. unfold horiz in Id. apply in_map_iff in Id. destruct Id as [e [<- Ie]]. assert (Le : length e = m) by (rewrite Forall_forall in FD; auto).
  apply (In_nth _ _ []) in Iu. destruct Iu as [k [Hk <-]]. rewrite dot_vsub_r by (rewrite lincomb_length; auto). rewrite (dot_lincomb_r m) by (auto; apply mv_length). rewrite (rsum_single _ k); [|auto|].
  - rewrite (OU k k) by auto. rewrite Nat.eqb_refl. rewrite mv_get by auto. ring.
  - intros j Hj N. rewrite (OU k j) by auto. destruct (Nat.eqb_spec k j); [lia|ring].
Qed.
(** _trajectory of the alternating method: for any full rank U and any step, horizontal or not *)
Theorem alt_traj_orthonormal : forall qr svd m us ds t, independent m us -> qr_post m us (fst (qr us)) (snd (qr us)) -> length ds = length us -> Forall (fun d => length d = m) ds ->
  svd_good svd m (horiz m (orth qr us) ds) ->
  length (pr_alt_traj qr svd m us ds t) = length us /\ Forall (fun u => length u = m) (pr_alt_traj qr svd m us ds t) /\ orthonormal (pr_alt_traj qr svd m us ds t) /\ same_span m (pr_alt_traj qr svd m us ds 0) us.
Proof.
  intros qr svd m us ds t IND Q LD FD SV. destruct (orth_full_rank qr m us Q IND) as [LO [FO [OO [SS _]]]].
  assert (TG : tangent (orth qr us) (horiz m (orth qr us) ds)) by (apply horiz_tangent; auto). assert (LH : length (horiz m (orth qr us) ds) = length (orth qr us)) by (unfold horiz; rewrite map_length; lia).
  unfold svd_good in SV. unfold pr_alt_traj. cbv zeta. destruct (svd (horiz m (orth qr us) ds)) as [[ys s] zs]. split; [rewrite geo_cols_len; auto|]. split; [apply (geo_rows m _ (horiz m (orth qr us) ds)); auto|]. split; [apply (geo_orthonormal m _ (horiz m (orth qr us) ds)); auto|].
  intro x. rewrite <- (SS x). apply (geo_span0 m _ (horiz m (orth qr us) ds)); auto.
Qed.
