(** Proofs about PredModel: what the predicates and the direction sampler of euclidean.py decide about the set of points. *)
Require Import Reals Lra Lia List Bool.
From Verif Require Import RVec Sums Num MatLib SpecProofs Spectral GrassLib DomModel DomSpec DomProofs DomOpsProofs DomMoreModel GeoModel HullBasis VarproLib PredModel.
Import ListNotations.
Local Open Scope R_scope.

(** * the contract of the linear program behind corner *)
Definition corner_ok (M : vec -> Prop) (m : nat) (corner : vec -> answer) : Prop :=
  forall p, length p = m -> (exists i, (i < m)%nat /\ vget p i <> 0) ->
  match corner p with
  | Pt x => M x /\ forall y, M y -> dot p y <= dot p x
  | EmptyExc => forall y, ~ M y
  | UnboundedExc => forall B, exists y, M y /\ B < dot p y
  end.
(** a set of vectors of R^m *)
Definition in_dim (M : vec -> Prop) (m : nat) : Prop := forall x, M x -> length x = m.
Definition bounded (M : vec -> Prop) : Prop := exists B, forall y, M y -> norm2 y <= B.

Lemma abs_abs : forall a, a * a = Rabs a * Rabs a.
Proof. intro a. rewrite <- Rabs_mult. symmetry. apply Rabs_pos_eq. nra. Qed.
Lemma onb_row : forall m U u, onb m U -> In u U -> length u = m /\ dot u u = 1.
Proof.
  intros m U u (L & F & O) I. split; [rewrite Forall_forall in F; auto|]. apply In_nth with (d := []) in I. destruct I as (k & Hk & <-).
  rewrite (O k k) by auto. rewrite Nat.eqb_refl. auto.
Qed.
Lemma unit_nz : forall m u, length u = m -> dot u u = 1 -> exists i, (i < m)%nat /\ vget u i <> 0.
Proof.
  intros m u L E. assert (D : (forall i, (i < m)%nat -> vget u i = 0) \/ exists i, (i < m)%nat /\ vget u i <> 0).
  { clear L E. induction m as [|m IH]; [left; intros; lia|]. destruct IH as [A|(i & Hi & N)]; [|right; exists i; split; auto; lia].
    destruct (Req_EM_T (vget u m) 0) as [Z|Z]; [|right; exists m; auto]. left. intros i Hi. destruct (Nat.eq_dec i m); [subst; auto|apply A; lia]. }
  destruct D as [A|A]; auto. exfalso. rewrite (dot_rs m) in E by auto. rewrite rsum_zero in E; [lra|]. intros k Hk. rewrite A by auto. ring.
Qed.
Lemma neg_nz : forall m u, (exists i, (i < m)%nat /\ vget u i <> 0) -> exists i, (i < m)%nat /\ vget (vscale (-1) u) i <> 0.
Proof. intros m u (i & Hi & N). exists i. split; auto. rewrite vscale_get. lra. Qed.

(** ** is_empty *)
Lemma is_empty_exact : forall M m corner, (0 < m)%nat -> corner_ok M m corner -> (is_empty m corner = true <-> forall x, ~ M x).
Proof.
  intros M m corner Hm C. specialize (C (repeat 1 m) (repeat_length _ _)). unfold is_empty.
  assert (N : exists i, (i < m)%nat /\ vget (repeat 1 m) i <> 0).
  { exists 0%nat. split; auto. destruct m; [lia|]. unfold vget. simpl. lra. }
  specialize (C N). destruct (corner (repeat 1 m)) as [x| |].
  - split; [discriminate|]. intro H. destruct C as [C _]. exfalso. eapply H; eauto.
  - split; auto.
  - split; [discriminate|]. intro H. destruct (C 0) as (y & My & _). exfalso. eapply H; eauto.
Qed.

(** ** is_unbounded *)
Lemma unb_loop_spec : forall M m corner U, in_dim M m -> corner_ok M m corner -> Forall (fun u => length u = m /\ dot u u = 1) U ->
  (unb_loop corner U = true -> ~ bounded M) /\
  (unb_loop corner U = false -> (forall y, ~ M y) \/ forall u, In u U -> exists B, forall y, M y -> Rabs (dot u y) <= B).
Proof.
  intros M m corner U D C F. assert (UB : forall p, length p = m -> norm2sq p = 1 -> (forall B, exists y, M y /\ B < dot p y) -> ~ bounded M).
  { intros p Lp E H (B & HB). destruct (H B) as (y & My & Hy). pose proof (HB y My) as G. pose proof (cauchy_schwarz p y ltac:(rewrite (D y My); auto)) as CS.
    assert (norm2 p = 1) by (unfold norm2; rewrite E; apply sqrt_1). rewrite H0 in CS. lra. }
  induction F as [|u U (Lu & Eu) F IH]; simpl; [split; [discriminate|intros _; right; intros u []]|].
  assert (Nz := unit_nz m u Lu Eu). pose proof (C u Lu Nz) as C1.
  assert (Ln : length (vscale (-1) u) = m) by (rewrite vscale_length; auto).
  pose proof (C (vscale (-1) u) Ln (neg_nz m u Nz)) as C2.
  assert (En : norm2sq (vscale (-1) u) = 1). { unfold norm2sq. rewrite dot_vscale_l, dot_vscale_r. rewrite Eu. ring. }
  destruct (corner u) as [x1| |].
  - destruct (corner (vscale (-1) u)) as [x2| |].
    + destruct IH as [I1 I2]. split; auto. intro H. destruct (I2 H) as [E|K]; [left; auto|right]. intros v [<-|Hv]; [|apply K; auto].
      exists (Rabs (dot u x1) + Rabs (dot u x2)). intros y My. destruct C1 as [_ C1]. destruct C2 as [_ C2]. specialize (C1 y My). specialize (C2 y My).
      rewrite !dot_vscale_l in C2. unfold Rabs. repeat destruct Rcase_abs; lra.
    + split; [discriminate|]. intros _. left. exact C2.
    + split; [|discriminate]. intros _. exact (UB _ Ln En C2).
  - split; [discriminate|]. intros _. left. exact C1.
  - split; [|discriminate]. intros _. exact (UB _ Lu Eu C1).
Qed.
Lemma onb_bounded : forall M m U, in_dim M m -> onb m U -> (forall u, In u U -> exists B, forall y, M y -> Rabs (dot u y) <= B) -> bounded M.
Proof.
  intros M m U D O H. assert (G : exists B, forall u y, In u U -> M y -> Rabs (dot u y) <= B).
  { clear O. induction U as [|u U IH]; [exists 0; intros u y []|]. destruct IH as (B & HB); [intros v Hv; apply H; right; auto|]. destruct (H u ltac:(left; auto)) as (B' & HB').
    exists (Rmax B B'). intros v y [<-|Hv] My; [eapply Rle_trans; [apply HB'; auto|apply Rmax_r]|eapply Rle_trans; [apply (HB v y); auto|apply Rmax_l]]. }
  destruct G as (B & HB). exists (INR m * Rabs B + 1). intros y My. pose proof (pos_INR m). pose proof (Rabs_pos B) as RB.
  apply norm2_le_iff; [nra|]. rewrite (parseval m U y O (D y My)).
  apply Rle_trans with (rsum m (fun _ => Rabs B * Rabs B)).
  - apply rsum_le. intros k Hk. assert (I : In (nth k U []) U) by (apply nth_In; destruct O as [-> _]; auto). specialize (HB _ y I My).
    assert (G : Rabs (dot (nth k U []) y) <= Rabs B) by (eapply Rle_trans; [apply HB|apply Rle_abs]). pose proof (Rabs_pos (dot (nth k U []) y)).
    rewrite abs_abs. nra.
  - rewrite rsum_const. assert (Hm : INR m <= INR m * INR m \/ m = 0%nat). { destruct m; auto. left. assert (1 <= INR (S m)) by (rewrite S_INR; pose proof (pos_INR m); lra). nra. }
    destruct Hm as [Hm| ->]; [|simpl; nra]. nra.
Qed.
Lemma is_unbounded_exact : forall M m corner U, (2 <= m)%nat -> in_dim M m -> corner_ok M m corner -> onb m U ->
  exists b, is_unbounded m corner U = Some b /\ (b = true <-> ~ bounded M).
Proof.
  intros M m corner U Hm D C O. unfold is_unbounded. destruct (Nat.ltb_spec 1 m); [|lia]. eexists. split; [reflexivity|].
  assert (F : Forall (fun u => length u = m /\ dot u u = 1) U) by (apply Forall_forall; intros; eapply onb_row; eauto).
  destruct (unb_loop_spec M m corner U D C F) as [A B]. split; auto. intro N. destruct (unb_loop corner U) eqn:E; auto. exfalso. apply N.
  destruct (B eq_refl) as [K|K]; [exists 0; intros y My; exfalso; eapply K; eauto|]. eapply onb_bounded; eauto.
Qed.
Lemma is_unbounded_1d : forall corner U, is_unbounded 1 corner U = None.
Proof. reflexivity. Qed.

(** ** is_point *)
Lemma all_np_close_refl : forall x, all_np_close x x = true.
Proof.
  intro x. unfold all_np_close. induction x as [|a x IH]; auto. simpl. rewrite IH, andb_true_r. unfold np_close. apply Rleb_true. replace (a - a) with 0 by ring. rewrite Rabs_R0.
  unfold atol, rtol. pose proof (Rabs_pos a). lra.
Qed.
Lemma all_np_close_dist : forall m x y B, length x = m -> length y = m -> norm2 y <= B -> all_np_close x y = true -> norm2 (vsub x y) <= sqrt (INR m) * (atol + rtol * B).
Proof.
  intros m x y B Lx Ly HB H. assert (HB0 : 0 <= B) by (pose proof (norm2_nonneg y); lra). assert (P : 0 <= atol + rtol * B) by (unfold atol, rtol; lra).
  apply norm2_le_iff; [apply Rmult_le_pos; auto; apply sqrt_pos|].
  replace (sqrt (INR m) * (atol + rtol * B) * (sqrt (INR m) * (atol + rtol * B))) with ((sqrt (INR m) * sqrt (INR m)) * ((atol + rtol * B) * (atol + rtol * B))) by ring.
  rewrite sqrt_sqrt by apply pos_INR. assert (Y : Forall (fun b => Rabs b <= B) y).
  { apply Forall_forall. intros b Ib. eapply Rle_trans; [|apply HB]. apply In_nth with (d := 0) in Ib. destruct Ib as (k & Hk & <-).
    assert (S2 : nth k y 0 * nth k y 0 <= norm2sq y).
    { unfold norm2sq. rewrite (dot_rs (length y)) by auto. apply (rsum_term (length y) k (fun i => vget y i * vget y i)); auto. intros. nra. }
    unfold norm2. rewrite <- sqrt_Rsqr_abs. apply sqrt_le_1_alt. exact S2. }
  clear HB. revert x y Lx Ly H Y. induction m as [|m IH]; intros x y Lx Ly H Y; destruct x as [|a x], y as [|b y]; try discriminate.
  - unfold norm2sq. rewrite dot_nil_l. simpl. lra.
  - unfold all_np_close in H. simpl in H. apply andb_true_iff in H. destruct H as [H1 H2]. inversion Y as [|? ? Y1 Y2]; subst.
    specialize (IH x y ltac:(simpl in Lx; lia) ltac:(simpl in Ly; lia) H2 Y2). rewrite S_INR. unfold norm2sq in *. change (vsub (a :: x) (b :: y)) with ((a - b) :: vsub x y). rewrite dot_cons.
    unfold np_close in H1. apply Rleb_true in H1. assert (G : Rabs (a - b) <= atol + rtol * B). { unfold atol, rtol in *. nra. }
    pose proof (Rabs_pos (a - b)). rewrite (abs_abs (a - b)). nra.
Qed.
Lemma point_loop_true : forall M m corner U, corner_ok M m corner -> Forall (fun u => length u = m /\ dot u u = 1) U -> point_loop corner U = true ->
  forall u, In u U -> exists x1 x2, M x1 /\ M x2 /\ all_np_close x1 x2 = true /\ forall y, M y -> dot u x2 <= dot u y <= dot u x1.
Proof.
  intros M m corner U C F. induction F as [|v U (Lu & Eu) F IH]; intros H w I; [destruct I|]. simpl in H. destruct I as [<-|I].
  - assert (Nz := unit_nz m v Lu Eu). pose proof (C v Lu Nz) as C1. pose proof (C (vscale (-1) v) ltac:(rewrite vscale_length; auto) (neg_nz m v Nz)) as C2.
    destruct (corner v) as [x1| |]; try discriminate. destruct (corner (vscale (-1) v)) as [x2| |]; try discriminate.
    destruct (all_np_close x1 x2) eqn:E; try discriminate. exists x1, x2. destruct C1 as [A1 B1]. destruct C2 as [A2 B2]. repeat split; auto.
    specialize (B2 y H0). rewrite !dot_vscale_l in B2. lra.
  - destruct (corner v) as [x1| |]; try discriminate. destruct (corner (vscale (-1) v)) as [x2| |]; try discriminate.
    destruct (all_np_close x1 x2); try discriminate. apply IH; auto.
Qed.
Lemma onb_1 : onb 1 [[1]].
Proof. split; auto. split; [repeat constructor|]. intros i j Hi Hj. simpl in Hi, Hj. assert (i = 0%nat) by lia. assert (j = 0%nat) by lia. subst. simpl. unfold dot, vmul, vsum. simpl. ring. Qed.
Lemma frame_onb : forall m U, (0 < m)%nat -> onb m U -> onb m (if Nat.ltb 1 m then U else [[1]]).
Proof. intros m U Hm O. destruct (Nat.ltb_spec 1 m); auto. replace m with 1%nat by lia. apply onb_1. Qed.

(** what a positive answer guarantees: the set is not empty and its diameter is within the tolerance of np.isclose, relative to the size of its points *)
Lemma is_point_small : forall M m corner U, (0 < m)%nat -> in_dim M m -> corner_ok M m corner -> onb m U -> is_point m corner U = true ->
  (exists x, M x) /\ forall B, (forall y, M y -> norm2 y <= B) -> forall y z, M y -> M z -> norm2 (vsub y z) <= INR m * (atol + rtol * B).
Proof.
  intros M m corner U Hm D C O H. unfold is_point in H. pose proof (frame_onb m U Hm O) as O'. set (W := if Nat.ltb 1 m then U else [[1]]) in *. clearbody W.
  assert (F : Forall (fun u => length u = m /\ dot u u = 1) W) by (apply Forall_forall; intros; eapply onb_row; eauto).
  pose proof (point_loop_true M m corner W C F H) as P. split.
  - destruct O' as [L _]. destruct W as [|u W]; [simpl in L; lia|]. destruct (P u ltac:(left; auto)) as (x & _ & Mx & _). eauto.
  - intros B HB y z My Mz. set (t := atol + rtol * B).
    assert (Ht : 0 <= t). { unfold t, atol, rtol. pose proof (HB y My). pose proof (norm2_nonneg y). lra. }
    assert (Lyz : length (vsub y z) = m) by (rewrite vsub_length; rewrite ?(D y My), ?(D z Mz); auto).
    apply norm2_le_iff; [apply Rmult_le_pos; auto; apply pos_INR|]. rewrite (parseval m W _ O' Lyz).
    apply Rle_trans with (rsum m (fun _ => INR m * (t * t))); [|rewrite rsum_const; lra].
    apply rsum_le. intros k Hk. assert (I : In (nth k W []) W) by (apply nth_In; destruct O' as [-> _]; auto). set (u := nth k W []) in *.
    destruct (P u I) as (x1 & x2 & M1 & M2 & E & G). destruct (onb_row m W u O' I) as [Lu Eu].
    pose proof (G y My) as Gy. pose proof (G z Mz) as Gz.
    pose proof (all_np_close_dist m x1 x2 B (D _ M1) (D _ M2) (HB _ M2) E) as K. fold t in K.
    assert (CS : dot u x1 - dot u x2 <= sqrt (INR m) * t).
    { rewrite <- dot_vsub_r by (rewrite (D _ M1), (D _ M2); auto). eapply Rle_trans; [apply cauchy_schwarz; rewrite vsub_length; rewrite ?(D _ M1), ?(D _ M2); auto|].
      assert (N1 : norm2 u = 1) by (unfold norm2, norm2sq; rewrite Eu; apply sqrt_1). rewrite N1. lra. }
    rewrite dot_vsub_r by (rewrite (D y My), (D z Mz); auto).
    assert (Ab : Rabs (dot u y - dot u z) <= sqrt (INR m) * t) by (apply Rabs_le; lra). pose proof (Rabs_pos (dot u y - dot u z)).
    rewrite (abs_abs (dot u y - dot u z)).
    pose proof (sqrt_sqrt (INR m) (pos_INR m)). pose proof (sqrt_pos (INR m)).
    apply Rle_trans with ((sqrt (INR m) * t) * (sqrt (INR m) * t)); [apply Rmult_le_compat; auto; apply Rabs_pos|]. nra.
Qed.
(** a set with one point is always recognised *)
Lemma is_point_single : forall M m corner U c, (0 < m)%nat -> length c = m -> (forall x, M x <-> x = c) -> corner_ok M m corner -> onb m U -> is_point m corner U = true.
Proof.
  intros M m corner U c Hm Lc HM C O. unfold is_point. pose proof (frame_onb m U Hm O) as O'. set (W := if Nat.ltb 1 m then U else [[1]]) in *. clearbody W.
  assert (F : Forall (fun u => length u = m /\ dot u u = 1) W) by (apply Forall_forall; intros; eapply onb_row; eauto). clear O O'.
  assert (G : forall p, length p = m -> (exists i, (i < m)%nat /\ vget p i <> 0) -> corner p = Pt c).
  { intros p Lp N. pose proof (C p Lp N) as K. destruct (corner p) as [x| |].
    - destruct K as [K _]. apply HM in K. subst; auto.
    - exfalso. apply (K c). apply HM; auto.
    - exfalso. destruct (K (dot p c)) as (y & My & Hy). apply HM in My. subst. lra. }
  induction F as [|u W (Lu & Eu) F IH]; auto. simpl. assert (Nz := unit_nz m u Lu Eu). rewrite (G u Lu Nz), (G (vscale (-1) u)) by (try (rewrite vscale_length; auto); apply neg_nz; auto).
  rewrite all_np_close_refl. auto.
Qed.
(** an empty or unbounded domain is never called a point *)
Lemma is_point_not_empty : forall M m corner U, (0 < m)%nat -> in_dim M m -> corner_ok M m corner -> onb m U -> (forall x, ~ M x) \/ ~ bounded M -> is_point m corner U = false.
Proof.
  intros M m corner U Hm D C O H. destruct (is_point m corner U) eqn:E; auto. exfalso. destruct (is_point_small M m corner U Hm D C O E) as [[x Mx] _].
  destruct H as [H|H]; [eapply H; eauto|]. apply H. unfold is_point in E. pose proof (frame_onb m U Hm O) as O'. eapply onb_bounded; eauto.
  intros u I. assert (F : Forall (fun u => length u = m /\ dot u u = 1) (if Nat.ltb 1 m then U else [[1]])) by (apply Forall_forall; intros; eapply onb_row; eauto).
  destruct (point_loop_true M m corner _ C F E u I) as (x1 & x2 & _ & _ & _ & G). exists (Rabs (dot u x1) + Rabs (dot u x2)). intros y My. specialize (G y My). unfold Rabs. repeat destruct Rcase_abs; lra.
Qed.

(** intervals of the line *)
Definition seg (a b : R) (x : vec) : Prop := length x = 1%nat /\ a <= vget x 0 <= b.
Definition seg_corner (a b : R) (p : vec) : answer := Pt [if Rltb (vget p 0) 0 then a else b].
Lemma seg_corner_ok : forall a b, a <= b -> corner_ok (seg a b) 1 (seg_corner a b).
Proof.
  intros a b H p Lp N. unfold seg_corner. destruct p as [|c [|]]; try discriminate. unfold seg, vget. simpl.
  split.
  - split; auto. destruct (Rltb c 0); lra.
  - intros y [Ly [H1 H2]]. destruct y as [|v [|]]; try discriminate. simpl in H1, H2. rewrite !dot_cons, !dot_nil_l. destruct (Rltb c 0) eqn:E; [apply Rltb_true in E|apply Rltb_false in E]; nra.
Qed.
Lemma seg_is_point : forall a b U, a <= b -> (is_point 1 (seg_corner a b) U = true <-> b - a <= atol + rtol * Rabs a).
Proof.
  intros a b U H. unfold is_point. simpl. unfold seg_corner, vget. simpl. replace (Rltb 1 0) with false by (symmetry; apply Rltb_false; lra).
  replace (Rltb (-1 * 1) 0) with true by (symmetry; apply Rltb_true; lra). unfold all_np_close. simpl. rewrite andb_true_r. unfold np_close. rewrite Rabs_pos_eq by lra.
  destruct (Rleb (b - a) (atol + rtol * Rabs a)) eqn:E; [apply Rleb_true in E; split; auto|apply Rleb_false in E; split; [discriminate|intro; exfalso; lra]].
Qed.
(** the answer depends on where the set is: a segment of positive length is called a point as soon as it is far enough from the origin *)
Lemma is_point_far : forall w U, 0 < w -> exists a, is_point 1 (seg_corner a (a + w)) U = true /\ seg a (a + w) [a] /\ seg a (a + w) [a + w] /\ corner_ok (seg a (a + w)) 1 (seg_corner a (a + w)).
Proof.
  intros w U H. exists (w * 100000). split; [apply seg_is_point; [lra|]; rewrite Rabs_pos_eq by lra; unfold atol, rtol; lra|].
  split; [split; auto; unfold vget; simpl; lra|]. split; [split; auto; unfold vget; simpl; lra|]. apply seg_corner_ok. lra.
Qed.
Lemma is_point_refuted : exists M m corner U x y, (0 < m)%nat /\ in_dim M m /\ corner_ok M m corner /\ onb m U /\ is_point m corner U = true /\ M x /\ M y /\ x <> y.
Proof.
  destruct (is_point_far 1 [[1]] ltac:(lra)) as (a & H1 & H2 & H3 & H4). exists (seg a (a + 1)), 1%nat, (seg_corner a (a + 1)), [[1]], [a], [a + 1].
  split; [lia|]. split; [intros x [L _]; exact L|]. split; [exact H4|]. split; [apply onb_1|]. split; [exact H1|]. split; [exact H2|]. split; [exact H3|]. intro E. injection E. intro. lra.
Qed.
