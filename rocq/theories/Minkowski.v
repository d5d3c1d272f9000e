(** Bounded polyhedra are convex hulls of finitely many points, and convex hulls are polyhedra: the contracts of Qhull's two services can be met. *)
Require Import Reals List Bool Arith ZArith Lia Lra Psatz.
From Verif Require Import RVec Num Sums DomModel DomSpec NormProofs DomMoreModel LipModel SweepProofs HullProofs HullIneqProofs MatLib GrassLib VoronoiProofs LatinProofs GeoModel VarproLib LinProg LinLs Spectral SolveFit SolveDom SolveMore.
Import ListNotations.
Local Open Scope R_scope.

(** * convex combinations *)
Lemma repeat_get0 : forall n i, vget (repeat 0 n) i = 0.
Proof. intros. apply vzero_get. Qed.
Lemma lincomb_app : forall m X Y a b, length a = length X -> Forall (fun x => length x = m) X -> Forall (fun x => length x = m) Y -> lincomb m (X ++ Y) (a ++ b) = vadd (lincomb m X a) (lincomb m Y b).
Proof.
  intros m X Y a b L FX FY. apply vec_ext.
  - rewrite lincomb_length by (apply Forall_app; auto). rewrite vadd_length; rewrite !lincomb_length; auto.
  - intros i _. rewrite vadd_get by (rewrite !lincomb_length; auto). rewrite !HullProofs.lincomb_get by (auto; apply Forall_app; auto). rewrite map_app, dot_app2 by (rewrite map_length; auto). auto.
Qed.
Lemma lincomb_repeat0 : forall m X, Forall (fun x => length x = m) X -> lincomb m X (repeat 0 (length X)) = vzero m.
Proof.
  intros m X F. apply vec_ext; [rewrite lincomb_length by auto; unfold vzero; rewrite repeat_length; auto|]. intros i _. rewrite HullProofs.lincomb_get by auto. rewrite vzero_get. change (repeat 0 (length X)) with (vzero (length X)). rewrite dot_comm. apply dot_zero_r.
Qed.
Lemma vadd_zero_r : forall m x, length x = m -> vadd x (vzero m) = x.
Proof. intros m x L. apply vec_ext; [rewrite vadd_length; unfold vzero; rewrite ?repeat_length; auto|]. intros i _. rewrite vadd_get, vzero_get by (unfold vzero; rewrite repeat_length; auto). ring. Qed.
Lemma vadd_zero_l : forall m x, length x = m -> vadd (vzero m) x = x.
Proof. intros m x L. apply vec_ext; [rewrite vadd_length; unfold vzero; rewrite ?repeat_length; auto|]. intros i _. rewrite vadd_get, vzero_get by (unfold vzero; rewrite repeat_length; auto). ring. Qed.
Lemma vsum_app' : forall a b, vsum (a ++ b) = vsum a + vsum b.
Proof. intros a b. unfold vsum. induction a as [|x a IH]; simpl; [ring|rewrite IH; ring]. Qed.
Lemma vsum_repeat0 : forall n, vsum (repeat 0 n) = 0.
Proof. induction n; unfold vsum in *; simpl; [auto|lra]. Qed.
Lemma repeat0_nonneg : forall n, Forall (fun a => 0 <= a) (repeat 0 n).
Proof. intro n. apply Forall_forall. intros a I. apply repeat_spec in I. lra. Qed.
Lemma cc_app_l : forall m X Y x, Forall (fun x => length x = m) X -> Forall (fun x => length x = m) Y -> convex_comb X m x -> convex_comb (X ++ Y) m x.
Proof.
  intros m X Y x FX FY (al & L & P & S & ->). exists (al ++ repeat 0 (length Y)). split; [rewrite !app_length, repeat_length; lia|]. split; [apply Forall_app; split; auto; apply repeat0_nonneg|]. split; [rewrite vsum_app', vsum_repeat0; lra|].
  rewrite lincomb_app by auto. rewrite lincomb_repeat0 by auto. symmetry. apply vadd_zero_r, lincomb_length. auto.
Qed.
Lemma cc_app_r : forall m X Y x, Forall (fun x => length x = m) X -> Forall (fun x => length x = m) Y -> convex_comb Y m x -> convex_comb (X ++ Y) m x.
Proof.
  intros m X Y x FX FY (al & L & P & S & ->). exists (repeat 0 (length X) ++ al). split; [rewrite !app_length, repeat_length; lia|]. split; [apply Forall_app; split; auto; apply repeat0_nonneg|]. split; [rewrite vsum_app', vsum_repeat0; lra|].
  rewrite lincomb_app by (auto; apply repeat_length). rewrite lincomb_repeat0 by auto. symmetry. apply vadd_zero_l, lincomb_length. auto.
Qed.
Lemma cc_segment : forall m X x y s, Forall (fun x => length x = m) X -> 0 <= s <= 1 -> convex_comb X m x -> convex_comb X m y -> convex_comb X m (vadd (vscale (1 - s) x) (vscale s y)).
Proof.
  intros m X x y s F Hs (a & La & Pa & Sa & ->) (b & Lb & Pb & Sb & ->). exists (vadd (vscale (1 - s) a) (vscale s b)). assert (LL : length (vscale (1 - s) a) = length (vscale s b)) by (rewrite !vscale_length; lia).
  split; [rewrite vadd_length; rewrite !vscale_length; lia|]. split; [|split].
  - apply Forall_forall. intros t I. apply In_nth with (d := 0) in I. destruct I as (i & Hi & <-). rewrite vadd_length in Hi by auto. rewrite vscale_length in Hi. change (0 <= vget (vadd (vscale (1 - s) a) (vscale s b)) i). rewrite vadd_get, !vscale_get by auto. rewrite Forall_forall in Pa, Pb.
    assert (0 <= vget a i) by (apply Pa, nth_In; lia). assert (0 <= vget b i) by (apply Pb, nth_In; lia). nra.
  - rewrite vsum_vadd by auto. rewrite !vsum_vscale. nra.
  - apply vec_ext; [rewrite lincomb_length by auto; rewrite vadd_length; rewrite !vscale_length, !lincomb_length; auto|]. intros i _. rewrite vadd_get by (rewrite !vscale_length, !lincomb_length; auto). rewrite !vscale_get, !HullProofs.lincomb_get by auto. rewrite dot_vadd_l by auto. rewrite !dot_vscale_l. auto.
Qed.
Lemma cc_self : forall m X x, Forall (fun x => length x = m) X -> In x X -> convex_comb X m x.
Proof.
  intros m X x F I. apply In_nth with (d := []) in I. destruct I as (i & Hi & <-). assert (K := two_point_comb m X i i 0 F Hi Hi ltac:(lra)).
  assert (L : length (nth i X []) = m) by (rewrite Forall_forall in F; apply F, nth_In; auto). replace (nth i X []) with (vadd (vscale (1 - 0) (nth i X [])) (vscale 0 (nth i X []))); auto.
  apply vec_ext; [rewrite vadd_length; rewrite !vscale_length; auto|]. intros k _. rewrite vadd_get, !vscale_get by (rewrite !vscale_length; auto). ring.
Qed.
Lemma cc_length : forall m X x, Forall (fun x => length x = m) X -> convex_comb X m x -> length x = m.
Proof. intros m X x F (al & _ & _ & _ & ->). apply lincomb_length. auto. Qed.

(** * moving along a direction until a constraint is tight *)
Definition at_ (z v : vec) (t : R) : vec := vadd z (vscale t v).
Lemma at_dot : forall m a z v t, length a = m -> length z = m -> length v = m -> dot a (at_ z v t) = dot a z + t * dot a v.
Proof. intros m a z v t La Lz Lv. unfold at_. rewrite dot_vadd_r by (rewrite vscale_length; lia). rewrite dot_vscale_r. auto. Qed.
Lemma at_length : forall m z v t, length z = m -> length v = m -> length (at_ z v t) = m.
Proof. intros. unfold at_. rewrite vadd_length; rewrite ?vscale_length; lia. Qed.
Lemma walk_out : forall m S z v, rect m S -> length z = m -> length v = m -> sat S z ->
  (forall a c, In (a, c) S -> dot a v <= 0) \/ exists t k, 0 <= t /\ sat S (at_ z v t) /\ (k < length S)%nat /\ dot (fst (nth k S ([], 0))) (at_ z v t) = snd (nth k S ([], 0)).
Proof.
  intros m S z v RS Lz Lv. induction S as [|[a c] S IH]; intro H; [left; intros ? ? []|].
  assert (RS' : rect m S) by (intros r d I; eapply RS; right; eauto). assert (La : length a = m) by (eapply RS; left; eauto). assert (H' : sat S z) by (intros r d I; apply H; right; auto). assert (Ha : dot a z <= c) by (apply H; left; auto).
  destruct (IH RS' H') as [N|(t & k & Ht & St & Hk & Tk)].
  - destruct (Rle_dec (dot a v) 0) as [D|D]; [left; intros r d [I|I]; [injection I as <- <-; auto|eauto]|]. right. assert (P : 0 < dot a v) by lra. exists ((c - dot a z) / dot a v), 0%nat.
    assert (T0 : 0 <= (c - dot a z) / dot a v) by (unfold Rdiv; apply Rmult_le_pos; [lra|left; apply Rinv_0_lt_compat; lra]). assert (TE : (c - dot a z) / dot a v * dot a v = c - dot a z) by (field; lra).
    split; auto. split; [|split; [simpl; lia|simpl; rewrite (at_dot m) by auto; lra]]. intros r d [I|I]; [injection I as <- <-; rewrite (at_dot m) by auto; lra|]. rewrite (at_dot m) by (auto; eapply RS'; eauto). specialize (N r d I). specialize (H' r d I). nra.
  - right. destruct (Rle_dec (dot a (at_ z v t)) c) as [D|D].
    + exists t, (1 + k)%nat. split; auto. split; [intros r d [I|I]; [injection I as <- <-; auto|eauto]|]. split; [simpl; lia|]. simpl. auto.
    + rewrite (at_dot m) in D by auto. assert (P : 0 < dot a v) by nra. exists ((c - dot a z) / dot a v), 0%nat. set (t' := (c - dot a z) / dot a v).
      assert (T0 : 0 <= t') by (unfold t', Rdiv; apply Rmult_le_pos; [lra|left; apply Rinv_0_lt_compat; lra]). assert (TE : t' * dot a v = c - dot a z) by (unfold t'; field; lra). assert (TL : t' <= t) by nra.
      split; auto. split; [|split; [simpl; lia|simpl; rewrite (at_dot m) by auto; lra]]. intros r d [I|I]; [injection I as <- <-; rewrite (at_dot m) by auto; lra|].
      assert (Lr : length r = m) by (eapply RS'; eauto). specialize (St r d I). rewrite (at_dot m) in St by auto. rewrite (at_dot m) by auto. specialize (H' r d I). destruct (Rle_dec 0 (dot r v)); nra.
Qed.

(** * vertices of a bounded polyhedron given by inequalities S and equations E *)
Definition in_face (m : nat) (S E : list (vec * R)) (y : vec) : Prop := length y = m /\ sat S y /\ forall a c, In (a, c) E -> dot a y = c.
Definition drop_nth (k : nat) (S : list (vec * R)) : list (vec * R) := firstn k S ++ skipn (1 + k) S.
Lemma drop_nth_length : forall k S, (k < length S)%nat -> length (drop_nth k S) = (length S - 1)%nat.
Proof. intros. unfold drop_nth. rewrite app_length, firstn_length, skipn_length. lia. Qed.
Lemma drop_nth_in : forall k S rc, In rc (drop_nth k S) -> In rc S.
Proof. intros k S rc I. unfold drop_nth in I. apply in_app_iff in I. destruct I as [I|I]; [rewrite <- (firstn_skipn k S); apply in_app_iff; auto|]. rewrite <- (firstn_skipn (1 + k) S). apply in_app_iff; auto. Qed.
Lemma nth_split' : forall (S : list (vec * R)) k d, (k < length S)%nat -> S = firstn k S ++ nth k S d :: skipn (1 + k) S.
Proof. induction S as [|x S IH]; intros [|k] d H; simpl in *; try lia; auto. f_equal. apply (IH k d). lia. Qed.
Lemma drop_face : forall m S E k y, (k < length S)%nat -> (in_face m (drop_nth k S) (nth k S ([], 0) :: E) y <-> in_face m S E y /\ dot (fst (nth k S ([], 0))) y = snd (nth k S ([], 0))).
Proof.
  intros m S E k y Hk. unfold in_face. split.
  - intros (L & H1 & H2). assert (T : dot (fst (nth k S ([], 0))) y = snd (nth k S ([], 0))) by (apply H2; left; destruct (nth k S ([], 0)); auto). split; auto. split; auto. split; [|intros a c I; apply H2; right; auto].
    intros a c I. rewrite (nth_split' S k ([], 0) Hk) in I. apply in_app_iff in I. destruct I as [I|[I|I]]; [apply H1, in_app_iff; auto| |apply H1, in_app_iff; auto]. rewrite I in T. simpl in T. lra.
  - intros ((L & H1 & H2) & T). split; auto. split; [intros a c I; apply H1; eapply drop_nth_in; eauto|]. intros a c [I|I]; [rewrite I in T; auto|auto].
Qed.
Definition hull_of (m : nat) (P : vec -> Prop) (vs : mat) : Prop := Forall P vs /\ forall y, P y -> convex_comb vs m y.
Lemma single_hull : forall m (P : vec -> Prop), (forall y, P y -> length y = m) -> (forall y z, P y -> P z -> y = z) -> exists vs, hull_of m P vs.
Proof.
  intros m P LP U. destruct (Classical_Prop.classic (exists y, P y)) as [(y & Hy)|N].
  - exists [y]. split; [constructor; auto|]. intros z Hz. rewrite (U z y Hz Hy). apply cc_self; [constructor; auto|left; auto].
  - exists []. split; [constructor|]. intros y Hy. exfalso. eauto.
Qed.
Lemma face_line : forall m S E y z t, rect m S -> rect m E -> (forall a c, In (a, c) S -> dot a (vsub y z) <= 0) -> 0 <= t -> in_face m S E y -> in_face m S E z -> in_face m S E (at_ y (vsub y z) t).
Proof.
  intros m S E y z t RS RE N Ht (Ly & Hy & Ey) (Lz & Hz & Ez). assert (Lv : length (vsub y z) = m) by (rewrite vsub_length; lia). split; [apply at_length; auto|]. split.
  - intros a c I. rewrite (at_dot m) by (auto; eapply RS; eauto). specialize (N a c I). specialize (Hy a c I). nra.
  - intros a c I. rewrite (at_dot m) by (auto; eapply RE; eauto). rewrite dot_vsub_r by lia. rewrite (Ey a c I), (Ez a c I). ring.
Qed.
Lemma unbounded_line : forall m y v B i, length y = m -> length v = m -> (i < m)%nat -> vget v i <> 0 -> exists t, 0 <= t /\ B < Rabs (vget (at_ y v t) i).
Proof.
  intros m y v B i Ly Lv Hi Hv. pose proof (Rabs_pos_lt _ Hv) as P. pose proof (Rabs_pos (vget y i)). set (t := (Rabs B + Rabs (vget y i) + 1) / Rabs (vget v i)). exists t. pose proof (Rabs_pos B).
  assert (T0 : 0 <= t) by (unfold t, Rdiv; apply Rmult_le_pos; [lra|left; apply Rinv_0_lt_compat; auto]). split; auto. unfold at_. rewrite vadd_get, vscale_get by (rewrite vscale_length; lia).
  assert (E : Rabs (t * vget v i) = Rabs B + Rabs (vget y i) + 1) by (rewrite Rabs_mult, (Rabs_pos_eq t) by auto; unfold t; field; lra). pose proof (Rabs_triang_inv (t * vget v i) (- vget y i)) as T. rewrite Rabs_Ropp in T. replace (t * vget v i - - vget y i) with (vget y i + t * vget v i) in T by ring. pose proof (Rle_abs B). lra.
Qed.
Lemma differ_at : forall m (y z : vec), length y = m -> length z = m -> y <> z -> exists i, (i < m)%nat /\ vget (vsub y z) i <> 0.
Proof.
  intros m y z Ly Lz N. apply Classical_Prop.NNPP. intro C. apply N. apply vec_ext; [lia|]. intros i Hi. destruct (Req_dec (vget (vsub y z) i) 0) as [Z|Z]; [rewrite vsub_get in Z by lia; lra|]. exfalso. apply C. exists i. split; auto. lia.
Qed.
Theorem face_hull : forall n m S E B, length S = n -> rect m S -> rect m E -> (forall y i, in_face m S E y -> (i < m)%nat -> Rabs (vget y i) <= B) -> exists vs, hull_of m (in_face m S E) vs.
Proof.
  induction n as [|n IH]; intros m S E B LS RS RE HB.
  - destruct S; [|discriminate LS]. apply single_hull; [intros y H; apply H|]. intros y z Hy Hz. apply Classical_Prop.NNPP. intro N. pose proof Hy as (Ly & _). pose proof Hz as (Lz & _).
    destruct (differ_at m y z Ly Lz N) as (i & Hi & Hv). destruct (unbounded_line m y (vsub y z) B i Ly ltac:(rewrite vsub_length; lia) Hi Hv) as (t & Ht & C). assert (F : in_face m [] E (at_ y (vsub y z) t)) by (apply face_line; auto; intros ? ? []). specialize (HB _ i F Hi). lra.
  - destruct (Classical_Prop.classic (exists y z, in_face m S E y /\ in_face m S E z /\ y <> z)) as [(y0 & z0 & Hy0 & Hz0 & N0)|N].
    2:{ apply single_hull; [intros y H; apply H|]. intros y z Hy Hz. apply Classical_Prop.NNPP. intro D. apply N. exists y, z. auto. }
    pose proof Hy0 as (Ly0 & _ & Ey0). pose proof Hz0 as (Lz0 & _ & Ez0). set (v := vsub y0 z0). assert (Lv : length v = m) by (unfold v; rewrite vsub_length; lia). destruct (differ_at m y0 z0 Ly0 Lz0 N0) as (i & Hi & Hv). fold v in Hv.
    assert (Ev : forall a c, In (a, c) E -> dot a v = 0) by (intros a c I; unfold v; rewrite dot_vsub_r by lia; rewrite (Ey0 a c I), (Ez0 a c I); ring).
    assert (G : forall K, (K <= length S)%nat -> exists vs, Forall (in_face m S E) vs /\ forall k y, (k < K)%nat -> in_face m S E y -> dot (fst (nth k S ([], 0))) y = snd (nth k S ([], 0)) -> convex_comb vs m y).
    { induction K as [|K IHK]; intro HK; [exists []; split; [constructor|intros; lia]|]. destruct (IHK ltac:(lia)) as (vs & F1 & C1).
      assert (LF : forall us, Forall (in_face m S E) us -> Forall (fun x => length x = m) us) by (intros us; apply Forall_impl; intros a H; apply H).
      destruct (IH m (drop_nth K S) (nth K S ([], 0) :: E) B) as (ws & F2 & C2); [rewrite drop_nth_length; lia|intros r c I; apply drop_nth_in in I; eauto| | |].
      - intros r c [I|I]; [|eauto]. apply (RS r c). rewrite <- I. apply nth_In. lia.
      - intros y j H Hj. apply drop_face in H; [|lia]. apply HB; [apply H|auto].
      - assert (F2' : Forall (in_face m S E) ws) by (eapply Forall_impl; [|exact F2]; intros a H; apply drop_face in H; [apply H|lia]).
        exists (vs ++ ws). split; [apply Forall_app; auto|]. intros k y Hk Hy Ty. destruct (Nat.eq_dec k K) as [->|D].
        + apply cc_app_r; auto. apply C2. apply drop_face; auto. 
        + apply cc_app_l; auto. apply (C1 k); auto. lia. }
    destruct (G (length S) (le_n _)) as (vs & F & C). exists vs. split; auto. assert (FL : Forall (fun x => length x = m) vs) by (eapply Forall_impl; [|exact F]; intros a H; apply H).
    assert (Out : forall z w, in_face m S E z -> length w = m -> vget w i <> 0 -> (forall a c, In (a, c) E -> dot a w = 0) -> exists t, 0 <= t /\ convex_comb vs m (at_ z w t)).
    { intros z w (Lz & Hz & Ez) Lw Hw Ew. destruct (walk_out m S z w RS Lz Lw Hz) as [Nn|(t & k & Ht & St & Hk & Tk)].
      - exfalso. destruct (unbounded_line m z w B i Lz Lw Hi Hw) as (t & Ht & Ct). assert (FF : in_face m S E (at_ z w t)).
        { split; [apply at_length; auto|]. split; intros a c I; rewrite (at_dot m) by (auto; first [eapply RS; eassumption | eapply RE; eassumption]).
          - specialize (Nn a c I). specialize (Hz a c I). nra.
          - rewrite (Ez a c I), (Ew a c I). ring. }
        specialize (HB _ i FF Hi). lra.
      - exists t. split; auto. apply (C k); auto. split; [apply at_length; auto|]. split; auto. intros a c I. rewrite (at_dot m) by (auto; eapply RE; eauto). rewrite (Ez a c I), (Ew a c I). ring. }
    intros z Hz. pose proof Hz as (Lz & _). destruct (Out z v Hz Lv Hv Ev) as (t1 & P1 & C1). destruct (Out z (vscale (-1) v) Hz ltac:(rewrite vscale_length; auto) ltac:(rewrite vscale_get; lra) ltac:(intros a c I; rewrite dot_vscale_r, (Ev a c I); ring)) as (t2 & P2 & C2).
    destruct (Req_dec (t1 + t2) 0) as [Z|Z].
    + assert (t1 = 0) by lra. replace z with (at_ z v t1); auto. unfold at_. apply vec_ext; [rewrite vadd_length; rewrite ?vscale_length; lia|]. intros k _. rewrite vadd_get, vscale_get by (rewrite vscale_length; lia). rewrite H. ring.
    + assert (Sg := cc_segment m vs _ _ (t2 / (t1 + t2)) FL ltac:(split; [unfold Rdiv; apply Rmult_le_pos; [lra|left; apply Rinv_0_lt_compat; lra]|apply Rmult_le_reg_r with (t1 + t2); [lra|]; unfold Rdiv; rewrite Rmult_assoc, Rinv_l by lra; lra]) C2 C1).
      replace z with (vadd (vscale (1 - t2 / (t1 + t2)) (at_ z (vscale (-1) v) t2)) (vscale (t2 / (t1 + t2)) (at_ z v t1))); auto.
      assert (L1 : length (at_ z v t1) = m) by (apply at_length; auto). assert (L2 : length (at_ z (vscale (-1) v) t2) = m) by (apply at_length; auto; rewrite vscale_length; auto).
      apply vec_ext; [rewrite vadd_length; rewrite !vscale_length; lia|]. intros k _. rewrite vadd_get, !vscale_get by (rewrite !vscale_length; lia). unfold at_. rewrite !vadd_get, !vscale_get by (rewrite !vscale_length; lia). field. lra.
Qed.
(** scipy.spatial.HalfspaceIntersection: the vertices of a bounded polytope exist *)
Theorem hsi_exists : forall m rows B, rect m rows -> (forall y i, length y = m -> sat rows y -> (i < m)%nat -> Rabs (vget y i) <= B) -> exists vs, hsi_ok m rows vs.
Proof.
  intros m rows B RR HB. destruct (face_hull (length rows) m rows [] B eq_refl RR) as (vs & F & C); [intros ? ? []|intros y i (L & H & _) Hi; apply HB; auto|]. exists vs. split.
  - eapply Forall_impl; [|exact F]. intros a (L & H & _). auto.
  - intros y L H. apply C. split; auto. split; auto. intros ? ? [].
Qed.
(** the cells passed to Qhull by voronoi_vertex, for any domain that is bounded *)
Theorem cell_vertices_exist : forall m A b L Linv Xhat B, Forall (fun r => length r = m) A -> inverse_of m L Linv -> Forall (fun x => length x = m) Xhat -> Xhat <> [] ->
  (forall y i, length y = m -> sat (combine A b) y -> (i < m)%nat -> Rabs (vget y i) <= B) -> forall k, (k < length Xhat)%nat -> exists vs, hsi_ok m (hs_rows m A b L Linv Xhat k) vs.
Proof.
  intros m A b L Linv Xhat B FA ((LL & FL) & (LLi & FLi) & INV) FX NX HB k Hk.
  assert (RA : rect m (combine A b)) by (intros r c I; apply in_combine_l in I; rewrite Forall_forall in FA; auto).
  assert (FLX : Forall (fun x => length x = m) (map (mv L) Xhat)) by (apply Forall_forall; intros r I; apply in_map_iff in I; destruct I as (x & <- & _); rewrite mv_length; auto).
  assert (RC : rect m (combine (map (fun a => row_times m a Linv) A) b ++ cell_rows (map (mv L) Xhat) k)).
  { intros r c I. apply in_app_iff in I. destruct I as [I|I].
    - apply in_combine_l in I. apply in_map_iff in I. destruct I as (a & <- & _). unfold row_times. apply lincomb_length. auto.
    - unfold cell_rows in I. apply filter_In in I. destruct I as [I _]. apply in_map_iff in I. destruct I as (y & Q & I). injection Q as <- _. rewrite Forall_forall in FLX. rewrite vsub_length; rewrite FLX; auto. symmetry. apply FLX, nth_In. rewrite map_length. auto. }
  unfold hs_rows. destruct Xhat as [|x0 [|x1 Xr]]; [congruence|apply (hsi_exists m _ B RA HB)|].
  apply (hsi_exists m _ (rsum m (fun i => rsum m (fun j => Rabs (vget (nth i L []) j) * Rabs B))) RC). intros y i Ly Hy Hi. apply sat_app in Hy. destruct Hy as [Hy _]. rewrite sat_rows in Hy by auto.
  set (x := mv Linv y) in *. assert (Lx : length x = m) by (unfold x; rewrite mv_length; auto). assert (E : y = mv L x) by (symmetry; apply (INV y Ly)). rewrite E. rewrite mv_get by lia. rewrite (dot_rs m) by (auto; rewrite Forall_forall in FL; apply FL, nth_In; lia).
  eapply Rle_trans; [apply rsum_abs|]. apply Rle_trans with (rsum m (fun j => Rabs (vget (nth i L []) j) * Rabs B)).
  - apply rsum_le. intros j Hj. rewrite Rabs_mult. apply Rmult_le_compat_l; [apply Rabs_pos|]. eapply Rle_trans; [apply HB; auto|apply Rle_abs].
  - apply (rsum_term m i (fun i => rsum m (fun j => Rabs (vget (nth i L []) j) * Rabs B))); auto. intros k' _. apply rsum_nonneg. intros j _. apply Rmult_le_pos; apply Rabs_pos.
Qed.
(** scipy.spatial.ConvexHull: the convex hull of finitely many points is a polyhedron *)
Theorem hull_polyhedron : forall m X, Forall (fun x => length x = m) X -> exists rows, rect m rows /\ forall x, length x = m -> (sat rows x <-> convex_comb X m x).
Proof.
  intros m X F. set (n := length X). set (S := nonneg_rows n ++ eq_rows [(repeat 1 n, 1)]). assert (RS : rect n S) by (intros r c I; apply in_app_iff in I; destruct I as [I|I]; [eapply nonneg_rows_rect; eauto|revert I; apply eq_rows_rect; intros ? ? [I|[]]; injection I as <- <-; apply repeat_length]).
  destruct (image_polyhedron n S (map (fun i => col X i) (seq 0 m)) RS) as (T & RT & HT); [apply Forall_forall; intros r I; apply in_map_iff in I; destruct I as (i & <- & _); rewrite col_len; auto|]. rewrite map_length, seq_length in RT, HT.
  exists T. split; auto. intros x Lx. change (sat T x) with (holds T x). rewrite (HT x Lx). unfold S. split.
  - intros (al & La & H & ->). apply holds_app in H. destruct H as [H1 H2]. apply nonneg_rows_spec in H1; auto. rewrite eq_rows_spec in H2. specialize (H2 _ _ (or_introl eq_refl)). rewrite dot_ones in H2 by auto. exists al. repeat split; auto. symmetry. apply lincomb_mv; auto.
  - intros (al & La & P & Sa & ->). exists al. split; auto. split; [|apply lincomb_mv; auto]. apply holds_app. split; [apply nonneg_rows_spec; auto|]. apply eq_rows_spec. intros r c [I|[]]. injection I as <- <-. rewrite dot_ones; auto.
Qed.
