(** Concrete cases for the predicates, directions and boundary samples of PredModel. *)
Require Import Reals Lra Lia List Bool.
From Verif Require Import RVec Sums Num MatLib SpecProofs Spectral GrassLib DomModel DomSpec DomProofs DomOpsProofs DomExamples DomMoreModel GeoModel HullBasis HullIneqProofs GeoProofs VarproLib SweepProofs PredModel PredProofs PredDirs.
Import ListNotations.
Local Open Scope R_scope.

Definition boxset (l u : vec) (x : vec) : Prop := length x = length l /\ forall i, (i < length l)%nat -> vget l i <= vget x i <= vget u i.
Definition box_corner (l u p : vec) : answer := Pt (map (fun i => if Rltb (vget p i) 0 then vget l i else vget u i) (seq 0 (length l))).
Lemma box_corner_ok : forall l u, (forall i, (i < length l)%nat -> vget l i <= vget u i) -> corner_ok (boxset l u) (length l) (box_corner l u).
Proof.
  intros l u H p Lp _. unfold box_corner. set (f := fun i => if Rltb (vget p i) 0 then vget l i else vget u i). split.
  - split; [rewrite map_length, seq_length; auto|]. intros i Hi. rewrite vget_map_seq by auto. unfold f. specialize (H i Hi). destruct (Rltb (vget p i) 0); lra.
  - intros y [Ly B]. rewrite !(dot_rs (length l)) by (auto; rewrite map_length, seq_length; auto). apply rsum_le. intros i Hi. rewrite vget_map_seq by auto. unfold f. specialize (B i Hi).
    destruct (Rltb (vget p i) 0) eqn:E; [apply Rltb_true in E|apply Rltb_false in E]; nra.
Qed.
Lemma boxset_dim : forall l u, in_dim (boxset l u) (length l).
Proof. intros l u x [L _]. exact L. Qed.
Lemma boxset_convex : forall l u, convex (boxset l u) (length l).
Proof.
  intros l u x y t [Lx Bx] [Ly By] Ht. assert (L : length (vscale (1 - t) x) = length (vscale t y)) by (rewrite !vscale_length; congruence).
  split; [rewrite vadd_length; auto; rewrite vscale_length; auto|]. intros i Hi. rewrite vadd_get by auto. rewrite !vscale_get. specialize (Bx i Hi). specialize (By i Hi). nra.
Qed.
Definition rot : mat := [[3/5; 4/5]; [-4/5; 3/5]].
Lemma rot_onb : onb 2 rot.
Proof.
  split; auto. split; [repeat constructor|]. intros i j Hi Hj. simpl in Hi, Hj. destruct i as [|[|]], j as [|[|]]; try lia; simpl; unfold dot, vmul, vsum; simpl; lra.
Qed.

(** the unit square: not empty, not a point, bounded *)
Lemma unit_square_case : corner_ok (boxset [0; 0] [1; 1]) 2 (box_corner [0; 0] [1; 1]) /\ in_dim (boxset [0; 0] [1; 1]) 2 /\ onb 2 rot /\
  is_empty 2 (box_corner [0; 0] [1; 1]) = false /\ is_point 2 (box_corner [0; 0] [1; 1]) rot = false /\ is_unbounded 2 (box_corner [0; 0] [1; 1]) rot = Some false.
Proof.
  split; [apply (box_corner_ok [0; 0] [1; 1]); intros [|[|]] Hi; unfold vget; simpl in *; try lia; lra|]. split; [apply (boxset_dim [0; 0] [1; 1])|]. split; [apply rot_onb|].
  split; [reflexivity|]. split; [|reflexivity]. unfold is_point, rot. simpl. unfold all_np_close, vget. simpl. rb. assert (NC : np_close 1 0 = false) by (unfold np_close, atol, rtol; apply Rleb_false; rewrite Rabs_R0, Rabs_pos_eq by lra; lra). rewrite NC. reflexivity.
Qed.
(** the upper half plane y >= 0: unbounded; the empty set *)
Definition half (x : vec) : Prop := length x = 2%nat /\ 0 <= vget x 1.
Definition half_corner (p : vec) : answer := if (Reqb (vget p 0) 0 && Rleb (vget p 1) 0)%bool then Pt [0; 0] else UnboundedExc.
Lemma half_corner_ok : corner_ok half 2 half_corner.
Proof.
  intros p Lp _. unfold half_corner. destruct p as [|a [|b [|]]]; try discriminate. unfold vget. simpl. destruct (Reqb a 0) eqn:E1; simpl.
  - apply Reqb_true in E1. subst. destruct (Rleb b 0) eqn:E2.
    + apply Rleb_true in E2. split; [split; auto; unfold vget; simpl; lra|]. intros y [Ly Hy]. destruct y as [|c [|d [|]]]; try discriminate. unfold vget in Hy. simpl in Hy. rewrite !dot_cons, !dot_nil_l. nra.
    + apply Rleb_false in E2. intro B. exists [0; (Rabs B + 1) / b]. split; [split; auto; unfold vget; simpl; apply Rmult_le_pos; [pose proof (Rabs_pos B); lra|left; apply Rinv_0_lt_compat; lra]|].
      rewrite !dot_cons, !dot_nil_l. replace (0 * 0 + (b * ((Rabs B + 1) / b) + 0)) with (Rabs B + 1) by (field; lra). pose proof (Rle_abs B). lra.
  - assert (Ha : a <> 0) by (intro; subst; rewrite (proj2 (Reqb_true 0 0) eq_refl) in E1; discriminate). intro B. exists [(Rabs B + 1) / a; 0]. split; [split; auto; unfold vget; simpl; lra|].
    rewrite !dot_cons, !dot_nil_l. replace (a * ((Rabs B + 1) / a) + (b * 0 + 0)) with (Rabs B + 1) by (field; lra). pose proof (Rle_abs B). lra.
Qed.
Lemma half_plane_case : corner_ok half 2 half_corner /\ in_dim half 2 /\ is_empty 2 half_corner = false /\ is_point 2 half_corner rot = false /\ is_unbounded 2 half_corner rot = Some true.
Proof.
  split; [apply half_corner_ok|]. split; [intros x [L _]; exact L|].
  assert (E1 : half_corner [3/5; 4/5] = UnboundedExc) by (unfold half_corner, vget; simpl; rb; auto).
  assert (E2 : half_corner [1; 1] = UnboundedExc) by (unfold half_corner, vget; simpl; rb; auto).
  split; [unfold is_empty; simpl; rewrite E2; auto|]. split; [unfold is_point, rot; simpl; rewrite E1; auto|]. unfold is_unbounded, rot. simpl. rewrite E1. auto.
Qed.
Lemma empty_case : corner_ok (fun _ => False) 2 (fun _ => EmptyExc) /\ is_empty 2 (fun _ => EmptyExc) = true /\ is_point 2 (fun _ => EmptyExc) rot = false /\ is_unbounded 2 (fun _ => EmptyExc) rot = Some false.
Proof. repeat split; auto. intros p _ _ y F. exact F. Qed.

(** random directions: two rejected draws at the corner of the unit square, then an accepted one *)
Definition sq : dom := box_of [0; 0] [1; 1].
Definition sq_draws (k : nat) : vec := nth k [[-1; 1]; [2; -3]] [1; 2].
Lemma random_direction_case : dom_wf sq /\ proper sq /\ member sq [0; 0] /\ off_faces sq [0; 0] /\ orth_sp 2 (dAeq sq) [] /\
  random_direction 2 0 sq_draws [] true (extent sq (1/1000) (1/1000) [0; 0]) = None /\ random_direction 3 0 sq_draws [] true (extent sq (1/1000) (1/1000) [0; 0]) = Some (Some [1; 2]).
Proof.
  assert (W : dom_wf sq) by (apply box_of_wf; auto). assert (P : proper sq) by (split; repeat constructor; simpl; auto; discriminate).
  assert (M : member sq [0; 0]). { split; auto. split; [|repeat split; intros k; intros; destruct k; discriminate || (simpl in *; tauto)]. intro i. split; intros v Hv; destruct i as [|[|[|i]]]; simpl in Hv; try discriminate; injection Hv as <-; unfold vget; simpl; lra. }
  split; auto. split; auto. split; auto.
  split; [split; [intros k a c Ha; destruct k; discriminate|intros q []]|]. split; [split; [constructor|split; [intros i j Hi; simpl in Hi; lia|intros w Lw; split; intros _ c []]]|].
  assert (I : inside1 sq [0; 0] (1/1000) = true) by (apply inside1_spec; auto; [discriminate|apply member_relaxed; auto; lra]).
  assert (E : forall p, extent sq (1/1000) (1/1000) [0; 0] p = Some (extent_bounds sq [0; 0] p)) by (intro p; unfold extent; rewrite I; reflexivity).
  assert (V : forall a b, proj_out [] [a; b] = [a; b]). { intros a b. unfold proj_out, mv. simpl. unfold vsub. simpl. repeat f_equal; ring. }
  assert (E0 : extent_bounds sq [0; 0] [-1; 1] = Fin 0) by (unfold extent_bounds, hits; simpl; rb; auto).
  assert (E1 : extent_bounds sq [0; 0] [2; -3] = Fin 0) by (unfold extent_bounds, hits; simpl; rb; auto).
  assert (E2 : nltb (Fin 0) (extent_bounds sq [0; 0] [1; 2]) = true).
  { destruct (extent_bounds_spec sq [0; 0] [1; 2] (1/4) eq_refl eq_refl eq_refl) as [N S]; auto; try lra; [apply M|].
    assert (K : nleb (Fin (1/4)) (extent_bounds sq [0; 0] [1; 2]) = true).
    { apply S. intro i. split; intros v Hv; destruct i as [|[|[|i]]]; simpl in Hv; try discriminate; injection Hv as <-; rewrite along_get by auto; unfold vget; simpl; lra. }
    destruct (extent_bounds sq [0; 0] [1; 2]); simpl in *; auto. apply Rleb_true in K. apply Rltb_true. lra. }
  assert (Z : nltb (Fin 0) (Fin 0) = false) by (simpl; apply Rltb_false; lra).
  split; cbn [random_direction negb]; unfold sq_draws; cbn [nth]; rewrite !V, !E, E0, Z; rewrite E1, Z; auto. rewrite E2. auto.
Qed.

(** a square of which one side has length zero, described with bounds: no draw is ever accepted although the segment has other points *)
Definition thin (c : cls) : dom := mkDom c 2 [Fin 0; Fin 1] [Fin 1; Fin 1] [] [] [] [] [].
Lemma thin_member : forall c a, 0 <= a <= 1 -> member (thin c) [a; 1].
Proof.
  intros c a Ha. split; auto. split; [|repeat split; intros k; intros; destruct k; discriminate || (simpl in *; tauto)].
  intro i. split; intros v Hv; destruct i as [|[|[|i]]]; simpl in Hv; try discriminate; injection Hv as <-; unfold vget; simpl; lra.
Qed.
Lemma thin_wf : forall c, c <> Point -> dom_wf (thin c).
Proof. intros c N. unfold dom_wf. simpl. repeat split; auto. congruence. Qed.
Lemma random_direction_refuted : exists d x y p, dom_wf d /\ dcls d = LinIneq /\ member d x /\ member d y /\ x <> y /\ can_move d x p /\
  forall (g : nat -> vec), (forall k, length (g k) = 2%nat /\ vget (g k) 1 <> 0) -> forall fuel k, random_direction fuel k g [] true (extent d (1/1000) (1/1000) x) = None.
Proof.
  exists (thin LinIneq), [1/2; 1], [1; 1], [1; 0]. assert (W : dom_wf (thin LinIneq)) by (apply thin_wf; discriminate). split; auto. split; auto. split; [apply thin_member; lra|]. split; [apply thin_member; lra|].
  split; [intro E; injection E; lra|]. split.
  - exists (1/2). split; [lra|]. intros s Hs. replace (along [1/2; 1] [1; 0] s) with [1/2 + s; 1] by (unfold along, vadd, vscale; simpl; f_equal; [|f_equal]; ring). apply thin_member. lra.
  - intros g Hg. apply (random_direction_hangs (thin LinIneq) (1/1000) (1/1000) [1/2; 1] [] g 1%nat); auto; try discriminate.
    + apply inside1_spec; auto; [discriminate|]. apply member_relaxed; [apply thin_member; lra|lra].
    + intro j. apply Hg.
    + intro j. destruct (Hg j) as [L N]. destruct (g j) as [|a [|b [|]]]; try discriminate. replace (proj_out [] [a; b]) with [a; b]; auto. unfold proj_out, mv, vsub. simpl. repeat f_equal; ring.
Qed.

(** boundary samples and the starting point of the unit square *)
Lemma boundary_case : sample_boundary (box_corner [0; 0] [1; 1]) [[2; -1]; [1; 3]] = Some [[1; 0]; [1; 1]] /\ Forall (fun d => length d = 2%nat /\ forall i, (i < 2)%nat -> vget d i <> 0) [[2; -1]; [1; 3]].
Proof.
  split; [unfold box_corner, vget; simpl; rb; auto|]. apply Forall_cons; [|apply Forall_cons; [|constructor]]; split; auto; intros [|[|]] Hi; unfold vget; simpl; try lia; lra.
Qed.
Lemma corner_center_case : corner_center 2 (box_corner [0; 0] [1; 1]) rot (fun x => Some x) = Some [1/2; 1/2].
Proof.
  unfold corner_center, rot. simpl. unfold vget. simpl. rb. unfold vmean. simpl. f_equal. unfold vscale. f_equal; [|f_equal]; simpl; unfold INR; lra.
Qed.

(** when the loop of _corner_center stops: after the last column, or once four columns are done and two points are more than 1e-8 apart *)
Lemma apart_iff : forall X, apart X = true <-> exists x y, In x X /\ In y X /\ atol < edist x y.
Proof.
  intro X. unfold apart, spread. rewrite negb_true_iff, np_close0_f. set (L := concat (map (fun x => map (edist x) X) X)). assert (IL : forall b, In b L <-> exists x y, In x X /\ In y X /\ b = edist x y).
  { intro b. unfold L. rewrite in_concat. split.
    - intros [l [Il Ib]]. apply in_map_iff in Il. destruct Il as [x [<- Ix]]. apply in_map_iff in Ib. destruct Ib as [y [<- Iy]]. exists x, y. auto.
    - intros [x [y [Ix [Iy ->]]]]. exists (map (edist x) X). split; [apply in_map_iff; exists x; auto|apply in_map; auto]. }
  assert (AT : 0 < atol) by (unfold atol; lra). destruct L as [|b0 L0] eqn:EL.
  - cbn [vmax]. rewrite Rabs_R0. split; [lra|]. intros [x [y [Ix [Iy H]]]]. exfalso. apply (proj2 (IL (edist x y))). exists x, y. auto.
  - rewrite <- EL in *. assert (NL : L <> []) by (rewrite EL; discriminate). destruct (vmax_spec L NL) as [G I]. pose proof (proj1 (IL _) I) as [x [y [Ix [Iy E]]]]. assert (P : 0 <= vmax L) by (rewrite E; apply norm2_nonneg). rewrite Rabs_pos_eq by auto. split.
    + intro H. exists x, y. rewrite <- E. auto.
    + intros [x' [y' [Ix' [Iy' H]]]]. eapply Rlt_le_trans; [exact H|]. apply G. apply IL. exists x', y'. auto.
Qed.
Lemma cc_loop_stop : forall corner U i X Y, cc_loop corner i U X = Some Y -> exists k, (k <= length U)%nat /\ length Y = (length X + 2 * k)%nat /\ firstn (length X) Y = X /\
  (k = length U \/ (4 <= i + k)%nat /\ exists x y, In x Y /\ In y Y /\ atol < edist x y) /\
  forall k', (1 <= k' < k)%nat -> (4 <= i + k')%nat -> forall x y, In x (firstn (length X + 2 * k') Y) -> In y (firstn (length X + 2 * k') Y) -> edist x y <= atol.
Proof.
  intros corner U. induction U as [|u U IH]; intros i X Y H; cbn [cc_loop] in H; cbv zeta in H.
  - injection H as <-. exists 0%nat. cbn [length]. split; [lia|]. split; [lia|]. split; [apply firstn_all|]. split; [auto|]. intros. lia.
  - destruct (corner u) as [x1| |]; try discriminate. destruct (corner (vscale (-1) u)) as [x2| |]; try discriminate. destruct (Nat.leb 3 i && apart (X ++ [x1; x2]))%bool eqn:T.
    + injection H as <-. apply andb_true_iff in T. destruct T as [T1 T2]. apply Nat.leb_le in T1. exists 1%nat. cbn [length]. split; [lia|]. split; [rewrite app_length; reflexivity|]. split; [rewrite firstn_app, Nat.sub_diag, firstn_O, app_nil_r; apply firstn_all|]. split; [right; split; [lia|apply apart_iff; auto]|]. intros. lia.
    + destruct (IH _ _ _ H) as (k & Hk & LY & FY & ST & BF). rewrite app_length in *. cbn [length] in *. exists (S k). split; [lia|]. split; [lia|]. assert (FX : firstn (length X) Y = X).
      { replace (length X) with (Nat.min (length X) (length X + 2)) at 1 by lia. rewrite <- firstn_firstn, FY, firstn_app, Nat.sub_diag, firstn_O, app_nil_r. apply firstn_all. }
      split; auto. split; [destruct ST as [->|[A B]]; [left; auto|right; split; [lia|auto]]|]. intros k' K1 K2 x y Ix Iy. destruct (Nat.eq_dec k' 1) as [->|].
      * replace (length X + 2 * 1)%nat with (length X + 2)%nat in Ix, Iy by lia. rewrite FY in Ix, Iy. assert (T1 : Nat.leb 3 i = true) by (apply Nat.leb_le; lia). rewrite T1 in T. cbn [andb] in T. destruct (Rle_dec (edist x y) atol) as [|N]; auto. exfalso. assert (T3 : apart (X ++ [x1; x2]) = true) by (apply apart_iff; exists x, y; repeat split; auto; lra). congruence.
      * replace (length X + 2 * k')%nat with (length X + 2 + 2 * (k' - 1))%nat in Ix, Iy by lia. apply (BF (k' - 1)%nat); auto; lia.
Qed.
Theorem cc_stop : forall corner U Y, cc_loop corner 0 U [] = Some Y -> exists k, (k <= length U)%nat /\ length Y = (2 * k)%nat /\ (k = length U \/ (4 <= k)%nat /\ exists x y, In x Y /\ In y Y /\ atol < edist x y) /\
  forall k', (4 <= k' < k)%nat -> forall x y, In x (firstn (2 * k') Y) -> In y (firstn (2 * k') Y) -> edist x y <= atol.
Proof.
  intros corner U Y H. destruct (cc_loop_stop corner U 0 [] Y H) as (k & A & B & _ & C & D). cbn [length Nat.add] in *. exists k. split; auto. split; auto. split; auto. intros k' K x y. apply D; lia.
Qed.
Example cc_stop_case : exists Y, cc_loop (box_corner [0; 0] [1; 1]) 0 (rot ++ rot ++ rot) [] = Some Y /\ length Y = 8%nat.
Proof.
  assert (AP : forall X, In [0; 0] X -> In [1; 1] X -> apart X = true).
  { intros X A B. apply apart_iff. exists [0; 0], [1; 1]. repeat split; auto. unfold edist, vsub, norm2, norm2sq. cbn. rewrite !dot_cons, !dot_nil_l. replace ((0 - 1) * (0 - 1) + ((0 - 1) * (0 - 1) + 0)) with 2 by ring. assert (1 <= sqrt 2) by (rewrite <- sqrt_1 at 1; apply sqrt_le_1_alt; lra). unfold atol. lra. }
  assert (B1 : box_corner [0; 0] [1; 1] [3/5; 4/5] = Pt [1; 1]) by (unfold box_corner, vget; cbn; rb; auto). assert (B2 : box_corner [0; 0] [1; 1] (vscale (-1) [3/5; 4/5]) = Pt [0; 0]) by (unfold box_corner, vget, vscale; cbn; rb; auto).
  assert (B3 : box_corner [0; 0] [1; 1] [-4/5; 3/5] = Pt [0; 1]) by (unfold box_corner, vget; cbn; rb; auto). assert (B4 : box_corner [0; 0] [1; 1] (vscale (-1) [-4/5; 3/5]) = Pt [1; 0]) by (unfold box_corner, vget, vscale; cbn; rb; auto).
  unfold rot. cbn [app cc_loop]. rewrite B1, B2, B3, B4. cbn [Nat.leb andb app]. rewrite AP by (cbn; tauto). eexists. split; reflexivity.
Qed.
