(** Proofs about PredModel: random directions, boundary sampling and the starting point of hit-and-run. *)
Require Import Reals Lra Lia List Bool.
From Verif Require Import RVec Sums Num MatLib SpecProofs Spectral GrassLib DomModel DomSpec DomProofs DomOpsProofs DomMoreModel GeoModel HullBasis VarproLib SweepProofs PredModel PredProofs.
Import ListNotations.
Local Open Scope R_scope.

(** * random_direction *)
(** every inequality and every ellipsoid holds strictly at x (bounds may be active) *)
Definition off_faces (d : dom) (x : vec) : Prop :=
  (forall k a c, nth_error (dA d) k = Some a -> nth_error (db d) k = Some c -> dot a x < c) /\
  (forall q, In q (quads d) -> norm2 (mv (qL q) (vsub x (qy q))) < qrho q).
Definition can_move (d : dom) (x p : vec) : Prop := exists a, 0 < a /\ forall s, 0 <= s <= a -> member d (along x p s).

Lemma wf_rho : forall d, dom_wf d -> forall q, In q (quads d) -> 0 <= qrho q.
Proof. intros d (_ & _ & _ & _ & _ & _ & F & _) q I. rewrite Forall_forall in F. destruct (F q I) as (_ & _ & H). lra. Qed.
Lemma off_free : forall d x p, off_faces d x -> (forall q, In q (quads d) -> 0 <= qrho q) -> ineq_leaves_free d x p /\ quad_leaves_free d x p.
Proof.
  intros d x p [A B] Q. split.
  - intros k a c Ha Hc. left. eapply A; eauto.
  - intros q I. left. unfold qc. specialize (B q I). pose proof (Q q I). pose proof (norm2_nonneg (mv (qL q) (vsub x (qy q)))). 
    change (dot (mv (qL q) (vsub x (qy q))) (mv (qL q) (vsub x (qy q)))) with (norm2sq (mv (qL q) (vsub x (qy q)))). rewrite <- norm2_sq. nra.
Qed.
Lemma extent_move : forall d tol stol x p, dom_wf d -> proper d -> dcls d <> Point -> 0 < tol -> 0 < stol -> length p = dim d -> member d x -> eq_kept d p ->
  ineq_leaves_free d x p -> quad_leaves_free d x p ->
  exists e, extent d tol stol x p = Some e /\ (nltb (Fin 0) e = true <-> can_move d x p) /\ (nltb (Fin 0) e = false -> forall s, 0 < s -> ~ member d (along x p s)).
Proof.
  intros d tol stol x p W P NP Ht Hs Lp Mx K F1 F2. destruct (extent_correct d tol stol x p W P NP Ht Hs Lp Mx K F1 F2) as (e & E & S). exists e. split; auto.
  assert (N : nltb (Fin 0) e = false -> forall s, 0 < s -> ~ member d (along x p s)).
  { intros H s Hs' M. apply S in M; [|lra]. destruct e; simpl in *; try discriminate. apply Rleb_true in M. apply Rltb_false in H. lra. }
  split; auto. split.
  - intro H. destruct e as [r| | |]; simpl in H; try discriminate.
    + apply Rltb_true in H. exists r. split; auto. intros s Hs'. apply S; [lra|]. simpl. apply Rleb_true. lra.
    + exists 1. split; [lra|]. intros s Hs'. apply S; [lra|]. reflexivity.
  - intros (a & Ha & H). destruct (nltb (Fin 0) e) eqn:Q; auto. exfalso. apply (N eq_refl a Ha). apply H. lra.
Qed.
(** the direction found keeps the equality constraints, can be followed for a positive distance, and is the first usable draw *)
Lemma random_direction_sound : forall d tol stol x Q fuel k g r, dom_wf d -> proper d -> dcls d <> Point -> 0 < tol -> 0 < stol -> member d x ->
  off_faces d x -> orth_sp (dim d) (dAeq d) Q -> (forall j, length (g j) = dim d) ->
  random_direction fuel k g Q true (extent d tol stol x) = Some r ->
  exists p j, r = Some p /\ (k <= j < k + fuel)%nat /\ p = proj_out Q (g j) /\ eq_kept d p /\ can_move d x p /\
    forall i, (k <= i < j)%nat -> forall s, 0 < s -> ~ member d (along x (proj_out Q (g i)) s).
Proof.
  intros d tol stol x Q fuel k g r W P NP Ht Hs Mx OF OS Lg. pose proof (wf_rho d W) as RQ. revert k. induction fuel as [|fuel IH]; intros k H; [discriminate|]. cbn [random_direction negb] in H.
  destruct (proj_out_split (dim d) (dAeq d) Q (g k) OS (Lg k)) as [KE _]. destruct (off_free d x (proj_out Q (g k)) OF RQ) as [F1 F2].
  assert (Lp : length (proj_out Q (g k)) = dim d) by (apply proj_out_length with (m := dim d); auto; apply OS).
  destruct (extent_move d tol stol x _ W P NP Ht Hs Lp Mx KE F1 F2) as (e & E & MV & NM). rewrite E in H. destruct (nltb (Fin 0) e) eqn:B.
  - injection H as <-. exists (proj_out Q (g k)), k. repeat split; auto; try lia. apply MV; auto.
  - destruct (IH (S k) H) as (p & j & Er & Hj & Ep & Kp & Mp & Nj). exists p, j. repeat split; auto; try lia. intros i Hi. destruct (Nat.eq_dec i k); [subst; apply NM; auto|apply Nj; lia].
Qed.
(** the loop ends as soon as a usable direction is drawn *)
Lemma random_direction_ends : forall d tol stol x Q g j k, dom_wf d -> proper d -> dcls d <> Point -> 0 < tol -> 0 < stol -> member d x ->
  off_faces d x -> orth_sp (dim d) (dAeq d) Q -> (forall j, length (g j) = dim d) ->
  can_move d x (proj_out Q (g (k + j)%nat)) -> random_direction (S j) k g Q true (extent d tol stol x) <> None.
Proof.
  intros d tol stol x Q g j k W P NP Ht Hs Mx OF OS Lg. pose proof (wf_rho d W) as RQ. revert k. induction j as [|j IH]; intros k H; cbn [random_direction negb];
    destruct (proj_out_split (dim d) (dAeq d) Q (g k) OS (Lg k)) as [KE _]; destruct (off_free d x (proj_out Q (g k)) OF RQ) as [F1 F2];
    assert (Lp : length (proj_out Q (g k)) = dim d) by (apply proj_out_length with (m := dim d); auto; apply OS);
    destruct (extent_move d tol stol x _ W P NP Ht Hs Lp Mx KE F1 F2) as (e & E & MV & NM); rewrite E.
  - rewrite Nat.add_0_r in H. apply MV in H. rewrite H. discriminate.
  - destruct (nltb (Fin 0) e); [discriminate|]. apply (IH (S k)). replace (S k + j)%nat with (k + S j)%nat by lia. auto.
Qed.
(** without a point no check is made *)
Lemma random_direction_free : forall m C Q fuel k g ext, orth_sp m C Q -> length (g k) = m ->
  random_direction (S fuel) k g Q false ext = Some (Some (proj_out Q (g k))) /\ forall c, In c C -> dot c (proj_out Q (g k)) = 0.
Proof. intros m C Q fuel k g ext O L. split; auto. apply (proj_out_split m C Q (g k)); auto. Qed.

(** ** a domain with equal lower and upper bound in one coordinate that is not an equality constraint: the loop never ends *)
Lemma nmin0 : forall a, nltb (Fin 0) (nmin (Fin 0) a) = false.
Proof. intro a. destruct a; unfold nmin; simpl; auto; try (apply Rltb_false; lra). destruct (Rleb 0 r) eqn:E; simpl; [apply Rltb_false; lra|]. apply Rleb_false in E. apply Rltb_false. lra. Qed.
Lemma nmin_np : forall a b, nltb (Fin 0) a = false -> nltb (Fin 0) (nmin a b) = false.
Proof.
  intros a b H. destruct a as [r| | |], b as [s| | |]; unfold nmin; simpl in *; auto; try discriminate. destruct (Rleb r s) eqn:E; simpl; auto. apply Rleb_false in E. apply Rltb_false in H. apply Rltb_false. lra.
Qed.
Lemma extent_fixed : forall d stol x p i, dcls d <> Point -> length (lb d) = length x -> length (ub d) = length x -> length x = length p ->
  nth_error (lb d) i = Some (Fin (vget x i)) -> nth_error (ub d) i = Some (Fin (vget x i)) -> vget p i <> 0 -> nltb (Fin 0) (extent_ d stol x p) = false.
Proof.
  intros d stol x p i NP L1 L2 L3 E1 E2 N. assert (B : extent_bounds d x p = Fin 0).
  { unfold extent_bounds. destruct (Rlt_dec (vget p i) 0) as [C|C].
    - replace (hits (lb d) x p (fun c => Rltb c 0)) with true; auto. symmetry. apply hits_spec; auto. exists i. split; auto. apply Rltb_true; auto.
    - destruct (hits (lb d) x p (fun c => Rltb c 0)); auto. replace (hits (ub d) x p (fun c => Rltb 0 c)) with true; auto. symmetry. apply hits_spec; auto. exists i. split; auto. apply Rltb_true. lra. }
  assert (Z : nltb (Fin 0) (Fin 0) = false) by (simpl; apply Rltb_false; lra).
  unfold extent_. rewrite B. destruct (dcls d); [| | |congruence].
  - match goal with |- context [if ?c then _ else _] => destruct c end; [|exact Z]. apply nmin_np. apply nmin0.
  - apply nmin0.
  - exact Z.
Qed.
Lemma random_direction_hangs : forall d tol stol x Q g i, dom_wf d -> dcls d <> Point -> inside1 d x tol = true -> length x = dim d ->
  Forall (fun q => length q = dim d) Q -> (forall j, length (g j) = dim d) ->
  nth_error (lb d) i = Some (Fin (vget x i)) -> nth_error (ub d) i = Some (Fin (vget x i)) -> (forall j, vget (proj_out Q (g j)) i <> 0) ->
  forall fuel k, random_direction fuel k g Q true (extent d tol stol x) = None.
Proof.
  intros d tol stol x Q g i W NP I Lx FQ Lg E1 E2 N. induction fuel as [|fuel IH]; intro k; auto. cbn [random_direction negb]. unfold extent at 1. rewrite I.
  destruct W as (W1 & W2 & W3 & _). assert (Lp : length (proj_out Q (g k)) = dim d) by (apply proj_out_length with (m := dim d); auto).
  rewrite (extent_fixed d stol x (proj_out Q (g k)) i NP) by (auto; congruence). apply IH.
Qed.
Lemma random_direction_point : forall d tol stol x Q g, dcls d = Point -> inside1 d x tol = true -> forall fuel k, random_direction fuel k g Q true (extent d tol stol x) = None.
Proof.
  intros d tol stol x Q g C I. induction fuel as [|fuel IH]; intro k; auto. cbn [random_direction negb]. unfold extent at 1. rewrite I. unfold extent_. rewrite C.
  replace (nltb (Fin 0) (Fin 0)) with false by (symmetry; simpl; apply Rltb_false; lra). apply IH.
Qed.

(** * sample_boundary *)
Lemma sample_boundary_spec : forall M m corner, in_dim M m -> corner_ok M m corner -> forall dirs X,
  Forall (fun d => length d = m /\ exists i, (i < m)%nat /\ vget d i <> 0) dirs -> sample_boundary corner dirs = Some X ->
  length X = length dirs /\ forall k, (k < length dirs)%nat ->
    M (nth k X []) /\ (forall y, M y -> dot (nth k dirs []) y <= dot (nth k dirs []) (nth k X [])) /\
    forall e, 0 < e -> ~ M (along (nth k X []) (nth k dirs []) e).
Proof.
  intros M m corner D C. induction dirs as [|d ds IH]; intros X F H; simpl in H; [injection H as <-; split; auto; intros k Hk; simpl in Hk; lia|].
  destruct (Forall_inv F) as (Ld & i & Hi & N). pose proof (Forall_inv_tail F) as F'. pose proof (C d Ld ltac:(eauto)) as K. destruct (corner d) as [x| |]; try discriminate.
  destruct (sample_boundary corner ds) as [X'|] eqn:E; try discriminate. injection H as <-. destruct (IH X' F' eq_refl) as [LX PX]. split; [simpl; auto|].
  intros [|k] Hk; [|apply PX; simpl in Hk; lia]. simpl. destruct K as [Mx K]. repeat split; auto. intros e He Me. specialize (K _ Me). unfold along in K.
  rewrite dot_vadd_r, dot_vscale_r in K by (rewrite vscale_length, (D x Mx); auto).
  assert (P : 0 < dot d d). { change (dot d d) with (norm2sq d). assert (vget d i * vget d i <= norm2sq d).
    { unfold norm2sq. rewrite (dot_rs (length d)) by auto. apply (rsum_term (length d) i (fun j => vget d j * vget d j)); [intros; nra|lia]. }
    assert (0 < vget d i * vget d i) by nra. lra. }
  nra.
Qed.
(** on a box every sampled point has every coordinate at a bound: faces other than the vertices are never reached *)
Lemma sample_boundary_vertices : forall l u corner dirs X, length l = length u ->
  corner_ok (fun x => length x = length l /\ forall i, (i < length l)%nat -> vget l i <= vget x i <= vget u i) (length l) corner ->
  (0 < length l)%nat -> Forall (fun d => length d = length l /\ forall i, (i < length l)%nat -> vget d i <> 0) dirs -> sample_boundary corner dirs = Some X ->
  forall x i, In x X -> (i < length l)%nat -> vget x i = vget l i \/ vget x i = vget u i.
Proof.
  intros l u corner dirs X LU C Hl. revert X. induction dirs as [|d ds IH]; intros X F H x i I Hi; simpl in H; [injection H as <-; destruct I|].
  destruct (Forall_inv F) as (Ld & N). pose proof (Forall_inv_tail F) as F'. pose proof (C d Ld (ex_intro _ i (conj Hi (N i Hi)))) as K. destruct (corner d) as [x0| |]; try discriminate.
  destruct (sample_boundary corner ds) as [X'|] eqn:E; try discriminate. injection H as <-. destruct I as [<-|I]; [|eapply IH; eauto].
  destruct K as [[L0 B0] K]. specialize (N i Hi). pose proof (B0 i Hi) as Bi.
  assert (G : forall v, vget l i <= v <= vget u i -> vget d i * (v - vget x0 i) <= 0).
  { intros v Hv. set (y := map (fun j => if Nat.eqb j i then v else vget x0 j) (seq 0 (length l))).
    assert (Ly : length y = length l) by (unfold y; rewrite map_length, seq_length; auto).
    assert (Gy : forall j, (j < length l)%nat -> vget y j = if Nat.eqb j i then v else vget x0 j) by (intros j Hj; unfold y, vget; rewrite nth_map_seq by auto; reflexivity).
    assert (My : length y = length l /\ forall j, (j < length l)%nat -> vget l j <= vget y j <= vget u j).
    { split; auto. intros j Hj. rewrite Gy by auto. destruct (Nat.eqb_spec j i); [subst; auto|apply B0; auto]. }
    specialize (K y My). rewrite !(dot_rs (length l)) in K by auto.
    assert (S1 : rsum (length l) (fun j => vget d j * vget y j) - rsum (length l) (fun j => vget d j * vget x0 j) = vget d i * (v - vget x0 i)).
    { rewrite <- rsum_minus. rewrite (rsum_single (length l) i); [rewrite Gy by auto; rewrite Nat.eqb_refl; ring|auto|]. intros j Hj Nj. rewrite Gy by auto. destruct (Nat.eqb_spec j i); [contradiction|ring]. }
    lra. }
  pose proof (G (vget l i) ltac:(lra)). pose proof (G (vget u i) ltac:(lra)). destruct (Rlt_dec (vget d i) 0); [left|right]; nra.
Qed.

(** * _corner_center *)
Definition convex (M : vec -> Prop) (m : nat) : Prop := forall x y t, M x -> M y -> 0 <= t <= 1 -> M (vadd (vscale (1 - t) x) (vscale t y)).
Lemma cc_loop_ext : forall corner U i X Y, cc_loop corner i U X = Some Y -> exists k, (k <= length U)%nat /\ exists Z, Y = X ++ Z /\ length Z = (2 * k)%nat /\ (U <> [] -> (0 < k)%nat) /\
  forall j, (j < k)%nat -> corner (nth j U []) = Pt (nth (2 * j) Z []) /\ corner (vscale (-1) (nth j U [])) = Pt (nth (2 * j + 1) Z []).
Proof.
  intros corner U. induction U as [|u U IH]; intros i X Y H; cbn [cc_loop] in H; cbv zeta in H.
  - injection H as <-. exists 0%nat. split; [simpl; lia|]. exists []. rewrite app_nil_r. repeat split; auto; try (intros; lia). intro N. contradiction.
  - destruct (corner u) as [x1| |] eqn:E1; try discriminate. destruct (corner (vscale (-1) u)) as [x2| |] eqn:E2; try discriminate.
    destruct (Nat.leb 3 i && apart (X ++ [x1; x2]))%bool.
    + injection H as <-. exists 1%nat. split; [simpl; lia|]. exists [x1; x2]. repeat split; auto; destruct j; try lia; auto.
    + destruct (IH _ _ _ H) as (k & Hk & Z & -> & LZ & _ & P). exists (S k). split; [simpl; lia|]. exists (x1 :: x2 :: Z). rewrite <- app_assoc. simpl. repeat split; auto; try lia.
      * destruct j; auto. replace (S j + (S j + 0))%nat with (S (S (2 * j))) by lia. apply P. lia.
      * destruct j; auto. replace (S j + (S j + 0) + 1)%nat with (S (S (2 * j + 1))) by lia. apply P. lia.
Qed.
Lemma vmean_length : forall m X, Forall (fun x => length x = m) X -> length (vmean m X) = m.
Proof. intros m X F. unfold vmean. rewrite vscale_length. apply lincomb_length. auto. Qed.
Lemma vmean_dot : forall m X u, Forall (fun x => length x = m) X -> length u = m -> dot u (vmean m X) = / INR (length X) * rsum (length X) (fun k => dot u (nth k X [])).
Proof.
  intros m X u F Lu. unfold vmean. rewrite dot_vscale_r, dot_comm. rewrite dot_lincomb_l by (auto; rewrite repeat_length; auto). f_equal. apply rsum_ext. intros k Hk.
  unfold vget. rewrite nth_repeat_lt by auto. rewrite dot_comm. ring.
Qed.
Lemma vmean_get : forall m X i, Forall (fun x => length x = m) X -> vget (vmean m X) i = / INR (length X) * rsum (length X) (fun k => vget (nth k X []) i).
Proof.
  intros m X i F. unfold vmean. rewrite vscale_get. f_equal. rewrite lc_get by (auto; rewrite repeat_length; auto). apply rsum_ext. intros k Hk. unfold vget at 1. rewrite nth_repeat_lt by auto. ring.
Qed.
Lemma vmean_in : forall M m X, in_dim M m -> convex M m -> Forall M X -> X <> [] -> M (vmean m X).
Proof.
  intros M m X D C F N. assert (Q : forall Y, Forall M Y -> Forall (fun x => length x = m) Y) by (intros Y; apply Forall_impl; auto).
  induction F as [|x X Mx F IH]; [contradiction|]. assert (Lx : length x = m) by auto. destruct X as [|y X'].
  - replace (vmean m [x]) with x; auto. apply vec_ext; [rewrite vmean_length; auto|]. intros i Hi. rewrite vmean_get by auto. cbn [length]. rewrite rsum_S_first. unfold rsum. simpl. field.
  - set (X := y :: X') in *. specialize (IH ltac:(discriminate)). assert (LX : 0 < INR (length X)) by (apply lt_0_INR; simpl; lia).
    pose proof (C _ _ (/ INR (S (length X))) IH Mx) as K. assert (P : 0 < / INR (S (length X)) <= 1).
    { rewrite S_INR. split; [apply Rinv_0_lt_compat; lra|]. apply Rmult_le_reg_l with (INR (length X) + 1); [lra|]. rewrite Rinv_r by lra. lra. }
    specialize (K ltac:(lra)). replace (vmean m (x :: X)) with (vadd (vscale (1 - / INR (S (length X))) (vmean m X)) (vscale (/ INR (S (length X))) x)); auto.
    assert (LV := vmean_length m X (Q X F)). assert (FxX : Forall (fun x => length x = m) (x :: X)) by (constructor; auto).
    apply vec_ext; [rewrite vadd_length; rewrite ?vscale_length, ?vmean_length; auto; congruence|]. intros i Hi.
    rewrite vadd_get by (rewrite !vscale_length, vmean_length; auto). rewrite !vscale_get, !vmean_get by auto. cbn [length]. rewrite rsum_S_first. cbn [nth]. rewrite !S_INR. field. lra.
Qed.
(** the point returned is the mean of the corners itself: closest_point leaves a member alone; it lies strictly between the extremes of every
    direction that was searched and has positive width *)
Lemma corner_center_spec : forall M m corner U closest c, (0 < m)%nat -> in_dim M m -> convex M m -> corner_ok M m corner -> onb m U ->
  (forall x, M x -> closest x = Some x) -> corner_center m corner U closest = Some c ->
  M c /\ exists k X, (0 < k <= m)%nat /\ length X = (2 * k)%nat /\ Forall M X /\ c = vmean m X /\
    forall j, (j < k)%nat -> let u := nth j (if Nat.ltb 1 m then U else [[1]]) [] in
      exists lo hi, (exists y, M y /\ dot u y = lo) /\ (exists y, M y /\ dot u y = hi) /\ (forall y, M y -> lo <= dot u y <= hi) /\
        lo + (hi - lo) / INR (2 * k) <= dot u c <= hi - (hi - lo) / INR (2 * k).
Proof.
  intros M m corner U closest c Hm D CV C O CP H. unfold corner_center in H. pose proof (frame_onb m U Hm O) as O'. set (W := if Nat.ltb 1 m then U else [[1]]) in *. clearbody W. clear O.
  destruct (cc_loop corner 0 W []) as [X|] eqn:E; [|discriminate]. destruct (cc_loop_ext corner W 0 [] X E) as (k & Hk & Z & EX & LZ & PK & CZ). simpl in EX. subst X.
  assert (LW : length W = m) by apply O'. assert (WN : W <> []) by (intro Z0; rewrite Z0 in LW; simpl in LW; lia). specialize (PK WN).
  assert (G : forall j, (j < k)%nat -> let u := nth j W [] in length u = m /\ M (nth (2 * j) Z []) /\ M (nth (2 * j + 1) Z []) /\ forall y, M y -> dot u (nth (2 * j + 1) Z []) <= dot u y <= dot u (nth (2 * j) Z [])).
  { intros j Hj u. destruct (CZ j Hj) as [C1 C2]. fold u in C1, C2. assert (I : In u W) by (apply nth_In; lia). destruct (onb_row m W u O' I) as [Lu Eu]. assert (Nz := unit_nz m u Lu Eu).
    pose proof (C u Lu Nz) as K1. rewrite C1 in K1. pose proof (C (vscale (-1) u) ltac:(rewrite vscale_length; auto) (neg_nz m u Nz)) as K2. rewrite C2 in K2.
    destruct K1 as [A1 B1]. destruct K2 as [A2 B2]. repeat split; auto. specialize (B2 y H0). rewrite !dot_vscale_l in B2. lra. }
  assert (FM : Forall M Z).
  { apply Forall_forall. intros z I. apply In_nth with (d := []) in I. destruct I as (i & Hi & <-). rewrite LZ in Hi. destruct (Nat.Even_or_Odd i) as [[j Ej]|[j Ej]]; subst i; apply (G j); lia. }
  assert (NZ : Z <> []) by (intro Z0; rewrite Z0 in LZ; simpl in LZ; lia).
  assert (MZ := vmean_in M m Z D CV FM NZ). rewrite (CP _ MZ) in H. injection H as <-. split; auto. exists k, Z. repeat split; auto; try lia.
  intros j Hj u. destruct (G j Hj) as (Lu & M1 & M2 & B). fold u in Lu, B. exists (dot u (nth (2 * j + 1) Z [])), (dot u (nth (2 * j) Z [])).
  split; [eexists; split; [exact M2|reflexivity]|]. split; [eexists; split; [exact M1|reflexivity]|]. split; [exact B|]. split.
  - assert (FL : Forall (fun x => length x = m) Z) by (eapply Forall_impl; [|exact FM]; auto). rewrite (vmean_dot m) by auto. rewrite LZ.
    set (lo := dot u (nth (2 * j + 1) Z [])) in *. set (hi := dot u (nth (2 * j) Z [])) in *. assert (P : 0 < INR (2 * k)) by (apply lt_0_INR; lia).
    assert (S1 : INR (2 * k) * lo + (hi - lo) <= rsum (2 * k) (fun i => dot u (nth i Z []))).
    { rewrite <- (rsum_const (2 * k) lo). assert (T : hi - lo <= rsum (2 * k) (fun i => dot u (nth i Z []) - lo)).
      { apply (rsum_term (2 * k) (2 * j) (fun i => dot u (nth i Z []) - lo)); [|lia]. intros i Hi. rewrite Forall_forall in FM. assert (Hb : lo <= dot u (nth i Z []) <= hi) by (apply B, FM, nth_In; lia). clear - Hb. clearbody lo hi. cbv beta. lra. }
      rewrite rsum_minus in T. lra. }
    apply Rmult_le_reg_l with (INR (2 * k)); auto. rewrite <- Rmult_assoc, Rinv_r, Rmult_1_l by lra. replace (INR (2 * k) * (lo + (hi - lo) / INR (2 * k))) with (INR (2 * k) * lo + (hi - lo)) by (field; lra). auto.
  - assert (FL : Forall (fun x => length x = m) Z) by (eapply Forall_impl; [|exact FM]; auto). rewrite (vmean_dot m) by auto. rewrite LZ.
    set (lo := dot u (nth (2 * j + 1) Z [])) in *. set (hi := dot u (nth (2 * j) Z [])) in *. assert (P : 0 < INR (2 * k)) by (apply lt_0_INR; lia).
    assert (S1 : rsum (2 * k) (fun i => dot u (nth i Z [])) <= INR (2 * k) * hi - (hi - lo)).
    { rewrite <- (rsum_const (2 * k) hi). assert (T : hi - lo <= rsum (2 * k) (fun i => hi - dot u (nth i Z []))).
      { apply (rsum_term (2 * k) (2 * j + 1) (fun i => hi - dot u (nth i Z []))); [|lia]. intros i Hi. rewrite Forall_forall in FM. assert (Hb : lo <= dot u (nth i Z []) <= hi) by (apply B, FM, nth_In; lia). clear - Hb. clearbody lo hi. cbv beta. lra. }
      rewrite rsum_minus in T. lra. }
    apply Rmult_le_reg_l with (INR (2 * k)); auto. rewrite <- Rmult_assoc, Rinv_r, Rmult_1_l by lra. replace (INR (2 * k) * (hi - (hi - lo) / INR (2 * k))) with (INR (2 * k) * hi - (hi - lo)) by (field; lra). auto.
Qed.
