(** Lloyd iteration with sampled vertices: vertices in the domain, nodes owning vertices, estimates, designs. *)
Require Import Reals Lra Lia List Bool Arith ZArith.
From Verif Require Import RVec Num Sums DomModel DomSpec DomProofs DomMoreModel SweepProofs HullProofs HullIneqProofs LipModel LipProofs MatLib GrassLib SampModel PigeonLib LatinProofs PoissonProofs PoissonCases DesignProofs CoffeeProofs GeoModel GeoProofs VoronoiProofs WalkProofs SampMoreModel MinimaxProofs LloydProofs SLloydModel.
Import ListNotations.
Local Open Scope R_scope.

(** ** the walk keeps all its nearest sites nearest while no separating plane is skipped *)
(** every plane is met by the direction for certain, or not at all *)
Definition sharp_step (m : nat) (L A : mat) (b : vec) (Aeq Xhat : mat) (qr : mat -> mat) (rnd : bool) (ords : vec -> list nat) (gs : nat -> vec) (k : nat) (x : vec) : Prop :=
  forall z, In z Xhat -> let v := dot (mv L (vsub z (site Xhat (ords x) 0))) (mv L (step_h m L A b Aeq Xhat qr rnd (ords x) (gs k) k x)) in v = 0 \/ atol < Rabs v.
Lemma step_keeps : forall m L A b Aeq Xhat qr rnd ord g k x j, step_pre m L A b Aeq Xhat qr ord g k x ->
  (forall z, In z Xhat -> let v := dot (mv L (vsub z (site Xhat ord 0))) (mv L (step_h m L A b Aeq Xhat qr rnd ord g k x)) in v = 0 \/ atol < Rabs v) ->
  nearest L Xhat j x -> nearest L Xhat j (vv_step m L A b Aeq Xhat qr rnd ord g k x).
Proof.
  intros m L A b Aeq Xhat qr rnd ord g k x j PRE SH [Hj NJ]. set (x' := vv_step m L A b Aeq Xhat qr rnd ord g k x). set (xj := nth j Xhat []). set (xh := site Xhat ord 0) in *.
  assert (Ij : In xj Xhat) by (apply nth_In; auto). pose proof (xh_in m L A b Aeq Xhat qr ord g k x PRE) as Ih. fold xh in Ih.
  destruct PRE as [P1 [P2 [P3 [P4 [P5 [P6 [P7 [P8 P9]]]]]]]] eqn:EP. clear EP. assert (PRE' : step_pre m L A b Aeq Xhat qr ord g k x) by (repeat (split; auto)).
  assert (Lj : length xj = m) by (rewrite Forall_forall in P5; auto).
  assert (E0 : Ldist L x xh = Ldist L x xj). { apply Rle_antisym; [apply P8; auto|]. rewrite (Ldist_sym L x xj), (Ldist_sym L x xh). apply NJ. auto. }
  pose proof (plane_step m L A b Aeq Xhat qr rnd ord g k x PRE' xj Lj) as PS. fold x' xh in PS. rewrite E0 in PS.
  pose proof (alpha_nonneg L A b Xhat x xh (step_h m L A b Aeq Xhat qr rnd ord g k x)) as AN. change (al L A b Xhat x xh (step_h m L A b Aeq Xhat qr rnd ord g k x)) with (step_al m L A b Aeq Xhat qr rnd ord g k x) in AN.
  set (a0 := step_al m L A b Aeq Xhat qr rnd ord g k x) in *.
  assert (Z : a0 * nh m L A b Aeq Xhat qr rnd ord g k x xj = 0).
  { specialize (SH xj Ij). cbv zeta in SH. change (dot (mv L (vsub xj xh)) (mv L (step_h m L A b Aeq Xhat qr rnd ord g k x))) with (nh m L A b Aeq Xhat qr rnd ord g k x xj) in SH. destruct SH as [->|G]; [ring|].
    set (v := nh m L A b Aeq Xhat qr rnd ord g k x xj) in *.
    assert (SA : site_alpha L x xh (step_h m L A b Aeq Xhat qr rnd ord g k x) xj = Some 0).
    { unfold site_alpha. change (dot (mv L (vsub xj xh)) (mv L (step_h m L A b Aeq Xhat qr rnd ord g k x))) with v. rewrite np_close0_no by (rewrite Rabs_Rabsolu; auto).
      pose proof (plane m L A b Aeq Xhat qr ord g k x PRE' xj x Lj ltac:(apply P7)) as PL. fold xh in PL. rewrite PL, E0. replace (- ((Ldist L x xj * Ldist L x xj - Ldist L x xj * Ldist L x xj) / 2) / v) with 0 by (unfold Rdiv; ring).
      destruct (Rltb 0 0) eqn:Q; auto. apply Rltb_true in Q. lra. }
    pose proof (alpha_site L A b Xhat x xh _ xj 0 Ij SA) as AL. change (al L A b Xhat x xh (step_h m L A b Aeq Xhat qr rnd ord g k x)) with a0 in AL. assert (a0 = 0) by lra. rewrite H. ring. }
  rewrite Z in PS. assert (SQ : Ldist L x' xj * Ldist L x' xj = Ldist L x' xh * Ldist L x' xh) by lra.
  assert (EQ : Ldist L x' xj = Ldist L x' xh) by (apply Rle_antisym; apply sq_mono; try apply Ldist_nonneg; lra).
  split; auto. intros z Iz. fold xj. rewrite (Ldist_sym L xj x'), (Ldist_sym L z x'), EQ.
  destruct (vv_step_correct m L A b Aeq Xhat qr rnd ord g k x PRE') as [_ [_ [J _]]]. apply J; auto. specialize (SH z Iz). cbv zeta in SH. fold xh. destruct SH as [->|G]; [left; lra|].
  destruct (Rle_or_lt (dot (mv L (vsub z xh)) (mv L (step_h m L A b Aeq Xhat qr rnd ord g k x))) 0); auto. right. rewrite Rabs_right in G by lra. auto.
Qed.
Theorem walk_keeps : forall m L A b Aeq Xhat qr rnd ords gs n x0 j, walk_pre m L A b Aeq Xhat qr ords gs -> inP m A b x0 ->
  (forall i, (i < n)%nat -> sharp_step m L A b Aeq Xhat qr rnd ords gs i (vv_walk i 0 m L A b Aeq Xhat qr rnd ords gs x0)) ->
  nearest L Xhat j x0 -> nearest L Xhat j (vv_walk n 0 m L A b Aeq Xhat qr rnd ords gs x0).
Proof.
  intros m L A b Aeq Xhat qr rnd ords gs n x0 j WP H0. induction n as [|n IH]; intros HC HN; [exact HN|]. rewrite walk_S by auto. cbv zeta. cbn [Nat.add].
  apply step_keeps; [apply walk_step_pre; auto; apply walk_inside; auto|apply (HC n); lia|apply IH; auto].
Qed.

(** ** the sampled update *)
Lemma uniq_incl : forall V, incl (uniq V) V.
Proof. intros V v I. apply select_incl in I. auto. Qed.
Definition apart (V : mat) : Prop := forall v w, In v V -> In w V -> v = w \/ atol < edist v w.
Lemma uniq_all : forall V, apart V -> forall v, In v V -> In v (uniq V).
Proof.
  intros V HA v Iv. destruct (In_nth V v [] Iv) as [i [Hi Ei]].
  assert (G : forall n i, (n = length V - i)%nat -> (i < length V)%nat -> nth i V [] = v -> In v (uniq V)).
  { induction n as [n IH] using lt_wf_ind. intros i' En Hi' Ev. destruct (nth i' (unique_mask V) false) eqn:Q.
    - rewrite <- Ev. apply select_in; auto. apply mask_len.
    - destruct (unique_dropped V i' Hi' Q) as [j [Hj D]]. apply (IH (length V - j)%nat ltac:(lia) j); auto; [lia|]. rewrite Ev in D. destruct (HA v (nth j V [])) as [E|E]; auto; [apply nth_In; lia|lra]. }
  apply (G _ i eq_refl Hi Ei).
Qed.
(** what the loop of the update appends *)
Lemma add_fold_incl : forall m L vv draws Xhat V ks acc v, In v acc -> In v (fold_left (add_for m L vv draws Xhat V) ks acc).
Proof. intros m L vv draws Xhat V ks. induction ks as [|k ks IH]; intros acc v I; [exact I|]. cbn [fold_left]. apply IH. unfold add_for. destruct (Nat.ltb _ m); auto. apply in_or_app. auto. Qed.
Lemma add_fold_new : forall m L vv draws Xhat V ks acc k v, In k ks -> (length (owned L Xhat V k) < m)%nat -> In v (vv (S k) Xhat (nudge (nth k Xhat []) (draws k))) ->
  In v (fold_left (add_for m L vv draws Xhat V) ks acc).
Proof.
  intros m L vv draws Xhat V ks. induction ks as [|k' ks IH]; intros acc k v Ik H I; [destruct Ik|]. cbn [fold_left]. destruct Ik as [->|Ik]; [|apply (IH _ k); auto].
  apply add_fold_incl. unfold add_for. apply Nat.ltb_lt in H. rewrite H. apply in_or_app. auto.
Qed.
Lemma add_fold_inv : forall m L vv draws Xhat V ks acc v, In v (fold_left (add_for m L vv draws Xhat V) ks acc) ->
  In v acc \/ exists k, In k ks /\ (length (owned L Xhat V k) < m)%nat /\ In v (vv (S k) Xhat (nudge (nth k Xhat []) (draws k))).
Proof.
  intros m L vv draws Xhat V ks. induction ks as [|k ks IH]; intros acc v I; [auto|]. cbn [fold_left] in I. destruct (IH _ _ I) as [J|[k' [J1 J2]]]; [|right; exists k'; split; [right; auto|auto]].
  unfold add_for in J. destruct (Nat.ltb (length (owned L Xhat V k)) m) eqn:Q; auto. apply in_app_or in J. destruct J as [J|J]; auto. right. exists k. split; [left; auto|]. apply Nat.ltb_lt in Q. auto.
Qed.
(** the vertices found are in the domain if the walks start there *)
Theorem update_inside : forall (P : vec -> Prop) m L vv draws Xhat X0,
  (forall c S, Forall P S -> Forall P (vv c Xhat S)) -> Forall P X0 -> (forall k, (k < length Xhat)%nat -> Forall P (nudge (nth k Xhat []) (draws k))) ->
  Forall P (update_sample m L vv draws Xhat X0).
Proof.
  intros P m L vv draws Xhat X0 HV H0 HN. apply Forall_forall. intros v Iv. apply uniq_incl in Iv. apply add_fold_inv in Iv. destruct Iv as [Iv|[k [Ik [_ Iv]]]].
  - apply uniq_incl in Iv. pose proof (HV O X0 H0) as F. rewrite Forall_forall in F. auto.
  - apply in_seq in Ik. pose proof (HV (S k) _ (HN k ltac:(lia))) as F. rewrite Forall_forall in F. auto.
Qed.
(** all points found before the second removal of duplicates *)
Definition found (m : nat) (L : mat) (vv : nat -> mat -> mat -> mat) (draws : nat -> mat) (Xhat X0 : mat) : mat :=
  vv O Xhat X0 ++ flat_map (fun k => vv (S k) Xhat (nudge (nth k Xhat []) (draws k))) (seq 0 (length Xhat)).
(** every node owns a vertex if the walks keep a start of its cell in the cell (and no two different points found are taken for duplicates) *)
Theorem update_owns : forall m L vv draws Xhat X0, (0 < m)%nat ->
  (forall k, (k < length Xhat)%nat -> exists v, In v (vv (S k) Xhat (nudge (nth k Xhat []) (draws k))) /\ nearest L Xhat k v) -> apart (found m L vv draws Xhat X0) ->
  forall k, (k < length Xhat)%nat -> owned L Xhat (update_sample m L vv draws Xhat X0) k <> [].
Proof.
  intros m L vv draws Xhat X0 Hm HV HA k Hk. unfold update_sample. cbv zeta. set (V := uniq (vv O Xhat X0)). set (W := fold_left _ _ V).
  assert (IW : incl W (found m L vv draws Xhat X0)).
  { intros v Iv. apply add_fold_inv in Iv. unfold found. apply in_or_app. destruct Iv as [Iv|[j [Ij [_ Iv]]]]; [left; apply uniq_incl in Iv; auto|]. right. apply in_flat_map. exists j. auto. }
  assert (AW : apart W) by (intros v w Iv Iw; apply HA; auto).
  assert (EX : exists v, In v W /\ np_close (Ldist L (nth k Xhat []) v) (mind L Xhat v) = true).
  { destruct (Nat.ltb (length (owned L Xhat V k)) m) eqn:Q; [apply Nat.ltb_lt in Q|apply Nat.ltb_ge in Q].
    - destruct (HV k Hk) as [v [Iv Nv]]. exists v. split; [apply (add_fold_new m L vv draws Xhat V _ _ k); auto; apply in_seq; lia|]. rewrite (nearest_mind L Xhat k v Nv). apply np_close_refl.
    - destruct (owned L Xhat V k) as [|v O'] eqn:EO; [simpl in Q; lia|]. exists v. assert (I : In v (owned L Xhat V k)) by (rewrite EO; left; auto). unfold owned in I. apply filter_In in I. destruct I. split; auto. apply add_fold_incl. auto. }
  destruct EX as [v [Iv C]]. apply (uniq_all W AW) in Iv. intro E. assert (I : In v (owned L Xhat (uniq W) k)) by (unfold owned; apply filter_In; auto). rewrite E in I. destruct I.
Qed.
(** a draw shorter than half the distance to the other nodes starts in the cell of its node *)
Theorem nudge_nearest : forall m L Xhat k g, Forall (fun x => length x = m) Xhat -> (k < length Xhat)%nat -> length g = m ->
  (forall z, In z Xhat -> z = nth k Xhat [] \/ 2 * (/ 10000000 * norm2 (mv L g)) <= Ldist L (nth k Xhat []) z) -> nearest L Xhat k (vadd (nth k Xhat []) (vscale (/ 10000000) g)).
Proof.
  intros m L Xhat k g HF Hk Hg HD. set (xk := nth k Xhat []). assert (Ik : In xk Xhat) by (apply nth_In; auto). rewrite Forall_forall in HF. assert (Lk : length xk = m) by auto.
  set (y := vadd xk (vscale (/ 10000000) g)). assert (E : Ldist L xk y = / 10000000 * norm2 (mv L g)).
  { unfold Ldist, y. rewrite mv_vadd, mv_vscale by (rewrite ?vscale_length; congruence). assert (length (mv L xk) = length L) by apply mv_length. assert (length (mv L g) = length L) by apply mv_length.
    assert (E : vsub (mv L xk) (vadd (mv L xk) (vscale (/ 10000000) (mv L g))) = vscale (- / 10000000) (mv L g)).
    { apply vec_ext; [rewrite vsub_length, vscale_length; [congruence|rewrite vadd_length; rewrite ?vscale_length; congruence]|]. intros i Hi.
      rewrite vsub_get by (rewrite vadd_length; rewrite ?vscale_length; congruence). rewrite vadd_get by (rewrite vscale_length; congruence). rewrite !vscale_get. ring. }
    rewrite E, norm2_vscale, Rabs_left by lra. ring. }
  split; auto. fold xk. intros z Iz. destruct (HD z Iz) as [->|G]; [apply Rle_refl|]. fold xk in G. rewrite E. pose proof (Ldist_triangle L xk y z) as T. rewrite E in T. rewrite (Ldist_sym L z y). lra.
Qed.

(** ** the estimate printed, and the new design *)
Theorem estimate_le : forall (P : vec -> Prop) L Xhat V F, V <> [] -> Forall P V -> (forall x, P x -> mind L Xhat x <= F) -> fill_dist L Xhat V <= F.
Proof. intros P L Xhat V F NE FV HF. unfold fill_dist. apply vmax_map_ub; auto. intros v Iv. apply HF. rewrite Forall_forall in FV. auto. Qed.
(** exact solutions of the convex programs: constrained to the domain, whatever the vertices *)
Definition cc_dom (P : vec -> Prop) (cc : mat -> vec) : Prop := forall V, V <> [] -> P (cc V).
Definition cc_opt (P : vec -> Prop) (L : mat) (cc : mat -> vec) : Prop := forall V z, V <> [] -> P z -> radius L V (cc V) <= radius L V z.
Lemma sl_new_some : forall m M L cc store Xhat V Xn, sl_new m M L cc store Xhat V = Some Xn ->
  (M <= length Xhat)%nat /\ (forall k, (k < M)%nat -> owned L Xhat V k <> []) /\ Xn = map (fun k => if Nat.ltb k M then store (cc (owned L Xhat V k)) else repeat 0 m) (seq 0 (length Xhat)).
Proof.
  intros m M L cc store Xhat V Xn H. unfold sl_new in H. destruct (Nat.ltb (length Xhat) M) eqn:Q1; [discriminate|]. apply Nat.ltb_ge in Q1. destruct (existsb _ _) eqn:Q2; [discriminate|]. injection H as <-.
  split; auto. split; auto. intros k Hk E. assert (T : existsb (fun k => match owned L Xhat V k with [] => true | _ => false end) (seq 0 M) = true) by (apply existsb_exists; exists k; split; [apply in_seq; lia|rewrite E; auto]). congruence.
Qed.
Lemma map_seq_ext : forall (A : Type) (f g : nat -> A) n, (forall k, (k < n)%nat -> f k = g k) -> map f (seq 0 n) = map g (seq 0 n).
Proof. intros A f g n H. apply map_ext_in. intros k Ik. apply in_seq in Ik. apply H. lia. Qed.
(** N nodes, N rows: the result consists of N points of the domain *)
Theorem sl_design : forall (P : vec -> Prop) n it m L upd cc xtol Xhat V X es, cc_dom P cc -> Forall P Xhat ->
  sl_loop n it m (length Xhat) L upd cc (fun x => x) xtol Xhat V = Some (X, es) -> length X = length Xhat /\ Forall P X.
Proof.
  intros P n. induction n as [|n IH]; intros it m L upd cc xtol Xhat V X es HC HX E; cbn [sl_loop] in E; [injection E as <- <-; auto|]. cbv zeta in E.
  destruct (sl_new m (length Xhat) L cc (fun x => x) Xhat (upd it Xhat V)) as [Xn|] eqn:EN; [|discriminate]. destruct (sl_new_some _ _ _ _ _ _ _ _ EN) as [_ [NO EX]].
  assert (LX : length Xn = length Xhat) by (rewrite EX, map_length, seq_length; auto).
  assert (FX : Forall P Xn). { apply Forall_forall. intros x Ix. rewrite EX in Ix. apply in_map_iff in Ix. destruct Ix as [k [<- Ik]]. apply in_seq in Ik. assert (Hk : (k < length Xhat)%nat) by lia. pose proof (proj2 (Nat.ltb_lt k (length Xhat)) Hk) as T. rewrite T. apply HC. apply NO. auto. }
  destruct (Rltb _ xtol); [injection E as <- _; auto|]. rewrite <- LX in E. destruct (sl_loop n (S it) m (length Xn) L upd cc (fun x => x) xtol Xn (upd it Xhat V)) as [[X' es']|] eqn:E2; [|discriminate]. injection E as <- <-.
  destruct (IH _ _ _ _ _ _ _ _ _ _ HC FX E2) as [A B]. split; auto. congruence.
Qed.
(** on the vertices that were found, the new design is not worse up to the tolerance of the ownership test *)
Theorem sl_found : forall (P : vec -> Prop) m L cc Xhat V Xn, cc_opt P L cc -> Xhat <> [] -> Forall P Xhat -> V <> [] -> sl_new m (length Xhat) L cc (fun x => x) Xhat V = Some Xn ->
  fill_dist L Xn V <= (1 + rtol) * fill_dist L Xhat V + atol.
Proof.
  intros P m L cc Xhat V Xn HC NE FX NV EN. destruct (sl_new_some _ _ _ _ _ _ _ _ EN) as [_ [NO EX]]. unfold fill_dist at 1. apply vmax_map_ub; auto. intros v Iv.
  destruct (nearest_exists L Xhat v NE) as [k HN]. pose proof HN as [Hk _]. set (W := owned L Xhat V k). assert (IW : In v W) by (apply owned_nearest; auto). assert (NW : W <> []) by (apply NO; auto).
  assert (Ic : In (cc W) Xn). { rewrite EX. apply in_map_iff. exists k. pose proof (proj2 (Nat.ltb_lt k (length Xhat)) Hk) as T. rewrite T. split; auto. apply in_seq. lia. }
  apply Rle_trans with (Ldist L (cc W) v); [apply mind_le; auto|]. apply Rle_trans with (radius L W (cc W)); [apply (vmax_map_ge vec (Ldist L (cc W))); auto|].
  apply Rle_trans with (radius L W (nth k Xhat [])); [apply HC; auto; rewrite Forall_forall in FX; apply FX, nth_In; auto|]. apply vmax_map_ub; auto. intros w Iw. destruct (owned_close L Xhat V k w NE Iw) as [I D].
  assert (mind L Xhat w <= fill_dist L Xhat V) by (apply (vmax_map_ge vec (mind L Xhat)); auto). unfold rtol in *. lra.
Qed.
(** with all vertices the loop is the iteration of C81, as long as every node owns a vertex *)
Theorem sl_full : forall (P : vec -> Prop) n it m L verts cc xtol Xhat V, cc_dom P cc -> Forall P Xhat -> Xhat <> [] ->
  (forall X k, X <> [] -> Forall P X -> (k < length X)%nat -> owned L X (verts X) k <> []) ->
  exists es, sl_loop n it m (length Xhat) L (fun _ X _ => verts X) cc (fun x => x) xtol Xhat V = Some (lloyd n L verts cc xtol Xhat, es).
Proof.
  intros P n. induction n as [|n IH]; intros it m L verts cc xtol Xhat V HC HX NX HO; cbn [sl_loop lloyd]; [exists []; auto|]. cbv zeta.
  assert (EN : sl_new m (length Xhat) L cc (fun x => x) Xhat (verts Xhat) = Some (lloyd_step L verts cc Xhat)).
  { unfold sl_new. rewrite Nat.ltb_irrefl. destruct (existsb _ _) eqn:Q.
    - apply existsb_exists in Q. destruct Q as [k [Ik Q]]. apply in_seq in Ik. pose proof (HO Xhat k NX HX ltac:(lia)). destruct (owned L Xhat (verts Xhat) k); congruence.
    - f_equal. unfold lloyd_step. apply map_seq_ext. intros k Hk. pose proof (proj2 (Nat.ltb_lt k (length Xhat)) Hk) as T. rewrite T. auto. }
  rewrite EN. destruct (Rltb _ xtol); [eexists; reflexivity|]. set (Xn := lloyd_step L verts cc Xhat).
  assert (LX : length Xn = length Xhat) by (unfold Xn, lloyd_step; rewrite map_length, seq_length; auto).
  assert (FX : Forall P Xn). { apply Forall_forall. intros x Ix. unfold Xn, lloyd_step in Ix. apply in_map_iff in Ix. destruct Ix as [k [<- Ik]]. apply in_seq in Ik. apply HC. apply HO; auto; lia. }
  assert (NE : Xn <> []) by (intro E; rewrite E in LX; destruct Xhat; [congruence|discriminate]). rewrite <- LX.
  destruct (IH (S it) m L verts cc xtol Xn (verts Xhat) HC FX NE HO) as [es ->]. eexists. reflexivity.
Qed.
(** a design given with more rows than M: the other rows become zero *)
Theorem sl_rows_zero : forall m M L cc store Xhat V Xn k, sl_new m M L cc store Xhat V = Some Xn -> (M <= k < length Xhat)%nat -> nth k Xn [] = repeat 0 m.
Proof.
  intros m M L cc store Xhat V Xn k E Hk. destruct (sl_new_some _ _ _ _ _ _ _ _ E) as [_ [_ ->]]. rewrite (nth_map_seq _ _ _ k) by lia. pose proof (proj2 (Nat.ltb_ge k M) ltac:(lia)) as T. rewrite T. auto.
Qed.
(** the whole function *)
Theorem lloyd_result : forall (P : vec -> Prop) oned full maxiter m L vfull vv draws cc xtol X0 V0 X, cc_dom P cc -> Forall P X0 ->
  (forall Y, oned = Some Y -> length Y = length X0 /\ Forall P Y) ->
  minimax_lloyd oned full maxiter m (length X0) L vfull vv draws cc (fun x => x) xtol X0 V0 = Some X -> length X = length X0 /\ Forall P X.
Proof.
  intros P oned full maxiter m L vfull vv draws cc xtol X0 V0 X HC HX H1 E. unfold minimax_lloyd in E. destruct oned as [Y|]; [injection E as <-; auto|]. destruct (pick_update m full) as [b|]; [|discriminate].
  cbv zeta in E. destruct (sl_loop _ _ _ _ _ _ _ _ _ _ _) as [[X' es]|] eqn:ES; [|discriminate]. injection E as <-. apply (sl_design P) in ES; auto.
Qed.
(** anything but None, True and False for [full] fails outside dimension one; many nodes fail in an array with too few rows *)
Theorem lloyd_errors : forall oned full maxiter m M L vfull vv draws cc store xtol X0 V0, oned = None -> full = FullOther \/ ((length X0 < M)%nat /\ maxiter <> O) ->
  minimax_lloyd oned full maxiter m M L vfull vv draws cc store xtol X0 V0 = None.
Proof.
  intros oned full maxiter m M L vfull vv draws cc store xtol X0 V0 -> [->|[H N]]; [reflexivity|]. unfold minimax_lloyd. destruct (pick_update m full) as [b|]; auto. cbv zeta. destruct maxiter as [|n]; [congruence|]. cbn [sl_loop]. cbv zeta.
  unfold sl_new. apply Nat.ltb_lt in H. rewrite H. auto.
Qed.
(** the calls of voronoi_vertex_sample: all rows stay in the domain, and in the cell of their node while no plane is skipped *)
Lemma rows_in : forall m L A b Aeq qr ords gs Xhat S v, In v (vv_rows m L A b Aeq qr ords gs Xhat S) ->
  exists i s, (i < length S)%nat /\ s = nth i S [] /\ v = vv_walk (m - length Aeq) 0 m L A b Aeq Xhat qr true (ords Xhat) (gs i) s.
Proof.
  intros m L A b Aeq qr ords gs Xhat S v I. unfold vv_rows in I. apply in_map_iff in I. destruct I as [[i s] [<- I]]. cbn [fst snd]. exists i, s.
  destruct (In_nth _ _ (O, []) I) as [j [Hj E]]. rewrite combine_length, seq_length, Nat.min_id in Hj. rewrite combine_nth in E by apply seq_length. injection E as E1 E2. rewrite seq_nth in E1 by auto. cbn in E1. subst. auto.
Qed.
Theorem rows_inside : forall m L A b Aeq qr ords gs Xhat S, (forall i, (i < length S)%nat -> walk_pre m L A b Aeq Xhat qr (ords Xhat) (gs i)) -> Forall (inP m A b) S ->
  Forall (inP m A b) (vv_rows m L A b Aeq qr ords gs Xhat S).
Proof.
  intros m L A b Aeq qr ords gs Xhat S HW HS. apply Forall_forall. intros v Iv. apply rows_in in Iv. destruct Iv as [i [s [Hi [Es ->]]]]. apply walk_inside; [apply HW; auto|]. rewrite Forall_forall in HS. apply HS. subst. apply nth_In. auto.
Qed.
Theorem rows_keep : forall m L A b Aeq qr ords gs Xhat S k, (forall i, (i < length S)%nat -> walk_pre m L A b Aeq Xhat qr (ords Xhat) (gs i)) -> Forall (inP m A b) S -> Forall (nearest L Xhat k) S ->
  (forall i j, (i < length S)%nat -> (j < m - length Aeq)%nat -> sharp_step m L A b Aeq Xhat qr true (ords Xhat) (gs i) j (vv_walk j 0 m L A b Aeq Xhat qr true (ords Xhat) (gs i) (nth i S []))) ->
  Forall (nearest L Xhat k) (vv_rows m L A b Aeq qr ords gs Xhat S).
Proof.
  intros m L A b Aeq qr ords gs Xhat S k HW HS HN HC. apply Forall_forall. intros v Iv. apply rows_in in Iv. destruct Iv as [i [s [Hi [Es ->]]]]. rewrite Forall_forall in HS, HN. assert (Is : In s S) by (subst; apply nth_In; auto).
  apply walk_keeps; auto. intros j Hj. subst s. apply HC; auto.
Qed.

(** the k-th estimate printed is the largest distance from the vertices of that iteration to the design after k iterations *)
Theorem sl_estimates : forall n it m M L upd cc store xtol Xhat V X es k, sl_loop n it m M L upd cc store xtol Xhat V = Some (X, es) -> (k < length es)%nat ->
  exists Xk esk Vk, sl_loop k it m M L upd cc store xtol Xhat V = Some (Xk, esk) /\ length esk = k /\ (k = O -> Vk = V) /\ nth k es 0 = fill_dist L Xk (upd (it + k)%nat Xk Vk).
Proof.
  induction n as [|n IH]; intros it m M L upd cc store xtol Xhat V X es k E Hk; [injection E as <- <-; simpl in Hk; lia|].
  destruct k as [|k].
  - exists Xhat, [], V. cbn [sl_loop] in *. split; auto. split; auto. split; auto. rewrite Nat.add_0_r. cbv zeta in E. destruct (sl_new _ _ _ _ _ _ _) as [Xn|]; [|discriminate]. destruct (Rltb _ _).
    + injection E as _ <-. auto.
    + destruct (sl_loop _ _ _ _ _ _ _ _ _ _ _) as [[Y fs]|]; [|discriminate]. injection E as _ <-. auto.
  - cbn [sl_loop] in *. cbv zeta in *. destruct (sl_new _ _ _ _ _ _ _) as [Xn|]; [|discriminate]. destruct (Rltb _ _).
    + injection E as _ <-. simpl in Hk. lia.
    + destruct (sl_loop n _ _ _ _ _ _ _ _ _ _) as [[Y fs]|] eqn:F; [|discriminate]. injection E as -> <-. cbn [length] in Hk. destruct (IH _ _ _ _ _ _ _ _ _ _ _ _ k F ltac:(lia)) as [Xk [ek [Vk [E1 [E2 [_ E3]]]]]].
      rewrite E1. exists Xk. eexists. exists Vk. split; [reflexivity|]. split; [cbn [length]; lia|]. split; [lia|]. cbn [nth]. rewrite E3. do 2 f_equal. lia.
Qed.
(** which update runs: in one variable with a scalar L the one-dimensional design is returned; with [full] = True, or with [full] left out below three variables, it is Lloyd's
    iteration with all Voronoi vertices, whatever the walks and the draws would give; otherwise the enumeration of all vertices is not called *)
Theorem lloyd_full : forall (P : vec -> Prop) full maxiter m L vfull vv draws cc xtol X0 V0, cc_dom P cc -> Forall P X0 -> X0 <> [] -> full = FullTrue \/ (full = FullNone /\ (m < 3)%nat) ->
  (forall X k, X <> [] -> Forall P X -> (k < length X)%nat -> owned L X (vfull X) k <> []) ->
  minimax_lloyd None full maxiter m (length X0) L vfull vv draws cc (fun x => x) xtol X0 V0 = Some (lloyd maxiter L vfull cc xtol X0).
Proof.
  intros P full maxiter m L vfull vv draws cc xtol X0 V0 HC HX NX HF HO. unfold minimax_lloyd.
  replace (pick_update m full) with (Some true) by (destruct HF as [->|[-> Hm]]; [reflexivity|]; cbn [pick_update]; apply Nat.ltb_lt in Hm; rewrite Hm; auto).
  cbv zeta. destruct (sl_full P maxiter 0 m L vfull cc xtol X0 V0 HC HX NX HO) as [es ->]. auto.
Qed.
Theorem lloyd_sampled : forall oned full maxiter m M L vfull vfull' vv draws cc store xtol X0 V0, full = FullFalse \/ (full = FullNone /\ (3 <= m)%nat) ->
  minimax_lloyd oned full maxiter m M L vfull vv draws cc store xtol X0 V0 = minimax_lloyd oned full maxiter m M L vfull' vv draws cc store xtol X0 V0.
Proof.
  intros oned full maxiter m M L vfull vfull' vv draws cc store xtol X0 V0 HF. unfold minimax_lloyd. destruct oned; auto.
  replace (pick_update m full) with (Some false) by (destruct HF as [->|[-> Hm]]; [reflexivity|]; cbn [pick_update]; apply Nat.ltb_ge in Hm; rewrite Hm; auto). auto.
Qed.
Theorem lloyd_1d : forall Y full maxiter m M L vfull vv draws cc store xtol X0 V0, minimax_lloyd (Some Y) full maxiter m M L vfull vv draws cc store xtol X0 V0 = Some Y.
Proof. intros. reflexivity. Qed.
