(** to_linineq of a hull domain, the equality basis of a hull, and the constraints handed to the solvers. *)
Require Import Reals List Bool Arith ZArith Lia Lra Psatz.
From Verif Require Import RVec Num Sums DomModel DomSpec NormProofs DomOpsProofs DomMoreModel LipModel LipProofs SweepProofs HullProofs HullIneqProofs MatLib GrassLib SpecProofs ArnoldiMoreProofs ArnoldiCases PartialProofs VoronoiProofs GeoModel SampModel PigeonLib
  LinProg Spectral Decomp SolveMore Minkowski HullConvModel HullConvProofs.
Import ListNotations.
Local Open Scope R_scope.

(** * the oracles exist *)
Theorem svd_rows_exists : forall m rows, Forall (fun r => length r = m) rows -> exists sv, svd_rows m rows sv.
Proof.
  intros m rows F. destruct (svd_full_exists m rows F) as (us & s & vs & (LU & FU & OU) & (LV & FV & OV) & Ls & P & D & E). exists (s, firstn (length s) us). unfold svd_rows. cbn [fst snd]. rewrite firstn_length. replace (Nat.min (length s) (length us)) with (length s) by lia.
  split; auto. split; auto. split; [apply Forall_firstn'; auto|]. split; [apply orth_firstn; auto|]. split; auto. split; auto. exists (firstn (length s) vs). rewrite firstn_length. split; [lia|]. split; [apply orth_firstn; auto|]. split; [apply Forall_firstn'; auto|]. intros c Hc. rewrite col_firstn. apply E. auto.
Qed.
Lemma qhull_exists : forall d Y, Forall (fun y => length y = d) Y -> exists r, qhull_ok d Y r.
Proof.
  intros d Y F. destruct (hull_polyhedron d Y F) as (rows & RR & HR). exists (rows, seq 0 (length Y)). split; auto. split; auto. split; [apply Forall_forall; intros j I; apply in_seq in I; cbn [snd] in *; lia|]. intros y I. cbn [snd].
  replace (map (fun j => nth j Y []) (seq 0 (length Y))) with Y; [apply cc_self; auto|]. apply nth_ext with (d := []) (d' := nth 0 Y []); [rewrite map_length, seq_length; auto|]. intros i Hi. rewrite (map_nth (fun j => nth j Y []) (seq 0 (length Y)) 0%nat i). rewrite seq_nth by auto. auto.
Qed.
Theorem conv_oracles_exist : forall m X, Forall (fun x => length x = m) X -> exists svd qr qhull, let sv := svd (centred m X) in let V := big_rows (fst sv) (snd sv) in let Y := map (mv (firstn (length V) (qr V))) X in
  svd_rows m (centred m X) sv /\ qr_ok m V (qr V) /\ qhull_ok (length V) Y (qhull Y).
Proof.
  intros m X F. destruct (svd_rows_exists m (centred m X) (centred_len m X F)) as (sv & SV). pose proof SV as (L1 & L2 & FV & _). set (V := big_rows (fst sv) (snd sv)).
  assert (LV : (length V <= m)%nat) by (pose proof (big_rows_sub _ _ L2); fold V in H; lia).
  assert (FV' : Forall (fun v => length v = m) V) by (apply Forall_forall; intros v I; apply big_rows_in in I; auto; destruct I as (k & Hk & -> & _); rewrite Forall_forall in FV; apply FV, nth_In; lia).
  destruct (qr_full_exists m V FV' LV) as (q & OB & UT & _). pose proof OB as (LQ & _). assert (FY : Forall (fun y => length y = length V) (map (mv (firstn (length V) q)) X)) by (apply Forall_forall; intros y I; apply in_map_iff in I; destruct I as (x & <- & _); rewrite mv_length, firstn_length; lia).
  destruct (qhull_exists _ _ FY) as (r & HR). exists (fun _ => sv), (fun _ => q), (fun _ => r). cbn zeta. fold V. split; auto. split; auto. split; auto.
Qed.

(** * when the conversion returns *)
Theorem hull_to_linineq_returns : forall svd qr qhull m X, Forall (fun x => length x = m) X -> conv_ok svd qr qhull m X -> (exists x y, In x X /\ In y X /\ x <> y) -> exists r, hull_to_linineq svd qr qhull m X = Some r.
Proof.
  intros svd qr qhull m X F (SV & SH & QR & QH) (x & y & Ix & Iy & N). unfold hull_to_linineq. destruct X as [|x0 [|x1 Xr]]; [destruct Ix|destruct Ix as [<-|[]]; destruct Iy as [<-|[]]; congruence|]. set (X := x0 :: x1 :: Xr) in *.
  destruct (svd (centred m X)) as [s VT] eqn:ES. cbn [fst snd] in *. set (V := big_rows s VT) in *. pose proof QR as ((LQ & FQ & OQ) & _). assert (LV : (length V <= m)%nat) by (destruct SV as (A1 & A2 & _); cbn [fst snd] in *; pose proof (big_rows_sub s VT A2); fold V in H; lia).
  assert (DV : V <> []).
  { intro Z. apply N. rewrite Forall_forall in F. assert (Lx := F x Ix). assert (Ly := F y Iy). assert (G : forall z p, In z X -> dot z p = dot (row_mean m X) p).
    { intros z p Iz. assert (K : dot (vsub z (row_mean m X)) p = 0) by (apply (big_span m (centred m X) (s, VT)); auto; [cbn [fst snd]; fold V; rewrite Z; intros v []|apply in_map_iff; eauto]). rewrite dot_vsub_l in K by (rewrite row_mean_length; auto). lra. }
    apply vec_ext; [lia|]. intros i Hi. rewrite <- (LinLs.dot_unit_get m i x), <- (LinLs.dot_unit_get m i y) by lia. rewrite (dot_comm _ x), (dot_comm _ y), (G x), (G y) by auto. auto. }
  destruct (Nat.ltb_spec 1 (length V)) as [H1|H1]; [destruct (qhull _) as [eqs J]; eauto|]. assert (L1 : length V = 1%nat) by (destruct V as [|v [|]]; [congruence|auto|simpl in H1; lia]). rewrite L1. destruct (qr V) as [|q Q]; [simpl in LQ; lia|]. simpl. eauto.
Qed.
(** * to_linineq of a domain without bounds is the domain *)
Definition no_bounds (c : dom) : Prop := (forall i v, nth_error (lb c) i <> Some (Fin v)) /\ (forall i v, nth_error (ub c) i <> Some (Fin v)).
Definition hull_member (h : hull) (x : vec) : Prop := convex_comb (hX h) (dim (hcon h)) x /\ member (hcon h) x.
Lemma free_lb : forall m i v, nth_error (repeat NInf m) i <> Some (Fin v).
Proof. intros m i v H. apply nth_error_In in H. apply repeat_spec in H. discriminate. Qed.
Lemma free_ub : forall m i v, nth_error (repeat PInf m) i <> Some (Fin v).
Proof. intros m i v H. apply nth_error_In in H. apply repeat_spec in H. discriminate. Qed.
Lemma zip_free : forall (f : num -> num -> num) a m, f a a = a -> zipw f (repeat a m) (repeat a m) = repeat a m.
Proof. intros f a m E. induction m; simpl; auto. rewrite E, IHm. auto. Qed.
Theorem to_linineq_exact : forall svd qr qhull h d, hull_wf h -> hX h <> [] -> conv_ok svd qr qhull (dim (hcon h)) (hX h) -> to_linineq svd qr qhull h = Some d ->
  dom_wf d /\ dim d = dim (hcon h) /\ forall x, length x = dim (hcon h) -> (member d x <-> convex_comb (hX h) (dim (hcon h)) x /\ sat_ineq (dA (hcon h)) (db (hcon h)) 0 x /\ sat_eq0 (dAeq (hcon h)) (dbeq (hcon h)) x /\ sat_quad (quads (hcon h)) 0 x).
Proof.
  intros svd qr qhull h d (W & _ & F) NX CO E. unfold to_linineq in E. set (m := dim (hcon h)) in *. set (c := hcon h) in *. destruct (hull_to_linineq svd qr qhull m (hX h)) as [r|] eqn:ER; [|discriminate]. injection E as <-.
  destruct (hull_to_linineq_exact _ _ _ _ _ _ F NX CO ER) as (FA & LA & FE & LE & EX & _). destruct W as (W1 & W2 & W3 & W4 & W5 & W6 & W7 & _).
  set (d1 := mkDom LinQuad m (repeat NInf m) (repeat PInf m) (hd_A r) (hd_b r) (hd_Aeq r) (hd_beq r) []). set (d2 := mkDom LinQuad m (repeat NInf m) (repeat PInf m) (dA c) (db c) (dAeq c) (dbeq c) (quads c)).
  assert (D1 : dom_wf d1). { unfold dom_wf, d1. cbn. rewrite !repeat_length. repeat split; auto; try congruence; intros; try (destruct H; discriminate). }
  assert (D2 : dom_wf d2). { unfold dom_wf, d2. cbn. rewrite !repeat_length. repeat split; auto; try congruence; intros; try (destruct H; discriminate). }
  split; [apply add_constraints_wf; auto|]. pose proof (add_constraints_fields d1 d2 D1 D2 eq_refl) as (G1 & G2 & G3 & G4 & G5 & G6 & G7 & G8 & _). split; [rewrite G1; auto|]. intros x Lx. unfold member. rewrite G1, G2, G3, G4, G5, G6, G7, G8. unfold d1, d2. cbn [lb ub dA db dAeq dbeq quads dim app].
  rewrite !zip_free by reflexivity. assert (SB : sat_bounds (repeat NInf m) (repeat PInf m) 0 x) by (intro i; split; intros v H; exfalso; [eapply free_lb; eauto|eapply free_ub; eauto]).
  rewrite <- (EX x Lx). unfold sat_ineq, sat_eq0. rewrite (nth_error_app_rows (hd_A r) (dA c) (hd_b r) (db c) (fun a c => dot a x <= c + 0)) by auto. rewrite (nth_error_app_rows (hd_Aeq r) (dAeq c) (hd_beq r) (dbeq c) (fun a c => dot a x = c)) by auto. split.
  - intros (_ & _ & (A1 & A2) & (B1 & B2) & Q). split; [split; auto|]. split; auto.
  - intros ((A1 & B1) & A2 & B2 & Q). repeat split; auto; try apply SB; auto.
Qed.
Theorem to_linineq_member : forall svd qr qhull h d x, hull_wf h -> hX h <> [] -> no_bounds (hcon h) -> conv_ok svd qr qhull (dim (hcon h)) (hX h) -> to_linineq svd qr qhull h = Some d -> (member d x <-> hull_member h x).
Proof.
  intros svd qr qhull h d x W NX (NL & NU) CO E. destruct (to_linineq_exact _ _ _ _ _ W NX CO E) as (_ & D & EX). unfold hull_member, member at 2. destruct (Nat.eq_dec (length x) (dim (hcon h))) as [L|L].
  - rewrite (EX x L). split; [intros (H1 & H2 & H3 & H4)|intros (H1 & _ & _ & H2 & H3 & H4); auto].
    split; [exact H1|]. split; [exact L|]. split; [|auto]. intro i. split; intros v H; exfalso; [apply (NL i v H)|apply (NU i v H)].
  - split; [intros (K & _); congruence|intros (_ & K & _); congruence].
Qed.

(** * points that are close: singular values taken for zero *)
(** four corners of a thin rectangle: the corners are not in the converted domain *)
Definition thin : R := / 1000000000.
Definition thinX : mat := [[1; thin]; [1; - thin]; [-1; thin]; [-1; - thin]].
Ltac vq := unfold vget, vsum, vadd, vscale, vsub, vmul, vzero in *; cbn [nth map vmap2 length seq repeat col lincomb fold_right].
Lemma thin_centred : centred 2 thinX = thinX.
Proof. unfold centred, row_mean, thinX, col. vq. cbn. repeat (f_equal; try field). Qed.
Lemma orth2 : forall (a b : vec), length a = length b -> dot a a = 1 -> dot b b = 1 -> dot a b = 0 -> orthonormal [a; b].
Proof. intros a b L A B C i j Hi Hj. destruct i as [|[|i]], j as [|[|j]]; simpl in Hi, Hj; try lia; cbn [nth Nat.eqb]; auto. rewrite dot_comm. auto. Qed.
Lemma thin_svd : svd_rows 2 thinX ([2; 2 * thin], [[1; 0]; [0; 1]]).
Proof.
  assert (T : 0 < thin < 1) by (unfold thin; lra). unfold svd_rows. cbn [fst snd]. split; [reflexivity|]. split; [reflexivity|]. split; [repeat constructor|]. split; [apply orth2; auto; rewrite !dot_cons, dot_nil_l; ring|]. split; [repeat constructor; lra|].
  split; [intros [|[|i]] [|[|j]] H; simpl in H; try lia; unfold vget; cbn [nth]; lra|]. exists [[1/2; 1/2; -1/2; -1/2]; [1/2; -1/2; 1/2; -1/2]]. split; [reflexivity|]. split; [apply orth2; auto; rewrite !dot_cons, dot_nil_l; field|]. split; [repeat constructor|].
  intros c Hc. unfold thinX. destruct c as [|[|[|[|c]]]]; simpl in Hc; try lia; unfold col, lincomb, vmul, vadd, vscale, vzero, vget; cbn [nth map vmap2 repeat]; repeat (f_equal; try field).
Qed.
Lemma close_thin : np_close (2 * thin) 0 = true.
Proof. unfold np_close. apply Rleb_le. rewrite Rminus_0_r, Rabs_R0. unfold thin, atol, rtol. rewrite Rabs_pos_eq; lra. Qed.
Lemma close_two : np_close 2 0 = false.
Proof. unfold np_close. apply Rleb_false. rewrite Rminus_0_r, Rabs_R0. unfold atol, rtol. rewrite Rabs_pos_eq; lra. Qed.
Theorem thin_refuted : exists svd qr qhull m X r x, Forall (fun x => length x = m) X /\ svd_rows m (centred m X) (svd (centred m X)) /\
  (let V := big_rows (fst (svd (centred m X))) (snd (svd (centred m X))) in qr_ok m V (qr V)) /\ (forall Y, qhull Y = ([], [])) /\
  hull_to_linineq svd qr qhull m X = Some r /\ In x X /\ ~ sat_eq0 (hd_Aeq r) (hd_beq r) x.
Proof.
  exists (fun _ => ([2; 2 * thin], [[1; 0]; [0; 1]])), (fun _ => [[1; 0]; [0; 1]]), (fun _ => ([], [])), 2%nat, thinX.
  assert (V : big_rows [2; 2 * thin] [[1; 0]; [0; 1]] = [[1; 0]]) by (unfold big_rows, big; cbn [combine filter fst]; rewrite close_thin, close_two; reflexivity).
  assert (E : hull_to_linineq (fun _ => ([2; 2 * thin], [[1; 0]; [0; 1]])) (fun _ => [[1; 0]; [0; 1]]) (fun _ => ([], [])) 2 thinX =
    Some (mkHD [vscale 1 [1; 0]; vscale (-1) [1; 0]] [vmax (map (dot [1; 0]) thinX); - vmin (map (dot [1; 0]) thinX)] [[0; 1]] [vsum (map (dot [0; 1]) thinX) / INR 4] [nth (argmax (map (dot [1; 0]) thinX)) thinX []; nth (argmin_idx (map (dot [1; 0]) thinX)) thinX []])).
  { unfold hull_to_linineq. unfold thinX at 1. rewrite V. reflexivity. }
  eexists. exists [1; thin]. split; [repeat constructor|]. rewrite thin_centred. cbn [fst snd]. rewrite V. split; [apply thin_svd|]. split.
  { split; [split; [reflexivity|]; split; [repeat constructor|]; apply orth2; auto; rewrite !dot_cons, dot_nil_l; ring|]. intros k j Hk Hj. simpl in Hk. assert (k = 0 /\ j = 1)%nat as [-> ->] by lia. cbn [nth]. rewrite !dot_cons, dot_nil_l. ring. }
  split; auto. split; [exact E|]. split; [left; auto|]. cbn [hd_Aeq hd_beq]. intro H. specialize (H 0%nat _ _ eq_refl eq_refl). unfold thinX in H. cbn [map] in H. unfold vsum in H. cbn [fold_right] in H. rewrite !dot_cons, !dot_nil_l in H. unfold thin in H. simpl INR in H. lra.
Qed.
(** two points that unique_points keeps but whose only singular value is taken for zero: an exception *)
Definition nearX : mat := [[0]; [12 / 1000000000]].
Definition rt2 : R := / sqrt 2.
Lemma rt2_sq : rt2 * rt2 = 1/2 /\ 0 < rt2 < 8/10.
Proof.
  assert (P : 0 < sqrt 2) by (apply sqrt_lt_R0; lra). assert (S : sqrt 2 * sqrt 2 = 2) by (apply sqrt_sqrt; lra). unfold rt2. assert (I : 0 < / sqrt 2) by (apply Rinv_0_lt_compat; auto). assert (E : / sqrt 2 * / sqrt 2 = 1/2) by (rewrite <- Rinv_mult; rewrite S; lra). split; auto. split; auto. nra.
Qed.
Theorem near_refuted : exists svd m X, Forall (fun x => length x = m) X /\ select (unique_mask X) X = X /\ svd_rows m (centred m X) (svd (centred m X)) /\ (exists x y, In x X /\ In y X /\ x <> y) /\
  forall qr qhull, hull_to_linineq svd qr qhull m X = None.
Proof.
  destruct rt2_sq as (S2 & P2). set (a := 12 / 1000000000 * rt2). exists (fun _ => ([a], [[1]])), 1%nat, nearX. split; [repeat constructor|]. split.
  { unfold nearX. cbn [unique_mask map]. unfold edist, vsub. cbn [vmap2 vmin fold_left]. rewrite (proj2 (RVec.Rleb_false _ _ ) : _ -> np_close _ 0 = false). { reflexivity. } rewrite Rminus_0_r, Rabs_R0. unfold norm2, norm2sq. rewrite dot_cons, dot_nil_l. replace ((0 - 12 / 1000000000) * (0 - 12 / 1000000000) + 0) with (Rsqr (12 / 1000000000)) by (unfold Rsqr; ring). rewrite sqrt_Rsqr by lra. unfold atol, rtol. rewrite Rabs_pos_eq; lra. }
  assert (CE : centred 1 nearX = [[- (6 / 1000000000)]; [6 / 1000000000]]) by (unfold centred, row_mean, nearX, col, vsub, vsum, vget; cbn; repeat (f_equal; try field)).
  rewrite CE. split.
  { unfold svd_rows. cbn [fst snd]. split; [reflexivity|]. split; [reflexivity|]. split; [repeat constructor|]. split; [intros i j Hi Hj; simpl in Hi, Hj; assert (i = 0 /\ j = 0)%nat as [-> ->] by lia; cbn [nth Nat.eqb]; rewrite dot_cons, dot_nil_l; ring|]. split; [repeat constructor; unfold a; nra|].
    split; [intros i j H; simpl in H; assert (i = 0 /\ j = 0)%nat as [-> ->] by lia; lra|]. exists [[- rt2; rt2]]. split; [reflexivity|]. split; [intros i j Hi Hj; simpl in Hi, Hj; assert (i = 0 /\ j = 0)%nat as [-> ->] by lia; cbn [nth Nat.eqb]; rewrite !dot_cons, dot_nil_l; lra|]. split; [repeat constructor|].
    intros c Hc. destruct c as [|[|c]]; simpl in Hc; try lia; unfold col, lincomb, vmul, vadd, vscale, vzero, vget; cbn [nth map vmap2 repeat]; f_equal; unfold a; lra. }
  split; [exists [0], [12 / 1000000000]; split; [left; auto|]; split; [right; left; auto|]; intro H; injection H as H; lra|]. assert (CL : np_close a 0 = true) by (unfold np_close; apply Rleb_le; rewrite Rminus_0_r, Rabs_R0; unfold a, atol, rtol; rewrite Rabs_pos_eq; nra).
  assert (V : big_rows [a] [[1]] = []) by (unfold big_rows, big; cbn [combine filter fst]; rewrite CL; reflexivity).
  intros qr qhull. unfold hull_to_linineq, nearX. rewrite V. reflexivity.
Qed.
