(** maximin_block on a small domain: a point walks onto another one. *)
Require Import Reals Lra Lia List Bool Arith ZArith.
From Verif Require Import RVec Num Sums DomModel DomSpec DomProofs DomMoreModel SweepProofs HullProofs HullIneqProofs ArnoldiMoreProofs LipModel LipProofs MatLib SpecProofs GrassLib SampModel PigeonLib LatinProofs PoissonProofs PoissonCases DesignProofs CoffeeProofs GeoModel GeoProofs VoronoiProofs WalkProofs SampMoreModel BlockProofs.
Import ListNotations.
Local Open Scope R_scope.

(** the segment from (0,0) to (1e-4,0), given by 0 <= x <= 1e-4 and y = 0 *)
Definition bA : mat := [[1; 0]; [-1; 0]].
Definition bb : vec := [/10000; 0].
Definition bAeq : mat := [[0; 1]].
Definition I2 : mat := [[1; 0]; [0; 1]].
Definition bX : mat := [[0; 0]; [/10000; 0]; [/25000; 0]].
Definition bqr (ns : mat) : mat := if forallb (fun c => Reqb (vget c 0) 0) ns then [[0; 1]] else [[0; 1]; [1; 0]].
Definition bord (Xt : mat) (x : vec) : list nat := if Rleb (Ldist I2 x (nth 0 Xt [])) (Ldist I2 x (nth 1 Xt [])) then [0; 1]%nat else [1; 0]%nat.
(** voronoi_vertex_sample on this domain: m - rank(A_eq) = 1 iteration *)
Definition bvv (Xt : mat) (x : vec) : vec := vv_walk 1 0 2 I2 bA bb bAeq Xt bqr false (bord Xt) (fun _ => [1; 0]) x.

Lemma I2dist : forall x y, Ldist I2 [x; 0] [y; 0] = Rabs (x - y).
Proof. intros x y. unfold Ldist, I2, mv. cbn [map]. rewrite !dot_cons, !dot_nil_l. unfold norm2, norm2sq. cbn [vsub vmap2]. rewrite !dot_cons, !dot_nil_l. rewrite <- sqrt_Rsqr_abs. f_equal. unfold Rsqr. ring. Qed.
Lemma I2ltl : forall x, ltl 2 I2 [x; 0] = [x; 0].
Proof. intros x. unfold ltl, I2, mv. cbn. rewrite !dot_cons, !dot_nil_l. f_equal; [ring|f_equal; ring]. Qed.
Lemma bqr_ok : forall ns, Forall (fun c => length c = 2%nat) ns -> WalkProofs.qr_ok 2 ns (bqr ns).
Proof.
  intros ns F. rewrite Forall_forall in F. unfold bqr. destruct (forallb _ ns) eqn:E.
  - split; [repeat constructor|]. split; [intros i j Hi Hj; simpl in Hi, Hj; assert (i = O) by lia; assert (j = O) by lia; subst; cbn [nth Nat.eqb]; rewrite !dot_cons, dot_nil_l; ring|].
    intros c I. rewrite forallb_forall in E. specialize (E c I). apply Reqb_true in E. specialize (F c I). destruct c as [|a [|b [|]]]; try discriminate. unfold vget in E. cbn in E. subst a. unfold lincomb, mv. cbn. rewrite !dot_cons, !dot_nil_l. f_equal; [ring|f_equal; ring].
  - split; [repeat constructor|]. split; [intros [|[|i]] [|[|j]] Hi Hj; simpl in Hi, Hj; try lia; cbn [nth Nat.eqb]; rewrite !dot_cons, dot_nil_l; ring|].
    intros c I. specialize (F c I). destruct c as [|a [|b [|]]]; try discriminate. unfold lincomb, mv. cbn. rewrite !dot_cons, !dot_nil_l. f_equal; [ring|f_equal; ring].
Qed.
Lemma b_pre : forall p q, length p = 2%nat -> length q = 2%nat -> walk_pre 2 I2 bA bb bAeq [p; q] bqr (bord [p; q]) (fun _ => [1; 0]).
Proof.
  intros p q Lp Lq. split; [repeat constructor|]. split; [repeat constructor|]. split; [repeat constructor|]. split; [discriminate|]. split; [repeat constructor; auto|]. split; [auto|]. split; [|intros ns _ F; apply bqr_ok; auto].
  intros x _. unfold first_nearest, bord, site. cbn [nth]. destruct (Rleb _ _) eqn:E; cbn [nth].
  - apply Rleb_true in E. split; [intros [|[|j]] Hj; simpl in *; lia|]. intros z [<-|[<-|[]]]; lra.
  - apply Rleb_false in E. split; [intros [|[|j]] Hj; simpl in *; lia|]. intros z [<-|[<-|[]]]; lra.
Qed.
(** at an end of the segment nothing moves *)
Lemma b_end : forall p q x, (x = 0 \/ x = /10000) -> length p = 2%nat -> length q = 2%nat -> bvv [p; q] [x; 0] = [x; 0].
Proof.
  intros p q x Hx Lp Lq. unfold bvv. cbn [vv_walk]. rewrite vv_step_eq. set (o := bord [p; q] [x; 0]). set (xh := site [p; q] o 0).
  assert (Lh : length xh = 2%nat). { unfold xh, o, bord, site. destruct (Rleb _ _); cbn [nth]; auto. }
  assert (HH : step_h 2 I2 bA bb bAeq [p; q] bqr false o [1; 0] 0 [x; 0] = [0; 0]).
  { unfold step_h, vv_dir. fold xh. assert (NN : exists c r, vv_null 2 I2 bA bb bAeq [p; q] o 0 [x; 0] = [0; 1] :: r /\ In c r /\ vget c 0 <> 0).
    { unfold vv_null, bA, bb, bAeq. cbn [app combine length Nat.min Nat.add Nat.sub seq]. rewrite ?app_nil_r. destruct Hx as [-> | ->].
      - exists [-1; 0]. eexists. split; [reflexivity|]. split; [|unfold vget; cbn; lra]. apply in_map_iff. exists ([-1; 0], 0). split; auto. apply filter_In. split; [right; left; auto|]. cbn [fst snd]. rewrite !dot_cons, dot_nil_l. unfold np_close. apply Rleb_true. replace (-1 * 0 + (0 * 0 + 0) - 0) with 0 by ring. rewrite !Rabs_R0. unfold atol, rtol. lra.
      - exists [1; 0]. eexists. split; [reflexivity|]. split; [|unfold vget; cbn; lra]. apply in_map_iff. exists ([1; 0], /10000). split; auto. apply filter_In. split; [left; auto|]. cbn [fst snd]. rewrite !dot_cons, dot_nil_l. unfold np_close. apply Rleb_true. replace (1 * / 10000 + (0 * 0 + 0) - / 10000) with 0 by ring. rewrite Rabs_R0. rewrite Rabs_right by lra. unfold atol, rtol. lra. }
    destruct NN as (c & r & -> & Ic & Nc). cbn [andb]. rewrite andb_false_r. assert (EQ : bqr ([0; 1] :: r) = [[0; 1]; [1; 0]]). { unfold bqr. cbn [forallb]. destruct (forallb (fun c => Reqb (vget c 0) 0) r) eqn:Q; [|rewrite andb_false_r; auto]. exfalso. rewrite forallb_forall in Q. specialize (Q c Ic). apply Reqb_true in Q. auto. }
    rewrite EQ. assert (L2 : length (ltl 2 I2 (vsub [x; 0] xh)) = 2%nat) by (apply ltl_length; repeat constructor). destruct (ltl 2 I2 (vsub [x; 0] xh)) as [|u [|v [|]]]; try discriminate. unfold proj_out, lincomb, mv. cbn. rewrite !dot_cons, !dot_nil_l. f_equal; [ring|f_equal; ring]. }
  rewrite HH. cbn. f_equal; [ring|f_equal; ring].
Qed.
(** between the ends the point walks onto the farther end, which is a site *)
Lemma b_mid : bvv [[0; 0]; [/10000; 0]] [/25000; 0] = [/10000; 0].
Proof.
  unfold bvv. cbn [vv_walk]. set (Xt := [[0; 0]; [/10000; 0]]). assert (EO : bord Xt [/25000; 0] = [0; 1]%nat).
  { unfold bord, Xt. cbn [nth]. rewrite !I2dist. destruct (Rleb _ _) eqn:Q; auto. apply Rleb_false in Q. rewrite (Rabs_right (/25000 - 0)) in Q by lra. rewrite (Rabs_left (/25000 - /10000)) in Q by lra. lra. }
  rewrite EO, vv_step_eq. assert (HH : step_h 2 I2 bA bb bAeq Xt bqr false [0; 1]%nat [1; 0] 0 [/25000; 0] = [/25000; 0]).
  { unfold step_h, vv_dir. assert (NN : vv_null 2 I2 bA bb bAeq Xt [0; 1]%nat 0 [/25000; 0] = [[0; 1]]).
    { unfold vv_null, bA, bb, bAeq. cbn [app combine length Nat.min Nat.add Nat.sub seq filter map fst snd Xt]. rewrite !dot_cons, !dot_nil_l.
      assert (C1 : np_close (1 * /25000 + (0 * 0 + 0)) (/10000) = false). { unfold np_close. destruct (Rleb _ _) eqn:Q; auto. apply Rleb_true in Q. rewrite (Rabs_left (1 * /25000 + (0 * 0 + 0) - /10000)) in Q by lra. rewrite (Rabs_right (/10000)) in Q by lra. unfold atol, rtol in Q. lra. }
      assert (C2 : np_close (-1 * /25000 + (0 * 0 + 0)) 0 = false). { apply np_close0_no. rewrite Rabs_left by lra. unfold atol. lra. }
      rewrite C1, C2. reflexivity. }
    rewrite NN. cbn [andb]. rewrite andb_false_r. assert (EQ : bqr [[0; 1]] = [[0; 1]]). { unfold bqr. cbn [forallb]. unfold vget. cbn [nth]. assert (Q : Reqb 0 0 = true) by (apply Reqb_true; auto). rewrite Q. auto. }
    rewrite EQ. unfold site, Xt. cbn [nth vsub vmap2]. rewrite !Rminus_0_r, I2ltl. unfold proj_out, lincomb, mv. cbn. rewrite !dot_cons, !dot_nil_l. f_equal; [ring|f_equal; ring]. }
  unfold step_al. rewrite HH. unfold al, vv_alpha.
  assert (SD : small_dir [/25000; 0] = false). { unfold small_dir, vmax. cbn. destruct (Rltb _ _) eqn:Q; auto. apply Rltb_true in Q. rewrite Rabs_R0, (Rabs_right (/25000)) in Q by lra. rewrite Rmax_left in Q by lra. lra. }
  assert (S : forall y, 0 <= y <= /10000 -> site_alpha I2 [/25000; 0] (site Xt [0; 1]%nat 0) [/25000; 0] [y; 0] = None).
  { intros y Hy. unfold site_alpha, site, Xt, I2, mv. cbn. rewrite !dot_cons, !dot_nil_l. match goal with |- context [np_close (Rabs ?t) 0] => replace t with (y * /25000) by ring end. assert (Q : np_close (Rabs (y * / 25000)) 0 = true). { unfold np_close. apply Rleb_true. rewrite Rminus_0_r, Rabs_Rabsolu, Rabs_R0, Rabs_right by lra. unfold atol, rtol. lra. } rewrite Q. auto. }
  assert (F1 : face_alpha [/25000; 0] [/25000; 0] ([1; 0], /10000) = Some (3/2)). { unfold face_alpha. cbn [fst snd]. rewrite !dot_cons, !dot_nil_l. destruct (Reqb _ 0) eqn:Q; [apply Reqb_true in Q; lra|]. replace ((/10000 - (1 * /25000 + (0 * 0 + 0))) / (1 * /25000 + (0 * 0 + 0))) with (3/2) by lra. destruct (Rleb _ 0) eqn:R; [apply Rleb_true in R; lra|auto]. }
  assert (F2 : face_alpha [/25000; 0] [/25000; 0] ([-1; 0], 0) = None). { unfold face_alpha. cbn [fst snd]. rewrite !dot_cons, !dot_nil_l. destruct (Reqb _ 0) eqn:Q; auto. destruct (Rleb _ 0) eqn:R; auto. apply Rleb_false in R. replace ((0 - (-1 * /25000 + (0 * 0 + 0))) / (-1 * /25000 + (0 * 0 + 0))) with (-1) in R by lra. lra. }
  assert (EM : map (site_alpha I2 [/25000; 0] (site Xt [0; 1]%nat 0) [/25000; 0]) Xt = [None; None]).
  { unfold Xt at 2. cbn [map]. rewrite !S by lra. auto. }
  rewrite SD, EM. unfold bA, bb. cbn [map combine]. rewrite F1, F2. cbn. f_equal; [lra|f_equal; lra].
Qed.
Lemma sweep_first : fst (mb_sweep I2 bvv 3 bX) = [[0; 0]; [/10000; 0]; [/10000; 0]].
Proof.
  unfold mb_sweep. cbn [seq fold_left]. unfold mb_row at 3. cbn [fst snd bX nth without firstn skipn app set_row]. unfold without. cbn [firstn skipn app]. rewrite b_end by auto.
  unfold mb_row at 2. cbn [fst snd]. unfold set_row, without. cbn [firstn skipn app nth]. rewrite b_end by auto. unfold mb_row. cbn [fst snd]. unfold set_row, without. cbn [firstn skipn app nth]. rewrite b_mid. auto.
Qed.
Lemma sweep_fixed : forall a b c, (a = 0 \/ a = /10000) -> (b = 0 \/ b = /10000) -> (c = 0 \/ c = /10000) -> fst (mb_sweep I2 bvv 3 [[a; 0]; [b; 0]; [c; 0]]) = [[a; 0]; [b; 0]; [c; 0]].
Proof.
  intros a b c Ha Hb Hc. unfold mb_sweep. cbn [seq fold_left]. unfold mb_row at 3. cbn [fst snd nth]. unfold set_row, without. cbn [firstn skipn app]. rewrite b_end by auto.
  unfold mb_row at 2. cbn [fst snd]. unfold set_row, without. cbn [firstn skipn app nth]. rewrite b_end by auto. unfold mb_row. cbn [fst snd]. unfold set_row, without. cbn [firstn skipn app nth]. rewrite b_end by auto. auto.
Qed.
Lemma loop_fixed : forall n xtol, mb_loop n I2 bvv 3 xtol [[0; 0]; [/10000; 0]; [/10000; 0]] = [[0; 0]; [/10000; 0]; [/10000; 0]].
Proof.
  intros n xtol. assert (E : fst (mb_sweep I2 bvv 3 [[0; 0]; [/10000; 0]; [/10000; 0]]) = [[0; 0]; [/10000; 0]; [/10000; 0]]) by (apply sweep_fixed; auto).
  induction n as [|n IH]; [auto|]. cbn [mb_loop]. rewrite E. destruct (Rltb _ _); auto.
Qed.
(** every call of the sweeps meets the contracts of the walk, the starting points are apart, and two points of the design coincide *)
Theorem block_apart_refuted : exists m L A b Aeq qr ords gs N X0, let vv := fun Xt x => vv_walk (m - length Aeq) 0 m L A b Aeq Xt qr false (ords Xt) gs x in
  length L <> 1%nat /\ length X0 = N /\ Forall (inP m A b) X0 /\ apart L (/25000)%R X0 /\
  (forall xtol maxiter c, In c (block_calls L vv N xtol maxiter X0) -> walk_pre m L A b Aeq (fst c) qr (ords (fst c)) gs) /\
  forall xtol maxiter c1 c2, (0 < maxiter)%nat -> let D := maximin_block maxiter L c1 c2 vv N xtol X0 in nth 1 D [] = nth 2 D [] /\ ~ apart L (/25000)%R D.
Proof.
  exists 2%nat, I2, bA, bb, bAeq, bqr, bord, (fun _ => [1; 0]), 3%nat, bX. change (fun Xt x => vv_walk (2 - length bAeq) 0 2 I2 bA bb bAeq Xt bqr false (bord Xt) (fun _ => [1; 0]) x) with bvv. cbv zeta.
  split; [discriminate|]. split; [reflexivity|]. split.
  { assert (G : forall x, 0 <= x <= /10000 -> inP 2 bA bb [x; 0]).
    { intros x Hx. unfold inP. split; [reflexivity|]. intros a c [E|[E|[]]]; injection E as <- <-; rewrite !dot_cons, !dot_nil_l; lra. }
    unfold bX. apply Forall_cons; [apply G; lra|]. apply Forall_cons; [apply G; lra|]. apply Forall_cons; [apply G; lra|]. apply Forall_nil. }
  split.
  { intros i j Hi Hj NE. simpl in Hi, Hj. destruct i as [|[|[|i]]], j as [|[|[|j]]]; try lia; unfold bX; cbn [nth]; rewrite I2dist; try (rewrite Rabs_right; lra); rewrite Rabs_left; lra. }
  split.
  - intros xtol maxiter.
    assert (W : forall is X, length X = 3%nat -> Forall (fun x => length x = 2%nat) X -> (forall i, In i is -> (i < 3)%nat) -> forall c, In c (sweep_calls bvv is X) -> walk_pre 2 I2 bA bb bAeq (fst c) bqr (bord (fst c)) (fun _ => [1; 0])).
    { induction is as [|i is IH]; intros X LX FX HI c Ic; [destruct Ic|]. destruct X as [|x0 [|x1 [|x2 [|]]]]; try discriminate. inversion FX as [|? ? F0 FX1]; subst. inversion FX1 as [|? ? F1 FX2]; subst. inversion FX2 as [|? ? F2 _]; subst. cbn [sweep_calls] in Ic. assert (H3 : (i < 3)%nat) by (apply HI; left; auto).
      destruct Ic as [<-|Ic].
      - cbn [fst]. destruct i as [|[|[|i]]]; try lia; cbn; apply b_pre; auto.
      - assert (LV : forall p q x, length p = 2%nat -> length q = 2%nat -> length x = 2%nat -> length (bvv [p; q] x) = 2%nat).
        { intros p q x Lp Lq Lx. unfold bvv. cbn [vv_walk]. unfold vv_step. set (h := vv_dir 2 I2 bqr false _ _ x _). assert (Lh : length h = 2%nat). { unfold h, vv_dir. match goal with |- context [vsub x ?s] => set (s0 := s) end. assert (LL : length (ltl 2 I2 (vsub x s0)) = 2%nat) by (apply ltl_length; repeat constructor). destruct (vv_null _ _ _ _ _ _ _ _ _) as [|c0 l0] eqn:EN; [auto|]. rewrite andb_false_r. apply proj_out_length; auto. unfold bqr. destruct (forallb _ _); repeat constructor. } rewrite vadd_length; rewrite ?vscale_length; congruence. }
        refine (IH _ _ _ (fun i I => HI i (or_intror I)) c Ic); (destruct i as [|[|[|i]]]; [| | |lia]); unfold set_row, without; cbn [firstn skipn app nth]; [reflexivity|reflexivity|reflexivity| | |]; (apply Forall_cons; [|apply Forall_cons; [|apply Forall_cons; [|apply Forall_nil]]]); auto. }
    assert (G : forall n X, X = bX \/ X = [[0; 0]; [/10000; 0]; [/10000; 0]] -> forall c, In c (block_calls I2 bvv 3 xtol n X) -> walk_pre 2 I2 bA bb bAeq (fst c) bqr (bord (fst c)) (fun _ => [1; 0])).
    { induction n as [|n IH]; intros X HX c Ic; [destruct Ic|]. cbn [block_calls] in Ic. apply in_app_or in Ic. destruct Ic as [Ic|Ic].
      - apply (W (seq 0 3) X) in Ic; auto; [destruct HX; subst; auto|destruct HX; subst; unfold bX; repeat constructor|intros i I; apply in_seq in I; lia].
      - destruct (Rltb _ _); [destruct Ic|]. apply (IH (fst (mb_sweep I2 bvv 3 X))); auto. right. destruct HX as [-> | ->]; [apply sweep_first|apply sweep_fixed; auto]. }
    intros c Ic. apply (G maxiter bX); auto.
  - intros xtol maxiter c1 c2 Hm. destruct maxiter as [|n]; [lia|]. assert (E : maximin_block (S n) I2 c1 c2 bvv 3 xtol bX = [[0; 0]; [/10000; 0]; [/10000; 0]]).
    { unfold maximin_block. cbn [length Nat.eqb I2 mb_loop]. fold I2. rewrite sweep_first. destruct (Rltb _ _); auto. apply loop_fixed. }
    rewrite E. split; [reflexivity|]. intro AP. specialize (AP 1%nat 2%nat). cbn [nth length] in AP. rewrite I2dist in AP. replace (/10000 - /10000) with 0 in AP by ring. rewrite Rabs_R0 in AP. specialize (AP ltac:(lia) ltac:(lia) ltac:(lia)). lra.
Qed.
