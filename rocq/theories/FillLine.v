(** fill_distance_estimate on an interval: exact as soon as every gap between neighbouring sites holds a starting point away from the tolerances. *)
Require Import Reals Lra Lia List Bool Arith.
From Verif Require Import RVec Num Sums DomModel DomSpec DomProofs DomMoreModel SweepProofs HullProofs HullIneqProofs LipModel LipProofs MatLib GrassLib SampModel PigeonLib LatinProofs PoissonProofs PoissonCases DesignProofs CoffeeProofs GeoModel GeoProofs VoronoiProofs WalkProofs VoronoiCases FillModel FillProofs FillCases.
Import ListNotations.
Local Open Scope R_scope.

(** the interval [lo, hi] as polytope *)
Definition iA : mat := [[1]; [-1]].
Definition ib (lo hi : R) : vec := [hi; - lo].
(** a start that no tolerance of voronoi_vertex_sample touches: not isclose to an end, at least 1e-10 from the sites, and no two sites so
    close that the test of the denominator (vertex.py 280) drops their bisector *)
Definition clear_start (lo hi : R) (Xhat : mat) (s : R) : Prop :=
  atol + rtol * Rabs hi < hi - s /\ atol + rtol * Rabs lo < s - lo /\
  (forall c, In [c] Xhat -> / 10000000000 <= Rabs (s - c)) /\
  forall c c', In [c] Xhat -> In [c'] Xhat -> c = c' \/ atol < Rabs (c' - c) * Rabs (s - c).
(** no site lies strictly between s and y *)
Definition same_gap (Xhat : mat) (s y : R) : Prop := forall c, In [c] Xhat -> ~ (Rmin s y < c < Rmax s y).

Lemma Ldist1 : forall x y, Ldist [[1]] [x] [y] = Rabs (x - y).
Proof.
  intros. unfold Ldist, norm2, norm2sq, mv. cbn [map vsub vmap2]. rewrite !dot1. cbn [vadd vscale map vmap2]. rewrite ?dot1.
  transitivity (sqrt (Rsqr (x - y))); [f_equal; unfold Rsqr; ring|apply sqrt_Rsqr_abs].
Qed.
Lemma len1 : forall x : vec, length x = 1%nat -> exists a, x = [a].
Proof. intros [|a [|]] H; try discriminate. exists a. auto. Qed.
Lemma inP1 : forall lo hi x, inP 1 iA (ib lo hi) [x] <-> lo <= x <= hi.
Proof.
  intros. unfold inP, sat, iA, ib. cbn [combine]. split.
  - intros [_ H]. pose proof (H [1] hi ltac:(simpl; auto)). pose proof (H [-1] (- lo) ltac:(simpl; auto)). rewrite dot1 in *. lra.
  - intros H. split; auto. intros a b I. destruct I as [E|[E|[]]]; injection E as <- <-; rewrite dot1; lra.
Qed.
Lemma omin_list_in : forall l a, omin_list l = Some a -> In (Some a) l.
Proof.
  induction l as [|o l IH]; intros a E; [discriminate|]. cbn [omin_list fold_right] in E. fold (omin_list l) in E. destruct o as [y|]; destruct (omin_list l) as [z|] eqn:EZ; simpl in E; try discriminate; injection E as <-.
  - unfold Rmin. destruct (Rle_dec y z); [left; auto|right; apply IH; auto].
  - left; auto.
  - right; apply IH; auto.
Qed.

Section Line.
Variables (lo hi : R) (Xhat : mat) (qr : mat -> mat) (ords : vec -> list nat) (gs : nat -> vec).
Hypothesis WP : walk_pre 1 [[1]] iA (ib lo hi) [] Xhat qr ords gs.
Variables (s : R).
Hypothesis IN : lo <= s <= hi.
Hypothesis CL : clear_start lo hi Xhat s.
Notation xh := (site Xhat (ords [s]) 0).
Notation x' := (vv_step 1 [[1]] iA (ib lo hi) [] Xhat qr false (ords [s]) (gs O) 0 [s]).

Lemma null_nil : vv_null 1 [[1]] iA (ib lo hi) [] Xhat (ords [s]) 0 [s] = [].
Proof using CL IN.
  clear WP. unfold vv_null, iA, ib. cbn [app combine filter fst snd]. destruct CL as [C1 [C2 _]]. rewrite !dot1.
  assert (N1 : np_close (1 * s) hi = false). { unfold np_close. destruct (Rleb _ _) eqn:Q; auto. apply Rleb_true in Q. rewrite Rabs_left1 in Q by lra. lra. }
  assert (N2 : np_close (-1 * s) (- lo) = false). { unfold np_close. destruct (Rleb _ _) eqn:Q; auto. apply Rleb_true in Q. rewrite Rabs_Ropp in Q. rewrite Rabs_left1 in Q by lra. lra. }
  rewrite N1, N2. cbn [map app]. replace (Nat.min (0 + 1) (length Xhat) - 1)%nat with 0%nat by lia. reflexivity.
Qed.
(** the end of the step: on the same side of the nearest site, farther away, and at the end of the interval or half way to another site *)
Lemma line_step : exists c v, xh = [c] /\ x' = [v] /\ In [c] Xhat /\ lo <= v <= hi /\ (forall a, In [a] Xhat -> Rabs (v - c) <= Rabs (v - a)) /\
  ((c < s /\ s <= v /\ (v = hi \/ exists a, In [a] Xhat /\ a + c = 2 * v /\ a <> c)) \/ (s < c /\ v <= s /\ (v = lo \/ exists a, In [a] Xhat /\ a + c = 2 * v /\ a <> c))).
Proof.
  assert (PI : inP 1 iA (ib lo hi) [s]) by (apply inP1; auto). pose proof (walk_step_pre 1 [[1]] iA (ib lo hi) [] Xhat qr ords gs WP 0 [s] PI) as PRE.
  pose proof (xh_in 1 [[1]] iA (ib lo hi) [] Xhat qr (ords [s]) (gs O) 0 [s] PRE) as XI. pose proof (xh_len 1 [[1]] iA (ib lo hi) [] Xhat qr (ords [s]) (gs O) 0 [s] PRE) as XL.
  destruct (vv_step_correct 1 [[1]] iA (ib lo hi) [] Xhat qr false (ords [s]) (gs O) 0 [s] PRE) as (S1 & _ & S3 & _).
  pose proof (alpha_nonneg [[1]] iA (ib lo hi) Xhat [s] xh (step_h 1 [[1]] iA (ib lo hi) [] Xhat qr false (ords [s]) (gs O) 0 [s])) as AN.
  pose proof (vv_step_eq 1 [[1]] iA (ib lo hi) [] Xhat qr false (ords [s]) (gs O) 0 [s]) as SE. unfold step_al in SE.
  destruct (len1 _ XL) as [c EC]. rewrite EC in *. assert (HE : step_h 1 [[1]] iA (ib lo hi) [] Xhat qr false (ords [s]) (gs O) 0 [s] = [s - c]).
  { unfold step_h. rewrite null_nil. unfold vv_dir. rewrite EC. unfold ltl, mv. cbn [map vsub vmap2 lincomb vadd vscale vzero repeat]. rewrite !dot1. f_equal. ring. }
  rewrite HE in *. set (al0 := al [[1]] iA (ib lo hi) Xhat [s] [c] [s - c]) in *.
  assert (XE : x' = [s + al0 * (s - c)]) by (rewrite SE; reflexivity). rewrite XE in *. clear SE XE. set (v := s + al0 * (s - c)) in *. apply inP1 in S1.
  destruct CL as (C1 & C2 & C3 & C4). pose proof (C3 c XI) as D3.
  assert (NR : forall a, In [a] Xhat -> Rabs (v - c) <= Rabs (v - a)).
  { intros a Ia. rewrite <- !Ldist1. apply S3; auto. unfold mv. cbn [map vsub vmap2]. rewrite !dot1. destruct (C4 c a XI Ia) as [->|C]; [left; lra|].
    destruct (Rle_dec ((a - c) * (s - c)) 0); [left; lra|right]. rewrite <- Rabs_mult, Rabs_right in C by lra. lra. }
  exists c, v. do 5 (split; auto).
  assert (FIN : (exists a, In [a] Xhat /\ a + c = 2 * v /\ a <> c) \/ (exists p, In p (combine iA (ib lo hi)) /\ face_alpha [s] [s - c] p = Some al0)).
  { unfold al0, al, vv_alpha. assert (SD : small_dir [s - c] = false). { unfold small_dir. destruct (Rltb _ _) eqn:Q; auto. apply Rltb_true in Q. cbn in Q. lra. }
    rewrite SD. destruct (omin_list (map (face_alpha [s] [s - c]) (combine iA (ib lo hi)))) as [f|] eqn:EF.
    2:{ exfalso. assert (exists p z, In p (combine iA (ib lo hi)) /\ face_alpha [s] [s - c] p = Some z) as (p & z & Ip & Ez).
        { assert (atol > 0) by (unfold atol; lra). pose proof (Rabs_pos hi). pose proof (Rabs_pos lo). assert (0 <= rtol * Rabs hi) by (unfold rtol; nra). assert (0 <= rtol * Rabs lo) by (unfold rtol; nra).
          assert (s - c <> 0) by (intro Z; rewrite Z, Rabs_R0 in D3; lra). destruct (Rle_dec 0 (s - c)).
          - exists ([1], hi), ((hi - s) / (s - c)). split; [simpl; auto|]. unfold face_alpha. cbn [fst snd]. rewrite !dot1. destruct (Reqb (1 * (s - c)) 0) eqn:Q; [apply Reqb_true in Q; lra|].
            replace ((hi - 1 * s) / (1 * (s - c))) with ((hi - s) / (s - c)) by (field; lra). assert (0 < (hi - s) / (s - c)) by (apply Rdiv_lt_0_compat; lra). destruct (Rleb _ 0) eqn:Q2; auto. apply Rleb_true in Q2. lra.
          - exists ([-1], - lo), ((s - lo) / (c - s)). split; [simpl; auto|]. unfold face_alpha. cbn [fst snd]. rewrite !dot1. destruct (Reqb (-1 * (s - c)) 0) eqn:Q; [apply Reqb_true in Q; lra|].
            replace ((- lo - -1 * s) / (-1 * (s - c))) with ((s - lo) / (c - s)) by (field; lra). assert (0 < (s - lo) / (c - s)) by (apply Rdiv_lt_0_compat; lra). destruct (Rleb _ 0) eqn:Q2; auto. apply Rleb_true in Q2. lra. }
        destruct (omin_list_le (map (face_alpha [s] [s - c]) (combine iA (ib lo hi))) z) as [m [Em _]]; [rewrite <- Ez; apply in_map; auto|]. congruence. }
    assert (FF : exists p, In p (combine iA (ib lo hi)) /\ face_alpha [s] [s - c] p = Some f). { apply omin_list_in in EF. apply in_map_iff in EF. destruct EF as [p [E I]]. exists p. auto. }
    assert (AE : al0 = match omin (omin_list (map (site_alpha [[1]] [s] [c] [s - c]) Xhat)) (Some f) with Some a => a | None => 0 end) by (unfold al0, al, vv_alpha; rewrite SD, EF; reflexivity).
    destruct (omin_list (map (site_alpha [[1]] [s] [c] [s - c]) Xhat)) as [z|] eqn:EZ; cbn [omin] in AE |- *; [|right; rewrite <- AE; rewrite <- AE in FF; auto].
    destruct (Rle_dec z f).
    - rewrite Rmin_left in AE |- * by auto. left. apply omin_list_in in EZ. apply in_map_iff in EZ. destruct EZ as [a0 [Ea Ia]]. assert (La : length a0 = 1%nat) by (destruct WP as (_ & _ & _ & _ & F & _); rewrite Forall_forall in F; auto).
      destruct (len1 _ La) as [a ->]. unfold site_alpha in Ea. unfold mv in Ea. cbn [map vsub vadd vscale vmap2] in Ea. rewrite !dot1 in Ea.
      destruct (np_close _ 0) eqn:Q in Ea; [discriminate|]. destruct (Rltb _ 0) in Ea; [discriminate|]. injection Ea as Ea.
      assert (NZ : (a - c) * (s - c) <> 0). { intro Z. unfold np_close in Q. apply Rleb_false in Q. replace (1 * (a - c) * (1 * (s - c))) with ((a - c) * (s - c)) in Q by ring. rewrite Z, !Rminus_0_r, !Rabs_R0, ?Rabs_R0 in Q. unfold atol in Q. lra. }
      exists a. split; auto. assert (a - c <> 0 /\ s - c <> 0) as [NA NS] by (split; intro Z; rewrite Z in NZ; apply NZ; ring). split; [|lra].
      unfold v. rewrite AE, <- Ea. field. lra.
    - rewrite Rmin_right in AE |- * by lra. right. exact FF. }
  assert (SC : s - c <> 0) by (intro Z; rewrite Z, Rabs_R0 in D3; lra).
  assert (AN' : 0 <= al0) by exact AN.
  destruct (Rlt_dec c s) as [G|G].
  - left. split; auto. split; [unfold v; nra|]. destruct FIN as [FIN|[p [Ip Ep]]]; [right; auto|]. left. destruct Ip as [<-|[<-|[]]]; unfold face_alpha in Ep; cbn [fst snd] in Ep; rewrite !dot1 in Ep; destruct (Reqb _ _) in Ep; try discriminate; destruct (Rleb _ 0) eqn:Q in Ep; try discriminate; injection Ep as Ep.
    + unfold v. rewrite <- Ep. field. lra.
    + exfalso. assert (v = lo) by (unfold v; rewrite <- Ep; field; lra). assert (s <= v) by (unfold v; nra). pose proof (Rabs_pos lo). assert (atol > 0) by (unfold atol; lra). assert (0 <= rtol * Rabs lo) by (unfold rtol; nra). lra.
  - right. split; [lra|]. split; [unfold v; nra|]. destruct FIN as [FIN|[p [Ip Ep]]]; [right; auto|]. left. destruct Ip as [<-|[<-|[]]]; unfold face_alpha in Ep; cbn [fst snd] in Ep; rewrite !dot1 in Ep; destruct (Reqb _ _) in Ep; try discriminate; destruct (Rleb _ 0) eqn:Q in Ep; try discriminate; injection Ep as Ep.
    + exfalso. assert (v = hi) by (unfold v; rewrite <- Ep; field; lra). assert (v <= s) by (unfold v; nra). pose proof (Rabs_pos hi). assert (atol > 0) by (unfold atol; lra). assert (0 <= rtol * Rabs hi) by (unfold rtol; nra). lra.
    + unfold v. rewrite <- Ep. field. lra.
Qed.
End Line.

(** the distance from y to the sites is at most the distance reached from a start in the same gap *)
Lemma line_bound : forall lo hi Xhat qr ords gs s y, walk_pre 1 [[1]] iA (ib lo hi) [] Xhat qr ords gs -> lo <= s <= hi -> clear_start lo hi Xhat s -> lo <= y <= hi -> same_gap Xhat s y ->
  mind [[1]] Xhat [y] <= mind [[1]] Xhat (vv_step 1 [[1]] iA (ib lo hi) [] Xhat qr false (ords [s]) (gs O) 0 [s]).
Proof.
  intros lo hi Xhat qr ords gs s y WP IN CL HY SG. destruct (line_step lo hi Xhat qr ords gs WP s IN CL) as (c & v & _ & -> & Ic & Hv & NR & ALT).
  assert (MV : mind [[1]] Xhat [v] = Rabs (v - c)).
  { assert (XN : Xhat <> []) by apply WP. apply Rle_antisym.
    - rewrite <- Ldist1, Ldist_sym. unfold mind. apply (vmin_map_le vec (fun z => Ldist [[1]] z [v])). auto.
    - unfold mind. destruct (vmin_map_at vec (fun z => Ldist [[1]] z [v]) Xhat XN) as [z [Iz Ez]]. rewrite Ez. assert (Lz : length z = 1%nat) by (destruct WP as (_ & _ & _ & _ & F & _); rewrite Forall_forall in F; auto). destruct (len1 _ Lz) as [a ->]. rewrite Ldist_sym, Ldist1. auto. }
  assert (MY : forall a, In [a] Xhat -> mind [[1]] Xhat [y] <= Rabs (y - a)). { intros a Ia. rewrite <- Ldist1, Ldist_sym. unfold mind. apply (vmin_map_le vec (fun z => Ldist [[1]] z [y])). auto. }
  rewrite MV. unfold same_gap in SG. pose proof (SG c Ic) as SGc. pose proof (MY c Ic) as MC.
  destruct ALT as [(G & SV & F)|(G & SV & F)].
  - assert (c <= y) by (destruct (Rle_dec c y); auto; exfalso; apply SGc; rewrite Rmin_right, Rmax_left by lra; lra).
    rewrite (Rabs_right (v - c)) by lra. rewrite (Rabs_right (y - c)) in MC by lra. destruct F as [->|(a & Ia & E & N)]; [lra|]. pose proof (MY a Ia) as MA. pose proof (SG a Ia) as SGa.
    assert (y <= a) by (destruct (Rle_dec y a); auto; exfalso; apply SGa; rewrite Rmin_left, Rmax_right by lra; lra). rewrite Rabs_left1 in MA by lra. lra.
  - assert (y <= c) by (destruct (Rle_dec y c); auto; exfalso; apply SGc; rewrite Rmin_left, Rmax_right by lra; lra).
    rewrite (Rabs_left1 (v - c)) by lra. rewrite (Rabs_left1 (y - c)) in MC by lra. destruct F as [->|(a & Ia & E & N)]; [lra|]. pose proof (MY a Ia) as MA. pose proof (SG a Ia) as SGa.
    assert (a <= y) by (destruct (Rle_dec a y); auto; exfalso; apply SGa; rewrite Rmin_right, Rmax_left by lra; lra). rewrite Rabs_right in MA by lra. lra.
Qed.

(** exact on an interval: no point of the interval is farther from the sites than the estimate, and one is as far *)
Theorem est_line : forall lo hi Xhat qr ords X0, walk_pre 1 [[1]] iA (ib lo hi) [] Xhat qr ords (fun _ => vzero 1) -> Forall (inP 1 iA (ib lo hi)) X0 -> X0 <> [] ->
  (forall y, lo <= y <= hi -> exists s, In [s] X0 /\ clear_start lo hi Xhat s /\ same_gap Xhat s y) ->
  exists d, fill_estimate 1 1 [[1]] iA (ib lo hi) [] Xhat qr ords X0 = Some d /\
    (forall y, lo <= y <= hi -> exists c, In [c] Xhat /\ Rabs (y - c) <= d) /\
    exists y, lo <= y <= hi /\ forall c, In [c] Xhat -> d <= Rabs (y - c).
Proof.
  intros lo hi Xhat qr ords X0 WP IN NE COV. destruct (est_attained 1 1 [[1]] iA (ib lo hi) [] Xhat qr ords X0 WP IN NE) as (d & x0 & x & E & I & P & _ & LB & _). exists d. split; auto. split.
  - intros y Hy. destruct (COV y Hy) as (s & Is & CL & SG). assert (Ps : lo <= s <= hi) by (apply inP1; rewrite Forall_forall in IN; auto).
    pose proof (line_bound lo hi Xhat qr ords (fun _ => vzero 1) s y WP Ps CL Hy SG) as B. rewrite (est_eq 1 1 [[1]] iA (ib lo hi) [] Xhat qr ords X0 NE) in E. injection E as E.
    pose proof (vmax_map_ge vec (fun x => mind [[1]] Xhat (vv_walk (fe_steps 1 1 []) 0 1 [[1]] iA (ib lo hi) [] Xhat qr false ords (fun _ => vzero 1) x)) X0 [s] Is) as V. cbv beta in V.
    change (fe_steps 1 1 []) with 1%nat in V, E. cbn [vv_walk] in V, E. rewrite E in V.
    assert (XN : Xhat <> []) by apply WP. destruct (vmin_map_at vec (fun z => Ldist [[1]] z [y]) Xhat XN) as [z [Iz Ez]]. assert (Lz : length z = 1%nat) by (destruct WP as (_ & _ & _ & _ & F & _); rewrite Forall_forall in F; auto).
    destruct (len1 _ Lz) as [a ->]. exists a. split; auto. rewrite Ldist_sym, Ldist1 in Ez. unfold mind in B at 1. rewrite Ez in B. lra.
  - assert (Lx : length x = 1%nat) by apply P. destruct (len1 _ Lx) as [v ->]. exists v. split; [apply inP1; auto|]. intros c Ic. rewrite <- Ldist1. auto.
Qed.
(** sites 0 and 10 on [0, 10], one start at 1: the estimate is 5 *)
Example est_line_case : walk_pre 1 [[1]] iA (ib 0 10) [] wX tqr word (fun _ => vzero 1) /\ Forall (inP 1 iA (ib 0 10)) [[1]] /\
  (forall y, 0 <= y <= 10 -> exists s, In [s] [[1]] /\ clear_start 0 10 wX s /\ same_gap wX s y).
Proof.
  assert (EB : ib 0 10 = wb) by (unfold ib, wb; f_equal; f_equal; lra). split; [rewrite EB; exact w_pre|]. split; [constructor; [apply inP1; lra|constructor]|].
  intros y Hy. exists 1. split; [left; auto|]. split.
  - unfold clear_start, atol, rtol, wX. rewrite Rabs_R0, (Rabs_right 10) by lra. split; [lra|]. split; [lra|]. split.
    + intros c [E|[E|[]]]; injection E as <-; unfold Rabs; destruct (Rcase_abs _); lra.
    + intros c c' [E|[E|[]]] [E'|[E'|[]]]; injection E as <-; injection E' as <-; auto; right; unfold Rabs; repeat destruct (Rcase_abs _); lra.
  - intros c [E|[E|[]]]; injection E as <-; unfold Rmin, Rmax; destruct (Rle_dec 1 y); lra.
Qed.
(** a gap without a start is not seen: sites 0 and 10 on [0, 30] and one start, clear of all tolerances, give 5 although the end 30 is 20 away *)
Lemma w30_pre : walk_pre 1 [[1]] iA (ib 0 30) [] wX tqr word (fun _ => vzero 1).
Proof.
  destruct w_pre as (P1 & P2 & P3 & P4 & P5 & P6 & P7 & P8). unfold walk_pre. do 6 (split; [assumption|]). split; [|assumption].
  intros x [Lx _]. destruct (len1 _ Lx) as [a ->]. unfold first_nearest, word, site, wX. cbn [vget nth length]. destruct (Rleb (Rabs a) (Rabs (a - 10))) eqn:E; cbn [nth].
  - apply Rleb_true in E. split; [intros [|[|j]] Hj; simpl; lia|]. intros z [<-|[<-|[]]]; rewrite !Ldist1, Rminus_0_r; lra.
  - apply Rleb_false in E. split; [intros [|[|j]] Hj; simpl; lia|]. intros z [<-|[<-|[]]]; rewrite !Ldist1, ?Rminus_0_r; lra.
Qed.
Theorem est_line_refuted : exists lo hi Xhat qr ords X0 y d, walk_pre 1 [[1]] iA (ib lo hi) [] Xhat qr ords (fun _ => vzero 1) /\ Forall (inP 1 iA (ib lo hi)) X0 /\
  (forall s, In [s] X0 -> clear_start lo hi Xhat s) /\ fill_estimate 1 1 [[1]] iA (ib lo hi) [] Xhat qr ords X0 = Some d /\ lo <= y <= hi /\ forall c, In [c] Xhat -> 4 * d <= Rabs (y - c).
Proof.
  assert (CS : clear_start 0 30 wX 1).
  { unfold clear_start, atol, rtol, wX. rewrite Rabs_R0, (Rabs_right 30) by lra. split; [lra|]. split; [lra|]. split.
    - intros c [E|[E|[]]]; injection E as <-; unfold Rabs; destruct (Rcase_abs _); lra.
    - intros c c' [E|[E|[]]] [E'|[E'|[]]]; injection E as <-; injection E' as <-; auto; right; unfold Rabs; repeat destruct (Rcase_abs _); lra. }
  exists 0, 30, wX, tqr, word, [[1]], 30, 5. split; [apply w30_pre|]. split; [constructor; [apply inP1; lra|constructor]|]. split; [intros s [E|[]]; injection E as <-; auto|]. split; [|split; [lra|]].
  - rewrite est_eq by discriminate. change (fe_steps 1 1 []) with 1%nat. cbn [map vv_walk]. destruct (line_step 0 30 wX tqr word (fun _ => vzero 1) w30_pre 1 ltac:(lra) CS) as (c & v & EC & -> & _ & Hv & NR & ALT).
    assert (c = 0). { unfold site, word, wX in EC. cbn [vget nth] in EC. destruct (Rleb (Rabs 1) (Rabs (1 - 10))) eqn:Q; [cbn [nth] in EC; injection EC as <-; auto|]. apply Rleb_false in Q. rewrite (Rabs_right 1), (Rabs_left (1 - 10)) in Q by lra. lra. } subst c.
    destruct ALT as [(_ & SV & F)|(G & _)]; [|lra]. pose proof (NR 10 ltac:(simpl; auto)) as N10. assert (v = 5).
    { destruct F as [->|(a & [Ia|[Ia|[]]] & E & N)]; [rewrite !Rabs_right in N10 by lra; lra| |]; injection Ia as <-; lra. }
    subst v. f_equal. unfold vmax. cbn [map fold_left]. unfold mind, vmin, wX. cbn [map fold_left]. rewrite !Ldist1. rewrite Rabs_left by lra. rewrite Rabs_right by lra. rewrite Rmin_left; lra.
  - intros c [E|[E|[]]]; injection E as <-; rewrite Rabs_right; lra.
Qed.
