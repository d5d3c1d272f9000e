(** fill_distance_estimate is a lower bound of the fill distance. *)
Require Import Reals Lra Lia List Bool Arith.
From Verif Require Import RVec Num Sums DomModel DomSpec DomProofs DomMoreModel SweepProofs HullProofs HullIneqProofs LipModel LipProofs MatLib GrassLib SampModel PigeonLib LatinProofs PoissonProofs PoissonCases DesignProofs CoffeeProofs GeoModel GeoProofs VoronoiProofs WalkProofs VoronoiCases FillModel.
Import ListNotations.
Local Open Scope R_scope.

Lemma Ldist_sym : forall L x y, Ldist L x y = Ldist L y x.
Proof.
  intros. unfold Ldist. unfold norm2. f_equal. generalize (mv L x) (mv L y). clear. unfold norm2sq. intros v. induction v as [|a v IH]; intros [|b w]; try reflexivity. change (vsub (a :: v) (b :: w)) with (a - b :: vsub v w). change (vsub (b :: w) (a :: v)) with (b - a :: vsub w v). rewrite !dot_cons, IH. ring.
Qed.
Lemma min_mind : forall L Xhat x, vmin (map (fun xh => Ldist L x xh) Xhat) = mind L Xhat x.
Proof. intros. unfold mind. f_equal. apply map_ext. intro. apply Ldist_sym. Qed.
Section FE.
Variables (m lrank : nat) (L A : mat) (b : vec) (Aeq Xhat : mat) (qr : mat -> mat) (ords : vec -> list nat) (X0 : mat).
Notation est := (fill_estimate m lrank L A b Aeq Xhat qr ords X0).
Notation wk i := (vv_walk i 0 m L A b Aeq Xhat qr false ords (fun _ => vzero m)).
Hypothesis WP : walk_pre m L A b Aeq Xhat qr ords (fun _ => vzero m).
Hypothesis IN : Forall (inP m A b) X0.
Hypothesis NE : X0 <> [].
Lemma est_eq : est = Some (vmax (map (fun x => mind L Xhat (wk (fe_steps m lrank Aeq) x)) X0)).
Proof using NE.
  clear IN. unfold fill_estimate. destruct X0 as [|x X]; [exfalso; apply NE; reflexivity|]. cbv zeta. cbn [map]. f_equal. rewrite map_map, min_mind. do 2 f_equal. apply map_ext. intro. apply min_mind.
Qed.
Lemma est_attained0 : exists d x0 x, est = Some d /\ In x0 X0 /\ inP m A b x /\ (forall a, In a Aeq -> dot a x = dot a x0) /\ mind L Xhat x = d.
Proof.
  destruct (vmax_map_at vec (fun x => mind L Xhat (wk (fe_steps m lrank Aeq) x)) X0 NE) as [x0 [I E]].
  destruct (walk_inside m L A b Aeq Xhat qr false ords (fun _ => vzero m) (fe_steps m lrank Aeq) x0 WP (proj1 (Forall_forall _ _) IN x0 I)) as [P Q].
  exists (mind L Xhat (wk (fe_steps m lrank Aeq) x0)), x0, (wk (fe_steps m lrank Aeq) x0). rewrite est_eq, E. auto.
Qed.
Lemma est_starts0 : forall Dm, (forall x y, inP m A b x -> inP m A b y -> edist x y <= Dm) ->
  (forall x0 i, In x0 X0 -> (i < fe_steps m lrank Aeq)%nat -> clean_step m L A b Aeq Xhat qr false ords (fun _ => vzero m) i (wk i x0)) ->
  exists d, est = Some d /\ forall x0, In x0 X0 -> mind L Xhat x0 <= d.
Proof.
  intros Dm HD HC. exists (vmax (map (fun x => mind L Xhat (wk (fe_steps m lrank Aeq) x)) X0)). split; [apply est_eq|]. intros x0 I.
  pose proof (walk_far_partial m L A b Aeq Xhat qr false ords (fun _ => vzero m) (fe_steps m lrank Aeq) x0 Dm WP (proj1 (Forall_forall _ _) IN x0 I) HD (fun i Hi => HC x0 i I Hi)) as W. cbv zeta in W. rewrite Rplus_0_r in W.
  eapply Rle_trans; [|apply (vmax_map_ge vec (fun x => mind L Xhat (wk (fe_steps m lrank Aeq) x)) X0 x0 I)]. cbv beta.
  assert (0 <= mind L Xhat (wk (fe_steps m lrank Aeq) x0)). { unfold mind. assert (XN : Xhat <> []) by apply WP. destruct (vmin_map_at vec (fun xh => Ldist L xh (wk (fe_steps m lrank Aeq) x0)) Xhat XN) as [z [_ E]]. rewrite E. apply sqrt_pos. }
  apply Rsqr_incr_0_var; auto.
Qed.
End FE.
(** the estimate is the distance at a point of the domain, hence a lower bound of every upper bound of the distances *)
Theorem est_attained : forall m lrank L A b Aeq Xhat qr ords X0, walk_pre m L A b Aeq Xhat qr ords (fun _ => vzero m) -> Forall (inP m A b) X0 -> X0 <> [] ->
  exists d x0 x, fill_estimate m lrank L A b Aeq Xhat qr ords X0 = Some d /\ In x0 X0 /\ inP m A b x /\ (forall a, In a Aeq -> dot a x = dot a x0) /\
    (forall xh, In xh Xhat -> d <= Ldist L x xh) /\ exists xh, In xh Xhat /\ Ldist L x xh = d.
Proof.
  intros m lrank L A b Aeq Xhat qr ords X0 WP IN NE. destruct (est_attained0 m lrank L A b Aeq Xhat qr ords X0 WP IN NE) as (d & x0 & x & E & I & P & Q & M). exists d, x0, x. split; [auto|]. split; [auto|]. split; [auto|]. split; [auto|]. split.
  - intros xh Ih. rewrite <- M, Ldist_sym. apply (vmin_map_le vec (fun z => Ldist L z x)). auto.
  - assert (XN : Xhat <> []) by apply WP. destruct (vmin_map_at vec (fun xh => Ldist L xh x) Xhat XN) as [z [Iz Ez]]. exists z. split; auto. rewrite Ldist_sym, <- M. unfold mind. auto.
Qed.
(** hence at most fill_distance, up to the tolerance of the removal of duplicate vertices *)
Theorem est_le_exact : forall m lrank L A b Linv hsi inside Xhat qr ords X0, walk_pre m L A b [] Xhat qr ords (fun _ => vzero m) -> Forall (inP m A b) X0 -> X0 <> [] ->
  inverse_of m L Linv -> Forall (inP m A b) Xhat -> (forall x, inP m A b x -> inside x = true) ->
  (forall k, (k < length Xhat)%nat -> hsi_ok m (hs_rows m A b L Linv Xhat k) (hsi (hs_rows m A b L Linv Xhat k))) ->
  exists d, fill_estimate m lrank L A b [] Xhat qr ords X0 = Some d /\
    d <= fill_dist L Xhat (voronoi_vertex m A b L Linv hsi inside Xhat) + fro L * (INR (length (vor_all m A b L Linv hsi Xhat)) * atol).
Proof.
  intros m lrank L A b Linv hsi inside Xhat qr ords X0 WP IN NE HI FX HIn HH. destruct (est_attained0 m lrank L A b [] Xhat qr ords X0 WP IN NE) as (d & x0 & x & E & I & P & Q & M). exists d. split; auto. rewrite <- M.
  assert (XN : Xhat <> []) by apply WP. apply (proj1 (fill_exact m A b L Linv hsi HI inside Xhat XN FX HIn HH) x P).
Qed.
(** at least the distance of every starting point, as long as no step passes a plane that np.isclose hides *)
Theorem est_starts : forall m lrank L A b Aeq Xhat qr ords X0 Dm, walk_pre m L A b Aeq Xhat qr ords (fun _ => vzero m) -> Forall (inP m A b) X0 -> X0 <> [] ->
  (forall x y, inP m A b x -> inP m A b y -> edist x y <= Dm) ->
  (forall x0 i, In x0 X0 -> (i < fe_steps m lrank Aeq)%nat -> clean_step m L A b Aeq Xhat qr false ords (fun _ => vzero m) i (vv_walk i 0 m L A b Aeq Xhat qr false ords (fun _ => vzero m) x0)) ->
  exists d, fill_estimate m lrank L A b Aeq Xhat qr ords X0 = Some d /\ forall x0, In x0 X0 -> vmin (map (fun xh => Ldist L x0 xh) Xhat) <= d.
Proof.
  intros m lrank L A b Aeq Xhat qr ords X0 Dm WP IN NE HD HC. destruct (est_starts0 m lrank L A b Aeq Xhat qr ords X0 WP IN NE Dm HD HC) as (d & E & H). exists d. split; auto. intros x0 I. rewrite min_mind. auto.
Qed.
