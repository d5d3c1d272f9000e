(** Lloyd's iteration where all distances are below the absolute tolerance of np.isclose: every vertex is owned by every centre
    (minimax_lloyd.py 114-119), so one iteration moves all centres to one point and the fill distance can grow. *)
Require Import Reals Lra Lia List Bool Arith ZArith.
From Verif Require Import RVec Num Sums DomModel DomMoreModel HullProofs LipModel LipProofs MatLib SampModel PigeonLib GeoModel GeoProofs SampMoreModel MinimaxProofs LloydProofs.
Import ListNotations.
Local Open Scope R_scope.

Lemma filter_all : forall (A : Type) (f : A -> bool) l, (forall a, In a l -> f a = true) -> filter f l = l.
Proof. intros A f. induction l as [|a l IH]; intros H; cbn [filter]; auto. rewrite (H a (or_introl eq_refl)), IH; auto. intros b I. apply H. right. auto. Qed.
Lemma Ldist_pos : forall L x y, 0 <= Ldist L x y.
Proof. intros. unfold Ldist. apply norm2_nonneg. Qed.
Theorem lloyd_collapse : forall (P : vec -> Prop) L verts cc Xhat, Forall P Xhat -> Forall P (verts Xhat) -> (forall x y, P x -> P y -> Ldist L x y <= atol) ->
  lloyd_step L verts cc Xhat = repeat (cc (verts Xhat)) (length Xhat).
Proof.
  intros P L verts cc Xhat FX FV HD. unfold lloyd_step. rewrite Forall_forall in FX, FV.
  assert (O : forall k, (k < length Xhat)%nat -> owned L Xhat (verts Xhat) k = verts Xhat).
  { intros k Hk. unfold owned. apply filter_all. intros v Iv. unfold np_close. apply Rleb_true.
    assert (NE : Xhat <> []) by (destruct Xhat; [simpl in Hk; lia|discriminate]). unfold mind. destruct (vmin_map_at vec (fun xh => Ldist L xh v) Xhat NE) as [z [Iz ->]].
    pose proof (HD (nth k Xhat []) v (FX _ (nth_In _ _ Hk)) (FV _ Iv)). pose proof (HD z v (FX _ Iz) (FV _ Iv)). pose proof (Ldist_pos L (nth k Xhat []) v). pose proof (Ldist_pos L z v). pose proof (Rabs_pos (Ldist L z v)).
    assert (0 <= rtol * Rabs (Ldist L z v)) by (apply Rmult_le_pos; auto; unfold rtol; lra). apply Rle_trans with atol; [|lra]. apply Rabs_le. lra. }
  assert (G : forall n s, (forall k, (s <= k < s + n)%nat -> (k < length Xhat)%nat) -> map (fun k => cc (owned L Xhat (verts Xhat) k)) (seq s n) = repeat (cc (verts Xhat)) n).
  { induction n as [|n IH]; intros s H; cbn [seq map repeat]; auto. rewrite O by (apply H; lia). f_equal. apply IH. intros k Hk. apply H. lia. }
  apply G. lia.
Qed.

(** the unit square, two centres, L a small multiple of the identity *)
Definition sq01 (x : vec) : Prop := length x = 2%nat /\ 0 <= vget x 0 <= 1 /\ 0 <= vget x 1 <= 1.
Definition cI (c : R) : mat := [[c; 0]; [0; c]].
Definition two : mat := [[1 / 4; 1 / 2]; [3 / 4; 1 / 2]].
Definition six : mat := [[0; 0]; [0; 1]; [1 / 2; 0]; [1 / 2; 1]; [1; 0]; [1; 1]].
Lemma vec2 : forall x : vec, length x = 2%nat -> x = [vget x 0; vget x 1].
Proof. intros [|a [|b [|]]] H; try discriminate. reflexivity. Qed.
Lemma mv_cI : forall c a b, mv (cI c) [a; b] = [c * a; c * b].
Proof. intros. unfold mv, cI. cbn [map]. rewrite !dot_cons, !dot_nil_l. f_equal; [ring|]. f_equal. ring. Qed.
Lemma Ld_cI : forall c a b p q, 0 <= c -> Ldist (cI c) [a; b] [p; q] = c * sqrt ((a - p) ^ 2 + (b - q) ^ 2).
Proof.
  intros c a b p q Hc. unfold Ldist. rewrite !mv_cI. unfold vsub. cbn [vmap2]. unfold norm2, norm2sq. rewrite !dot_cons, !dot_nil_l.
  replace ((c * a - c * p) * (c * a - c * p) + ((c * b - c * q) * (c * b - c * q) + 0)) with (Rsqr c * ((a - p) ^ 2 + (b - q) ^ 2)) by (unfold Rsqr; ring). rewrite sqrt_mult_alt by apply Rle_0_sqr. rewrite sqrt_Rsqr by auto. auto.
Qed.
Lemma Ld_le : forall c a b p q r, 0 <= c -> 0 <= r -> (a - p) ^ 2 + (b - q) ^ 2 <= r ^ 2 -> Ldist (cI c) [a; b] [p; q] <= c * r.
Proof. intros c a b p q r Hc Hr H. rewrite Ld_cI by auto. apply Rmult_le_compat_l; auto. rewrite <- (sqrt_pow2 r) by auto. apply sqrt_le_1_alt. auto. Qed.
Lemma nearest_mono : forall c a b p q r s, 0 < c -> (a - r) ^ 2 + (b - s) ^ 2 <= (p - r) ^ 2 + (q - s) ^ 2 -> Ldist (cI c) [a; b] [r; s] <= Ldist (cI c) [p; q] [r; s].
Proof. intros. rewrite !Ld_cI by lra. apply Rmult_le_compat_l; [lra|]. apply sqrt_le_1_alt. auto. Qed.
Lemma nearest_anti : forall c a b p q r s, 0 < c -> Ldist (cI c) [a; b] [r; s] <= Ldist (cI c) [p; q] [r; s] -> (a - r) ^ 2 + (b - s) ^ 2 <= (p - r) ^ 2 + (q - s) ^ 2.
Proof.
  intros c a b p q r s Hc H. rewrite !Ld_cI in H by lra. apply Rmult_le_reg_l in H; auto. pose proof (pow2_ge_0 (a - r)). pose proof (pow2_ge_0 (b - s)). pose proof (pow2_ge_0 (p - r)). pose proof (pow2_ge_0 (q - s)). apply sqrt_le_0; lra.
Qed.
Lemma two_cover : forall c, 0 < c -> vor_cover sq01 (cI c) two six.
Proof.
  intros c Hc. split; [repeat (apply Forall_cons; [repeat split; unfold vget; simpl; lra|]); apply Forall_nil|]. intros x k [Lx [Hx Hy]] [Hk HN]. rewrite (vec2 x Lx) in HN |- *. set (a := vget x 0) in *. set (b := vget x 1) in *. destruct k as [|[|k]]; [| |simpl in Hk; lia].
  - assert (A : a <= 1 / 2). { specialize (HN [3 / 4; 1 / 2] (or_intror (or_introl eq_refl))). cbn [nth two] in HN. apply nearest_anti in HN; auto. simpl in HN. nra. }
    exists [[0; 0]; [0; 1]; [1 / 2; 0]; [1 / 2; 1]]. split; [intros v I; simpl in I |- *; intuition|]. split.
    + intros v I. split; [simpl; lia|]. intros z Iz. cbn [nth two]. simpl in I, Iz. destruct Iz as [<-|[<-|[]]]; [lra|]. destruct I as [<-|[<-|[<-|[<-|[]]]]]; apply nearest_mono; auto; simpl; lra.
    + exists [(1 - 2 * a) * (1 - b); (1 - 2 * a) * b; 2 * a * (1 - b); 2 * a * b]. split; [reflexivity|]. split; [repeat (apply Forall_cons; [nra|]); apply Forall_nil|]. split; [unfold vsum; simpl; ring|]. cbn [map]. rewrite !mv_cI. cbn. f_equal; [field|]. f_equal. field.
  - assert (A : 1 / 2 <= a). { specialize (HN [1 / 4; 1 / 2] (or_introl eq_refl)). cbn [nth two] in HN. apply nearest_anti in HN; auto. simpl in HN. nra. }
    exists [[1 / 2; 0]; [1 / 2; 1]; [1; 0]; [1; 1]]. split; [intros v I; simpl in I |- *; intuition|]. split.
    + intros v I. split; [simpl; lia|]. intros z Iz. cbn [nth two]. simpl in I, Iz. destruct Iz as [<-|[<-|[]]]; [|lra]. destruct I as [<-|[<-|[<-|[<-|[]]]]]; apply nearest_mono; auto; simpl; lra.
    + exists [(2 - 2 * a) * (1 - b); (2 - 2 * a) * b; (2 * a - 1) * (1 - b); (2 * a - 1) * b]. split; [reflexivity|]. split; [repeat (apply Forall_cons; [nra|]); apply Forall_nil|]. split; [unfold vsum; simpl; ring|]. cbn [map]. rewrite !mv_cI. cbn. f_equal; [field|]. f_equal. field.
Qed.
Lemma two_centre : forall c z, 0 < c -> sq01 z -> radius (cI c) six [1 / 2; 1 / 2] <= radius (cI c) six z.
Proof.
  intros c z Hc [Lz _]. apply Rle_trans with (c * sqrt (1 / 2)).
  - apply vmax_map_ub; [discriminate|]. intros v I. assert (E : sqrt (1 / 2) ^ 2 = 1 / 2) by (apply pow2_sqrt; lra). simpl in I. repeat (destruct I as [<-|I]; [apply Ld_le; [lra|apply sqrt_pos|rewrite E; simpl; lra]|]). destruct I.
  - rewrite (vec2 z Lz). set (a := vget z 0). set (b := vget z 1). destruct (Rle_dec (1 / 2) (a ^ 2 + b ^ 2)) as [H|H].
    + eapply Rle_trans; [|apply (vmax_map_ge vec (Ldist (cI c) [a; b]) six [0; 0]); simpl; auto]. rewrite Ld_cI by lra. apply Rmult_le_compat_l; [lra|]. apply sqrt_le_1_alt. simpl in H |- *. lra.
    + eapply Rle_trans; [|apply (vmax_map_ge vec (Ldist (cI c) [a; b]) six [1; 1]); simpl; auto 8]. rewrite Ld_cI by lra. apply Rmult_le_compat_l; [lra|]. apply sqrt_le_1_alt. simpl in H |- *. assert (S : a + b <= 1) by (pose proof (pow2_ge_0 (a - b)); simpl in *; nra). pose proof (pow2_ge_0 (a - b)). simpl in *. nra.
Qed.
(** exact vertices and exact circumcentres, and yet the fill distance grows: F bounds it before, and a corner is farther after *)
Theorem lloyd_step_grows_refuted : exists (P : vec -> Prop) L V c Xhat F, Forall P Xhat /\ vor_cover P L Xhat V /\ P c /\
  (forall k, (k < length Xhat)%nat -> forall z, P z -> radius L (owned L Xhat V k) c <= radius L (owned L Xhat V k) z) /\
  (forall x, P x -> mind L Xhat x <= F) /\ lloyd_step L (fun _ => V) (fun _ => c) Xhat = [c; c] /\ exists x, P x /\ F < mind L (lloyd_step L (fun _ => V) (fun _ => c) Xhat) x.
Proof.
  set (e := atol / 2). assert (He : 0 < e) by (unfold e, atol; lra).
  assert (FX : Forall sq01 two) by (repeat (apply Forall_cons; [repeat split; unfold vget; simpl; lra|]); apply Forall_nil).
  assert (HD : forall x y, sq01 x -> sq01 y -> Ldist (cI e) x y <= atol).
  { intros x y [Lx [X0 X1]] [Ly [Y0 Y1]]. rewrite (vec2 x Lx), (vec2 y Ly). replace atol with (e * 2) by (unfold e; field). apply Ld_le; [lra|lra|]. simpl. nra. }
  pose proof (two_cover e He) as VC. assert (LS : lloyd_step (cI e) (fun _ => six) (fun _ => [1 / 2; 1 / 2]) two = [[1 / 2; 1 / 2]; [1 / 2; 1 / 2]]) by (rewrite (lloyd_collapse sq01); auto; apply VC).
  exists sq01, (cI e), six, [1 / 2; 1 / 2], two, (e * (3 / 5)). split; [exact FX|]. split; [exact VC|]. split; [repeat split; unfold vget; simpl; lra|]. split; [|split; [|split; [exact LS|]]].
  - intros k Hk z Pz. assert (O : owned (cI e) two six k = six).
    { unfold owned. apply filter_all. intros v Iv. unfold np_close. apply Rleb_true. destruct VC as [FV _]. rewrite Forall_forall in FV, FX. unfold mind. destruct (vmin_map_at vec (fun xh => Ldist (cI e) xh v) two ltac:(discriminate)) as [w [Iw ->]].
      pose proof (HD _ v (FX _ (nth_In _ [] Hk)) (FV _ Iv)). pose proof (HD w v (FX _ Iw) (FV _ Iv)). pose proof (Ldist_pos (cI e) (nth k two []) v). pose proof (Ldist_pos (cI e) w v). pose proof (Rabs_pos (Ldist (cI e) w v)).
      assert (0 <= rtol * Rabs (Ldist (cI e) w v)) by (apply Rmult_le_pos; auto; unfold rtol; lra). apply Rle_trans with atol; [|lra]. apply Rabs_le. lra. }
    rewrite O. apply two_centre; auto.
  - intros x [Lx [X0 X1]]. rewrite (vec2 x Lx). set (a := vget x 0) in *. set (b := vget x 1) in *. destruct (Rle_dec a (1 / 2)) as [A|A].
    + eapply Rle_trans; [apply (vmin_map_le vec (fun xh => Ldist (cI e) xh [a; b]) two [1 / 4; 1 / 2]); simpl; auto|]. apply Ld_le; [lra|lra|]. simpl. nra.
    + eapply Rle_trans; [apply (vmin_map_le vec (fun xh => Ldist (cI e) xh [a; b]) two [3 / 4; 1 / 2]); simpl; auto|]. apply Ld_le; [lra|lra|]. simpl. nra.
  - exists [0; 0]. split; [repeat split; unfold vget; simpl; lra|]. rewrite LS. apply Rlt_le_trans with (Ldist (cI e) [1 / 2; 1 / 2] [0; 0]).
    + rewrite Ld_cI by lra. apply Rmult_lt_compat_l; auto. rewrite <- (sqrt_pow2 (3 / 5)) by lra. apply sqrt_lt_1_alt. simpl. lra.
    + apply vmin_map_lb; [discriminate|]. intros z [<-|[<-|[]]]; lra.
Qed.
Example collapse_case : Forall sq01 two /\ Forall sq01 six /\ (forall x y, sq01 x -> sq01 y -> Ldist (cI (atol / 2)) x y <= atol).
Proof.
  split; [repeat (apply Forall_cons; [repeat split; unfold vget; simpl; lra|]); apply Forall_nil|]. split; [repeat (apply Forall_cons; [repeat split; unfold vget; simpl; lra|]); apply Forall_nil|].
  intros x y [Lx [X0 X1]] [Ly [Y0 Y1]]. rewrite (vec2 x Lx), (vec2 y Ly). replace (Ldist _ _ _ <= atol) with (Ldist (cI (atol / 2)) [vget x 0; vget x 1] [vget y 0; vget y 1] <= atol / 2 * 2) by (f_equal; field). apply Ld_le; [unfold atol; lra|lra|]. simpl. nra.
Qed.
