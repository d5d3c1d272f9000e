(** Least squares over a polyhedron has a solution: the image of the polyhedron is a polyhedron, hence closed. *)
Require Import Reals List Bool Arith Lia Lra.
From Verif Require Import RVec Num Sums MatLib DomMoreModel ChebProofs LinProg Compact.
Import ListNotations.
Local Open Scope R_scope.

Lemma holds_closed : forall n S, rect n S -> closed_set n (holds S).
Proof.
  intros n S RS. unfold holds. apply closed_all. intro r. apply closed_all. intro c. destruct (in_dec (fun a b : vec * R => ltac:(destruct a as [a1 a2], b as [b1 b2]; destruct (list_eq_dec Req_EM_T a1 b1), (Req_EM_T a2 b2); [left; congruence|right; congruence|right; congruence|right; congruence])) (r, c) S) as [I|N].
  - apply closed_imp. apply closed_le. apply cts_dot. eapply RS; eauto.
  - intros x Lx H. exfalso. apply H. intro. contradiction.
Qed.
Lemma cts_norm2sq_vsub : forall n b, length b = n -> cts n (fun w => norm2sq (vsub w b)).
Proof.
  intros n b Lb. apply cts_ext with (fun w => rsum n (fun i => (vget w i - vget b i) * (vget w i - vget b i))).
  - intros w Lw. unfold norm2sq. rewrite dot_rsum by auto. rewrite vsub_length, Lw by lia. apply rsum_ext. intros i Hi. rewrite vsub_get by lia. auto.
  - apply (cts_rsum n n (fun i w => (vget w i - vget b i) * (vget w i - vget b i))). intros i Hi. apply cts_sq, cts_minus; [apply cts_coord|apply cts_const].
Qed.
Lemma norm2sq_bound : forall (w b : vec) i r, length w = length b -> 0 <= r -> norm2sq (vsub w b) <= r * r -> (i < length b)%nat -> vget b i - r <= vget w i <= vget b i + r.
Proof.
  intros w b i r L R0 H Hi. assert (K : (vget w i - vget b i) * (vget w i - vget b i) <= r * r).
  { eapply Rle_trans; [|exact H]. unfold norm2sq. rewrite dot_rsum by auto. rewrite vsub_length by auto. rewrite (rsum_split _ i) by lia. rewrite vsub_get by auto.
    pose proof (rsum_nonneg (length w) (fun i0 => if Nat.eqb i0 i then 0 else vget (vsub w b) i0 * vget (vsub w b) i0) ltac:(intros j Hj; cbn beta; destruct (Nat.eqb j i); [lra|apply Rle_0_sqr])). lra. }
  assert (Q : Rabs (vget w i - vget b i) <= r) by (apply Rsqr_le_abs_0 in K; rewrite (Rabs_right r) in K by lra; auto).
  apply Rabs_le_between in Q || (revert Q; unfold Rabs; destruct (Rcase_abs _); intro); lra.
Qed.
Lemma vget_map_in : forall (f : R -> R) x i, (i < length x)%nat -> vget (map f x) i = f (vget x i).
Proof. intros f x i Hi. unfold vget. rewrite (nth_indep _ 0 (f 0)) by (rewrite map_length; auto). apply map_nth. Qed.
(** the nearest point of a closed set *)
Theorem nearest_exists : forall n (K : vec -> Prop) b, length b = n -> closed_set n K -> (exists x, length x = n /\ K x) ->
  exists y, length y = n /\ K y /\ forall z, length z = n -> K z -> norm2sq (vsub y b) <= norm2sq (vsub z b).
Proof.
  intros n K b Lb CK (x0 & Lx0 & K0). set (r := sqrt (norm2sq (vsub x0 b))). assert (R0 : 0 <= r) by apply sqrt_pos.
  assert (RR : r * r = norm2sq (vsub x0 b)) by (apply sqrt_sqrt; apply norm2sq_nonneg).
  destruct (min_attained n (fun w => K w /\ norm2sq (vsub w b) <= r * r) (fun w => norm2sq (vsub w b)) (map (fun a => a - r) b) (map (fun a => a + r) b)) as (y & Ly & [Ky _] & My).
  - rewrite map_length; auto.
  - rewrite map_length; auto.
  - apply closed_and; auto. apply closed_le, cts_norm2sq_vsub; auto.
  - apply cts_lsc, cts_norm2sq_vsub; auto.
  - intros x Lx [_ H] i Hi. rewrite map_length in Hi. rewrite !vget_map_in by auto. apply (norm2sq_bound x b i r); auto; lia.
  - exists x0. split; auto. split; auto. lra.
  - exists y. split; auto. split; auto. intros z Lz Kz. destruct (Rle_lt_dec (norm2sq (vsub z b)) (r * r)) as [C|C]; [apply My; auto|].
    apply Rle_trans with (r * r); [|lra]. rewrite RR. apply My; auto. split; auto. lra.
Qed.
(** rows expressing w = A z for the vector z ++ w *)
Definition graph_rows (n : nat) (A : mat) : list (vec * R) :=
  flat_map (fun i => [(nth i A [] ++ vscale (-1) (unit_row_ (length A) i), 0); (vscale (-1) (nth i A []) ++ unit_row_ (length A) i, 0)]) (seq 0 (length A)).
Lemma dot_unit_get : forall m i z, (i < m)%nat -> length z = m -> dot (unit_row_ m i) z = vget z i.
Proof.
  intros m i z Hi Lz. rewrite dot_rsum by (rewrite unit_row_length; auto). rewrite unit_row_length. unfold unit_row_.
  rewrite (rsum_single _ i) by (auto; intros j Hj N; rewrite vget_map_seq by auto; apply Nat.eqb_neq in N; rewrite N; ring).
  rewrite vget_map_seq by auto. rewrite Nat.eqb_refl. ring.
Qed.
Lemma dot_app2 : forall (a b c d : vec), length a = length c -> dot (a ++ b) (c ++ d) = dot a c + dot b d.
Proof. induction a as [|x a IH]; intros b [|y c] d L; try discriminate; simpl app. - rewrite dot_nil_l. ring. - rewrite !dot_cons, IH by (simpl in L; lia). ring. Qed.
Lemma graph_holds : forall n A z w, Forall (fun r => length r = n) A -> length z = n -> length w = length A -> (holds (graph_rows n A) (z ++ w) <-> w = mv A z).
Proof.
  intros n A z w FA Lz Lw. assert (LR : forall i, (i < length A)%nat -> length (nth i A []) = n) by (intros i Hi; rewrite Forall_forall in FA; apply FA, nth_In; auto). split.
  - intro H. apply vec_ext; [rewrite mv_length; auto|]. intros i Hi. rewrite Lw in Hi. rewrite mv_get by auto. specialize (LR i Hi).
    assert (I1 : In (nth i A [] ++ vscale (-1) (unit_row_ (length A) i), 0) (graph_rows n A)) by (apply in_flat_map; exists i; split; [apply in_seq; lia|simpl; auto]).
    assert (I2 : In (vscale (-1) (nth i A []) ++ unit_row_ (length A) i, 0) (graph_rows n A)) by (apply in_flat_map; exists i; split; [apply in_seq; lia|simpl; auto]).
    apply H in I1. apply H in I2. rewrite dot_app2 in I1, I2 by (rewrite ?vscale_length; lia). rewrite !dot_vscale_l, dot_unit_get in I1 by auto. rewrite !dot_vscale_l, dot_unit_get in I2 by auto. lra.
  - intros -> r c I. apply in_flat_map in I. destruct I as (i & Hi & I). apply in_seq in Hi. specialize (LR i ltac:(lia)).
    destruct I as [Q|[Q|[]]]; injection Q as <- <-; rewrite dot_app2 by (rewrite ?vscale_length; lia); rewrite !dot_vscale_l, dot_unit_get by (rewrite ?mv_length; lia); rewrite mv_get by lia; lra.
Qed.
Lemma graph_rect : forall n A, Forall (fun r => length r = n) A -> rect (n + length A) (graph_rows n A).
Proof.
  intros n A FA r c I. apply in_flat_map in I. destruct I as (i & Hi & I). apply in_seq in Hi. assert (LR : length (nth i A []) = n) by (rewrite Forall_forall in FA; apply FA, nth_In; lia).
  destruct I as [Q|[Q|[]]]; injection Q as <- <-; rewrite app_length, ?vscale_length, unit_row_length; lia.
Qed.
(** the image of a polyhedron *)
Theorem image_polyhedron : forall n S A, rect n S -> Forall (fun r => length r = n) A -> exists T, rect (length A) T /\
  forall w, length w = length A -> (holds T w <-> exists z, length z = n /\ holds S z /\ w = mv A z).
Proof.
  intros n S A RS FA. set (S' := graph_rows n A ++ map (fun rc => (fst rc ++ repeat 0 (length A), snd rc)) S).
  assert (RS' : rect (n + length A) S').
  { intros r c I. apply in_app_iff in I. destruct I as [I|I]; [eapply graph_rect; eauto|]. apply in_map_iff in I. destruct I as ([r' c'] & Q & I). injection Q as <- <-. simpl. rewrite app_length, repeat_length, (RS _ _ I). auto. }
  assert (Z0 : forall k (w : vec), dot (repeat 0 k) w = 0). { induction k; intros [|a w]; simpl repeat; rewrite ?dot_nil_l, ?dot_nil_r, ?dot_cons; auto. rewrite IHk. ring. }
  exists (fm_n n S'). split; [apply (fm_n_spec n (length A) S' (vzero (length A)) RS'); unfold vzero; apply repeat_length|].
  intros w Lw. rewrite (proj2 (fm_n_spec n (length A) S' w RS' Lw)). split.
  - intros (z & Lz & H). exists z. split; auto. split.
    + intros r c I. assert (K : In (r ++ repeat 0 (length A), c) S') by (apply in_app_iff; right; apply in_map_iff; exists (r, c); auto). apply H in K. rewrite dot_app2, Z0 in K by (rewrite (RS _ _ I); auto). lra.
    + apply (graph_holds n); auto. intros r c I. apply H. apply in_app_iff. auto.
  - intros (z & Lz & Hz & E). exists z. split; auto. intros r c I. apply in_app_iff in I. destruct I as [I|I].
    + apply (proj2 (graph_holds n A z w FA Lz Lw)); auto.
    + apply in_map_iff in I. destruct I as ([r' c'] & Q & I). injection Q as <- <-. simpl. rewrite dot_app2, Z0 by (rewrite (RS _ _ I); auto). specialize (Hz _ _ I). lra.
Qed.
Theorem ls_attained : forall n S A b, rect n S -> Forall (fun r => length r = n) A -> length b = length A -> (exists z, length z = n /\ holds S z) ->
  exists y, length y = n /\ holds S y /\ forall z, length z = n -> holds S z -> norm2sq (vsub (mv A y) b) <= norm2sq (vsub (mv A z) b).
Proof.
  intros n S A b RS FA Lb (z0 & Lz0 & H0). destruct (image_polyhedron n S A RS FA) as (T & RT & HT).
  destruct (nearest_exists (length A) (holds T) b Lb (holds_closed _ _ RT)) as (w & Lw & Hw & Mw).
  - exists (mv A z0). split; [apply mv_length|]. apply HT; [apply mv_length|]. eauto.
  - apply HT in Hw; auto. destruct Hw as (y & Ly & Hy & ->). exists y. split; auto. split; auto. intros z Lz Hz. apply Mw; [apply mv_length|]. apply HT; [apply mv_length|]. eauto.
Qed.
