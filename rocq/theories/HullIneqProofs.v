(** Conversion of a collinear hull to inequalities. *)
Require Import Reals Lra Lia List Bool Arith.
From Verif Require Import RVec Num Sums DomModel DomSpec DomProofs NormProofs DomOpsProofs DomExamples DomMoreModel SweepProofs CvxProofs HullProofs ChebProofs.
Import ListNotations.
Local Open Scope R_scope.

Lemma fold_min : forall x a, (forall b, In b (a :: x) -> fold_left Rmin x a <= b) /\ In (fold_left Rmin x a) (a :: x).
Proof.
  induction x as [|c x IH]; intro a; simpl.
  - split; auto. intros b [E|[]]; lra.
  - destruct (IH (Rmin a c)) as [H1 H2]. split.
    + intros b [E|[E|E]].
      * subst b. eapply Rle_trans; [apply H1; left; reflexivity|apply Rmin_l].
      * subst b. eapply Rle_trans; [apply H1; left; reflexivity|apply Rmin_r].
      * apply H1. right; auto.
    + destruct H2 as [H2|H2]; auto. rewrite <- H2. unfold Rmin. destruct (Rle_dec a c); auto.
Qed.
Lemma fold_max : forall x a, (forall b, In b (a :: x) -> b <= fold_left Rmax x a) /\ In (fold_left Rmax x a) (a :: x).
Proof.
  induction x as [|c x IH]; intro a; simpl.
  - split; auto. intros b [E|[]]; lra.
  - destruct (IH (Rmax a c)) as [H1 H2]. split.
    + intros b [E|[E|E]].
      * subst b. eapply Rle_trans; [apply Rmax_l|apply H1; left; reflexivity].
      * subst b. eapply Rle_trans; [apply Rmax_r|apply H1; left; reflexivity].
      * apply H1. right; auto.
    + destruct H2 as [H2|H2]; auto. rewrite <- H2. unfold Rmax. destruct (Rle_dec a c); auto.
Qed.
Lemma vmin_spec : forall x : vec, x <> [] -> (forall b, In b x -> vmin x <= b) /\ In (vmin x) x.
Proof. intros x H. destruct x as [|a x]; [congruence|]. apply fold_min. Qed.
Lemma vmax_spec : forall x : vec, x <> [] -> (forall b, In b x -> b <= vmax x) /\ In (vmax x) x.
Proof. intros x H. destruct x as [|a x]; [congruence|]. apply fold_max. Qed.

(** complete orthonormal system: x is recovered from its coordinates *)
Definition complete (m : nat) (Q : mat) : Prop :=
  Forall (fun q => length q = m) Q /\ forall x, length x = m -> x = lincomb m Q (mv Q x).

Lemma complete_inj : forall m Q x y, complete m Q -> length x = m -> length y = m -> (forall q, In q Q -> dot q x = dot q y) -> x = y.
Proof.
  intros m Q x y [_ H] Lx Ly E. rewrite (H x Lx), (H y Ly). f_equal. unfold mv. apply map_ext_in. auto.
Qed.

Lemma dot_le_scal : forall al v c, length al = length v -> Forall (fun a => 0 <= a) al -> Forall (fun t => t <= c) v -> dot al v <= c * vsum al.
Proof.
  induction al as [|a al IH]; intros v c L Fa Fv; destruct v as [|t v]; simpl in L; try lia.
  - rewrite dot_nil_l. unfold vsum; simpl; lra.
  - inversion Fa; inversion Fv; subst. rewrite dot_cons, vsum_cons. specialize (IH v c ltac:(lia) H2 H6). nra.
Qed.
Lemma dot_ge_scal : forall al v c, length al = length v -> Forall (fun a => 0 <= a) al -> Forall (fun t => c <= t) v -> c * vsum al <= dot al v.
Proof.
  induction al as [|a al IH]; intros v c L Fa Fv; destruct v as [|t v]; simpl in L; try lia.
  - rewrite dot_nil_l. unfold vsum; simpl; lra.
  - inversion Fa; inversion Fv; subst. rewrite dot_cons, vsum_cons. specialize (IH v c ltac:(lia) H2 H6). nra.
Qed.
Lemma vsum_const : forall (v : list R) c, Forall (fun t => t = c) v -> vsum v = INR (length v) * c.
Proof.
  intros v c H. induction H as [|t v E H IH]; [unfold vsum; simpl; ring|]. rewrite vsum_cons, IH. cbn [length]. rewrite S_INR, E. ring.
Qed.

Definition collinear_data (m : nat) (X : mat) (q : vec) (P : mat) : Prop :=
  X <> [] /\ Forall (fun x => length x = m) X /\ complete m (q :: P) /\
  forall p x y, In p P -> In x X -> In y X -> dot p x = dot p y.

Lemma interval_eq_value : forall m X q P p x, collinear_data m X q P -> In p P -> In x X ->
  vsum (map (dot p) X) / INR (length X) = dot p x.
Proof.
  intros m X q P p x [H1 [H2 [H3 H4]]] Hp Hx. rewrite (vsum_const _ (dot p x)).
  - rewrite map_length. field. apply not_0_INR. destruct X; [congruence|discriminate].
  - apply Forall_forall. intros t Ht. apply in_map_iff in Ht. destruct Ht as [y [E Hy]]. subst t. eapply H4; eauto.
Qed.

Lemma two_point_comb : forall m X i j s, Forall (fun x => length x = m) X -> (i < length X)%nat -> (j < length X)%nat -> 0 <= s <= 1 ->
  convex_comb X m (vadd (vscale (1 - s) (nth i X [])) (vscale s (nth j X []))).
Proof.
  intros m X i j s F Hi Hj Hs. set (n := length X) in *.
  assert (G : forall k, (k < n)%nat -> length (nth k X []) = m) by (intros k Hk; rewrite Forall_forall in F; apply F, nth_In; auto).
  exists (vadd (vscale (1 - s) (unit_row_ n i)) (vscale s (unit_row_ n j))).
  assert (LL : length (vadd (vscale (1 - s) (unit_row_ n i)) (vscale s (unit_row_ n j))) = n).
  { rewrite vadd_length; rewrite !vscale_length, ?unit_row_length; auto. }
  split; auto. split; [|split].
  - apply Forall_forall. intros a Ha. destruct (In_nth _ _ 0 Ha) as [k [K1 K2]]. rewrite LL in K1. subst a.
    change (0 <= vget (vadd (vscale (1 - s) (unit_row_ n i)) (vscale s (unit_row_ n j))) k).
    rewrite vadd_get by (rewrite !vscale_length, !unit_row_length; auto). rewrite !vscale_get. unfold unit_row_. rewrite !vget_map_seq by auto.
    destruct (Nat.eqb k i), (Nat.eqb k j); lra.
  - rewrite vsum_vadd by (rewrite !vscale_length, !unit_row_length; auto). rewrite !vsum_vscale.
    assert (U : forall k, (k < n)%nat -> vsum (unit_row_ n k) = 1).
    { intros k Hk. unfold unit_row_. rewrite vsum_map_seq. rewrite (rsum_single n k); auto; [rewrite Nat.eqb_refl; auto|].
      intros l Hl N. destruct (Nat.eqb_spec l k); congruence. }
    rewrite !U by auto. ring.
  - apply vec_ext.
    + rewrite lincomb_length by auto. rewrite vadd_length; rewrite !vscale_length, ?G; auto.
    + intros k _. rewrite lincomb_get by auto. rewrite vadd_get by (rewrite !vscale_length, !G; auto). rewrite !vscale_get.
      rewrite dot_vadd_l by (rewrite !vscale_length, !unit_row_length; auto). rewrite !dot_vscale_l.
      rewrite !unit_row_dot by (auto; rewrite map_length; auto).
      assert (E : forall l, (l < n)%nat -> vget (map (fun x => vget x k) X) l = vget (nth l X []) k).
      { intros l Hl. unfold vget at 1. rewrite (nth_indep _ 0 (vget [] k)) by (rewrite map_length; auto). rewrite (map_nth (fun x => vget x k)). auto. }
      rewrite !E by auto. ring.
Qed.

Theorem interval_exact : forall m X q P x, collinear_data m X q P -> length x = m ->
  (member (interval_dom m X q P) x <-> convex_comb X m x).
Proof.
  intros m X q P x C Lx. pose proof C as [H1 [H2 [H3 H4]]].
  assert (NE : map (dot q) X <> []) by (destruct X; [congruence|discriminate]).
  destruct (vmin_spec _ NE) as [mn1 mn2]. destruct (vmax_spec _ NE) as [mx1 mx2].
  assert (NB : forall y, sat_bounds (repeat NInf m) (repeat PInf m) 0 y).
  { intros y i. split; intros v Hv; apply nth_error_In in Hv; apply repeat_spec in Hv; discriminate. }
  split.
  - intros [_ [_ [I [E _]]]]. unfold interval_dom in I, E. cbn [dA db dAeq dbeq] in I, E.
    pose proof (I 0%nat _ _ eq_refl eq_refl) as I0. pose proof (I 1%nat _ _ eq_refl eq_refl) as I1.
    rewrite dot_vscale_l in I1. set (Y := map (dot q) X) in *.
    apply in_map_iff in mn2. destruct mn2 as [xa [A1 A2]]. apply in_map_iff in mx2. destruct mx2 as [xb [B1 B2]].
    destruct (In_nth _ _ [] A2) as [i [Hi Ei]]. destruct (In_nth _ _ [] B2) as [j [Hj Ej]].
    set (t := dot q x) in *.
    assert (S : exists s, 0 <= s <= 1 /\ t = (1 - s) * vmin Y + s * vmax Y).
    { destruct (Rle_lt_or_eq_dec (vmin Y) (vmax Y)) as [L|L]; [lra| |].
      - exists ((t - vmin Y) / (vmax Y - vmin Y)). split.
        + split; [unfold Rdiv; apply Rmult_le_pos; [lra|apply Rlt_le, Rinv_0_lt_compat; lra]|].
          apply Rmult_le_reg_r with (vmax Y - vmin Y); [lra|]. field_simplify; lra.
        + field. lra.
      - exists 0. split; [lra|]. lra. }
    destruct S as [s [S1 S2]].
    assert (X0 : x = vadd (vscale (1 - s) (nth i X [])) (vscale s (nth j X []))).
    { rewrite Forall_forall in H2. assert (La : length xa = m) by auto. assert (Lb : length xb = m) by auto.
      rewrite Ei, Ej. apply (complete_inj m (q :: P)); auto.
      - rewrite vadd_length; rewrite !vscale_length; congruence.
      - intros p Hp. rewrite dot_vadd_r by (rewrite !vscale_length; congruence). rewrite !dot_vscale_r.
        destruct Hp as [Hp|Hp].
        + subst p. rewrite A1, B1. exact S2.
        + rewrite (H4 p xb xa Hp B2 A2). destruct (In_nth_error _ _ Hp) as [k Hk].
          rewrite (E k p _ Hk (map_nth_error _ _ _ Hk)). rewrite (interval_eq_value m X q P p xa); auto. ring. }
    rewrite X0. apply two_point_comb; auto.
  - intros [al [L [N [S Ex]]]]. split; [exact Lx|]. split; [apply NB|]. split; [|split].
    + intros k a c K1 K2. unfold interval_dom in K1, K2. cbn [dA db] in K1, K2.
      assert (D : dot q x = dot al (map (dot q) X)).
      { rewrite Ex, dot_lincomb by auto. f_equal. unfold mv. apply map_ext. intro. apply dot_comm. }
      assert (U1 : dot q x <= vmax (map (dot q) X)).
      { rewrite D. rewrite <- (Rmult_1_r (vmax _)), <- S. apply dot_le_scal; auto; [rewrite map_length; auto|]. apply Forall_forall; auto. }
      assert (U2 : vmin (map (dot q) X) <= dot q x).
      { rewrite D. rewrite <- (Rmult_1_r (vmin _)), <- S. apply dot_ge_scal; auto; [rewrite map_length; auto|]. apply Forall_forall; auto. }
      destruct k as [|[|[|k]]]; simpl in K1, K2; try discriminate; injection K1 as <-; injection K2 as <-; rewrite ?dot_vscale_l; lra.
    + intros k p c K1 K2. unfold interval_dom in K1, K2. cbn [dAeq dbeq] in K1, K2. rewrite (map_nth_error _ _ _ K1) in K2. injection K2 as <-.
      apply nth_error_In in K1. destruct X as [|x0 X']; [congruence|]. rewrite (interval_eq_value m (x0 :: X') q P p x0); auto; [|left; auto].
      rewrite Ex, dot_lincomb by auto.
      assert (A : mv (x0 :: X') p = map (fun _ => dot p x0) (x0 :: X')).
      { unfold mv. apply map_ext_in. intros y Hy. rewrite dot_comm. apply H4; auto. left; auto. }
      rewrite A.
      assert (Z1 : dot al (map (fun _ => dot p x0) (x0 :: X')) <= dot p x0 * vsum al).
      { apply dot_le_scal; auto; [rewrite map_length; auto|].
        apply Forall_forall. intros t Ht. apply in_map_iff in Ht. destruct Ht as [? [<- _]]. lra. }
      assert (Z2 : dot p x0 * vsum al <= dot al (map (fun _ => dot p x0) (x0 :: X'))).
      { apply dot_ge_scal; auto; [rewrite map_length; auto|].
        apply Forall_forall. intros t Ht. apply in_map_iff in Ht. destruct Ht as [? [<- _]]. lra. }
      rewrite S in Z1, Z2. lra.
    + intros q0 [].
Qed.

(** three collinear points in the plane *)
Definition s2 : R := sqrt (1/2).
Lemma ex_collinear : collinear_data 2 [[0; 0]; [2; 2]; [1; 1]] [s2; s2] [[s2; - s2]] /\ convex_comb [[0; 0]; [2; 2]; [1; 1]] 2 [3/2; 3/2].
Proof.
  assert (SS : s2 * s2 = 1/2) by (apply sqrt_sqrt; lra).
  split.
  - split; [discriminate|]. split; [repeat constructor|]. split.
    + split; [repeat constructor|]. intros x L. destruct x as [|a [|b [|? ?]]]; try discriminate.
      unfold mv. simpl. rewrite !dot_cons, !dot_nil_l. unfold vadd, vscale, vzero. simpl. f_equal; [|apply (f_equal (fun t => [t]))];
        [match goal with |- _ = ?r => replace r with (2 * (s2 * s2) * a) by ring end|match goal with |- _ = ?r => replace r with (2 * (s2 * s2) * b) by ring end]; rewrite SS; lra.
    + intros p x y Hp Hx Hy. simpl in *. destruct Hp as [<-|[]].
      destruct Hx as [<-|[<-|[<-|[]]]]; destruct Hy as [<-|[<-|[<-|[]]]]; rewrite !dot_cons, !dot_nil_l; lra.
  - exists [1/4; 3/4; 0]. split; auto. split; [apply Forall_cons; [lra|apply Forall_cons; [lra|apply Forall_cons; [lra|constructor]]]|].
    split; [unfold vsum; simpl; lra|]. unfold lincomb, vadd, vscale, vzero. simpl. f_equal; [lra|]. apply (f_equal (fun t => [t])). lra.
Qed.
