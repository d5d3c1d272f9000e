(** Kernel density estimates of ridge values. *)
Require Import Reals Lra Lia List Bool Arith Permutation Sorted.
From Verif Require Import RVec Num DomMoreModel LipModel SampModel Sums HullIneqProofs LatinProofs MiniModel MiniProofs SweepProofs KdeModel.
Import ListNotations.
Local Open Scope R_scope.

(** G is an antiderivative of f: differences of G are the integrals of f *)
Definition antiderivative_of (G f : R -> R) : Prop := forall t, derivable_pt_lim G t (f t).

Lemma dl_scal : forall c f t l, derivable_pt_lim f t l -> derivable_pt_lim (fun s => c * f s) t (c * l).
Proof. intros. apply derivable_pt_lim_scal. auto. Qed.
Lemma dl_plus : forall f g t l m, derivable_pt_lim f t l -> derivable_pt_lim g t m -> derivable_pt_lim (fun s => f s + g s) t (l + m).
Proof. intros. apply derivable_pt_lim_plus; auto. Qed.
Lemma dl_minus : forall f g t l m, derivable_pt_lim f t l -> derivable_pt_lim g t m -> derivable_pt_lim (fun s => f s - g s) t (l - m).
Proof. intros. apply derivable_pt_lim_minus; auto. Qed.
Definition pos2 (x : R) : R := Rmax 0 x ^ 2.
Lemma pos2_derive : forall x, derivable_pt_lim pos2 x (2 * Rmax 0 x).
Proof.
  intros x eps He. exists (mkposreal eps He). intros e Ne Hl. simpl in Hl.
  assert (B : Rabs (pos2 (x + e) - pos2 x - 2 * Rmax 0 x * e) <= e * e).
  { apply Rabs_le. unfold pos2, Rmax. destruct (Rle_dec 0 (x + e)), (Rle_dec 0 x); split; nra. }
  replace ((pos2 (x + e) - pos2 x) / e - 2 * Rmax 0 x) with ((pos2 (x + e) - pos2 x - 2 * Rmax 0 x * e) / e) by (field; auto).
  unfold Rdiv. rewrite Rabs_mult, Rabs_inv. assert (0 < Rabs e) by (apply Rabs_pos_lt; auto).
  apply (Rmult_lt_reg_r (Rabs e)); auto. rewrite Rmult_assoc, Rinv_l by lra. rewrite Rmult_1_r.
  assert (e * e = Rabs e * Rabs e) by (rewrite <- Rabs_mult; symmetry; apply Rabs_right; nra). nra.
Qed.
(** the distribution function of the kernel *)
Definition tri_cdf (h d : R) : R := (pos2 (d + h) - 2 * pos2 d + pos2 (d - h)) / (2 * h ^ 2).
Lemma pos2_shift : forall c x, derivable_pt_lim (fun t => pos2 (t + c)) x (2 * Rmax 0 (x + c)).
Proof.
  intros c x eps He. destruct (pos2_derive (x + c) eps He) as (d & Hd). exists d. intros e Ne Hl. specialize (Hd e Ne Hl). replace (x + e + c) with (x + c + e) by ring. exact Hd.
Qed.
Lemma kernel_value : forall h d, 0 < h -> lin_kernel h d = (2 * Rmax 0 (d + h) - 2 * (2 * Rmax 0 d) + 2 * Rmax 0 (d - h)) * / (2 * h ^ 2).
Proof.
  intros h d Hh. unfold lin_kernel, Rltb, Rabs, Rmax. destruct (Rcase_abs d); destruct (Rlt_dec _ h); destruct (Rle_dec 0 (d + h)); destruct (Rle_dec 0 d); destruct (Rle_dec 0 (d - h)); try lra; try (field; lra).
  all: first [replace d with h by lra; field; lra | replace d with (- h) by lra; field; lra].
Qed.
Lemma tri_derive : forall h a t, 0 < h -> derivable_pt_lim (fun t => tri_cdf h (t - a)) t (lin_kernel h (t - a)).
Proof.
  intros h a t Hh. rewrite kernel_value by auto. unfold tri_cdf.
  apply (derivable_pt_lim_ext (fun s => / (2 * h ^ 2) * ((pos2 (s + (h - a)) - 2 * pos2 (s + (- a))) + pos2 (s + (- a - h))))).
  { intro s. replace (s - a + h) with (s + (h - a)) by ring. replace (s - a - h) with (s + (- a - h)) by ring. replace (s - a) with (s + - a) by ring. unfold Rdiv. ring. }
  rewrite (Rmult_comm _ (/ (2 * h ^ 2))). apply dl_scal. apply dl_plus; [apply dl_minus|].
  - replace (t - a + h) with (t + (h - a)) by ring. apply pos2_shift.
  - apply (dl_scal 2 (fun s => pos2 (s + - a))). replace (t - a) with (t + - a) by ring. apply pos2_shift.
  - replace (t - a - h) with (t + (- a - h)) by ring. apply pos2_shift.
Qed.
Lemma kernel_nonneg : forall h d, 0 < h -> 0 <= lin_kernel h d.
Proof.
  intros h d Hh. unfold lin_kernel, Rltb. destruct (Rlt_dec (Rabs d) h); [|lra]. apply Rmult_le_pos; [|left; apply Rinv_0_lt_compat; auto].
  assert (Rabs d / h <= 1); [|lra]. apply (Rmult_le_reg_r h); auto. unfold Rdiv. rewrite Rmult_assoc, Rinv_l by lra. lra.
Qed.
Lemma tri_low : forall h d, 0 < h -> d <= - h -> tri_cdf h d = 0.
Proof. intros h d Hh Hd. unfold tri_cdf, pos2, Rmax. destruct (Rle_dec 0 (d + h)); destruct (Rle_dec 0 d); destruct (Rle_dec 0 (d - h)); try lra. replace d with (- h) by lra. field. lra. Qed.
Lemma tri_high : forall h d, 0 < h -> h <= d -> tri_cdf h d = 1.
Proof. intros h d Hh Hd. unfold tri_cdf, pos2, Rmax. destruct (Rle_dec 0 (d + h)); destruct (Rle_dec 0 d); destruct (Rle_dec 0 (d - h)); try lra. field. lra. Qed.
Lemma tri_mid : forall h, 0 < h -> tri_cdf h 0 = 1 / 2.
Proof. intros h Hh. unfold tri_cdf, pos2, Rmax. destruct (Rle_dec 0 (0 + h)); destruct (Rle_dec 0 0); destruct (Rle_dec 0 (0 - h)); try lra. field. lra. Qed.
(** mean value theorem: functions with derivative >= 0 increase *)
Lemma incr_of : forall (G f : R -> R), antiderivative_of G f -> (forall t, 0 <= f t) -> forall a b, a <= b -> G a <= G b.
Proof.
  intros G f D P a b [L| ->]; [|lra]. destruct (MVT_cor2 G f a b L) as (c & E & _); [intros; apply D|]. specialize (P c). nra.
Qed.
Lemma tri_incr : forall h d e, 0 < h -> d <= e -> tri_cdf h d <= tri_cdf h e.
Proof.
  intros h d e Hh L. pose proof (incr_of (fun t => tri_cdf h (t - 0)) (fun t => lin_kernel h (t - 0)) (fun t => tri_derive h 0 t Hh) (fun t => kernel_nonneg h _ Hh) d e L) as I.
  cbn beta in I. rewrite !Rminus_0_r in I. auto.
Qed.
Lemma tri_bounds : forall h d, 0 < h -> 0 <= tri_cdf h d <= 1.
Proof.
  intros h d Hh. split.
  - rewrite <- (tri_low h (Rmin d (- h)) Hh (Rmin_r _ _)). apply tri_incr; auto. apply Rmin_l.
  - rewrite <- (tri_high h (Rmax d h) Hh (Rmax_r _ _)). apply tri_incr; auto. apply Rmax_l.
Qed.
Definition kcdf (h : R) (y : vec) (t : R) : R := vsum (map (fun a => tri_cdf h (t - a)) y) / INR (length y).
Lemma sum_derive : forall h y, 0 < h -> antiderivative_of (fun t => vsum (map (fun a => tri_cdf h (t - a)) y)) (fun t => vsum (map (fun a => lin_kernel h (t - a)) y)).
Proof.
  intros h y Hh. induction y as [|a y IH]; intro t.
  - apply derivable_pt_lim_const.
  - cbn [map]. rewrite vsum_cons. apply (derivable_pt_lim_ext (fun s => tri_cdf h (s - a) + vsum (map (fun b => tri_cdf h (s - b)) y))); [intro; rewrite vsum_cons; reflexivity|].
    apply (dl_plus (fun s => tri_cdf h (s - a)) (fun s => vsum (map (fun b => tri_cdf h (s - b)) y))); [apply tri_derive; auto|apply IH].
Qed.
Lemma kcdf_derive : forall h y, 0 < h -> antiderivative_of (kcdf h y) (kde h y).
Proof.
  intros h y Hh t. unfold kcdf, kde, Rdiv. rewrite (Rmult_comm _ (/ INR (length y))). apply (derivable_pt_lim_ext (fun s => / INR (length y) * vsum (map (fun a => tri_cdf h (s - a)) y))); [intro; ring|].
  apply dl_scal. apply (sum_derive h y Hh t).
Qed.
Lemma antiderivative_diff : forall G F f a b, antiderivative_of G f -> antiderivative_of F f -> G b - G a = F b - F a.
Proof.
  intros G F f a b DG DF.
  assert (D : antiderivative_of (fun t => G t - F t) (fun _ => 0)) by (intro t; replace 0 with (f t - f t) by ring; apply dl_minus; [apply DG|apply DF]).
  assert (Q : forall u v, u <= v -> G u - F u = G v - F v).
  { intros u v [L| ->]; auto. destruct (MVT_cor2 (fun t => G t - F t) (fun _ => 0) u v L) as (c & E & _); [intros; apply D|]. cbn beta in E. lra. }
  destruct (Rle_dec a b) as [L|L]; [specialize (Q a b L)|specialize (Q b a ltac:(lra))]; lra.
Qed.
Lemma sum_bound : forall (f g : R -> R) y, (forall a, In a y -> f a <= g a) -> vsum (map f y) <= vsum (map g y).
Proof. intros f g y H. induction y as [|a y IH]; [simpl; lra|]. cbn [map]. rewrite !vsum_cons. pose proof (H a (or_introl eq_refl)). assert (vsum (map f y) <= vsum (map g y)); [|lra]. apply IH. intros b I. apply H. simpl. auto. Qed.
Lemma sum_const : forall c y, vsum (map (fun _ : R => c) y) = c * INR (length y).
Proof. intros c y. induction y as [|a y IH]; [simpl; ring|]. cbn [map length]. rewrite vsum_cons, IH, S_INR. ring. Qed.

(** the estimate is a density: nowhere negative, with integral 1 over every interval holding the sample and its margin of one bandwidth *)
Theorem kde_density : forall h y G a b, 0 < h -> y <> [] -> antiderivative_of G (kde h y) -> a <= vmin y - h -> vmax y + h <= b -> (forall t, 0 <= kde h y t) /\ G b - G a = 1.
Proof.
  intros h y G a b Hh NE DG Ha Hb. assert (NP : 0 < INR (length y)) by (apply lt_0_INR; destruct y; [congruence|simpl; lia]).
  destruct (vmin_spec y NE) as [A _]. destruct (vmax_spec y NE) as [B _]. split.
  - intro t. unfold kde. apply Rmult_le_pos; [|left; apply Rinv_0_lt_compat; auto].
    replace 0 with (vsum (map (fun _ : R => 0) y)) by (rewrite sum_const; ring). apply sum_bound. intros. apply kernel_nonneg; auto.
  - rewrite (antiderivative_diff G (kcdf h y) (kde h y) a b DG (kcdf_derive h y Hh)). unfold kcdf.
    rewrite (map_ext_in (fun c => tri_cdf h (b - c)) (fun _ => 1)) by (intros c I; specialize (B c I); apply tri_high; lra).
    rewrite (map_ext_in (fun c => tri_cdf h (a - c)) (fun _ => 0)) by (intros c I; specialize (A c I); apply tri_low; lra). rewrite !sum_const. field. lra.
Qed.
(** what an interval [a,b] with a value of the sample at each end holds: at most 1 - 1/N *)
Lemma kde_ends : forall h y G a b, 0 < h -> In a y -> In b y -> a < b -> antiderivative_of G (kde h y) -> G b - G a <= 1 - / INR (length y).
Proof.
  intros h y G a b Hh Ia Ib L DG. assert (NP : 0 < INR (length y)) by (apply lt_0_INR; destruct y; [contradiction|simpl; lia]).
  rewrite (antiderivative_diff G (kcdf h y) (kde h y) a b DG (kcdf_derive h y Hh)). unfold kcdf.
  assert (S : forall l, vsum (map (fun c => tri_cdf h (b - c)) l) - vsum (map (fun c => tri_cdf h (a - c)) l) <= INR (length l) - (if in_dec Req_EM_T a l then 1/2 else 0) - (if in_dec Req_EM_T b l then 1/2 else 0)).
  { induction l as [|c l IH]; [simpl; lra|]. cbn [map length]. rewrite !vsum_cons, S_INR. pose proof (tri_bounds h (b - c) Hh) as Q1. pose proof (tri_bounds h (a - c) Hh) as Q2.
    pose proof (tri_mid h Hh) as M.
    destruct (Req_EM_T a c) as [Ea|Na]; [|destruct (Req_EM_T b c) as [Eb|Nb]].
    - subst c. replace (a - a) with 0 in * by ring. destruct (in_dec Req_EM_T a (a :: l)) as [u|u], (in_dec Req_EM_T b (a :: l)) as [i|i], (in_dec Req_EM_T a l) as [w|w], (in_dec Req_EM_T b l) as [z|z]; try lra; try (exfalso; destruct i as [i|i]; [lra|contradiction]).
    - subst c. replace (b - b) with 0 in * by ring. destruct (in_dec Req_EM_T a (b :: l)) as [i|i], (in_dec Req_EM_T b (b :: l)) as [u|u], (in_dec Req_EM_T a l) as [w|w], (in_dec Req_EM_T b l) as [z|z]; try lra; try (exfalso; destruct i as [i|i]; [lra|contradiction]).
    - destruct (in_dec Req_EM_T a (c :: l)) as [i|i], (in_dec Req_EM_T b (c :: l)) as [j|j], (in_dec Req_EM_T a l) as [w|w], (in_dec Req_EM_T b l) as [z|z]; try lra; exfalso; try (destruct i as [i|i]; [congruence|contradiction]); try (destruct j as [j|j]; [congruence|contradiction]). }
  specialize (S y). destruct (in_dec Req_EM_T a y); [|contradiction]. destruct (in_dec Req_EM_T b y); [|contradiction].
  set (A := vsum (map (fun c => tri_cdf h (b - c)) y)) in *. set (B := vsum (map (fun c => tri_cdf h (a - c)) y)) in *. set (n := INR (length y)) in *.
  apply (Rmult_le_reg_r n); auto. replace ((A / n - B / n) * n) with (A - B) by (field; lra). replace ((1 - / n) * n) with (n - 1) by (field; lra). lra.
Qed.
Lemma floor_INR : forall n, rfloor (INR n) = n.
Proof. intro n. destruct (rfloor_spec (INR n) (pos_INR n)) as [A B]. apply INR_le in A. rewrite <- S_INR in B. apply INR_lt in B. lia. Qed.
Lemma percentile_0 : forall y, y <> [] -> percentile y 0 = Some (vmin y).
Proof.
  intros y NE. destruct (percentile y 0) as [t|] eqn:E.
  - f_equal. pose proof (percentile_range y 0 t E). apply Rle_antisym; [|lra]. destruct (percentile_pos y 0 t E) as (N & _ & _ & _ & T).
    replace (0 / 100 * INR (length y - 1)) with (INR 0) in T by (simpl; field). rewrite floor_INR in T. replace (INR 0 - INR 0) with 0 in T by ring. rewrite Rmult_0_l, Rplus_0_r in T. subst t.
    destruct (vmin_spec y NE) as [_ I]. apply (Permutation_in _ (Permutation_sym (rsort_perm y))) in I. apply (In_nth _ _ 0) in I. destruct I as (k & Hk & <-).
    apply sorted_get; [apply rsort_sorted|lia|auto].
  - exfalso. unfold percentile in E. destruct y; [congruence|]. unfold Rleb in E. destruct (Rle_dec 0 0); [|lra]. destruct (Rle_dec 0 100); [|lra]. discriminate.
Qed.
Lemma percentile_100 : forall y, y <> [] -> percentile y 100 = Some (vmax y).
Proof.
  intros y NE. destruct (percentile y 100) as [t|] eqn:E.
  - f_equal. pose proof (percentile_range y 100 t E). apply Rle_antisym; [lra|]. destruct (percentile_pos y 100 t E) as (N & _ & _ & _ & T).
    replace (100 / 100 * INR (length y - 1)) with (INR (length y - 1)) in T by field. rewrite floor_INR in T. rewrite Rminus_diag_eq in T by auto. rewrite Rmult_0_l, Rplus_0_r in T. subst t.
    destruct (vmax_spec y NE) as [_ I]. apply (Permutation_in _ (Permutation_sym (rsort_perm y))) in I. apply (In_nth _ _ 0) in I. destruct I as (k & Hk & <-).
    rewrite rsort_len in Hk. apply sorted_get; [apply rsort_sorted|lia|rewrite rsort_len; lia].
  - exfalso. unfold percentile in E. destruct y; [congruence|]. unfold Rleb in E. destruct (Rle_dec 0 100); [|lra]. destruct (Rle_dec 100 100); [|lra]. discriminate.
Qed.
(** the functions return exactly if the quartiles differ *)
Theorem pdf_returns : forall y n, (exists r, ridge_pdf y n = Some r) <-> exists p25 p75, percentile y 25 = Some p25 /\ percentile y 75 = Some p75 /\ p25 < p75.
Proof.
  intros y n. unfold ridge_pdf. destruct y as [|a y']; [split; [intros (r & E); discriminate|intros (p & q & E & _); discriminate]|]. set (y := a :: y'). assert (NE : y <> []) by discriminate.
  rewrite percentile_0, percentile_100 by auto. destruct (percentile y 25) as [p25|]; [|split; [intros (r & E); discriminate|intros (p & q & E & _); discriminate]].
  destruct (percentile y 75) as [p75|]; [|split; [intros (r & E); discriminate|intros (p & q & _ & E & _); discriminate]]. unfold Rltb. destruct (Rlt_dec 0 _) as [L|L]; split.
  - intros _. exists p25, p75. repeat split; auto. lra.
  - intros _. eexists. reflexivity.
  - intros (r & E). discriminate.
  - intros (p & q & E1 & E2 & H). injection E1 as <-. injection E2 as <-. lra.
Qed.
(** the grid runs evenly from the smallest to the largest value; the second array holds the estimate there *)
Theorem pdf_grid : forall y n xx yy, ridge_pdf y n = Some (xx, yy) -> exists h p25 p75, percentile y 25 = Some p25 /\ percentile y 75 = Some p75 /\ h = (p75 - p25) / 10 /\ 0 < h /\
  length xx = n /\ length yy = n /\ (forall k, (k < n)%nat -> vget yy k = kde h y (vget xx k) /\ INR (n - 1) * (vget xx k - vmin y) = INR k * (vmax y - vmin y)) /\ ((0 < n)%nat -> vget xx 0 = vmin y).
Proof.
  intros y n xx yy E. unfold ridge_pdf in E. destruct y as [|a y']; [discriminate|]. set (y := a :: y') in *. assert (NE : y <> []) by discriminate. rewrite percentile_0, percentile_100 in E by auto.
  destruct (percentile y 25) as [p25|] eqn:E1; [|discriminate]. destruct (percentile y 75) as [p75|] eqn:E2; [|discriminate]. unfold Rltb in E. destruct (Rlt_dec 0 ((p75 - p25) / 10)) as [L|L]; [|discriminate].
  cbv zeta in E. injection E as <- <-. exists ((p75 - p25) / 10), p25, p75. split; [auto|]. split; [auto|]. split; [auto|]. split; [auto|]. split; [apply linspace_length|]. split; [rewrite map_length; apply linspace_length|].
  assert (F : forall k, (k < n)%nat -> vget (linspace (vmin y) (vmax y) n) k = vmin y + INR k * ((vmax y - vmin y) / INR (n - 1))) by (intros; apply linspace_get; auto).
  change (fold_left Rmin y' a) with (vmin y). change (fold_left Rmax y' a) with (vmax y). split.
  - intros k Hk. split.
    + unfold vget. rewrite (nth_indep _ 0 (kde ((p75 - p25) / 10) y 0)) by (rewrite map_length, linspace_length; auto). rewrite map_nth. reflexivity.
    + rewrite F by auto. clear F. generalize (vmin y), (vmax y). intros p q. destruct (Nat.eq_dec n 1) as [->|N1].
      * assert (k = 0%nat) by lia. subst. simpl. ring.
      * assert (0 < INR (n - 1)) by (apply lt_0_INR; lia). generalize dependent (INR (n - 1)). intros m Hm. field. lra.
  - intro Hn. rewrite F by auto. simpl. ring.
Qed.
(** finding: over the grid that is returned the density never integrates to 1; at least 1/N is missing *)
Theorem pdf_mass_refuted : forall y n xx yy, ridge_pdf y n = Some (xx, yy) -> exists h, 0 < h /\ (forall k, (k < n)%nat -> vget yy k = kde h y (vget xx k)) /\
  forall G, antiderivative_of G (kde h y) -> G (vmax y) - G (vmin y) <= 1 - / INR (length y).
Proof.
  intros y n xx yy E. destruct (pdf_grid y n xx yy E) as (h & p25 & p75 & E1 & E2 & Eh & Hh & _ & _ & K). exists h. split; auto. split; [intros k Hk; apply (proj1 K); auto|]. intros G DG.
  assert (NE : y <> []) by (intros ->; discriminate). destruct (vmin_spec y NE) as [_ A]. destruct (vmax_spec y NE) as [_ B].
  apply (kde_ends h); auto. pose proof (percentile_range y _ _ E1). pose proof (percentile_range y _ _ E2). lra.
Qed.
(** such antiderivatives exist *)
Theorem kde_antiderivative : forall h y, 0 < h -> exists G, antiderivative_of G (kde h y).
Proof. intros h y Hh. exists (kcdf h y). apply kcdf_derive. auto. Qed.
Lemma percentile_const : forall c n q, 0 <= q <= 100 -> percentile (repeat c (S n)) q = Some c.
Proof.
  intros c n q Hq. destruct (percentile (repeat c (S n)) q) as [t|] eqn:E.
  - f_equal. pose proof (percentile_range _ _ _ E) as P. assert (NE : repeat c (S n) <> []) by (simpl; discriminate).
    destruct (vmin_spec _ NE) as [_ A]. destruct (vmax_spec _ NE) as [_ B]. apply repeat_spec in A. apply repeat_spec in B. lra.
  - exfalso. unfold percentile in E. cbn [repeat] in E. unfold Rleb in E. destruct (Rle_dec 0 q); [|lra]. destruct (Rle_dec q 100); [|lra]. discriminate.
Qed.
(** a constant sample has no estimate *)
Theorem pdf_constant_refuted : forall c m n, ridge_pdf (repeat c m) n = None.
Proof.
  intros c m n. destruct m as [|m]; [reflexivity|]. destruct (ridge_pdf (repeat c (S m)) n) as [r|] eqn:E; auto. exfalso.
  destruct (proj1 (pdf_returns (repeat c (S m)) n) (ex_intro _ r E)) as (p & q & E1 & E2 & L). rewrite percentile_const in E1, E2 by lra. injection E1 as <-. injection E2 as <-. lra.
Qed.
Example pdf_case : exists r, ridge_pdf [0; 1] 3 = Some r.
Proof.
  apply pdf_returns. exists (1 / 4), (3 / 4). split; [|split; [apply percentile_case|lra]]. unfold percentile, Rleb. destruct (Rle_dec 0 25); [|lra]. destruct (Rle_dec 25 100); [|lra]. cbn [andb].
  rewrite rsort_01. cbn [length Nat.sub]. replace (25 / 100 * INR 1) with (1 / 4) by (simpl; field).
  assert (F : rfloor (1 / 4) = 0%nat) by (pose proof (rfloor_spec (1 / 4) ltac:(lra)) as [A B]; destruct (rfloor (1 / 4)) as [|k]; auto; rewrite S_INR in A; pose proof (pos_INR k); lra). rewrite F.
  unfold vget. simpl. f_equal. field.
Qed.
Example kde_case : antiderivative_of (kcdf 1 [0; 3]) (kde 1 [0; 3]) /\ -1 <= vmin [0; 3] - 1 /\ vmax [0; 3] + 1 <= 4.
Proof. split; [apply kcdf_derive; lra|]. simpl. unfold Rmin, Rmax. destruct (Rle_dec 0 3); lra. Qed.
(** no more than 1/N is missing if the values are spread by a bandwidth from the ends *)
Theorem kde_mass_sharp : forall h a b l G, 0 < h -> a + h <= b -> (forall c, In c l -> a + h <= c <= b - h) -> antiderivative_of G (kde h (a :: b :: l)) -> G b - G a = 1 - / INR (length (a :: b :: l)).
Proof.
  intros h a b l G Hh L H DG. rewrite (antiderivative_diff G (kcdf h (a :: b :: l)) (kde h (a :: b :: l)) a b DG (kcdf_derive h _ Hh)). unfold kcdf. cbn [map]. rewrite !vsum_cons.
  rewrite (map_ext_in (fun c => tri_cdf h (b - c)) (fun _ => 1)) by (intros c I; specialize (H c I); apply tri_high; lra).
  rewrite (map_ext_in (fun c => tri_cdf h (a - c)) (fun _ => 0)) by (intros c I; specialize (H c I); apply tri_low; lra). rewrite !sum_const.
  replace (a - a) with 0 by ring. replace (b - b) with 0 by ring. rewrite tri_mid, (tri_high h (b - a)), (tri_low h (a - b)) by lra. cbn [length]. rewrite !S_INR. pose proof (pos_INR (length l)). field. lra.
Qed.
Example kde_sharp_case : 0 + 1 <= 3 /\ (forall c, In c [1; 2] -> 0 + 1 <= c <= 3 - 1).
Proof. split; [lra|]. intros c [<-|[<-|[]]]; lra. Qed.
