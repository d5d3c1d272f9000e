(** The fits asked of lstsq, ECOS and linprog have solutions: minimization of the 1, 2 and infinity norm of A x - b over polyhedra. *)
Require Import Reals List Bool Arith Lia Lra Psatz.
From Verif Require Import RVec Num Sums DomModel NormProofs DomMoreModel ArnoldiMoreProofs HullIneqProofs LatinProofs MatLib SpecProofs GrassLib BasisModel RidgeModel LipModel LinProg Compact LinLs.
Import ListNotations.
Local Open Scope R_scope.

Lemma cts_norm2_fun : forall n k (F : vec -> vec), (forall z, length z = n -> length (F z) = k) -> (forall i, (i < k)%nat -> cts n (fun z => vget (F z) i)) -> cts n (fun z => norm2 (F z)).
Proof.
  intros n k F L H. apply cts_ext with (fun z => sqrt (rsum k (fun i => vget (F z) i * vget (F z) i))).
  - intros z Lz. unfold norm2, norm2sq. rewrite (dot_rs k) by auto. auto.
  - apply cts_sqrt; [|intros; apply rsum_nonneg; intros; apply Rle_0_sqr]. apply (cts_rsum n k (fun i z => vget (F z) i * vget (F z) i)). intros. apply cts_sq. auto.
Qed.
Lemma cts_abs : forall n f, cts n f -> cts n (fun z => Rabs (f z)).
Proof. intros n f H. apply (cts_comp n f Rabs H). intros. apply Rcontinuity_abs. Qed.
Lemma cts_shift : forall n b i, length b = n -> cts n (fun w => vget (vsub w b) i).
Proof.
  intros n b i Lb. destruct (lt_dec i n).
  - apply cts_ext with (fun w => vget w i - vget b i); [intros w Lw; rewrite vsub_get by lia; auto|]. apply cts_minus; [apply cts_coord|apply cts_const].
  - apply cts_ext with (fun w => 0); [|apply cts_const]. intros w Lw. unfold vget. rewrite nth_overflow; auto. change (length (vsub w b) <= i)%nat. rewrite vsub_length; lia.
Qed.
Fixpoint cmax (k : nat) (r : vec) : R := match k with O => 0 | S k' => Rmax (cmax k' r) (Rabs (vget r k')) end.
Lemma cmax_nonneg : forall k r, 0 <= cmax k r.
Proof. induction k; intros; simpl; [lra|]. eapply Rle_trans; [apply IHk|apply Rmax_l]. Qed.
Lemma cmax_ge : forall k r i, (i < k)%nat -> Rabs (vget r i) <= cmax k r.
Proof. induction k; intros r i H; [lia|]. simpl. destruct (Nat.eq_dec i k) as [->|]; [apply Rmax_r|]. eapply Rle_trans; [apply IHk; lia|apply Rmax_l]. Qed.
Lemma cmax_le : forall k r c, 0 <= c -> (forall i, (i < k)%nat -> Rabs (vget r i) <= c) -> cmax k r <= c.
Proof. induction k; intros r c H0 H; simpl; auto. apply Rmax_lub; [apply IHk; auto|apply H; lia]. Qed.
Lemma vmax_abs : forall r, vmax (map Rabs r) = cmax (length r) r.
Proof.
  intro r. destruct r as [|a r]; [reflexivity|]. set (x := a :: r). destruct (vmax_spec (map Rabs x)) as [A B]; [discriminate|]. apply Rle_antisym.
  - apply in_map_iff in B. destruct B as (t & <- & I). apply In_nth with (d := 0) in I. destruct I as (i & Hi & <-). apply cmax_ge. auto.
  - apply cmax_le; [apply in_map_iff in B; destruct B as (t & <- & _); apply Rabs_pos|]. intros i Hi. apply A. apply in_map_iff. exists (vget x i). split; auto. apply nth_In. auto.
Qed.
(** the three objectives are continuous and dominate every entry *)
Lemma fit_obj_cts : forall p n b, length b = n -> cts n (fun w => fit_obj p (vsub w b)).
Proof.
  intros p n b Lb. destruct p; simpl.
  - apply cts_ext with (fun w => rsum n (fun i => Rabs (vget (vsub w b) i))).
    + intros w Lw. rewrite vsum_rsum, map_length, vsub_length by lia. rewrite Lw. apply rsum_ext. intros i Hi. rewrite vget_map_in; auto. rewrite vsub_length; lia.
    + apply (cts_rsum n n (fun i w => Rabs (vget (vsub w b) i))). intros. apply cts_abs, cts_shift. auto.
  - apply (cts_norm2_fun n n (fun w => vsub w b)); [intros; rewrite vsub_length; lia|]. intros. apply cts_shift. auto.
  - apply cts_ext with (fun w => cmax n (vsub w b)); [intros w Lw; rewrite vmax_abs, vsub_length; auto; try lia; rewrite Lw; auto|].
    assert (H : forall k, cts n (fun w => cmax k (vsub w b))); auto. induction k; simpl; [apply cts_const|]. apply (cts_Rmax n (fun w => cmax k (vsub w b)) (fun w => Rabs (vget (vsub w b) k))); auto. apply cts_abs, cts_shift. auto.
Qed.
Lemma fit_obj_dom : forall p r i, (i < length r)%nat -> Rabs (vget r i) <= fit_obj p r.
Proof.
  intros p r i Hi. destruct p; simpl.
  - rewrite vsum_rsum, map_length. rewrite (rsum_split (length r) i) by auto. rewrite vget_map_in by auto.
    pose proof (rsum_nonneg (length r) (fun i0 => if Nat.eqb i0 i then 0 else vget (map Rabs r) i0)) as H. enough (0 <= rsum (length r) (fun i0 => if Nat.eqb i0 i then 0 else vget (map Rabs r) i0)) by lra. apply H. intros j Hj. destruct (Nat.eqb j i); [lra|]. rewrite vget_map_in by auto. apply Rabs_pos.
  - apply abs_le_norm2. auto.
  - rewrite vmax_abs. apply cmax_ge. auto.
Qed.
(** a continuous function that dominates the entries of w - b attains its minimum over every nonempty closed set *)
Theorem coercive_attained : forall n (K : vec -> Prop) b (h : vec -> R), length b = n -> closed_set n K -> cts n h ->
  (forall w i, length w = n -> (i < n)%nat -> Rabs (vget w i - vget b i) <= h w) -> (exists x, length x = n /\ K x) ->
  exists y, length y = n /\ K y /\ forall z, length z = n -> K z -> h y <= h z.
Proof.
  intros n K b h Lb CK Ch D (x0 & Lx0 & K0). set (c := h x0).
  destruct (min_attained n (fun w => K w /\ h w <= c) h (map (fun a => a - c) b) (map (fun a => a + c) b)) as (y & Ly & [Ky Hy] & My).
  - rewrite map_length. auto.
  - rewrite map_length. auto.
  - apply closed_and; auto. apply closed_le. auto.
  - apply cts_lsc. auto.
  - intros x Lx [_ Hx] i Hi. rewrite map_length, Lb in Hi. rewrite !vget_map_in by lia. specialize (D x i Lx Hi). apply Rabs_def2b in D || idtac. unfold Rabs in D. destruct (Rcase_abs _); lra.
  - exists x0. split; auto. split; auto. unfold c. lra.
  - exists y. split; auto. split; auto. intros z Lz Kz. destruct (Rle_dec (h z) c) as [L|N]; [apply My; auto|]. unfold c in *. lra.
Qed.
(** hence a fit over a nonempty polyhedron is attained, in each norm *)
Theorem fit_attained : forall p n S A b, rect n S -> Forall (fun r => length r = n) A -> length b = length A -> (exists z, length z = n /\ holds S z) ->
  exists y, length y = n /\ holds S y /\ forall z, length z = n -> holds S z -> fit_obj p (fit_residual A b y) <= fit_obj p (fit_residual A b z).
Proof.
  intros p n S A b RS FA Lb (z0 & Lz0 & H0). destruct (image_polyhedron n S A RS FA) as (T & RT & HT).
  destruct (coercive_attained (length A) (holds T) b (fun w => fit_obj p (vsub w b)) Lb (holds_closed _ _ RT)) as (w & Lw & Hw & Mw).
  - apply fit_obj_cts. auto.
  - intros w i Lw Hi. rewrite <- vsub_get by lia. apply fit_obj_dom. rewrite vsub_length; lia.
  - exists (mv A z0). split; [apply mv_length|]. apply HT; [apply mv_length|]. eauto.
  - apply HT in Hw; auto. destruct Hw as (y & Ly & Hy & ->). exists y. split; auto. split; auto. intros z Lz Hz. apply Mw; [apply mv_length|]. apply HT; [apply mv_length|]. eauto.
Qed.
(** the constraints of the bounded fits as a polyhedron *)
Definition fit_rows (bd : fbound) (A : mat) (b : vec) : list (vec * R) :=
  match bd with NoBound => [] | Lower => combine A b | Upper => combine (map (vscale (-1)) A) (vscale (-1) b) end.
Lemma fit_rows_spec : forall bd A b x, length b = length A -> (holds (fit_rows bd A b) x <-> fit_con bd (fit_residual A b x)).
Proof.
  intros bd A b x. unfold fit_residual. destruct bd; simpl; [split; [auto|intros _ r c []]| |]; revert b; induction A as [|r A IH]; intros [|c b] L; try discriminate L; simpl.
  1,3: split; [constructor|intros _ ? ? []].
  - split.
    + intro H. constructor; [assert (dot r x <= c) by (apply H; left; auto); lra|]. apply IH; [injection L; auto|]. intros r' c' I. apply H. right. auto.
    + intros F r' c' [Q|I]; [injection Q as <- <-; inversion F; lra|]. inversion F; subst. apply (proj2 (IH b ltac:(injection L; auto))); auto.
  - split.
    + intro H. constructor; [assert (dot (vscale (-1) r) x <= -1 * c) by (apply H; left; auto); rewrite dot_vscale_l in *; lra|]. apply IH; [injection L; auto|]. intros r' c' I. apply H. right. auto.
    + intros F r' c' [Q|I]; [injection Q as <- <-; rewrite dot_vscale_l; inversion F; lra|]. inversion F; subst. apply (proj2 (IH b ltac:(injection L; auto))); auto.
Qed.
Lemma fit_rows_rect : forall n bd A b, Forall (fun r => length r = n) A -> rect n (fit_rows bd A b).
Proof.
  intros n bd A b F r c I. rewrite Forall_forall in F. destruct bd; simpl in I; [destruct I|apply in_combine_l in I; auto|apply in_combine_l in I; apply in_map_iff in I; destruct I as (r' & <- & I); rewrite vscale_length; auto].
Qed.
(** linear_fit, poly.py 19-44, has a solution whenever its constraints do *)
Theorem linear_fit_exists : forall p bd n A b, Forall (fun r => length r = n) A -> length b = length A -> (exists x, length x = n /\ fit_con bd (fit_residual A b x)) ->
  exists x, length x = n /\ linear_fit_returns p bd A b x.
Proof.
  intros p bd n A b F L (x0 & L0 & C0). destruct (fit_attained p n (fit_rows bd A b) A b (fit_rows_rect n bd A b F) F L) as (y & Ly & Hy & My).
  - exists x0. split; auto. apply fit_rows_spec; auto.
  - exists y. split; auto. split; [apply fit_rows_spec; auto|]. intros z Lz Cz. apply My; [lia|]. apply fit_rows_spec; auto.
Qed.
(** in particular if constants are among the functions fitted *)
Lemma const_feasible : forall bd n A b e, length b = length A -> length e = n -> mv A e = repeat 1 (length A) -> exists x, length x = n /\ fit_con bd (fit_residual A b x).
Proof.
  intros bd n A b e L Le E. set (c := cmax (length b) b). assert (B : forall t, In t b -> - c <= t <= c) by (intros t I; apply In_nth with (d := 0) in I; destruct I as (i & Hi & <-); pose proof (cmax_ge (length b) b i Hi) as Q; fold c in Q; unfold vget in Q; unfold Rabs in Q; destruct (Rcase_abs _); lra).
  assert (G : forall s, fit_residual A b (vscale s e) = map (fun t => s - t) b).
  { intro s. unfold fit_residual. rewrite mv_vscale, E. clear -L. generalize dependent b. induction A as [|r A IH]; intros [|t b] L; try discriminate L; auto. cbn [map length repeat vscale]. unfold vsub, vscale in *. cbn [map vmap2]. rewrite IH by (injection L; auto). f_equal. ring. }
  destruct bd.
  - exists e. split; simpl; auto.
  - exists (vscale (- c) e). split; [rewrite vscale_length; auto|]. rewrite G. simpl. apply Forall_forall. intros t I. apply in_map_iff in I. destruct I as (u & <- & I). specialize (B u I). lra.
  - exists (vscale c e). split; [rewrite vscale_length; auto|]. rewrite G. simpl. apply Forall_forall. intros t I. apply in_map_iff in I. destruct I as (u & <- & I). specialize (B u I). lra.
Qed.
Theorem linear_fit_const : forall p bd n A b e, Forall (fun r => length r = n) A -> length b = length A -> length e = n -> mv A e = repeat 1 (length A) -> exists x, length x = n /\ linear_fit_returns p bd A b x.
Proof. intros p bd n A b e F L Le E. apply linear_fit_exists; auto. eapply const_feasible; eauto. Qed.

(** bound_fit and the fits of polyridge.py 151-175, 364-416 *)
Theorem bound_fit_exists : forall p N A b, Forall (fun r => length r = N) A -> length b = length A -> (exists x, length x = N /\ fit_con Upper (fit_residual A b x)) -> exists x, bound_fit_returns p N A b x.
Proof.
  intros p N A b F L H. destruct (linear_fit_exists p Upper N A b F L H) as (x & Lx & C & M). exists x. split; auto. split; auto. intros y Ly. apply M. lia.
Qed.
Theorem free_fit_exists : forall p N A b, Forall (fun r => length r = N) A -> length b = length A -> exists x, free_fit_returns p N A b x.
Proof.
  intros p N A b F L. destruct (linear_fit_exists p NoBound N A b F L) as (x & Lx & C & M); [exists (vzero N); split; [apply repeat_length|simpl; auto]|]. exists x. split; auto. intros y Ly. apply M; [lia|simpl; auto].
Qed.
Lemma mv_mneg : forall A x, mv (mneg A) x = vscale (-1) (mv A x).
Proof. induction A as [|r A IH]; intro x; auto. simpl. rewrite dot_vscale_l. f_equal. apply IH. Qed.
Lemma neg_feasible : forall n A b e, length b = length A -> length e = n -> mv A e = repeat 1 (length A) -> exists x, length x = n /\ fit_con Upper (fit_residual (mneg A) (vscale (-1) b) x).
Proof.
  intros n A b e L Le E. destruct (const_feasible Lower n A b e L Le E) as (x & Lx & C). exists x. split; auto. unfold fit_residual in *. rewrite mv_mneg. simpl in *.
  assert (Q : vsub (vscale (-1) (mv A x)) (vscale (-1) b) = vscale (-1) (vsub (mv A x) b)).
  { assert (L' : length (mv A x) = length b) by (rewrite mv_length; auto). clear -L'. revert b L'. generalize (mv A x) as w. induction w as [|a w IH]; intros [|t b] L; try discriminate L; auto. unfold vsub, vscale in *. cbn [map vmap2]. rewrite IH by (injection L; auto). f_equal. ring. }
  rewrite Q. apply Forall_forall. intros t I. apply in_map_iff in I. destruct I as (u & <- & I). rewrite Forall_forall in C. specialize (C u I). lra.
Qed.
Lemma mneg_width : forall n A, Forall (fun r => length r = n) A -> Forall (fun r => length r = n) (mneg A).
Proof. intros n A F. apply Forall_forall. intros r I. apply in_map_iff in I. destruct I as (r' & <- & I). rewrite vscale_length. rewrite Forall_forall in F. auto. Qed.
Theorem coef_exists : forall p bd N V f e, Forall (fun r => length r = N) V -> length f = length V -> length e = N -> mv V e = repeat 1 (length V) -> exists c, coef_returns p bd N V f c.
Proof.
  intros p bd N V f e F L Le E. destruct bd; simpl.
  - apply free_fit_exists; auto.
  - apply bound_fit_exists; [apply mneg_width; auto|unfold mneg; rewrite vscale_length, map_length; auto|]. eapply neg_feasible; eauto.
  - apply bound_fit_exists; auto. apply (const_feasible Upper N V f e L Le E).
Qed.
(** the affine fit always has a solution *)
Lemma aff_ones : forall m X, Forall (fun x => length x = m) X -> Forall (fun r => length r = (m + 1)%nat) (aff_XX m X) /\ mv (aff_XX m X) (vzero m ++ [1]) = repeat 1 (length (aff_XX m X)).
Proof.
  intros m X F. assert (LB : length (aff_lb m X) = m) by (unfold aff_lb; rewrite map_length, seq_length; auto). assert (UB : length (aff_ub m X) = m) by (unfold aff_ub; rewrite map_length, seq_length; auto).
  unfold aff_XX. revert LB UB. generalize (aff_lb m X) (aff_ub m X). intros a b La Lb. induction F as [|x X Hx F IH]; simpl; [split; auto|]. destruct IH as [I1 I2]. assert (N : length (normalize a b x) = m) by (rewrite normalize_length; lia).
  split; [constructor; auto; rewrite app_length; simpl; lia|]. f_equal; auto. rewrite dot_app2 by (unfold vzero; rewrite repeat_length; auto). rewrite dot_cons, dot_nil_l.
  assert (Z : forall k (w : vec), dot w (vzero k) = 0). { induction k as [|k IHk]; intros [|t w]; unfold vzero in *; simpl repeat; rewrite ?dot_nil_l, ?dot_nil_r, ?dot_cons; auto. rewrite IHk. ring. }
  rewrite Z. ring.
Qed.
Theorem aff_fit_exists : forall p bd m X f, Forall (fun x => length x = m) X -> length f = length X -> exists b, aff_b_returns p bd m X f b.
Proof.
  intros p bd m X f F L. destruct (aff_ones m X F) as [A B]. assert (LX : length (aff_f f) = length (aff_XX m X)) by (unfold aff_f, aff_XX; rewrite !map_length; auto).
  assert (Le : length (vzero m ++ [1]) = (m + 1)%nat) by (rewrite app_length; unfold vzero; rewrite repeat_length; auto). destruct bd; simpl.
  - apply free_fit_exists; auto.
  - apply bound_fit_exists; auto. apply (const_feasible Upper (m + 1) _ _ _ LX Le B).
  - apply bound_fit_exists; [apply mneg_width; auto|unfold mneg; rewrite vscale_length, map_length; auto|]. eapply neg_feasible; eauto.
Qed.
