(** The conversion of hulls to inequalities and the equality basis of hulls are exact when no singular value is rounded to zero. *)
Require Import Reals List Bool Arith ZArith Lia Lra Psatz.
From Verif Require Import RVec Num Sums DomModel DomSpec NormProofs DomOpsProofs DomMoreModel LipModel LipProofs SweepProofs HullProofs HullIneqProofs MatLib GrassLib SpecProofs ArnoldiMoreProofs PartialProofs VoronoiProofs GeoModel SampModel PigeonLib
  LinProg Spectral Decomp SolveMore Minkowski HullConvModel.
Import ListNotations.
Local Open Scope R_scope.

(** * contracts *)
(** scipy.linalg.svd(rows, full_matrices = False): rows = U diag(s) VT *)
Definition svd_rows (m : nat) (rows : mat) (sv : vec * mat) : Prop :=
  length (snd sv) = Nat.min m (length rows) /\ length (fst sv) = length (snd sv) /\ Forall (fun v => length v = m) (snd sv) /\ orthonormal (snd sv) /\
  Forall (fun a => 0 <= a) (fst sv) /\ (forall i j, (i <= j < length (fst sv))%nat -> vget (fst sv) j <= vget (fst sv) i) /\
  exists us, length us = length (fst sv) /\ orthonormal us /\ Forall (fun u => length u = length rows) us /\
    forall c, (c < length rows)%nat -> nth c rows [] = lincomb m (snd sv) (vmul (fst sv) (col us c)).
(** scipy.spatial.ConvexHull(Y): the equations describe the convex hull, the vertices span it *)
Definition qhull_ok (d : nat) (Y : mat) (r : list (vec * R) * list nat) : Prop :=
  rect d (fst r) /\ (forall y, length y = d -> (sat (fst r) y <-> convex_comb Y d y)) /\
  Forall (fun j => (j < length Y)%nat) (snd r) /\ forall y, In y Y -> convex_comb (map (fun j => nth j Y []) (snd r)) d y.
(** no nonzero singular value is taken for zero *)
Definition sharp (s : vec) : Prop := Forall (fun a => np_close a 0 = true -> a = 0) s.

(** * the affine hull *)
Lemma big_rows_in : forall s VT v, length s = length VT -> (In v (big_rows s VT) <-> exists k, (k < length s)%nat /\ v = nth k VT [] /\ big (vget s k) = true).
Proof.
  intros s VT v L. unfold big_rows. rewrite in_map_iff. split.
  - intros ([a w] & <- & I). apply filter_In in I. destruct I as [I B]. apply In_nth with (d := (0, [])) in I. destruct I as (k & Hk & E). rewrite combine_length in Hk. rewrite combine_nth in E by auto. injection E as <- <-. exists k. split; [lia|]. auto.
  - intros (k & Hk & -> & B). exists (vget s k, nth k VT []). split; auto. apply filter_In. split; auto. unfold vget. rewrite <- (combine_nth s VT k 0 []) by auto. apply nth_In. rewrite combine_length. lia.
Qed.
Lemma filter_length_sub : forall {A} (f : A -> bool) l, (length (filter f l) <= length l)%nat.
Proof. intros A f l. induction l as [|a l IH]; simpl; auto. destruct (f a); simpl; lia. Qed.
Lemma big_rows_sub : forall s VT, length s = length VT -> (length (big_rows s VT) <= length VT)%nat.
Proof. intros s VT L. unfold big_rows. rewrite map_length. eapply Nat.le_trans; [apply filter_length_sub|]. rewrite combine_length. lia. Qed.
Lemma centred_get : forall m X c, (c < length X)%nat -> nth c (centred m X) [] = vsub (nth c X []) (row_mean m X).
Proof. intros m X c H. unfold centred. rewrite (nth_indep _ [] (vsub [] (row_mean m X))) by (rewrite map_length; auto). apply (map_nth (fun x => vsub x (row_mean m X))). Qed.
Lemma row_mean_length : forall m X, length (row_mean m X) = m.
Proof. intros. unfold row_mean. rewrite map_length, seq_length. auto. Qed.
Lemma centred_len : forall m X, Forall (fun x => length x = m) X -> Forall (fun x => length x = m) (centred m X).
Proof. intros m X F. apply Forall_forall. intros r I. apply in_map_iff in I. destruct I as (x & <- & I). rewrite Forall_forall in F. rewrite vsub_length; [auto|rewrite row_mean_length; auto]. Qed.
Lemma centred_length : forall m X, length (centred m X) = length X.
Proof. intros. unfold centred. apply map_length. Qed.
Lemma svd_row_dot : forall m rows sv c p, svd_rows m rows sv -> (c < length rows)%nat -> exists us, length us = length (fst sv) /\ dot (nth c rows []) p = rsum (length (fst sv)) (fun k => vget (fst sv) k * vget (nth k us []) c * dot (nth k (snd sv) []) p).
Proof.
  intros m rows [s VT] c p (L1 & L2 & F & OR & P & D & us & Lu & OU & FU & E) Hc. cbn [fst snd] in *. exists us. split; auto. rewrite E by auto. rewrite dot_comm, (dot_lincomb m) by auto. rewrite (dot_rs (length s)) by first [rewrite vmul_length by (rewrite col_len; lia); reflexivity | rewrite mv_length; lia].
  apply rsum_ext. intros k Hk. rewrite mv_get by lia. rewrite vmul_get by (rewrite col_len; lia). rewrite col_get by lia. ring.
Qed.
(** a vector orthogonal to the kept right singular vectors is orthogonal to all rows *)
Lemma big_span : forall m rows sv p x, svd_rows m rows sv -> sharp (fst sv) -> (forall v, In v (big_rows (fst sv) (snd sv)) -> dot v p = 0) -> In x rows -> dot x p = 0.
Proof.
  intros m rows sv p x SV SH H I. apply In_nth with (d := []) in I. destruct I as (c & Hc & <-). destruct (svd_row_dot m rows sv c p SV Hc) as (us & Lu & ->). pose proof SV as (_ & L2 & _). apply rsum_zero. intros k Hk.
  destruct (big (vget (fst sv) k)) eqn:B.
  - rewrite (H (nth k (snd sv) [])); [ring|]. apply big_rows_in; auto. eauto.
  - unfold big in B. apply negb_false_iff in B. unfold sharp in SH. rewrite Forall_forall in SH. rewrite (SH (vget (fst sv) k)); [ring|apply nth_In; auto|auto].
Qed.
(** conversely the kept right singular vectors are orthogonal to whatever is orthogonal to all rows *)
Lemma big_inv : forall m rows sv p v, svd_rows m rows sv -> length p = m -> (forall x, In x rows -> dot x p = 0) -> In v (big_rows (fst sv) (snd sv)) -> dot v p = 0.
Proof.
  intros m rows sv p v SV Lp H I. pose proof SV as (L1 & L2 & F & OR & P & D & us & Lu & OU & FU & E). destruct sv as [s VT]. cbn [fst snd] in *. apply big_rows_in in I; auto. destruct I as (k & Hk & -> & B).
  (* sum over the rows with the weights of the k-th left singular vector *)
  set (N := length rows) in *. assert (Z : rsum N (fun c => vget (nth k us []) c * dot (nth c rows []) p) = 0) by (apply rsum_zero; intros c Hc; rewrite H by (apply nth_In; auto); ring).
  assert (EQ : rsum N (fun c => vget (nth k us []) c * dot (nth c rows []) p) = vget s k * dot (nth k VT []) p).
  { rewrite (rsum_ext N _ (fun c => rsum (length s) (fun j => vget s j * dot (nth j VT []) p * (vget (nth k us []) c * vget (nth j us []) c)))).
    - rewrite rsum_swap. rewrite (rsum_ext (length s) _ (fun j => vget s j * dot (nth j VT []) p * (if Nat.eqb k j then 1 else 0))).
      + rewrite (rsum_single (length s) k) by first [assumption | lia | intros j Hj Nj; destruct (Nat.eqb_spec k j); [congruence|ring]]. rewrite Nat.eqb_refl. ring.
      + intros j Hj. rewrite rsum_scal_l. apply f_equal. assert (LU : forall i, (i < length us)%nat -> length (nth i us []) = N) by (intros i Hi; rewrite Forall_forall in FU; apply FU, nth_In; auto).
        rewrite <- (dot_rs N) by (apply LU; lia). apply OU; lia.
    - intros c Hc. rewrite E by auto. rewrite (dot_comm _ p), (dot_lincomb m) by auto. rewrite (dot_rs (length s)) by first [rewrite vmul_length by (rewrite col_len; lia); reflexivity | rewrite mv_length; lia]. rewrite <- rsum_scal_l. apply rsum_ext. intros j Hj. rewrite mv_get by lia. rewrite vmul_get by (rewrite col_len; lia). rewrite col_get by lia. ring. }
  rewrite Z in EQ. assert (NZ : vget s k <> 0). { intro K. rewrite K in B. unfold big, np_close in B. rewrite Rminus_0_r, Rabs_R0 in B. apply negb_true_iff in B. unfold Rleb in B. destruct (Rle_dec 0 (atol + rtol * 0)) as [C|C]; [discriminate|]. apply C. unfold atol, rtol. lra. }
  symmetry in EQ. apply Rmult_integral in EQ. destruct EQ; [contradiction|auto].
Qed.
Lemma orth_nodep : forall s VT, orthonormal VT -> length s = length VT -> orthonormal (big_rows s VT).
Proof.
  intros s VT OV L. unfold big_rows. assert (G : forall (b : list bool) (V : mat), orthonormal V -> True) by auto. clear G.
  revert VT OV L. induction s as [|a s IH]; intros [|v VT] OV L; try discriminate L; [intros i j Hi; simpl in Hi; lia|]. cbn [combine filter fst].
  assert (OV' : orthonormal VT) by (intros i j Hi Hj; pose proof (OV (1 + i)%nat (1 + j)%nat ltac:(simpl; lia) ltac:(simpl; lia)) as K; simpl in K; exact K). specialize (IH VT OV' ltac:(simpl in L; lia)). destruct (big a); auto. cbn [map snd].
  set (W := map snd (filter (fun p => big (fst p)) (combine s VT))) in *. assert (OW : forall w, In w W -> dot v w = 0).
  { intros w I. unfold W in I. apply in_map_iff in I. destruct I as ([b w'] & <- & I). apply filter_In in I. destruct I as [I _]. apply in_combine_r in I. cbn [snd]. apply In_nth with (d := []) in I. destruct I as (k & Hk & <-). pose proof (OV 0%nat (1 + k)%nat ltac:(simpl; lia) ltac:(simpl; lia)) as K. simpl in K. exact K. }
  intros [|i] [|j] Hi Hj; simpl in Hi, Hj; cbn [nth Nat.eqb].
  - pose proof (OV 0%nat 0%nat ltac:(simpl; lia) ltac:(simpl; lia)) as K. simpl in K. exact K.
  - apply OW, nth_In. lia.
  - rewrite dot_comm. apply OW, nth_In. lia.
  - apply IH; lia.
Qed.

(** * membership from the equations *)
Lemma mv_lincomb_rows : forall m Q X al, Forall (fun x => length x = m) X -> Forall (fun q => length q = m) Q -> mv Q (lincomb m X al) = lincomb (length Q) (map (mv Q) X) al.
Proof.
  intros m Q X al F FQ. assert (F' : Forall (fun y => length y = length Q) (map (mv Q) X)) by (apply Forall_forall; intros y I; apply in_map_iff in I; destruct I as (x & <- & _); apply mv_length).
  apply vec_ext; [rewrite mv_length, lincomb_length; auto|]. intros i Hi. rewrite mv_length in Hi. rewrite mv_get by auto. rewrite HullProofs.lincomb_get by auto. rewrite (dot_lincomb m) by auto. apply f_equal. rewrite map_map. unfold mv at 1. apply map_ext. intro x. rewrite mv_get by auto. apply dot_comm.
Qed.
Definition fixed_on (X : mat) (P : mat) : Prop := forall p x y, In p P -> In x X -> In y X -> dot p x = dot p y.
Definition means (X P : mat) : vec := map (fun p => vsum (map (dot p) X) / INR (length X)) P.
Lemma means_value : forall X P p x, fixed_on X P -> In p P -> In x X -> vsum (map (dot p) X) / INR (length X) = dot p x.
Proof.
  intros X P p x H Ip Ix. rewrite (vsum_const _ (dot p x)).
  - rewrite map_length. field. apply not_0_INR. destruct X; [destruct Ix|discriminate].
  - apply Forall_forall. intros t It. apply in_map_iff in It. destruct It as (y & <- & Iy). eapply H; eauto.
Qed.
Lemma dot_cc : forall m X P p x, Forall (fun x => length x = m) X -> fixed_on X P -> In p P -> convex_comb X m x -> dot p x = vsum (map (dot p) X) / INR (length X).
Proof.
  intros m X P p x F H Ip (al & La & Pa & Sa & ->). destruct X as [|x0 X]; [destruct al; [unfold vsum in Sa; simpl in Sa; lra|discriminate]|]. rewrite (means_value (x0 :: X) P p x0) by (auto; left; auto). rewrite (dot_lincomb m) by auto.
  replace (mv (x0 :: X) p) with (vscale (dot p x0) (repeat 1 (length (x0 :: X)))).
  - rewrite dot_vscale_r, (dot_comm al), dot_ones by auto. rewrite Sa. ring.
  - unfold vscale. apply vec_ext; [rewrite map_length, repeat_length, mv_length; auto|]. intros i Hi. rewrite map_length, repeat_length in Hi. rewrite mv_get by auto. unfold vget. rewrite (nth_indep _ 0 (dot p x0 * 1)) by (rewrite map_length, repeat_length; auto). rewrite (map_nth (Rmult (dot p x0))), nth_repeat. rewrite Rmult_1_r, (dot_comm (nth i _ _)). apply (H p); auto; [left; auto|apply nth_In; auto].
Qed.
Theorem equations_exact : forall m X Qpar Qperp eqs x, Forall (fun x => length x = m) X -> complete m (Qpar ++ Qperp) -> fixed_on X Qperp -> X <> [] ->
  rect (length Qpar) eqs -> (forall y, length y = length Qpar -> (sat eqs y <-> convex_comb (map (mv Qpar) X) (length Qpar) y)) -> length x = m ->
  (sat_ineq (map (fun e => lincomb m Qpar (fst e)) eqs) (map snd eqs) 0 x /\ sat_eq0 Qperp (means X Qperp) x <-> convex_comb X m x).
Proof.
  intros m X Qpar Qperp eqs x F C FX NX RE HE Lx. pose proof C as [FQ _]. apply Forall_app in FQ. destruct FQ as [FQ1 FQ2].
  assert (SI : sat_ineq (map (fun e => lincomb m Qpar (fst e)) eqs) (map snd eqs) 0 x <-> sat eqs (mv Qpar x)).
  { assert (D : forall a, dot (lincomb m Qpar a) x = dot a (mv Qpar x)) by (intro a; rewrite dot_comm, (dot_lincomb m) by auto; auto). unfold sat_ineq, sat. split.
    - intros H a c I. destruct (In_nth_error _ _ I) as (k & Hk). specialize (H k (lincomb m Qpar a) c (map_nth_error (fun e => lincomb m Qpar (fst e)) _ _ Hk) (map_nth_error snd _ _ Hk)). rewrite D in H. lra.
    - intros H k a c A1 A2. destruct (nth_error eqs k) as [[a' c']|] eqn:K.
      + rewrite (map_nth_error (fun e => lincomb m Qpar (fst e)) _ _ K) in A1. rewrite (map_nth_error snd _ _ K) in A2. injection A1 as <-. injection A2 as <-. cbn [fst snd]. rewrite D. apply nth_error_In in K. specialize (H _ _ K). lra.
      + apply nth_error_None in K. assert (nth_error (map snd eqs) k = None) by (apply nth_error_None; rewrite map_length; auto). congruence. }
  rewrite SI, HE by apply mv_length. split.
  - intros [(al & La & Pa & Sa & E) H2]. rewrite map_length in La. exists al. split; auto. split; auto. split; auto. rewrite <- (mv_lincomb_rows m) in E by auto. assert (LL : length (lincomb m X al) = m) by (apply lincomb_length; auto).
    apply (complete_inj m (Qpar ++ Qperp)); auto. intros q I. apply in_app_iff in I. destruct I as [I|I].
    + apply In_nth with (d := []) in I. destruct I as (i & Hi & <-). rewrite <- !mv_get by auto. rewrite E. auto.
    + rewrite (dot_cc m X Qperp q (lincomb m X al)) by (auto; exists al; auto). destruct (In_nth_error _ _ I) as (k & Hk). apply (H2 k q); auto. unfold means. apply (map_nth_error (fun p => vsum (map (dot p) X) / INR (length X)) _ _ Hk).
  - intro CC. split.
    + destruct CC as (al & La & Pa & Sa & ->). exists al. rewrite map_length. split; auto. split; auto. split; auto. apply mv_lincomb_rows; auto.
    + intros k q c A1 A2. unfold means in A2. rewrite (map_nth_error _ _ _ A1) in A2. injection A2 as <-. apply nth_error_In in A1. eapply dot_cc; eauto.
Qed.
(** the interval of lines 58-61 *)
Lemma interval_eqs : forall (y : vec), y <> [] -> forall t, length t = 1%nat -> (sat [([1], vmax y); ([-1], - vmin y)] t <-> convex_comb (map (fun a => [a]) y) 1 t).
Proof.
  intros y NY t Lt. destruct t as [|t [|]]; try discriminate Lt. assert (F : Forall (fun x => length x = 1%nat) (map (fun a => [a]) y)) by (apply Forall_forall; intros r I; apply in_map_iff in I; destruct I as (a & <- & _); auto).
  destruct (vmax_spec y NY) as [X1 X2]. destruct (vmin_spec y NY) as [N1 N2]. split.
  - intro H. assert (H1 := H _ _ (or_introl eq_refl)). assert (H2 := H _ _ (or_intror (or_introl eq_refl))). rewrite !dot_cons, !dot_nil_l in H1, H2.
    assert (S : exists s, 0 <= s <= 1 /\ t = (1 - s) * vmin y + s * vmax y).
    { destruct (Rle_lt_or_eq_dec (vmin y) (vmax y)) as [L|L]; [apply N1; auto| |].
      - exists ((t - vmin y) / (vmax y - vmin y)). split; [|field; lra]. split; [unfold Rdiv; apply Rmult_le_pos; [lra|apply Rlt_le, Rinv_0_lt_compat; lra]|]. apply Rmult_le_reg_r with (vmax y - vmin y); [lra|]. field_simplify; lra.
      - exists 0. split; lra. }
    destruct S as (s & Hs & ->). assert (C1 : convex_comb (map (fun a => [a]) y) 1 [vmin y]) by (apply cc_self; auto; apply in_map_iff; eauto). assert (C2 : convex_comb (map (fun a => [a]) y) 1 [vmax y]) by (apply cc_self; auto; apply in_map_iff; eauto).
    pose proof (cc_segment 1 _ _ _ s F Hs C1 C2) as K. unfold vadd, vscale in K. cbn [map vmap2] in K. exact K.
  - intros (al & La & Pa & Sa & E). rewrite map_length in La. assert (ET : t = dot al y).
    { assert (K : vget [t] 0 = vget (lincomb 1 (map (fun a => [a]) y) al) 0) by (rewrite E; auto). rewrite HullProofs.lincomb_get in K by auto. rewrite map_map in K. unfold vget at 1 in K. simpl in K. rewrite K. apply f_equal. rewrite <- (map_id y) at 2. apply map_ext. auto. }
    assert (B1 : t <= vmax y * vsum al) by (rewrite ET; apply dot_le_scal; auto; apply Forall_forall; auto). assert (B2 : vmin y * vsum al <= t) by (rewrite ET; apply dot_ge_scal; auto; apply Forall_forall; auto). rewrite Sa in B1, B2.
    intros a c [I|[I|[]]]; injection I as <- <-; rewrite dot_cons, dot_nil_l; lra.
Qed.

Lemma interval_qhull : forall y : vec, y <> [] -> qhull_ok 1 (map (fun a => [a]) y) ([([1], vmax y); ([-1], - vmin y)], [argmax y; argmin_idx y]).
Proof.
  intros y NY. destruct (argmax_spec y NY) as (M1 & M2 & _). destruct (argmin_spec y NY) as (N1 & N2). split; [intros a c [I|[I|[]]]; injection I as <- <-; auto|]. split; [intros t Lt; apply interval_eqs; auto|]. split; [rewrite map_length; repeat constructor; auto|].
  intros t It. apply in_map_iff in It. destruct It as (a & <- & Ia). assert (NT : forall k, (k < length y)%nat -> nth k (map (fun a => [a]) y) [] = [vget y k]) by (intros k Hk; rewrite (nth_indep _ [] [0]) by (rewrite map_length; auto); apply (map_nth (fun a => [a]))). cbn [snd map]. rewrite !NT by auto.
  assert (IE := interval_eqs [vget y (argmax y); vget y (argmin_idx y)] ltac:(discriminate) [a] eq_refl). cbn [map] in IE. apply IE. apply In_nth with (d := 0) in Ia. destruct Ia as (k & Hk & <-). assert (MX := M2 (argmin_idx y) N1). specialize (M2 k Hk). specialize (N2 k Hk). unfold vget in M2, N2.
  intros b c [I|[I|[]]]; injection I as <- <-; rewrite dot_cons, dot_nil_l; unfold vmax, vmin; cbn [fold_left]; [apply Rle_trans with (vget y (argmax y)); [unfold vget; lra|apply Rmax_l]|]. assert (Rmin (vget y (argmax y)) (vget y (argmin_idx y)) <= vget y (argmin_idx y)) by apply Rmin_r. unfold vget in *. lra.
Qed.

(** * the conversion *)
Lemma split_nth : forall {A} d (Q : list A) i e, nth i (skipn d Q) e = nth (d + i) Q e.
Proof. intros A d. induction d as [|d IH]; intros [|a Q] i e; simpl; auto. destruct i; auto. Qed.
Lemma perp_fixed : forall m X sv q, Forall (fun x => length x = m) X -> svd_rows m (centred m X) sv -> sharp (fst sv) -> qr_ok m (big_rows (fst sv) (snd sv)) q ->
  fixed_on X (skipn (length (big_rows (fst sv) (snd sv))) q).
Proof.
  intros m X sv q F SV SH [OB UT] p x y Ip Ix Iy. set (V := big_rows (fst sv) (snd sv)) in *. pose proof OB as (LQ & FQ & _).
  assert (PV : forall v, In v V -> dot v p = 0).
  { intros v Iv. apply In_nth with (d := []) in Iv. destruct Iv as (k & Hk & <-). apply In_nth with (d := []) in Ip. destruct Ip as (j & Hj & <-). rewrite skipn_length in Hj. rewrite split_nth. apply UT; lia. }
  assert (D : forall z, In z X -> dot p z = dot p (row_mean m X)).
  { intros z Iz. assert (K : dot (vsub z (row_mean m X)) p = 0) by (apply (big_span m (centred m X) sv); auto; apply in_map_iff; eauto). rewrite dot_vsub_l in K by (rewrite row_mean_length; rewrite Forall_forall in F; auto). rewrite (dot_comm p z), (dot_comm p (row_mean m X)). lra. }
  rewrite (D x Ix), (D y Iy). reflexivity.
Qed.
Lemma onb_complete : forall m q, onb m q -> complete m q.
Proof. intros m q O. pose proof O as (_ & F & _). split; auto. intros x Lx. symmetry. apply onb_expand; auto. Qed.
Lemma lincomb_single : forall m q a, length q = m -> lincomb m [q] [a] = vscale a q.
Proof. intros m q a L. simpl. apply vadd_zero_r. rewrite vscale_length. auto. Qed.
Lemma vertices_hull : forall m X Qpar Qperp J, Forall (fun x => length x = m) X -> complete m (Qpar ++ Qperp) -> fixed_on X Qperp -> Forall (fun j => (j < length X)%nat) J ->
  (forall y, In y (map (mv Qpar) X) -> convex_comb (map (fun j => nth j (map (mv Qpar) X) []) J) (length Qpar) y) -> forall x, In x X -> convex_comb (map (fun j => nth j X []) J) m x.
Proof.
  intros m X Qpar Qperp J F C FX FJ H x Ix. pose proof C as [FQ _]. apply Forall_app in FQ. destruct FQ as [FQ1 FQ2]. assert (F' := proj1 (Forall_forall _ _) F). rewrite Forall_forall in FJ.
  set (W := map (fun j => nth j X []) J). assert (FW : Forall (fun x => length x = m) W) by (apply Forall_forall; intros w I; apply in_map_iff in I; destruct I as (j & <- & I); apply F', nth_In; auto). assert (IW : forall w, In w W -> In w X) by (intros w I; apply in_map_iff in I; destruct I as (j & <- & I); apply nth_In; auto).
  destruct (H (mv Qpar x)) as (al & La & Pa & Sa & E); [apply in_map; auto|]. rewrite map_length in La. exists al. unfold W at 1. rewrite map_length. split; auto. split; auto. split; auto.
  replace (map (fun j => nth j (map (mv Qpar) X) []) J) with (map (mv Qpar) W) in E.
  - rewrite <- (mv_lincomb_rows m) in E by auto. apply (complete_inj m (Qpar ++ Qperp)); auto; [apply lincomb_length; auto|]. intros q I. apply in_app_iff in I. destruct I as [I|I].
    + apply In_nth with (d := []) in I. destruct I as (i & Hi & <-). rewrite <- !mv_get by auto. rewrite E. auto.
    + assert (CW : convex_comb W m (lincomb m W al)) by (exists al; split; [unfold W; rewrite map_length; auto|auto]). assert (FXW : fixed_on W Qperp) by (intros p a b Ip Ia Ib; apply FX; auto).
      rewrite (dot_cc m W Qperp q _ FW FXW I CW). assert (NW : W <> []) by (apply (convex_nonempty _ _ _ CW)). destruct W as [|w0 W0] eqn:EW; [congruence|]. rewrite <- EW in *. rewrite (means_value W Qperp q w0) by (auto; rewrite EW; left; auto). apply FX; auto. apply IW. rewrite EW. left. auto.
  - unfold W. rewrite map_map. apply map_ext_in. intros j I. rewrite (nth_indep (map (mv Qpar) X) [] (mv Qpar [])) by (rewrite map_length; auto). rewrite map_nth. auto.
Qed.
Lemma diag_eye : forall x y, length y = length x -> (sat_eq0 (diag (repeat 1 (length x))) x y <-> y = x).
Proof.
  intros x y L. unfold diag, sat_eq0. rewrite repeat_length. split.
  - intro H. apply vec_ext; auto. intros i Hi. assert (Hi' : (i < length x)%nat) by lia.
    assert (K1 : nth_error (map (fun i0 => map (fun j => if Nat.eqb i0 j then vget (repeat 1 (length x)) i0 else 0) (seq 0 (length x))) (seq 0 (length x))) i = Some (map (fun j => if Nat.eqb i j then vget (repeat 1 (length x)) i else 0) (seq 0 (length x)))).
    { apply (map_nth_error (fun i0 => map (fun j => if Nat.eqb i0 j then vget (repeat 1 (length x)) i0 else 0) (seq 0 (length x)))). rewrite nth_error_nth' with (d := 0%nat) by (rewrite seq_length; auto). rewrite seq_nth by auto. auto. }
    pose proof (H i _ (vget x i) K1 (nth_error_nth' x 0 Hi')) as E. rewrite <- E. rewrite (dot_rs (length x)) by (rewrite ?map_length, ?seq_length; auto). rewrite (rsum_single (length x) i) by first [assumption | lia | intros j Hj Nj; rewrite vget_map_seq by auto; destruct (Nat.eqb_spec i j); [congruence|ring]].
    rewrite vget_map_seq by auto. rewrite Nat.eqb_refl. unfold vget at 2. rewrite (nth_indep _ 0 1) by (rewrite repeat_length; auto). rewrite nth_repeat. ring.
  - intros -> i a c A1 A2. assert (Hi : (i < length x)%nat) by (apply nth_error_Some; congruence). rewrite (map_nth_error _ i (seq 0 (length x)) (d := i)) in A1 by (rewrite nth_error_nth' with (d := 0%nat) by (rewrite seq_length; auto); rewrite seq_nth by auto; auto). injection A1 as <-.
    rewrite (nth_error_nth' x 0 Hi) in A2. injection A2 as <-. rewrite (dot_rs (length x)) by (rewrite ?map_length, ?seq_length; auto). rewrite (rsum_single (length x) i) by first [assumption | lia | intros j Hj Nj; rewrite vget_map_seq by auto; destruct (Nat.eqb_spec i j); [congruence|ring]].
    rewrite vget_map_seq by auto. rewrite Nat.eqb_refl. unfold vget at 1. rewrite (nth_indep _ 0 1) by (rewrite repeat_length; auto). rewrite nth_repeat. unfold vget. ring.
Qed.
(** what the oracles promise at the calls made *)
Definition conv_ok (svd : mat -> vec * mat) (qr : mat -> mat) (qhull : mat -> list (vec * R) * list nat) (m : nat) (X : mat) : Prop :=
  let sv := svd (centred m X) in let V := big_rows (fst sv) (snd sv) in let Y := map (mv (firstn (length V) (qr V))) X in
  svd_rows m (centred m X) sv /\ sharp (fst sv) /\ qr_ok m V (qr V) /\ ((1 < length V)%nat -> qhull_ok (length V) Y (qhull Y)).
Theorem hull_to_linineq_exact : forall svd qr qhull m X r, Forall (fun x => length x = m) X -> X <> [] -> conv_ok svd qr qhull m X -> hull_to_linineq svd qr qhull m X = Some r ->
  Forall (fun a => length a = m) (hd_A r) /\ length (hd_A r) = length (hd_b r) /\ Forall (fun a => length a = m) (hd_Aeq r) /\ length (hd_Aeq r) = length (hd_beq r) /\
  (forall x, length x = m -> (sat_ineq (hd_A r) (hd_b r) 0 x /\ sat_eq0 (hd_Aeq r) (hd_beq r) x <-> convex_comb X m x)) /\
  (forall v, In v (hd_vert r) -> In v X) /\ forall x, In x X -> convex_comb (hd_vert r) m x.
Proof.
  intros svd qr qhull m X r F NX CO E. pose proof CO as (SV & SH & QR & QH). unfold hull_to_linineq in E.
  assert (ONE : forall x, X = [x] -> r = mkHD [] [] (diag (repeat 1 m)) x [x] -> Forall (fun a => length a = m) (hd_A r) /\ length (hd_A r) = length (hd_b r) /\ Forall (fun a => length a = m) (hd_Aeq r) /\ length (hd_Aeq r) = length (hd_beq r) /\
    (forall y, length y = m -> (sat_ineq (hd_A r) (hd_b r) 0 y /\ sat_eq0 (hd_Aeq r) (hd_beq r) y <-> convex_comb X m y)) /\ (forall v, In v (hd_vert r) -> In v X) /\ forall y, In y X -> convex_comb (hd_vert r) m y).
  { intros x -> ->. inversion F as [|? ? Lx _]. cbn [hd_A hd_b hd_Aeq hd_beq hd_vert]. split; [constructor|]. split; auto. split; [apply Forall_forall; intros a I; unfold diag in I; apply in_map_iff in I; destruct I as (i & <- & _); rewrite map_length, seq_length, repeat_length; auto|].
    split; [unfold diag; rewrite map_length, seq_length, repeat_length; auto|]. split; [|split; [auto|intros y Iy; apply cc_self; auto]]. intros y Ly. rewrite <- Lx. rewrite diag_eye by lia. split.
    - intros [_ ->]. apply cc_self; [constructor; auto|left; auto].
    - intros (al & La & Pa & Sa & ->). destruct al as [|a [|]]; try discriminate La. rewrite lincomb_single by auto. unfold vsum in Sa. simpl in Sa. split; [intros k a' c K; destruct k; discriminate|]. replace a with 1 by lra. unfold vscale. rewrite <- (map_id x) at 2. apply map_ext. intro. ring. }
  assert (GEN : forall Qpar Qperp eqs J, Qpar = firstn (length (big_rows (fst (svd (centred m X))) (snd (svd (centred m X))))) (qr (big_rows (fst (svd (centred m X))) (snd (svd (centred m X))))) -> Qperp = skipn (length (big_rows (fst (svd (centred m X))) (snd (svd (centred m X))))) (qr (big_rows (fst (svd (centred m X))) (snd (svd (centred m X))))) ->
    length Qpar = length (big_rows (fst (svd (centred m X))) (snd (svd (centred m X)))) -> qhull_ok (length Qpar) (map (mv Qpar) X) (eqs, J) -> r = mkHD (map (fun e => lincomb m Qpar (fst e)) eqs) (map snd eqs) Qperp (means X Qperp) (map (fun j => nth j X []) J) ->
    Forall (fun a => length a = m) (hd_A r) /\ length (hd_A r) = length (hd_b r) /\ Forall (fun a => length a = m) (hd_Aeq r) /\ length (hd_Aeq r) = length (hd_beq r) /\
    (forall y, length y = m -> (sat_ineq (hd_A r) (hd_b r) 0 y /\ sat_eq0 (hd_Aeq r) (hd_beq r) y <-> convex_comb X m y)) /\ (forall v, In v (hd_vert r) -> In v X) /\ forall y, In y X -> convex_comb (hd_vert r) m y).
  { intros Qpar Qperp eqs J EP EQ LP (RE & HE & FJ & VE) ->. cbn [hd_A hd_b hd_Aeq hd_beq hd_vert fst snd] in *. assert (C : complete m (Qpar ++ Qperp)) by (rewrite EP, EQ, firstn_skipn; apply onb_complete; apply QR). pose proof C as [FQ _]. apply Forall_app in FQ. destruct FQ as [FQ1 FQ2].
    assert (FX : fixed_on X Qperp) by (rewrite EQ; apply (perp_fixed m X (svd (centred m X))); auto). rewrite map_length in FJ.
    split; [apply Forall_forall; intros a I; apply in_map_iff in I; destruct I as (e & <- & _); apply lincomb_length; auto|]. split; [rewrite !map_length; auto|]. split; auto. split; [unfold means; rewrite map_length; auto|]. split; [intros y Ly; apply equations_exact; auto|].
    split; [intros v I; apply in_map_iff in I; destruct I as (j & <- & I); rewrite Forall_forall in FJ; apply nth_In; auto|]. apply (vertices_hull m X Qpar Qperp J); auto. }
  destruct X as [|x0 [|x1 Xr]]; [congruence|injection E as <-; apply (ONE x0); auto|]. set (X := x0 :: x1 :: Xr) in *. destruct (svd (centred m X)) as [s VT] eqn:ES. cbn [fst snd] in *. set (V := big_rows s VT) in *. set (Qpar := firstn (length V) (qr V)) in *. set (Qperp := skipn (length V) (qr V)) in *.
  pose proof QR as ((LQ & FQ & OQ) & _). assert (LV : (length V <= m)%nat) by (destruct SV as (A1 & A2 & _); cbn [fst snd] in *; pose proof (big_rows_sub s VT A2); fold V in H; lia). assert (LP : length Qpar = length V) by (unfold Qpar; rewrite firstn_length; lia).
  destruct (Nat.ltb_spec 1 (length V)) as [H1|H1].
  - destruct (qhull (map (mv Qpar) X)) as [eqs J] eqn:EQ. injection E as <-. apply (GEN Qpar Qperp eqs J); auto. rewrite LP. apply QH. auto.
  - destruct Qpar as [|q [|]] eqn:EQ; try discriminate E. injection E as <-. assert (Lq : length q = m) by (rewrite Forall_forall in FQ; apply FQ; rewrite <- (firstn_skipn (length V) (qr V)); apply in_app_iff; left; fold Qpar; rewrite EQ; left; auto).
    set (y := map (dot q) X). assert (NY : y <> []) by discriminate. assert (MY : map (mv [q]) X = map (fun a => [a]) y) by (unfold y; rewrite map_map; apply map_ext; auto).
    apply (GEN [q] Qperp [([1], vmax y); ([-1], - vmin y)] [argmax y; argmin_idx y]); auto.
    + rewrite MY. apply interval_qhull. auto.
    + cbn [map fst snd]. rewrite !lincomb_single by auto. reflexivity.
Qed.
