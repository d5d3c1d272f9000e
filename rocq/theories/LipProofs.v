(** Proofs about uncertainty intervals and the Lipschitz approximation (C26, C27, C28). *)
Require Import Reals Lra Lia List Bool Arith.
From Verif Require Import RVec Num Sums DomMoreModel HullIneqProofs VecTac ArnoldiMoreProofs MatLib LipModel.
Import ListNotations.
Local Open Scope R_scope.

(** ** specifications *)
(** f is L-Lipschitz on P up to a slack e: |f a - f b| <= |L(a - b)| + e *)
Definition lipschitz_on (P : vec -> Prop) (L : mat) (e : R) (f : vec -> R) : Prop :=
  forall a b, P a -> P b -> Rabs (f a - f b) <= norm2 (mv L (vsub a b)) + e.
(** data (points of length m with values) compatible with L *)
Definition consistent (m : nat) (L : mat) (D : list (vec * R)) : Prop :=
  Forall (fun d => length (fst d) = m) D /\
  forall d d', In d D -> In d' D -> Rabs (snd d - snd d') <= norm2 (mv L (vsub (fst d) (fst d'))).
Definition slack (eps : option R) : R := match eps with Some e => e | None => 0 end.
(** r lies in the (possibly infinite) interval *)
Definition within (r : R) (b : num * num) : Prop := nleb (fst b) (Fin r) = true /\ nleb (Fin r) (snd b) = true.
Definition dimP (m : nat) (x : vec) : Prop := length x = m.

(** ** the distance *)
Lemma Ldist_eq : forall L a b, length a = length b -> Ldist L a b = norm2 (mv L (vsub a b)).
Proof. intros. unfold Ldist. rewrite mv_vsub; auto. Qed.
Lemma Ldist_nonneg : forall L a b, 0 <= Ldist L a b.
Proof. intros. apply norm2_nonneg. Qed.
Lemma norm2_vsub_sym : forall x y, length x = length y -> norm2 (vsub x y) = norm2 (vsub y x).
Proof.
  intros x y H. replace (vsub x y) with (vscale (-1) (vsub y x)).
  - rewrite norm2_vscale. rewrite Rabs_left by lra. ring.
  - apply vec_ext; [rewrite vscale_length, !vsub_length; auto|]. intros i Hi. rewrite vscale_get, !vsub_get by auto. ring.
Qed.
Lemma Ldist_sym : forall L a b, Ldist L a b = Ldist L b a.
Proof. intros. apply norm2_vsub_sym. rewrite !mv_length. auto. Qed.
Lemma norm2_zero_vsub : forall x, norm2 (vsub x x) = 0.
Proof.
  intro x. unfold norm2. replace (norm2sq (vsub x x)) with 0; [apply sqrt_0|]. unfold norm2sq. rewrite dot_rsum by auto.
  symmetry. rewrite (rsum_ext _ _ (fun _ => 0)); [apply rsum_zero; auto|]. intros i Hi. rewrite vsub_get by auto. ring.
Qed.
Lemma Ldist_refl : forall L a, Ldist L a a = 0.
Proof. intros. apply norm2_zero_vsub. Qed.
Lemma Ldist_triangle : forall L a b c, Ldist L a c <= Ldist L a b + Ldist L b c.
Proof.
  intros L a b c. unfold Ldist. replace (vsub (mv L a) (mv L c)) with (vadd (vsub (mv L a) (mv L b)) (vsub (mv L b) (mv L c))).
  - apply norm2_triangle. rewrite !vsub_length; rewrite ?mv_length; auto.
  - apply vec_ext; [rewrite vadd_length, !vsub_length by (rewrite ?vsub_length by (rewrite !mv_length; auto); rewrite ?mv_length; auto); auto|]. intros i Hi.
    rewrite vadd_get, !vsub_get by (rewrite ?vsub_length by (rewrite !mv_length; auto); rewrite ?mv_length; auto). ring.
Qed.

(** ** folds of extended numbers *)
Lemma nmax_fold : forall l a, fold_left (fun b r => nmax b (Fin r)) l (Fin a) = Fin (fold_left Rmax l a).
Proof.
  induction l as [|b l IH]; intro a; auto. cbn [fold_left]. rewrite <- IH. f_equal. unfold nmax, nleb. unfold Rmax, Rleb.
  destruct (Rle_dec a b); auto.
Qed.
Lemma nmin_fold : forall l a, fold_left (fun b r => nmin b (Fin r)) l (Fin a) = Fin (fold_left Rmin l a).
Proof.
  induction l as [|b l IH]; intro a; auto. cbn [fold_left]. rewrite <- IH. f_equal. unfold nmin, nleb. unfold Rmin, Rleb.
  destruct (Rle_dec a b); auto.
Qed.
Lemma fold_map : forall A B C (f : C -> B -> C) (g : A -> B) l c, fold_left f (map g l) c = fold_left (fun c a => f c (g a)) l c.
Proof. induction l; intros; simpl; auto. Qed.
Definition lvals (L : mat) (D : list (vec * R)) (x : vec) : vec := map (fun d => snd d - Ldist L (fst d) x) D.
Definition uvals (L : mat) (D : list (vec * R)) (x : vec) : vec := map (fun d => snd d + Ldist L (fst d) x) D.
Lemma unc_lb0_vmax : forall L D x, D <> [] -> unc_lb0 L D x = Fin (vmax (lvals L D x)).
Proof.
  intros L D x NE. destruct D as [|d D]; [congruence|]. unfold unc_lb0, lvals. cbn [fold_left map vmax nmax nleb]. rewrite <- nmax_fold, fold_map. reflexivity.
Qed.
Lemma unc_ub0_vmin : forall L D x, D <> [] -> unc_ub0 L D x = Fin (vmin (uvals L D x)).
Proof.
  intros L D x NE. destruct D as [|d D]; [congruence|]. unfold unc_ub0, uvals. cbn [fold_left map vmin nmin nleb]. rewrite <- nmin_fold, fold_map. reflexivity.
Qed.
Lemma lvals_ne : forall L D x, D <> [] -> lvals L D x <> [].
Proof. intros L [|d D] x H; [congruence|discriminate]. Qed.
Lemma uvals_ne : forall L D x, D <> [] -> uvals L D x <> [].
Proof. intros L [|d D] x H; [congruence|discriminate]. Qed.
Lemma lmax_ge : forall L D x d, In d D -> snd d - Ldist L (fst d) x <= vmax (lvals L D x).
Proof. intros L D x d H. apply (vmax_spec (lvals L D x)); [apply lvals_ne; intros ->; auto|]. unfold lvals. apply (in_map (fun d => snd d - Ldist L (fst d) x)). auto. Qed.
Lemma umin_le : forall L D x d, In d D -> vmin (uvals L D x) <= snd d + Ldist L (fst d) x.
Proof. intros L D x d H. apply (vmin_spec (uvals L D x)); [apply uvals_ne; intros ->; auto|]. unfold uvals. apply (in_map (fun d => snd d + Ldist L (fst d) x)). auto. Qed.
Lemma lmax_at : forall L D x, D <> [] -> exists d, In d D /\ vmax (lvals L D x) = snd d - Ldist L (fst d) x.
Proof. intros L D x NE. destruct (vmax_spec (lvals L D x) (lvals_ne L D x NE)) as [_ H]. apply in_map_iff in H. destruct H as [d [E H]]. exists d. auto. Qed.
Lemma umin_at : forall L D x, D <> [] -> exists d, In d D /\ vmin (uvals L D x) = snd d + Ldist L (fst d) x.
Proof. intros L D x NE. destruct (vmin_spec (uvals L D x) (uvals_ne L D x NE)) as [_ H]. apply in_map_iff in H. destruct H as [d [E H]]. exists d. auto. Qed.

(** ** C26 *)
Lemma D_dec : forall D : list (vec * R), D = [] \/ D <> [].
Proof. destruct D; [left|right]; congruence. Qed.
Lemma Rleb_le : forall a b, a <= b -> Rleb a b = true.
Proof. intros. apply Rleb_true. auto. Qed.
(** every function that is L-Lipschitz (up to the slack epsilon) on a set containing the data and x has its value in the interval *)
Theorem unc_sound : forall (P : vec -> Prop) m L eps f X x, (forall z, P z -> length z = m) -> lipschitz_on P L (slack eps) f ->
  Forall P X -> P x -> 0 <= slack eps -> within (f x) (unc1 L eps (combine X (map f X)) x).
Proof.
  intros P m L eps f X x HP Lip FX Px E0. set (D := combine X (map f X)).
  assert (HD : forall d, In d D -> snd d - slack eps - Ldist L (fst d) x <= f x <= snd d + slack eps + Ldist L (fst d) x).
  { intros [z y] Hd. unfold D in Hd. cbn [fst snd]. assert (Pz : P z) by (rewrite Forall_forall in FX; apply FX; apply in_combine_l in Hd; auto).
    assert (y = f z) as ->. { clear - Hd. induction X as [|a X IH]; simpl in Hd; [contradiction|]. destruct Hd as [Hd|Hd]; auto. injection Hd as <- <-. auto. }
    rewrite (Ldist_eq L z x) by (rewrite (HP z), (HP x); auto). pose proof (Lip z x Pz Px) as B. unfold Rabs in B. destruct (Rcase_abs _); lra. }
  destruct (D_dec D) as [Z|NE].
  - rewrite Z. unfold within, unc1. destruct eps; split; reflexivity.
  - unfold within, unc1. destruct (lmax_at L D x NE) as [d1 [I1 E1]]. destruct (umin_at L D x NE) as [d2 [I2 E2]]. pose proof (HD _ I1). pose proof (HD _ I2).
    destruct eps as [e|]; cbn [fst snd slack] in *; rewrite (unc_lb0_vmax L D x NE), (unc_ub0_vmin L D x NE); cbn [nsub nadd nopp nleb]; split; apply Rleb_le; lra.
Qed.
(** the vectorized call: one interval per test point *)
Theorem unc_rows : forall L eps X fX Xt i, (i < length Xt)%nat ->
  length (fst (uncertainty L eps X fX Xt)) = length Xt /\ length (snd (uncertainty L eps X fX Xt)) = length Xt /\
  (nth i (fst (uncertainty L eps X fX Xt)) NaN, nth i (snd (uncertainty L eps X fX Xt)) NaN) = unc1 L eps (combine X fX) (nth i Xt []).
Proof.
  intros L eps X fX Xt i Hi. unfold uncertainty. cbn [fst snd]. rewrite !map_length. split; [auto|split; auto].
  rewrite (nth_indep _ NaN (fst (unc1 L eps (combine X fX) []))) by (rewrite map_length; auto).
  rewrite (map_nth (fun x => fst (unc1 L eps (combine X fX) x)) Xt [] i).
  rewrite (nth_indep _ NaN (snd (unc1 L eps (combine X fX) []))) by (rewrite map_length; auto).
  rewrite (map_nth (fun x => snd (unc1 L eps (combine X fX) x)) Xt [] i). destruct (unc1 _ _ _ _); auto.
Qed.

(** ** C27 *)
Lemma consistent_L : forall m L D d d', consistent m L D -> In d D -> In d' D -> Rabs (snd d - snd d') <= Ldist L (fst d) (fst d').
Proof. intros m L D d d' [F C] I1 I2. rewrite Forall_forall in F. rewrite Ldist_eq by (rewrite (F d), (F d'); auto). auto. Qed.
Lemma lmax_data : forall m L D d, consistent m L D -> In d D -> vmax (lvals L D (fst d)) = snd d.
Proof.
  intros m L D d C I. apply Rle_antisym.
  - destruct (lmax_at L D (fst d)) as [d' [I' ->]]; [intros ->; auto|]. pose proof (consistent_L m L D d' d C I' I). unfold Rabs in *. destruct (Rcase_abs _); lra.
  - pose proof (lmax_ge L D (fst d) d I). rewrite Ldist_refl in *. lra.
Qed.
Lemma umin_data : forall m L D d, consistent m L D -> In d D -> vmin (uvals L D (fst d)) = snd d.
Proof.
  intros m L D d C I. apply Rle_antisym.
  - pose proof (umin_le L D (fst d) d I). rewrite Ldist_refl in *. lra.
  - destruct (umin_at L D (fst d)) as [d' [I' ->]]; [intros ->; auto|]. pose proof (consistent_L m L D d' d C I' I). unfold Rabs in *. destruct (Rcase_abs _); lra.
Qed.
(** at a data point of consistent data the interval is the data value, widened by epsilon *)
Theorem unc_collapse : forall m L eps D d, consistent m L D -> In d D ->
  unc1 L eps D (fst d) = (Fin (snd d - slack eps), Fin (snd d + slack eps)).
Proof.
  intros m L eps D d C I. assert (NE : D <> []) by (intros ->; auto).
  unfold unc1. rewrite (unc_lb0_vmax L D _ NE), (unc_ub0_vmin L D _ NE), (lmax_data m L D d C I), (umin_data m L D d C I).
  destruct eps; cbn [slack]; [reflexivity|]. do 2 f_equal; ring.
Qed.
(** adding data (anywhere in the list) never enlarges the interval *)
Theorem unc_monotone : forall L eps D D' x, (forall d, In d D -> In d D') ->
  nleb (fst (unc1 L eps D x)) (fst (unc1 L eps D' x)) = true /\ nleb (snd (unc1 L eps D' x)) (snd (unc1 L eps D x)) = true.
Proof.
  intros L eps D D' x Sub. destruct (D_dec D') as [Z|NE'].
  { destruct D as [|d D]; [|exfalso; rewrite Z in Sub; apply (Sub d); left; auto]. subst. unfold unc1. destruct eps; split; reflexivity. }
  destruct (D_dec D) as [Z|NE].
  - subst D. unfold unc1. destruct eps as [e|]; cbn [fst snd]; rewrite (unc_lb0_vmax L D' x NE'), (unc_ub0_vmin L D' x NE'); split; reflexivity.
  - destruct (lmax_at L D x NE) as [d1 [I1 E1]]. pose proof (lmax_ge L D' x d1 (Sub _ I1)). destruct (umin_at L D x NE) as [d2 [I2 E2]]. pose proof (umin_le L D' x d2 (Sub _ I2)).
    unfold unc1. destruct eps as [e|]; cbn [fst snd]; rewrite (unc_lb0_vmax L D x NE), (unc_ub0_vmin L D x NE), (unc_lb0_vmax L D' x NE'), (unc_ub0_vmin L D' x NE'); cbn [nsub nadd nopp nleb]; split; apply Rleb_le; lra.
Qed.
(** for consistent data the interval is non-empty everywhere; conversely, data whose intervals are non-empty at the data points are consistent *)
Lemma lmax_le_umin : forall m L D x, consistent m L D -> D <> [] -> vmax (lvals L D x) <= vmin (uvals L D x).
Proof.
  intros m L D x C NE. destruct (lmax_at L D x NE) as [d1 [I1 ->]]. destruct (umin_at L D x NE) as [d2 [I2 ->]].
  pose proof (consistent_L m L D d1 d2 C I1 I2). pose proof (Ldist_triangle L (fst d1) x (fst d2)). rewrite (Ldist_sym L x (fst d2)) in H0.
  unfold Rabs in H. destruct (Rcase_abs _); lra.
Qed.
Theorem unc_nonempty_iff : forall m L D, Forall (fun d => length (fst d) = m) D ->
  (consistent m L D <-> forall x, length x = m -> nleb (fst (unc1 L None D x)) (snd (unc1 L None D x)) = true).
Proof.
  intros m L D F. split.
  - intros C x Hx. destruct (D_dec D) as [->|NE]; [reflexivity|]. cbn [unc1 fst snd]. rewrite (unc_lb0_vmax L D x NE), (unc_ub0_vmin L D x NE). cbn [nleb]. apply Rleb_le. apply (lmax_le_umin m); auto.
  - intro H. split; auto. intros d d' I1 I2. assert (NE : D <> []) by (intros ->; auto). assert (Hl : length (fst d) = m /\ length (fst d') = m) by (rewrite Forall_forall in F; auto). destruct Hl as [Hl1 Hl2].
    assert (G : forall x, length x = m -> vmax (lvals L D x) <= vmin (uvals L D x)).
    { intros x Hx. specialize (H x Hx). cbn [unc1 fst snd] in H. rewrite (unc_lb0_vmax L D x NE), (unc_ub0_vmin L D x NE) in H. cbn [nleb] in H. apply Rleb_true in H. auto. }
    rewrite <- Ldist_eq by congruence. pose proof (G (fst d) Hl1) as G1. pose proof (G (fst d') Hl2) as G2.
    pose proof (lmax_ge L D (fst d) d I1). pose proof (lmax_ge L D (fst d') d' I2). rewrite Ldist_refl in *.
    pose proof (umin_le L D (fst d) d' I2). pose proof (umin_le L D (fst d') d I1). rewrite (Ldist_sym L (fst d') (fst d)) in *.
    unfold Rabs. destruct (Rcase_abs _); lra.
Qed.

(** the bounds are themselves L-Lipschitz *)
Lemma lmax_lip : forall L D x z, D <> [] -> vmax (lvals L D x) - vmax (lvals L D z) <= Ldist L x z.
Proof.
  intros L D x z NE. destruct (lmax_at L D x NE) as [d [I ->]]. pose proof (lmax_ge L D z d I). pose proof (Ldist_triangle L (fst d) x z). lra.
Qed.
Lemma umin_lip : forall L D x z, D <> [] -> vmin (uvals L D x) - vmin (uvals L D z) <= Ldist L x z.
Proof.
  intros L D x z NE. destruct (umin_at L D z NE) as [d [I ->]]. pose proof (umin_le L D x d I). pose proof (Ldist_triangle L (fst d) z x). rewrite (Ldist_sym L x z). lra.
Qed.
(** McShane: the interval is the exact range of values of L-Lipschitz interpolants *)
Theorem unc_sharp : forall m L D x v, consistent m L D -> length x = m ->
  within v (unc1 L None D x) ->
  exists g : vec -> R, lipschitz_on (dimP m) L 0 g /\ (forall d, In d D -> g (fst d) = snd d) /\ g x = v.
Proof.
  intros m L D x v [F C] Hx W. set (D' := (x, v) :: D). exists (fun z => vmax (lvals L D' z)).
  assert (NE' : D' <> []) by (unfold D'; discriminate).
  assert (C' : consistent m L D').
  { split; [constructor; auto|]. assert (V : forall d, In d D -> Rabs (snd d - v) <= Ldist L (fst d) x).
    { intros d I. assert (NE : D <> []) by (intros ->; auto). destruct W as [W1 W2]. cbn [unc1 fst snd] in W1, W2. rewrite (unc_lb0_vmax L D x NE) in W1. rewrite (unc_ub0_vmin L D x NE) in W2.
      cbn [nleb] in W1, W2. apply Rleb_true in W1, W2. pose proof (lmax_ge L D x d I). pose proof (umin_le L D x d I). unfold Rabs. destruct (Rcase_abs _); lra. }
    assert (FD : forall d, In d D -> length (fst d) = m) by (rewrite Forall_forall in F; auto).
    intros d d' [<-|I1] [<-|I2]; cbn [fst snd].
    - rewrite Rminus_diag_eq, Rabs_R0 by auto. apply norm2_nonneg.
    - rewrite <- (Ldist_eq L x (fst d')) by (rewrite FD; auto). rewrite Rabs_minus_sym, Ldist_sym. auto.
    - rewrite <- Ldist_eq by (rewrite FD; auto). auto.
    - auto. }
  split; [|split].
  - intros a b Ha Hb. unfold dimP in *. rewrite <- Ldist_eq by congruence. rewrite Rplus_0_r. pose proof (lmax_lip L D' a b NE'). pose proof (lmax_lip L D' b a NE'). rewrite (Ldist_sym L b a) in *.
    unfold Rabs. destruct (Rcase_abs _); lra.
  - intros d I. apply (lmax_data m L D' d C'). right. auto.
  - apply (lmax_data m L D' (x, v) C'). left. auto.
Qed.

(** ** C28 *)
Definition mid (L : mat) (D : list (vec * R)) (x : vec) : R := / 2 * (vmax (lvals L D x) + vmin (uvals L D x)).
Lemma approx_mid : forall L X fX y x, combine X y <> [] -> approx_eval L X fX y x = Fin (mid L (combine X y) x).
Proof.
  intros L X fX y x NE. unfold approx_eval, unc1. cbn [fst snd]. rewrite (unc_lb0_vmax L _ x NE), (unc_ub0_vmin L _ x NE). cbn [nsub nadd nopp nmul]. f_equal. unfold mid. ring.
Qed.
Lemma combine_ne : forall (X : mat) (y : vec), X <> [] -> length y = length X -> combine X y <> [].
Proof. intros [|a X] [|b y] H E; try discriminate; congruence. Qed.
(** the approximation is finite and L-Lipschitz, whatever the (non-empty) data *)
Theorem approx_lipschitz : forall m L X fX y, X <> [] -> length y = length X ->
  exists g : vec -> R, (forall x, approx_eval L X fX y x = Fin (g x)) /\ lipschitz_on (dimP m) L 0 g.
Proof.
  intros m L X fX y NE Ly. pose proof (combine_ne X y NE Ly) as N. exists (mid L (combine X y)). split; [intro; apply approx_mid; auto|].
  intros a b Ha Hb. unfold dimP in *. rewrite <- Ldist_eq by congruence. unfold mid.
  pose proof (lmax_lip L _ a b N). pose proof (lmax_lip L _ b a N). pose proof (umin_lip L _ a b N). pose proof (umin_lip L _ b a N). rewrite (Ldist_sym L b a) in *.
  unfold Rabs. destruct (Rcase_abs _); lra.
Qed.
Lemma combine_nth_in : forall (X : mat) (y : vec) i, length y = length X -> (i < length X)%nat -> In (nth i X [], vget y i) (combine X y).
Proof.
  induction X as [|a X IH]; intros y i Ly Hi; [simpl in Hi; lia|]. destruct y as [|b y]; [discriminate|]. destruct i; [left; auto|right]. apply (IH y i); simpl in *; lia.
Qed.
Lemma in_combine_nth : forall (X : mat) (y : vec) d, length y = length X -> In d (combine X y) -> exists i, (i < length X)%nat /\ d = (nth i X [], vget y i).
Proof.
  induction X as [|a X IH]; intros y d Ly H; [contradiction|]. destruct y as [|b y]; [discriminate|]. destruct H as [<-|H]; [exists O; simpl; split; [lia|auto]|].
  destruct (IH y d) as [i [Hi E]]; [simpl in Ly; lia|auto|]. exists (S i). simpl. split; [lia|auto].
Qed.
(** the constraints used by lipschitz_approximation_compatible_data say that (X, y) is consistent *)
Theorem compat_con_iff : forall m L X y, Forall (dimP m) X -> length y = length X ->
  (compat_con L X y <-> consistent m L (combine X y)).
Proof.
  intros m L X y F Ly. assert (FX : forall i, (i < length X)%nat -> length (nth i X []) = m) by (intros; rewrite Forall_forall in F; apply F, nth_In; auto).
  assert (SY : forall i j, (i < length X)%nat -> (j < length X)%nat -> norm2 (mv L (vsub (nth i X []) (nth j X []))) = norm2 (mv L (vsub (nth j X []) (nth i X [])))).
  { intros i j Hi Hj. rewrite <- !Ldist_eq by (rewrite !FX; auto). apply Ldist_sym. }
  split; intro C.
  - split.
    + apply Forall_forall. intros d H. destruct (in_combine_nth X y d Ly H) as [i [Hi ->]]. cbn. auto.
    + intros d d' H H'. destruct (in_combine_nth X y d Ly H) as [i [Hi ->]]. destruct (in_combine_nth X y d' Ly H') as [j [Hj ->]]. cbn [fst snd].
      destruct (le_dec j (i + 1)); [apply C; auto|]. rewrite Rabs_minus_sym, SY by auto. apply C; auto. lia.
  - intros i j Hi Hj _. destruct C as [_ C]. apply (C (nth i X [], vget y i) (nth j X [], vget y j)); apply combine_nth_in; auto.
Qed.
(** the approximation interpolates the compatible data y *)
Theorem approx_interpolates : forall nrm m L X fX y i, Forall (dimP m) X -> length fX = length X -> compat_spec nrm L X fX y ->
  (i < length X)%nat -> approx_eval L X fX y (nth i X []) = Fin (vget y i).
Proof.
  intros nrm m L X fX y i F Lf [Ly [C _]] Hi. assert (Ly' : length y = length X) by congruence. rewrite approx_mid by (apply combine_ne; auto; intros ->; simpl in Hi; lia).
  apply (compat_con_iff m) in C; auto. pose proof (combine_nth_in X y i Ly' Hi) as I. f_equal. unfold mid.
  pose proof (lmax_data m L _ _ C I) as E1. pose proof (umin_data m L _ _ C I) as E2. cbn [fst snd] in E1, E2. rewrite E1, E2. lra.
Qed.
(** consistent data are reproduced: y = fX and epsilon = 0 *)
Definition is_norm_at0 (nrm : vec -> R) : Prop := forall z, nrm z <= nrm (vsub z z) -> Forall (fun a => a = 0) z.
Lemma vsub_self_zero : forall a b : vec, length a = length b -> Forall (fun c => c = 0) (vsub a b) -> a = b.
Proof.
  intros a b E F. apply vec_ext; auto. intros i Hi. rewrite Forall_forall in F. assert (Z : vget (vsub a b) i = 0).
  { apply F. unfold vget. apply nth_In. rewrite vsub_length; auto. }
  rewrite vsub_get in Z by auto. lra.
Qed.
Theorem approx_reproduces : forall nrm m L X fX y, is_norm_at0 nrm -> Forall (dimP m) X -> length fX = length X -> X <> [] ->
  consistent m L (combine X fX) -> compat_spec nrm L X fX y -> y = fX /\ approx_eps y fX = 0.
Proof.
  intros nrm m L X fX y N F Lf NE C [Ly [Cy Min]]. assert (E : y = fX).
  { apply vsub_self_zero; auto. apply N. eapply Rle_trans; [apply (Min fX); auto; apply (compat_con_iff m); auto|]. right. f_equal.
    apply vec_ext; [rewrite !vsub_length; auto; rewrite ?vsub_length; auto|]. intros i Hi. rewrite !vsub_get by (rewrite ?vsub_length; auto). ring. }
  split; auto. subst y. unfold approx_eps. destruct (vmax_spec (map Rabs (vsub fX fX))) as [_ I].
  - destruct fX; [destruct X; [congruence|discriminate]|discriminate].
  - apply in_map_iff in I. destruct I as [a [<- I]]. apply (In_nth _ _ 0) in I. destruct I as [i [Hi <-]]. change (nth i (vsub fX fX) 0) with (vget (vsub fX fX) i). rewrite vsub_get by auto. rewrite Rminus_diag_eq by auto. apply Rabs_R0.
Qed.
(** the sup of |y - fX| is epsilon, so the widened intervals contain every L-Lipschitz function with these data,
    and the midpoint is off by at most half the width *)
Lemma approx_eps_ge : forall y fX i, length y = length fX -> (i < length fX)%nat -> Rabs (vget y i - vget fX i) <= approx_eps y fX.
Proof.
  intros y fX i E Hi. unfold approx_eps. apply vmax_spec; [destruct y; [simpl in E; lia|]; destruct fX; [simpl in Hi; lia|discriminate]|].
  rewrite <- vsub_get by auto. apply in_map. unfold vget. apply nth_In. rewrite vsub_length by auto. lia.
Qed.
Theorem approx_error : forall (P : vec -> Prop) m L X f y x, (forall z, P z -> length z = m) -> lipschitz_on P L 0 f -> Forall P X -> X <> [] -> P x -> length y = length X ->
  exists lo hi g, unc1 L (Some (approx_eps y (map f X))) (combine X y) x = (Fin lo, Fin hi) /\ approx_eval L X (map f X) y x = Fin g /\
    lo <= f x <= hi /\ Rabs (f x - g) <= (hi - lo) / 2.
Proof.
  intros P m L X f y x HP Lip FX NE Px Ly. pose proof (combine_ne X y NE Ly) as N. set (D := combine X y) in *. set (e := approx_eps y (map f X)).
  exists (vmax (lvals L D x) - e), (vmin (uvals L D x) + e), (mid L D x). split; [|split; [apply approx_mid; auto|]].
  { unfold unc1. rewrite (unc_lb0_vmax L _ x N), (unc_ub0_vmin L _ x N). reflexivity. }
  assert (HD : forall d, In d D -> snd d - e - Ldist L (fst d) x <= f x <= snd d + e + Ldist L (fst d) x).
  { intros d H. destruct (in_combine_nth X y d Ly H) as [i [Hi ->]]. cbn [fst snd]. pose proof (approx_eps_ge y (map f X) i ltac:(rewrite map_length; auto) ltac:(rewrite map_length; auto)) as B. fold e in B.
    rewrite (map_get _ f X i []) in B by auto. assert (Pz : P (nth i X [])) by (rewrite Forall_forall in FX; apply FX, nth_In; auto).
    rewrite (Ldist_eq L (nth i X []) x) by (rewrite (HP x), (HP (nth i X [])); auto). pose proof (Lip (nth i X []) x Pz Px) as C. unfold Rabs in B, C. destruct (Rcase_abs (vget y i - f (nth i X []))); destruct (Rcase_abs (f (nth i X []) - f x)); lra. }
  assert (W : vmax (lvals L D x) - e <= f x <= vmin (uvals L D x) + e).
  { destruct (lmax_at L D x N) as [d1 [I1 ->]]. destruct (umin_at L D x N) as [d2 [I2 ->]]. pose proof (HD _ I1). pose proof (HD _ I2). lra. }
  split; auto. unfold mid. unfold Rabs. destruct (Rcase_abs _); lra.
Qed.
(** for consistent data no estimate can have a smaller worst case error than the midpoint *)
Theorem approx_optimal : forall m L D x c, consistent m L D -> D <> [] -> length x = m ->
  exists g : vec -> R, lipschitz_on (dimP m) L 0 g /\ (forall d, In d D -> g (fst d) = snd d) /\
    (vmin (uvals L D x) - vmax (lvals L D x)) / 2 <= Rabs (g x - c).
Proof.
  intros m L D x c C NE Hx. pose proof (lmax_le_umin m L D x C NE) as LE.
  assert (W : forall v, v = vmax (lvals L D x) \/ v = vmin (uvals L D x) -> within v (unc1 L None D x)).
  { intros v Hv. unfold within. cbn [unc1 fst snd]. rewrite (unc_lb0_vmax L D x NE), (unc_ub0_vmin L D x NE). cbn [nleb]. split; apply Rleb_le; destruct Hv; lra. }
  destruct (Rle_dec c (mid L D x)) as [LC|LC]; unfold mid in LC.
  - destruct (unc_sharp m L D x (vmin (uvals L D x)) C Hx (W _ (or_intror eq_refl))) as [g [G1 [G2 G3]]]. exists g. split; auto. split; auto. rewrite G3. unfold Rabs. destruct (Rcase_abs _); lra.
  - destruct (unc_sharp m L D x (vmax (lvals L D x)) C Hx (W _ (or_introl eq_refl))) as [g [G1 [G2 G3]]]. exists g. split; auto. split; auto. rewrite G3. unfold Rabs. destruct (Rcase_abs _); lra.
Qed.
(** no data: the interval is the whole line and the approximation is NaN *)
Theorem approx_empty : forall L fX x, approx_eval L [] fX [] x = NaN.
Proof. intros. reflexivity. Qed.

(** the norms offered by cvxpy for the compatible data problem: 1 (default), 2 and infinity *)
Definition norm1 (z : vec) : R := vsum (map Rabs z).
Definition norminf (z : vec) : R := vmax (map Rabs z).
Lemma norm1_nonneg : forall z, 0 <= norm1 z.
Proof. unfold norm1. induction z as [|a z IH]; cbn [map]; [change (vsum []) with 0; lra|]. rewrite vsum_cons. pose proof (Rabs_pos a). lra. Qed.
Lemma norm1_zero : forall z, norm1 z <= 0 -> Forall (fun a => a = 0) z.
Proof.
  induction z as [|a z IH]; intro H; constructor; unfold norm1 in *; cbn [map] in H; rewrite vsum_cons in H; pose proof (Rabs_pos a); pose proof (norm1_nonneg z); unfold norm1 in *.
  - destruct (Req_dec a 0); auto. pose proof (Rabs_pos_lt a). lra.
  - apply IH. lra.
Qed.
Lemma vsub_self : forall z : vec, vsub z z = repeat 0 (length z).
Proof. induction z as [|a z IH]; auto. cbn. f_equal; [ring|auto]. Qed.
Lemma abs_repeat0 : forall n, map Rabs (repeat 0 n) = repeat 0 n.
Proof. induction n; cbn; auto. rewrite IHn, Rabs_R0. auto. Qed.
Theorem cvx_norms_at0 : is_norm_at0 norm1 /\ is_norm_at0 norm2 /\ is_norm_at0 norminf.
Proof.
  split; [|split]; intros z H.
  - apply norm1_zero. eapply Rle_trans; [exact H|]. right. unfold norm1. rewrite vsub_self, abs_repeat0. generalize (length z). induction n; cbn [repeat]; [reflexivity|rewrite vsum_cons, IHn; ring].
  - rewrite norm2_zero_vsub in H. apply norm2sq_zero. rewrite <- norm2_sq. pose proof (norm2_nonneg z). replace (norm2 z) with 0 by lra. ring.
  - destruct z as [|a z]; [constructor|]. unfold norminf in H. assert (Z : vmax (map Rabs (vsub (a :: z) (a :: z))) = 0).
    { rewrite vsub_self, abs_repeat0. destruct (vmax_spec (repeat 0 (length (a :: z)))) as [_ I]; [discriminate|]. apply repeat_spec in I. auto. }
    rewrite Z in H. apply Forall_forall. intros b Ib. destruct (vmax_spec (map Rabs (a :: z))) as [G _]; [discriminate|]. specialize (G (Rabs b) (in_map _ _ _ Ib)).
    destruct (Req_dec b 0); auto. pose proof (Rabs_pos_lt b). lra.
Qed.

(** ** cases *)
Lemma norm2_1 : forall a, norm2 [a] = Rabs a.
Proof. intro a. unfold norm2, norm2sq. rewrite dot_cons. change (dot [] []) with 0. rewrite Rplus_0_r. apply sqrt_Rsqr_abs. Qed.
Ltac n1 := cbn [mv map vsub vmap2 fst snd]; rewrite ?dot_cons; change (dot [] []) with 0; rewrite ?norm2_1.
Definition exf (x : vec) : R := vget x 0.
Example ex_lip : lipschitz_on (dimP 1) [[2]] 0 exf /\ Forall (dimP 1) [[0]; [1]] /\ dimP 1 [2].
Proof.
  split; [|split; [repeat constructor|reflexivity]]. intros [|a [|]] [|b [|]] Ha Hb; try discriminate. unfold exf, vget. cbn [nth]. n1.
  unfold Rabs; destruct (Rcase_abs (a - b)); destruct (Rcase_abs _); lra.
Qed.
Example ex_unc : unc1 [[2]] (Some 1) [([0], 0); ([1], 1)] [2] = (Fin (-2), Fin 4).
Proof.
  unfold unc1. rewrite unc_lb0_vmax, unc_ub0_vmin by discriminate. unfold lvals, uvals. cbn [map fst snd]. unfold Ldist. n1. cbn [vmax vmin fold_left].
  replace (Rabs (2 * 0 + 0 - (2 * 2 + 0))) with 4 by (rewrite Rabs_left; lra). replace (Rabs (2 * 1 + 0 - (2 * 2 + 0))) with 2 by (rewrite Rabs_left; lra).
  rewrite Rmax_right, Rmin_right by lra. cbn [nsub nopp nadd]. do 2 f_equal; ring.
Qed.
Definition exdata : list (vec * R) := [([0], 0); ([1], 1); ([3], 0)].
Example ex_consistent : consistent 1 [[2]] exdata /\ In ([3], 0) exdata.
Proof.
  split; [split; [repeat constructor|]|right; right; left; auto].
  intros d d' [<-|[<-|[<-|[]]]] [<-|[<-|[<-|[]]]]; n1; unfold Rabs; repeat destruct (Rcase_abs _); lra.
Qed.
Example ex_inconsistent : ~ consistent 1 [[2]] [([0], 0); ([1], 3)] /\ Forall (fun d : vec * R => length (fst d) = 1%nat) [([0], 0); ([1], 3)].
Proof.
  split; [|repeat constructor]. intros [_ C]. specialize (C _ _ (or_introl eq_refl) (or_intror (or_introl eq_refl))). revert C. n1. unfold Rabs. repeat destruct (Rcase_abs _); lra.
Qed.
Example ex_within : within 2 (unc1 [[2]] None exdata [2]) /\ length [2] = 1%nat.
Proof.
  split; auto. unfold within, unc1. cbn [fst snd]. rewrite unc_lb0_vmax, unc_ub0_vmin by discriminate. unfold lvals, uvals, exdata. cbn [map fst snd]. unfold Ldist. n1. cbn [vmax vmin fold_left].
  replace (Rabs (2 * 0 + 0 - (2 * 2 + 0))) with 4 by (rewrite Rabs_left; lra). replace (Rabs (2 * 1 + 0 - (2 * 2 + 0))) with 2 by (rewrite Rabs_left; lra).
  replace (Rabs (2 * 3 + 0 - (2 * 2 + 0))) with 2 by (rewrite Rabs_right; lra). split; apply Rleb_le; unfold Rmax, Rmin; repeat destruct (Rle_dec _ _); lra.
Qed.
(** inconsistent values 0, 3 at distance 2: the solver moves them (here to 1/2, 5/2; the 1-norm cost is 1) *)
Example ex_compat : compat_spec norm1 [[2]] [[0]; [1]] [0; 3] [/ 2; 5 / 2] /\ ~ consistent 1 [[2]] (combine [[0]; [1]] [0; 3]).
Proof.
  split; [|apply ex_inconsistent]. split; [auto|split].
  - intros i j Hi Hj _. simpl in Hi, Hj. destruct i as [|[|i]]; [| |lia]; (destruct j as [|[|j]]; [| |lia]); unfold vget; cbn [nth]; n1; unfold Rabs; repeat destruct (Rcase_abs _); lra.
  - intros [|a [|b [|]]] Lz C; try discriminate. specialize (C 1%nat 0%nat ltac:(simpl; lia) ltac:(simpl; lia) ltac:(lia)). revert C. unfold vget. cbn [nth]. n1.
    replace (Rabs (2 * (1 - 0) + 0)) with 2 by (rewrite Rabs_right; lra). intro C. unfold norm1. cbn [vsub vmap2 map]. rewrite !vsum_cons. change (vsum []) with 0.
    unfold Rabs in *. repeat destruct (Rcase_abs _); lra.
Qed.
