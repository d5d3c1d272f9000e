(** Gaussian process: order of the samples; units of the data; the documented formula; concrete cases. *)
Require Import Reals List Bool Arith Lra Lia FunctionalExtensionality Permutation.
From Verif Require Import RVec Num Sums DomModel DomMoreModel BasisModel SweepProofs HullProofs NormProofs FunProofs TensorProofs HullIneqProofs MatLib SpecProofs LipModel GrassLib SubModel Deriv VarproLib ArnoldiMoreProofs GpModel GpKernel GpProofs GpFit GpGrad GpLml GpCases GpPred.
Import ListNotations.
Local Open Scope R_scope.

(* ---------------- order of the samples ---------------- *)
Lemma vsum_perm : forall a b : vec, Permutation a b -> vsum a = vsum b.
Proof. intros a b P. induction P; unfold vsum in *; cbn [fold_right] in *; lra. Qed.
Lemma dot_trip : forall (g : vec -> R) (T : list (vec * R * R)), dot (map g (map (fun p => fst (fst p)) T)) (map snd T) = vsum (map (fun p => g (fst (fst p)) * snd p) T).
Proof. intros g T. induction T as [|p T IH]; [reflexivity|]. cbn [map]. rewrite dot_cons, IH. reflexivity. Qed.
Lemma fold_min_perm : forall x y a b, Permutation (a :: x) (b :: y) -> fold_left Rmin x a = fold_left Rmin y b.
Proof.
  intros x y a b P. destruct (fold_min x a) as [L1 I1]. destruct (fold_min y b) as [L2 I2]. apply Rle_antisym.
  - apply L1. apply (Permutation_in _ (Permutation_sym P)). exact I2.
  - apply L2. apply (Permutation_in _ P). exact I1.
Qed.
Lemma fold_max_spec : forall (x : vec) a, (forall b, In b (a :: x) -> b <= fold_left Rmax x a) /\ In (fold_left Rmax x a) (a :: x).
Proof.
  induction x as [|c x IH]; intro a; cbn [fold_left].
  - split; [intros b [<-|[]]; lra|left; reflexivity].
  - destruct (IH (Rmax a c)) as [L I]. split.
    + intros b [<-|[<-|Hb]].
      * eapply Rle_trans; [apply Rmax_l|apply L; left; reflexivity].
      * eapply Rle_trans; [apply Rmax_r|apply L; left; reflexivity].
      * apply L. right. exact Hb.
    + destruct I as [I|I]; [|right; right; exact I]. rewrite <- I. unfold Rmax. destruct (Rle_dec a c); [right; left; reflexivity|left; reflexivity].
Qed.
Lemma fold_max_perm : forall x y a b, Permutation (a :: x) (b :: y) -> fold_left Rmax x a = fold_left Rmax y b.
Proof.
  intros x y a b P. destruct (fold_max_spec x a) as [L1 I1]. destruct (fold_max_spec y b) as [L2 I2]. apply Rle_antisym.
  - apply L2. apply (Permutation_in _ P). exact I1.
  - apply L1. apply (Permutation_in _ (Permutation_sym P)). exact I2.
Qed.
Lemma basis_order : forall degree m X X', Permutation X X' -> gp_basis degree m X = gp_basis degree m X'.
Proof.
  intros [d|] m X X' P; [|reflexivity]. unfold gp_basis, set_scale. f_equal. f_equal. assert (C : forall k, Permutation (col X k) (col X' k)) by (intro k; apply Permutation_map; auto). f_equal; apply map_ext; intro k.
  - pose proof (C k) as Ck. destruct (col X k) as [|a x], (col X' k) as [|b z]; auto; [apply Permutation_nil in Ck; discriminate|symmetry in Ck; apply Permutation_nil in Ck; discriminate|]. apply fold_min_perm; auto.
  - pose proof (C k) as Ck. destruct (col X k) as [|a x], (col X' k) as [|b z]; auto; [apply Permutation_nil in Ck; discriminate|symmetry in Ck; apply Permutation_nil in Ck; discriminate|]. apply fold_max_perm; auto.
Qed.
Lemma combine_fst : forall (A C : Type) (l : list A) (k : list C), length l = length k -> map fst (combine l k) = l.
Proof. induction l; intros [|c k] E; cbn in *; try discriminate; auto. rewrite IHl; auto. Qed.
Lemma combine_snd : forall (A C : Type) (l : list A) (k : list C), length l = length k -> map snd (combine l k) = k.
Proof. induction l; intros [|c k] E; cbn in *; try discriminate; auto. rewrite IHl; auto. Qed.
(** the block system as a statement about the list of (sample, value, weight) *)
Definition trip_sol (tau : R) (L : mat) (B : option tbasis) (T : list (vec * R * R)) (b : vec) : Prop :=
  (forall p, In p T -> vsum (map (fun q => gk L (fst (fst p)) (fst (fst q)) * snd q) T) + tau * snd p + dot (gp_v B (fst (fst p))) b = snd (fst p)) /\
  (forall c, length c = length b -> vsum (map (fun q => dot (gp_v B (fst (fst q))) c * snd q) T) = 0).
Lemma trip_perm : forall tau L B T T' b, Permutation T T' -> trip_sol tau L B T b -> trip_sol tau L B T' b.
Proof.
  intros tau L B T T' b P [H1 H2]. split.
  - intros p Hp. rewrite <- (H1 p) by (apply (Permutation_in _ (Permutation_sym P)); auto). f_equal. f_equal. apply vsum_perm, Permutation_map, Permutation_sym, P.
  - intros c Lc. rewrite <- (H2 c Lc). apply vsum_perm, Permutation_map, Permutation_sym, P.
Qed.
Notation tx := (fun p : vec * R * R => fst (fst p)).
Notation ty := (fun p : vec * R * R => snd (fst p)).
Lemma trip_block : forall tau L B T b, length b = gp_n B ->
  trip_sol tau L B T b <-> block_sol tau (gp_K L (map tx T)) (map (gp_v B) (map tx T)) (map ty T) (map snd T, b).
Proof.
  intros tau L B T b Lb. unfold trip_sol, block_sol. cbn [fst snd]. rewrite !map_length.
  assert (d0 : vec * R * R) by exact ([], 0, 0).
  assert (GX : forall i, (i < length T)%nat -> nth i (map tx T) [] = tx (nth i T d0)) by (intros i Hi; rewrite (nth_indep _ [] (tx d0)) by (rewrite map_length; auto); apply (map_nth tx)).
  assert (GY : forall i, (i < length T)%nat -> vget (map ty T) i = ty (nth i T d0)) by (intros i Hi; unfold vget; rewrite (nth_indep _ 0 (ty d0)) by (rewrite map_length; auto); apply (map_nth ty)).
  assert (GA : forall i, (i < length T)%nat -> vget (map snd T) i = snd (nth i T d0)) by (intros i Hi; unfold vget; rewrite (nth_indep _ 0 (snd d0)) by (rewrite map_length; auto); apply (map_nth snd)).
  assert (R1 : forall i, (i < length T)%nat -> dot (nth i (gp_K L (map tx T)) []) (map snd T) = vsum (map (fun q => gk L (tx (nth i T d0)) (tx q) * snd q) T)).
  { intros i Hi. rewrite gp_K_row by (rewrite map_length; auto). rewrite GX by auto. apply dot_trip. }
  assert (R2 : forall c, rsum (length T) (fun i => vget (map snd T) i * dot (nth i (map (gp_v B) (map tx T)) []) c) = vsum (map (fun q => dot (gp_v B (tx q)) c * snd q) T)).
  { intro c. rewrite vsum_rsum, map_length. apply rsum_ext. intros i Hi. rewrite GA by auto. rewrite gp_V_row by (rewrite map_length; auto). rewrite GX by auto.
    unfold vget. rewrite (nth_indep _ 0 ((fun q : vec * R * R => dot (gp_v B (tx q)) c * snd q) d0)) by (rewrite map_length; auto).
    rewrite (map_nth (fun q : vec * R * R => dot (gp_v B (tx q)) c * snd q)). ring. }
  split.
  - intros [H1 H2]. split; [auto|]. split.
    + intros i Hi. rewrite R1, GY, GA by auto. rewrite gp_V_row by (rewrite map_length; auto). rewrite GX by auto. apply H1. apply nth_In. auto.
    + intros c Lc. rewrite R2. apply H2; auto.
  - intros [_ [H1 H2]]. split.
    + intros p Hp. destruct (In_nth T p d0 Hp) as [i [Hi <-]]. pose proof (H1 i Hi) as E. rewrite R1, GY, GA in E by auto. rewrite gp_V_row in E by (rewrite map_length; auto). rewrite GX in E by auto. exact E.
    + intros c Lc. rewrite <- R2. apply H2; auto.
Qed.
Lemma sol_unique : forall tau L X B y w1 w2, 0 <= tau -> (0 < tau \/ distinct_pts L X) -> length y = length X -> length (snd w1) = gp_n B -> length (snd w2) = gp_n B ->
  block_sol tau (gp_K L X) (map (gp_v B) X) y w1 -> block_sol tau (gp_K L X) (map (gp_v B) X) y w2 -> unisolvent B X -> fst w1 = fst w2 /\ snd w1 = snd w2.
Proof.
  intros tau L X B y w1 w2 Ht HD Ly L1 L2 S1 S2 U.
  pose proof (block_sol_sub tau (gp_K L X) (map (gp_v B) X) y y w1 w2 ltac:(rewrite gp_K_len; auto) eq_refl ltac:(congruence) S1 S2) as D.
  assert (LF : length (fst w1) = length (fst w2)) by (destruct S1 as [E1 _], S2 as [E2 _]; congruence).
  destruct (sol_trend tau L X B (vsub y y) (vsub (fst w1) (fst w2), vsub (snd w1) (snd w2)) Ht ltac:(rewrite vsub_length; auto) ltac:(cbn [snd]; rewrite vsub_length; congruence) D (vzero (gp_n B)) ltac:(unfold vzero; apply repeat_length) HD) as [Z T].
  { intros i Hi. rewrite vsub_get by auto. rewrite dot_zero_r. ring. }
  cbn [fst snd] in Z, T. split.
  - apply vec_ext; [auto|]. intros i Hi. pose proof (f_equal (fun v => vget v i) Z) as Zi. cbn beta in Zi. rewrite vsub_get, vzero_get in Zi by auto. lra.
  - assert (E0 : vsub (snd w1) (snd w2) = vzero (gp_n B)) by (apply U; [rewrite vsub_length; congruence|intros i Hi; rewrite (T i Hi); apply dot_zero_r]).
    apply vec_ext; [congruence|]. intros i Hi. pose proof (f_equal (fun v => vget v i) E0) as Zi. cbn beta in Zi. rewrite vsub_get, vzero_get in Zi by congruence. lra.
Qed.
(** the same pairs (sample, value) in another order, the same distance matrix: the same predictor *)
Theorem pred_order : forall eigh tol tau degree m X y X' y' L, 0 <= tol -> 0 < tau -> length y = length X -> length y' = length X' -> Permutation (combine X y) (combine X' y') ->
  let B := gp_basis degree m X in let B' := gp_basis degree m X' in
  eigh_post (length X + gp_n B) (gp_block tau B X L) (eigh (gp_block tau B X L)) -> kept tol (length X + gp_n B) (eigh (gp_block tau B X L)) ->
  eigh_post (length X' + gp_n B') (gp_block tau B' X' L) (eigh (gp_block tau B' X' L)) -> kept tol (length X' + gp_n B') (eigh (gp_block tau B' X' L)) ->
  unisolvent B X -> forall x, gp_eval B' X' L (gp_weights eigh tol tau B' X' y' L) x = gp_eval B X L (gp_weights eigh tol tau B X y L) x.
Proof.
  intros eigh tol tau degree m X y X' y' L H1 H2 Ly Ly' PM B B' P K P' K' U x.
  assert (PX : Permutation X X') by (rewrite <- (combine_fst _ _ X y), <- (combine_fst _ _ X' y') by auto; apply Permutation_map; auto).
  assert (EB : B' = B) by (symmetry; apply basis_order; auto). rewrite EB in *. clear EB B'.
  destruct (gp_block_sol eigh tol tau B X y L H1 (Rlt_le _ _ H2) (or_introl H2) Ly P K) as [S Lb]. set (w := gp_weights eigh tol tau B X y L) in *.
  destruct (gp_block_sol eigh tol tau B X' y' L H1 (Rlt_le _ _ H2) (or_introl H2) Ly' P' K') as [S' Lb']. set (w' := gp_weights eigh tol tau B X' y' L) in *.
  assert (LF : length (fst w) = length X) by (destruct S; congruence).
  set (T := combine (combine X y) (fst w)).
  assert (LC : length (combine X y) = length (fst w)) by (rewrite combine_length; lia).
  assert (T1 : map fst T = combine X y) by (apply combine_fst; auto).
  assert (T2 : map snd T = fst w) by (apply combine_snd; auto).
  assert (TX : map tx T = X) by (rewrite <- (map_map fst fst), T1; apply combine_fst; auto).
  assert (TY : map ty T = y) by (rewrite <- (map_map fst snd), T1; apply combine_snd; auto).
  rewrite <- T1 in PM. apply Permutation_sym, Permutation_map_inv in PM. destruct PM as [T' [E' PT]].
  assert (TX' : map tx T' = X') by (rewrite <- (map_map fst fst), <- E'; apply combine_fst; auto).
  assert (TY' : map ty T' = y') by (rewrite <- (map_map fst snd), <- E'; apply combine_snd; auto).
  assert (S2 : block_sol tau (gp_K L X') (map (gp_v B) X') y' (map snd T', snd w)).
  { rewrite <- TX', <- TY'. apply trip_block; auto. apply (trip_perm _ _ _ T); auto. apply trip_block; auto. rewrite TX, TY, T2. destruct w; exact S. }
  assert (U' : unisolvent B X').
  { intros p Lp Hp. apply U; auto. intros i Hi. assert (I : In (nth i X []) X') by (apply (Permutation_in _ PX), nth_In; auto). destruct (In_nth X' _ [] I) as [j [Hj <-]]. apply Hp; auto. }
  destruct (sol_unique tau L X' B y' w' (map snd T', snd w) (Rlt_le _ _ H2) (or_introl H2) Ly' Lb' Lb S' S2 U') as [E1 E2]. cbn [fst snd] in E1, E2.
  unfold gp_eval. rewrite E1, E2. f_equal. replace (map (gk L x) X') with (map (gk L x) (map tx T')) by (rewrite TX'; auto). replace (map (gk L x) X) with (map (gk L x) (map tx T)) by (rewrite TX; auto). rewrite <- T2. rewrite !dot_trip. symmetry. apply vsum_perm, Permutation_map, PT.
Qed.
