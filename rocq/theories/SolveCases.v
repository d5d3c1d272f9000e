(** Concrete problems meeting the hypotheses of the solvability theorems; a problem without solution. *)
Require Import Reals List Bool Arith ZArith Lia Lra Psatz.
From Verif Require Import RVec Num Sums DomModel DomSpec NormProofs DomMoreModel LipModel LipProofs LinLs CvxProofs MatLib SpecProofs LinProg Spectral Decomp SolveFit SolveDom SolveMore SubModel NonlinProofs VoronoiProofs HullConvProofs HullConvMore HullBasis HullConvCases Minkowski BasisModel HullProofs PoissonGrid HullConvModel.
Import ListNotations.
Local Open Scope R_scope.

(** the unit square *)
Definition usq : dom := mkDom LinQuad 2 [Fin 0; Fin 0] [Fin 1; Fin 1] [] [] [] [] [].
Lemma usq_wf : dom_wf usq.
Proof. unfold dom_wf, usq. cbn. repeat split; auto; try (intros [K|K]; discriminate); intros; try discriminate. Qed.
Lemma usq_member : forall a b, member usq [a; b] <-> 0 <= a <= 1 /\ 0 <= b <= 1.
Proof.
  intros a b. unfold member, usq, sat_bounds, vget. cbn [dim lb ub dA db dAeq dbeq quads]. split.
  - intros (_ & B & _). destruct (B 0%nat) as [B1 B2]. destruct (B 1%nat) as [B3 B4]. specialize (B1 0 eq_refl). specialize (B2 1 eq_refl). specialize (B3 0 eq_refl). specialize (B4 1 eq_refl). simpl in *. lra.
  - intros (Ha & Hb). split; auto. split; [intros [|[|i]]; split; intros v H; simpl in H; try (injection H as <-; simpl; lra); destruct i; discriminate|]. split; [intros k r c H; destruct k; discriminate|]. split; [intros k r c H; destruct k; discriminate|intros q []].
Qed.
Example usq_case : norm_ok (lb usq) (ub usq) usq /\ quads usq = [] /\ dAeq usq = [] /\ bounded_dom usq /\ (exists x, member usq x) /\ (exists i l u, (i < dim usq)%nat /\ forall x, member usq x -> l <= vget x i <= u) /\ (exists c, forall x, member usq x -> dot [1; 2] x <= c).
Proof.
  assert (L2 : forall x : vec, length x = 2%nat -> exists a b, x = [a; b]) by (intros x L; destruct x as [|a [|b [|]]]; try discriminate; eauto).
  split; [|split; [reflexivity|split; [reflexivity|split; [|split; [|split]]]]].
  - split; [apply usq_wf|]. split; [reflexivity|]. split; [reflexivity|]. split; [left; exists [0; 0]; reflexivity|]. split; [left; exists [1; 1]; reflexivity|]. split; [|constructor].
    intros [|[|[|i]]] v w H1 H2; simpl in H1, H2; try discriminate; injection H1 as <-; injection H2 as <-; lra.
  - exists [0; 0], [1; 1]. split; [reflexivity|]. split; [reflexivity|]. intros x M. destruct (L2 x (proj1 M)) as (a & b & ->). apply usq_member in M. intros [|[|i]] Hi; simpl in Hi; try lia; unfold vget; simpl; lra.
  - exists [1/2; 1/2]. apply usq_member. lra.
  - exists 0%nat, 0, 1. split; [simpl; lia|]. intros x M. destruct (L2 x (proj1 M)) as (a & b & ->). apply usq_member in M. unfold vget. simpl. lra.
  - exists 3. intros x M. destruct (L2 x (proj1 M)) as (a & b & ->). apply usq_member in M. rewrite !dot_cons, dot_nil_l. lra.
Qed.

(** the half line x >= 0: no corner to the right *)
Definition half : dom := mkDom LinQuad 1 [Fin 0] [PInf] [] [] [] [] [].
Lemma half_wf : dom_wf half.
Proof. unfold dom_wf, half. cbn. repeat split; auto; try (intros [K|K]; discriminate); intros; try discriminate. Qed.
Lemma half_member : forall a, member half [a] <-> 0 <= a.
Proof.
  intro a. unfold member, half, sat_bounds, vget. cbn [dim lb ub dA db dAeq dbeq quads]. split.
  - intros (_ & B & _). destruct (B 0%nat) as [B1 _]. specialize (B1 0 eq_refl). simpl in B1. lra.
  - intro Ha. split; auto. split; [intros [|i]; split; intros v H; simpl in H; try (injection H as <-; simpl; lra); try discriminate; destruct i; discriminate|]. split; [intros k r c H; destruct k; discriminate|]. split; [intros k r c H; destruct k; discriminate|intros q []].
Qed.
Example half_case : norm_ok [NInf] [PInf] half /\ (forall c, exists x, member half x /\ c < dot [1] x) /\ ~ exists x, corner_returns [NInf] [PInf] half [1] x.
Proof.
  assert (N : norm_ok [NInf] [PInf] half).
  { split; [apply half_wf|]. split; [reflexivity|]. split; [reflexivity|]. split; [left; exists [0]; reflexivity|]. split; [right; repeat constructor|]. split; [|constructor]. intros [|[|i]] v w H; discriminate. }
  assert (U : forall c, exists x, member half x /\ c < dot [1] x) by (intro c; exists [Rmax c 0 + 1]; pose proof (Rmax_l c 0); pose proof (Rmax_r c 0); split; [apply half_member; lra|rewrite dot_cons, dot_nil_l; lra]).
  split; auto. split; auto. apply corner_unbounded; auto.
Qed.
(** the Chebyshev centre of a point given by an equality constraint: the radius is unbounded *)
Definition eq_pt : dom := mkDom LinQuad 1 [NInf] [PInf] [] [] [[1]] [0] [].
Theorem cheb_equality_refuted : exists d, dom_wf d /\ quads d = [] /\ (exists x, member d x) /\ (exists i l u, (i < dim d)%nat /\ forall x, member d x -> l <= vget x i <= u) /\ ~ exists x r, cheb_returns d x r.
Proof.
  exists eq_pt. split; [unfold dom_wf, eq_pt; cbn; repeat split; auto; try (intros [K|K]; discriminate); intros; try discriminate; destruct H; discriminate|]. split; [reflexivity|].
  assert (E : forall x, member eq_pt x -> vget x 0 = 0). { intros x (L & _ & _ & M & _). specialize (M 0%nat [1] 0 eq_refl eq_refl). destruct x as [|a [|]]; try discriminate L. rewrite dot_cons, dot_nil_l in M. unfold vget. simpl. lra. }
  split; [|split; [exists 0%nat, 0, 0; split; [simpl; lia|]; intros x M; rewrite (E x M); lra|]].
  - exists [0]. split; [reflexivity|]. cbn. split; [intros [|i]; split; intros v H; simpl in H; try discriminate; destruct i; discriminate|]. split; [intros k a c H; destruct k; discriminate|]. split; [|intros q []]. intros [|k] a c H1 H2; simpl in H1, H2; [injection H1 as <-; injection H2 as <-; rewrite dot_cons, dot_nil_l; ring|destruct k; discriminate].
  - intros (x & r & F & M). assert (K : r + 1 <= r); [|lra]. apply (M x). destruct F as (L & F1 & F2). split; auto. split; auto. intros k a c H. exfalso. destruct k; discriminate.
Qed.

(** fits *)
Example fit_case : Forall (fun r : vec => length r = 2%nat) [[1; 0]; [1; 1]; [1; 2]] /\ length [1; 0; 2] = length [[1; 0]; [1; 1]; [1; 2]] /\ length [1; 0] = 2%nat /\ mv [[1; 0]; [1; 1]; [1; 2]] [1; 0] = repeat 1 (length [[1; 0]; [1; 1]; [1; 2]]) /\
  ~ exists x, length x = 2%nat /\ mv [[1; 0]; [1; 1]; [1; 2]] x = [1; 0; 2].
Proof.
  split; [repeat constructor|]. split; [reflexivity|]. split; [reflexivity|]. split; [unfold mv; cbn [map length repeat]; rewrite !dot_cons, !dot_nil_l; repeat (f_equal; try ring)|].
  intros (x & L & E). destruct x as [|a [|b [|]]]; try discriminate L. unfold mv in E. cbn [map] in E. rewrite !dot_cons, !dot_nil_l in E. injection E as E1 E2 E3. lra.
Qed.
Example poly_case : forall t, phi monomials 0 t = 1.
Proof. intro t. apply pow_O. Qed.
(** three points in the plane *)
Example pts_case : [[0; 0]; [1; 0]; [0; 1]] <> [] /\ Forall (fun p => length p = 2%nat) [[0; 0]; [1; 0]; [0; 1]] /\ Forall (member usq) [[0; 0]; [1; 0]; [0; 1]] /\ distinct [[0]; [1]; [3]] /\ length [[0]; [1]; [3]] = 3%nat.
Proof.
  split; [discriminate|]. split; [repeat constructor|]. split; [repeat first [apply Forall_nil | apply Forall_cons; [apply usq_member; lra|]]|]. split; [|reflexivity].
  assert (N : forall a b : R, a <> b -> norm2 (vsub [a] [b]) <> 0).
  { intros a b H K. apply H. assert (S := norm2_sq (vsub [a] [b])). rewrite K in S. unfold norm2sq, vsub in S. cbn [vmap2] in S. rewrite dot_cons, dot_nil_l in S. nra. }
  intros i j H. destruct i as [|[|[|i]]], j as [|[|[|j]]]; simpl in H; try lia; cbn [nth]; apply N; lra.
Qed.
(** the centre of the interval [0, 2]: one can move by one half of (2) *)
Example step_case : Forall (fun q => length q = dim (hcon ex_hull)) (hX ex_hull) /\ (exists k, vget [2] k <> 0) /\ norm_feasible (hull_nlb ex_hull) (hull_nub ex_hull) (hcon ex_hull) (normalize (hull_nlb ex_hull) (hull_nub ex_hull) [1]) /\ hull_step ex_hull [1] [2] (1/2).
Proof.
  split; [repeat constructor|]. split; [exists 0%nat; unfold vget; simpl; lra|]. split.
  - assert (NB : hull_nlb ex_hull = [Fin 0] /\ hull_nub ex_hull = [Fin 2]).
    { unfold hull_nlb, hull_nub, ex_hull; simpl. unfold col, vmin, vmax, vget; simpl. rewrite Rmin_left, Rmax_right by lra. auto. }
    destruct NB as [N1 N2]. apply norm_feasible_member.
    + split; [apply ex_hull_wf|]. rewrite N1, N2. split; [reflexivity|]. split; [reflexivity|]. split; [right; repeat constructor|]. split; [right; repeat constructor|]. split; [|constructor]. intros [|[|i]] v w H1 H2; simpl in H1, H2; try discriminate; injection H1 as <-; injection H2 as <-; lra.
    + split; [rewrite ex_hull_norm; reflexivity|]. rewrite N1, N2, unnormalize_normalize; auto. split; [reflexivity|]. cbn. split; [intros [|[|i]]; split; intros v H; discriminate|]. split; [intros k a c H; destruct k; discriminate|]. split; [intros k a c H; destruct k; discriminate|intros q []].
  - exists [0; 1]. split; [reflexivity|]. split; [repeat first [apply Forall_nil | apply Forall_cons; [lra|]]|]. split; [unfold vsum; simpl; lra|]. cbn [hX ex_hull map hcon dim]. unfold vadd at 2. cbn [vmap2]. fold ex_hull. rewrite !ex_hull_norm. unfold lincomb, vadd, vsub, vscale, vzero. cbn. repeat (f_equal; try field).
Qed.
(** two data points on a grid of two nodes *)
Lemma int_part_Z : forall k : Z, Int_part (IZR k) = k.
Proof. intro k. apply PoissonGrid.int_part_uniq. lra. Qed.
Example env_case : (2 <= 2)%nat /\ vmin [0; 1] < vmax [0; 1] /\ length [3; 4] = length [0; 1] /\ balanced 2 (se_A [0; 1] 2).
Proof.
  assert (MN : vmin [0; 1] = 0) by (unfold vmin; cbn; rewrite Rmin_left by lra; auto). assert (MX : vmax [0; 1] = 1) by (unfold vmax; cbn; rewrite Rmax_right by lra; auto).
  split; [lia|]. split; [lra|]. split; [reflexivity|]. assert (G : se_grid [0; 1] 2 = [0; 1]) by (unfold se_grid; rewrite MN, MX; unfold linspace; cbn; repeat (f_equal; try field)).
  assert (A : se_A [0; 1] 2 = [[1; 0]; [0; 1]]).
  { unfold se_A, se_h. rewrite G. unfold vget. cbn [nth map]. unfold se_row, se_bin. replace ((0 - 0) / (1 - 0)) with (IZR 0) by field. replace ((1 - 0) / (1 - 0)) with (IZR 1) by field. rewrite !int_part_Z. cbn. repeat (f_equal; try field). }
  rewrite A. exists [1; 1]. split; [reflexivity|]. split; [repeat first [apply Forall_nil | apply Forall_cons; [lra|]]|]. intros k Hk. destruct k as [|[|k]]; try lia; cbn; unfold vget; simpl; ring.
Qed.
(** the unit square as half spaces; a scaling *)
Example sq_rows_case : rect 2 sq_eqs /\ (forall y i, length y = 2%nat -> sat sq_eqs y -> (i < 2)%nat -> Rabs (vget y i) <= 1) /\ inverse_of 2 [[2; 0]; [0; 1]] [[1/2; 0]; [0; 1]] /\ combine (map fst sq_eqs) (map snd sq_eqs) = sq_eqs.
Proof.
  split; [intros r c [Q|[Q|[Q|[Q|[]]]]]; injection Q as <- <-; reflexivity|]. split; [|split; [|reflexivity]].
  - intros y i L S Hi. destruct y as [|a [|b [|]]]; try discriminate L. assert (S1 := S _ _ (or_introl eq_refl)). assert (S2 := S _ _ (or_intror (or_introl eq_refl))). assert (S3 := S _ _ (or_intror (or_intror (or_introl eq_refl)))). assert (S4 := S _ _ (or_intror (or_intror (or_intror (or_introl eq_refl))))). rewrite !dot_cons, !dot_nil_l in *.
    destruct i as [|[|i]]; try lia; unfold vget; simpl; apply Rabs_le; lra.
  - split; [split; [reflexivity|repeat constructor]|]. split; [split; [reflexivity|repeat constructor]|]. intros x L. destruct x as [|a [|b [|]]]; try discriminate L. unfold mv. cbn [map]. rewrite !dot_cons, !dot_nil_l. split; repeat (f_equal; try field).
Qed.
(** a symmetric matrix and a matrix with more columns than rows *)
Example mat_case : sq 2 [[2; 1]; [1; 2]] /\ msym 2 [[2; 1]; [1; 2]] /\ Forall (fun c => length c = 2%nat) [[1; 0]; [1; 1]; [0; 1]].
Proof. split; [split; [reflexivity|repeat constructor]|]. split; [|repeat constructor]. intros [|[|i]] [|[|j]] Hi Hj; try lia; reflexivity. Qed.
Example usq_build : dom_wf usq /\ length [1/2; 1] = dim usq /\ build_lin usq [1/2; 1].
Proof. split; [apply usq_wf|]. split; [reflexivity|]. apply build_lin_exact; [apply usq_wf|reflexivity|]. apply usq_member. lra. Qed.
