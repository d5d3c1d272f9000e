(** Gaussian process: concrete cases and refutations. *)
Require Import Reals List Bool Arith Lra Lia.
From Verif Require Import RVec Num Sums DomModel DomMoreModel BasisModel MatLib SpecProofs LipModel GrassLib SubModel Deriv VarproLib GpModel GpKernel GpProofs GpFit GpGrad GpLml.
Import ListNotations.
Local Open Scope R_scope.

Definition gr : R := sqrt (/ 2).
Lemma gr2 : gr * gr = / 2. Proof. unfold gr. apply sqrt_sqrt. lra. Qed.
(** symmetric 2 x 2 matrices with equal diagonal *)
Definition eigh2 (A : mat) : vec * list vec := ([mget A 0 0 - mget A 0 1; mget A 0 0 + mget A 0 1], [[gr; - gr]; [gr; gr]]).
Lemma onb_gr : onb 2 [[gr; - gr]; [gr; gr]].
Proof. pose proof gr2. split; [auto|split; [repeat constructor|]]. intros [|[|i]] [|[|j]] Hi Hj; cbn [length] in *; try lia; cbn [nth Nat.eqb]; rewrite !dot_cons, dot_nil_l; lra. Qed.
Lemma eigh2_post : forall a k, 0 <= k -> eigh_post 2 [[a; k]; [k; a]] (eigh2 [[a; k]; [k; a]]).
Proof.
  intros a k Hk. pose proof gr2 as G. unfold eigh2. cbn [mget nth vget fst snd]. unfold mget, vget. cbn [nth]. split; [auto|]. split; [apply onb_gr|]. cbn [fst snd]. split.
  - unfold spec, madd, mscale, outer, mzero, vzero, vadd, vscale. cbn [map repeat zipw vmap2].
    apply f_equal2; [apply f_equal2; [|apply f_equal2; [|reflexivity]]|apply f_equal2; [apply f_equal2; [|apply f_equal2; [|reflexivity]]|reflexivity]].
    + transitivity ((a - k) * (gr * gr) + (a + k) * (gr * gr)); [ring|rewrite G; field].
    + transitivity (- ((a - k) * (gr * gr)) + (a + k) * (gr * gr)); [ring|rewrite G; field].
    + transitivity (- ((a - k) * (gr * gr)) + (a + k) * (gr * gr)); [ring|rewrite G; field].
    + transitivity ((a - k) * (gr * gr) + (a + k) * (gr * gr)); [ring|rewrite G; field].
  - intros [|[|i]] [|[|j]] H; cbn [vget nth] in *; unfold vget; cbn [nth]; try lia; lra.
Qed.
(** two points 0 and 1, L = [l] *)
Definition gX : mat := [[0]; [1]].
Lemma g_K : forall l, gp_K [[l]] gX = [[1; exp (- / 2 * (l * l))]; [exp (- / 2 * (l * l)); 1]].
Proof.
  intro l. unfold gp_K, gX. cbn [map]. unfold gk, gk_d, norm2sq, mv, vsub. cbn [map vmap2]. rewrite !dot_cons, !dot_nil_l.
  assert (E : forall a, a = 0 -> exp (- / 2 * a) = 1) by (intros a ->; rewrite Rmult_0_r; apply exp_0).
  assert (Q : forall a, a = l * l -> exp (- / 2 * a) = exp (- / 2 * (l * l))) by (intros a ->; reflexivity).
  repeat (apply f_equal2); try reflexivity; first [apply E; ring | apply Q; ring].
Qed.
Lemma g_Kt : forall tau l, gp_Kt tau (gp_K [[l]] gX) = [[1 + tau; exp (- / 2 * (l * l))]; [exp (- / 2 * (l * l)); 1 + tau]].
Proof.
  intros. rewrite g_K. unfold gp_Kt, madd, mscale, eye, diag. cbn [length repeat seq map zipw Nat.eqb]. unfold vadd, vscale, vget. cbn [map vmap2 nth].
  repeat (apply f_equal2); try reflexivity; ring.
Qed.
Lemma g_eig : forall tau l, eigh_post 2 (gp_Kt tau (gp_K [[l]] gX)) (eigh2 (gp_Kt tau (gp_K [[l]] gX))).
Proof. intros. rewrite g_Kt. apply eigh2_post. left. apply exp_pos. Qed.
Lemma g_const : forall l, make_L GConst 1 l = [[exp (vget l 0)]].
Proof. intro. unfold make_L, eye, diag, mscale, vscale. cbn. unfold vget. cbn. repeat (apply f_equal2); try reflexivity. ring. Qed.
Lemma g_distinct : forall l, l <> 0 -> distinct_pts [[l]] gX.
Proof.
  intros l Hl. intros [|[|i]] [|[|j]] Hi Hj N E; cbn in Hi, Hj; try lia; unfold gX in E; cbn [nth] in E; unfold mv in E; cbn [map] in E; rewrite !dot_cons, !dot_nil_l in E; inversion E; lra.
Qed.

(** the hypotheses of kernel_pd, gp_interp_plain and gp_gradient_plain are met by two points on the line *)
Example kernel_case : distinct_pts [[1]] gX /\ 0 < quad (gp_K [[1]] gX) [1; -1] /\ quad (gp_K [[0]] gX) [1; -1] = 0.
Proof.
  split; [apply g_distinct; lra|]. split.
  - apply kernel_pd; [apply g_distinct; lra|reflexivity|]. exists 0%nat. unfold vget. cbn. lra.
  - rewrite g_K. replace (- / 2 * (0 * 0)) with 0 by ring. rewrite exp_0. unfold quad, mv. cbn [map]. rewrite !dot_cons, !dot_nil_l. ring.
Qed.
Example interp_case : let tau := / 10 in let w := gp_weights eigh2 tau tau None gX [1; 1] [[1]] in
  distinct_pts [[1]] gX /\ eigh_post 2 (gp_Kt tau (gp_K [[1]] gX)) (eigh2 (gp_Kt tau (gp_K [[1]] gX))) /\
  gp_eval None gX [[1]] w [0] = 1 - tau * vget (fst w) 0 /\ gp_eval None gX [[1]] w [1] = 1 - tau * vget (fst w) 1 /\ gp_eval None gX [[1]] w [0] <> 1.
Proof.
  intros tau w. assert (D : distinct_pts [[1]] gX) by (apply g_distinct; lra).
  pose proof (gp_interp_plain eigh2 tau tau gX [1; 1] [[1]] ltac:(unfold tau; lra) ltac:(lra) D eq_refl (g_eig tau 1)) as I. cbv zeta in I. fold w in I.
  pose proof (I 0%nat ltac:(cbn; lia)) as I0. pose proof (I 1%nat ltac:(cbn; lia)) as I1. change (nth 0 gX []) with [0] in I0. change (nth 1 gX []) with [1] in I1. change (vget [1; 1] 0) with 1 in I0. change (vget [1; 1] 1) with 1 in I1.
  split; [exact D|]. split; [apply g_eig|]. split; [exact I0|]. split; [exact I1|].
  intro Z. assert (A0 : vget (fst w) 0 = 0) by (rewrite Z in I0; unfold tau in I0; lra).
  assert (A1 : vget (fst w) 0 = vget (fst w) 1).
  { unfold w, gp_weights. cbn [gp_n length gX Nat.add fst]. change (gp_A (gp_Kt tau (gp_K [[1]] gX)) (map (gp_v None) gX) 0) with (gp_block tau None gX [[1]]). rewrite block_none, g_Kt. unfold eigh2, mget, vget, eig_solve. cbn [nth fst snd seq map lincomb vzero repeat app].
    rewrite !dot_cons, !dot_nil_l. replace (gr * 1 + (- gr * 1 + 0)) with 0 by ring. unfold vget. cbn [nth].
    match goal with |- context [if ?b then _ * 0 else 0] => replace (if b then _ * 0 else 0) with 0 by (destruct b; ring) end.
    unfold vadd, vscale. cbn [map vmap2 firstn nth]. ring. }
  assert (Ez : gp_eval None gX [[1]] w [0] = 0).
  { unfold gp_eval. cbn [gp_v]. rewrite dot_nil_l.
    assert (Lw : length (fst w) = 2%nat) by (apply (sol_len tau [[1]] gX None [1; 1]); [reflexivity|]; apply gp_block_sol; cbn [gp_n]; rewrite ?Nat.add_0_r, ?block_none; unfold tau; auto; try lra; [apply g_eig|]; intros k Hk; left; pose proof (proj2 (Kt_eigs (/ 10) [[1]] gX _ (g_eig (/ 10) 1) k Hk) D); rewrite Rabs_right; lra).
    rewrite (dot_rs 2) by auto. cbn [rsum]. rewrite <- A1, A0. ring. }
  lra.
Qed.
(** conflicting values at the same point: the eigenvalue equal to the nugget is not above the tolerance, the prediction is not y - nugget * alpha *)
Theorem interp_refuted : exists eigh tol X y L, 0 < tol /\ length y = length X /\ eigh_post (length X) (gp_Kt tol (gp_K L X)) (eigh (gp_Kt tol (gp_K L X))) /\
  let w := gp_weights eigh tol tol None X y L in exists i, (i < length X)%nat /\ gp_eval None X L w (nth i X []) <> vget y i - tol * vget (fst w) i.
Proof.
  exists eigh2, (/ 10), gX, [1; -1], [[0]]. split; [lra|]. split; [reflexivity|]. split; [apply g_eig|]. cbv zeta.
  assert (A : fst (gp_weights eigh2 (/ 10) (/ 10) None gX [1; -1] [[0]]) = [0; 0]).
  { unfold gp_weights. cbn [gp_n length gX Nat.add fst]. change (gp_A (gp_Kt (/ 10) (gp_K [[0]] gX)) (map (gp_v None) gX) 0) with (gp_block (/ 10) None gX [[0]]). rewrite block_none, g_Kt.
    replace (- / 2 * (0 * 0)) with 0 by ring. rewrite exp_0. unfold eigh2, mget, vget, eig_solve. cbn [nth fst snd seq map lincomb vzero repeat app]. unfold vget. cbn [nth].
    rewrite !dot_cons, !dot_nil_l. replace (gr * 1 + (gr * -1 + 0)) with 0 by ring.
    replace (Rltb (/ 10) (Rabs (1 + / 10 - 1))) with false by (symmetry; apply Rltb_false; rewrite Rabs_right; lra).
    match goal with |- context [if ?b then _ * 0 else 0] => replace (if b then _ * 0 else 0) with 0 by (destruct b; ring) end.
    unfold vadd, vscale. cbn [map vmap2 firstn]. repeat (apply f_equal2); try reflexivity; ring. }
  exists 0%nat. split; [cbn; lia|]. unfold gp_eval. rewrite A. cbn [gp_v]. rewrite dot_nil_l. unfold vget. cbn [nth]. unfold gX. cbn [map]. rewrite !dot_cons, !dot_nil_l. lra.
Qed.

(* ---------------- constant trend on two points ---------------- *)
Definition gB : tbasis := mkTB legendre 0 1 (set_scale 1 gX).
Lemma g_v : forall x, gp_v (Some gB) x = [1].
Proof. intro x. unfold gp_v, Vrow. change (indices gB) with [[0%nat]]. cbn [map tb_dim gB prodn ith nth]. unfold vcoord. cbn [tb_deg gB seq map]. unfold vget. cbn [nth]. cbn. apply f_equal2; [|reflexivity]. field_simplify; try lra. Qed.
Definition kk : R := exp (- / 2 * (1 * 1)).
Lemma kk_bounds : 0 < kk <= 2 / 3.
Proof.
  unfold kk. split; [apply exp_pos|]. replace (- / 2 * (1 * 1)) with (- (/ 2)) by ring. rewrite exp_Ropp. pose proof (exp_ineq1_le (/ 2)).
  replace (2 / 3) with (/ (1 + / 2)) by field. apply Rinv_le_contravar; lra.
Qed.
Definition gtau : R := 5 / 2 - kk.
(** eigenvalues -1/2, 7/2 - 2 k, 4 *)
Definition eigh3 (A : mat) : vec * list vec := ([- / 2; 7 / 2 - 2 * kk; 4], [[- gr / 3; - gr / 3; 4 * gr / 3]; [gr; - gr; 0]; [2 / 3; 2 / 3; / 3]]).
Lemma g_block : gp_block gtau (Some gB) gX [[1]] = [[7 / 2 - kk; kk; 1]; [kk; 7 / 2 - kk; 1]; [1; 1; 0]].
Proof.
  unfold gp_block. rewrite g_Kt. fold kk. cbn [gp_n]. change (length (indices gB)) with 1%nat. unfold gX. cbn [map]. rewrite !g_v. unfold gp_A, col, vzero. cbn [zipw app seq map repeat]. unfold vget. cbn [nth].
  unfold gtau. repeat (apply f_equal2); try reflexivity; field.
Qed.
Lemma g_eig3 : eigh_post 3 (gp_block gtau (Some gB) gX [[1]]) (eigh3 (gp_block gtau (Some gB) gX [[1]])).
Proof.
  pose proof gr2 as G. pose proof kk_bounds as K. rewrite g_block. unfold eigh3. split; [reflexivity|]. cbn [fst snd]. split; [|split].
  - split; [auto|split; [repeat constructor|]]. intros [|[|[|i]]] [|[|[|j]]] Hi Hj; cbn [length] in *; try lia; cbn [nth Nat.eqb]; rewrite !dot_cons, dot_nil_l.
    all: try (field_simplify; lra).
  - unfold spec, madd, mscale, outer, mzero, vzero, vadd, vscale. cbn [map repeat zipw vmap2].
    assert (Q : forall c, c * (gr * gr) = c / 2) by (intro; rewrite G; field).
    repeat (apply f_equal2); try reflexivity.
    1: transitivity (- / 2 * (/ 9 * (gr * gr)) + (7 / 2 - 2 * kk) * (gr * gr) + 16 / 9); [field|rewrite G; field].
    1: transitivity (- / 2 * (/ 9 * (gr * gr)) - (7 / 2 - 2 * kk) * (gr * gr) + 16 / 9); [field|rewrite G; field].
    1: transitivity (- / 2 * (- 4 / 9 * (gr * gr)) + 8 / 9); [field|rewrite G; field].
    1: transitivity (- / 2 * (/ 9 * (gr * gr)) - (7 / 2 - 2 * kk) * (gr * gr) + 16 / 9); [field|rewrite G; field].
    1: transitivity (- / 2 * (/ 9 * (gr * gr)) + (7 / 2 - 2 * kk) * (gr * gr) + 16 / 9); [field|rewrite G; field].
    1: transitivity (- / 2 * (- 4 / 9 * (gr * gr)) + 8 / 9); [field|rewrite G; field].
    1: transitivity (- / 2 * (- 4 / 9 * (gr * gr)) + 8 / 9); [field|rewrite G; field].
    1: transitivity (- / 2 * (- 4 / 9 * (gr * gr)) + 8 / 9); [field|rewrite G; field].
    1: transitivity (- / 2 * (16 / 9 * (gr * gr)) + 4 / 9); [field|rewrite G; field].
  - intros [|[|[|i]]] [|[|[|j]]] H; unfold vget; cbn [nth]; try lia; lra.
Qed.
Lemma g_kept3 : forall k, (k < 3)%nat -> / 10 < Rabs (vget (fst (eigh3 (gp_block gtau (Some gB) gX [[1]]))) k).
Proof.
  pose proof kk_bounds as K. intros [|[|[|k]]] Hk; try lia; unfold eigh3, vget; cbn [fst nth].
  - rewrite Rabs_left; lra.
  - rewrite Rabs_right; lra.
  - rewrite Rabs_right; lra.
Qed.
Example trend_case : 0 < gtau /\ eigh_post (length gX + gp_n (Some gB)) (gp_block gtau (Some gB) gX [[1]]) (eigh3 (gp_block gtau (Some gB) gX [[1]])) /\
  kept (/ 10) (length gX + gp_n (Some gB)) (eigh3 (gp_block gtau (Some gB) gX [[1]])) /\
  (forall x, gp_eval (Some gB) gX [[1]] (gp_weights eigh3 (/ 10) gtau (Some gB) gX [5; 5] [[1]]) x = 5) /\
  (let w := gp_weights eigh3 (/ 10) gtau (Some gB) gX [0; 1] [[1]] in gp_eval (Some gB) gX [[1]] w [1] = 1 - gtau * vget (fst w) 1 /\ vget (fst w) 0 + vget (fst w) 1 = 0).
Proof.
  assert (P : 0 < gtau) by (unfold gtau; pose proof kk_bounds; lra). assert (KP : kept (/ 10) (length gX + gp_n (Some gB)) (eigh3 (gp_block gtau (Some gB) gX [[1]]))) by (intros k Hk; left; apply g_kept3; exact Hk).
  assert (D : distinct_pts [[1]] gX) by (apply g_distinct; lra).
  split; [exact P|]. split; [exact g_eig3|]. split; [exact KP|]. split.
  - pose proof (gp_trend eigh3 (/ 10) gtau (Some gB) gX [5; 5] [[1]] [5] ltac:(lra) (Rlt_le _ _ P) (or_introl P) eq_refl g_eig3 KP eq_refl) as T. cbv zeta in T.
    destruct T as [_ T].
    + intros [|[|i]] Hi; cbn in Hi; try lia; rewrite g_v, dot_cons, dot_nil_l; unfold vget; cbn [nth]; ring.
    + destruct T as [_ T]; [|intro x; rewrite T, g_v, dot_cons, dot_nil_l; ring].
      intros p Lp E. destruct p as [|a [|b p]]; cbn in Lp; try discriminate. pose proof (E 0%nat ltac:(cbn; lia)) as E0. rewrite g_v, dot_cons, dot_nil_l in E0. change (gp_n (Some gB)) with 1%nat. unfold vzero. cbn. f_equal. lra.
  - intro w. destruct (gp_interp eigh3 (/ 10) gtau (Some gB) gX [0; 1] [[1]] ltac:(lra) (Rlt_le _ _ P) (or_introl P) eq_refl g_eig3 KP) as [I O]. fold w in I, O. split; [apply (I 1%nat); cbn; lia|].
    pose proof (O [1] eq_refl) as O1. unfold gX in O1. cbn [length rsum nth] in O1. rewrite !g_v, !dot_cons, !dot_nil_l in O1. lra.
Qed.
(** covariance: 0 at the samples, strictly inside (0, 1) elsewhere *)
Lemma g_eigK : eigh_post 2 (gp_K [[1]] gX) (eigh2 (gp_K [[1]] gX)).
Proof. rewrite g_K. apply eigh2_post. left. apply exp_pos. Qed.
Example cov_case : eigh_post (length gX) (gp_K [[1]] gX) (eigh2 (gp_K [[1]] gX)) /\ (forall k, (k < 2)%nat -> / 10 < vget (fst (eigh2 (gp_K [[1]] gX))) k) /\
  gp_cov (eigh2 (gp_K [[1]] gX)) (/ 10) [[1]] gX [1] = 0.
Proof.
  assert (KP : forall k, (k < 2)%nat -> / 10 < vget (fst (eigh2 (gp_K [[1]] gX))) k).
  { pose proof kk_bounds. rewrite g_K. fold kk. intros [|[|k]] Hk; try lia; unfold eigh2, mget, vget; cbn [fst nth]; lra. }
  split; [exact g_eigK|]. split; [exact KP|]. apply (gp_cov_best (eigh2 (gp_K [[1]] gX)) (/ 10) [[1]] gX [1] ltac:(lra) g_eigK (fun k Hk => or_introl (KP k Hk))) with (i := 1%nat); [cbn; lia|reflexivity].
Qed.
(** the gradient: one length scale *)
Example gradient_case : exists eigh, distinct_pts (make_L GConst 1 [0]) gX /\ ell_ok GConst 1 [0] /\
  (forall l, length l = 1%nat -> eigh_post (length gX) (gp_Kt (/ 10) (gp_K (make_L GConst 1 l) gX)) (eigh (gp_Kt (/ 10) (gp_K (make_L GConst 1 l) gX)))) /\
  derivable_pt_lim (fun t => gp_lml eigh (/ 10) (/ 10) None GConst 1 gX [1; 2] (ell_line [0] 0 t)) 0 (gp_lml_grad eigh (/ 10) (/ 10) None GConst (fun _ => []) 1 gX [1; 2] [0] 0).
Proof.
  exists eigh2. assert (D : distinct_pts (make_L GConst 1 [0]) gX) by (rewrite g_const; apply g_distinct; apply Rgt_not_eq, exp_pos).
  assert (E : forall l : vec, length l = 1%nat -> eigh_post (length gX) (gp_Kt (/ 10) (gp_K (make_L GConst 1 l) gX)) (eigh2 (gp_Kt (/ 10) (gp_K (make_L GConst 1 l) gX)))) by (intros l _; rewrite g_const; apply g_eig).
  split; [exact D|]. split; [reflexivity|]. split; [exact E|]. apply gp_gradient_plain; auto; try lra; repeat constructor.
Qed.
(** 'tril' on the line: expm is exp and its derivative is exp *)
Example tril_case : dexp_ok (GTril (fun A => [[exp (mget A 0 0)]])) (fun _ => [[exp 2]]) 1 [2] 0 /\ ell_ok (GTril (fun A => [[exp (mget A 0 0)]])) 1 [2].
Proof.
  split; [|reflexivity]. split; [intros; split; [auto|repeat constructor]|]. split; [split; [auto|repeat constructor]|].
  intros [|i] [|j] Hi Hj; try lia. eapply d_ext; [| |apply (d_exp_shift 2)]; [|reflexivity]. intro t. unfold mget, tril_mat, ell_line, vadd, vscale, unitv, vget, tril_pos. cbn [seq map nth length Nat.eqb vmap2 Nat.leb Nat.add Nat.mul].
  change (1 / 2 + 0)%nat with 0%nat. cbn. reflexivity.
Qed.

(* ---------------- starting value of the optimiser ---------------- *)
(** fit(X, y, L0) does not start at L0: the entries are exponentiated *)
Theorem start_value : forall m L0, make_L GConst m (gp_ell0 GConst m L0) = mscale (exp (mget L0 0 0)) (eye m) /\
  make_L GDiag m (gp_ell0 GDiag m L0) = diag (map (fun i => exp (mget L0 i i)) (seq 0 m)).
Proof. intros. split; [reflexivity|]. unfold make_L, gp_ell0. rewrite map_map. reflexivity. Qed.
Theorem start_refuted : forall m, (0 < m)%nat -> make_L GConst m (gp_ell0 GConst m (eye m)) <> eye m /\ make_L GDiag m (gp_ell0 GDiag m (eye m)) <> eye m.
Proof.
  intros m Hm. pose proof (exp_ineq1 1 ltac:(lra)) as E1. assert (E : mget (eye m) 0 0 = 1) by (rewrite eye_get by auto; reflexivity).
  destruct (start_value m (eye m)) as [S1 S2]. rewrite S1, S2. rewrite E. split; intro Z; apply (f_equal (fun A => mget A 0 0)) in Z; cbn beta in Z.
  - rewrite mget_mscale, E in Z. lra.
  - rewrite E in Z. unfold mget, diag in Z. rewrite map_length, seq_length in Z. rewrite nth_map_seq, vget_map_seq in Z by auto. cbn [Nat.eqb] in Z. rewrite vget_map_seq in Z by auto. unfold mget in E. rewrite E in Z. lra.
Qed.
