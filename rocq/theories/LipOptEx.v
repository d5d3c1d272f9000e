(** Cases and findings about the minimisers of the Lipschitz matrix program. *)
Require Import Reals List Bool Arith Lia Lra Psatz.
From Verif Require Import RVec Num Sums DomMoreModel MatLib SpecProofs LipModel LipProofs LipConstProofs ProjProofs ProjGradProofs GrassLib LipFitProofs SdpProofs LipOpt LipOpt2.
Import ListNotations.
Local Open Scope R_scope.

Lemma sq2 : forall H, sq 2 H -> exists a b c d, H = [[a; b]; [c; d]].
Proof.
  intros H [L F]. destruct H as [|r [|r' [|]]]; try discriminate. inversion F as [|? ? L1 F1]; subst. inversion F1 as [|? ? L2 _]; subst. destruct r as [|a [|b [|]]]; try discriminate. destruct r' as [|c [|d [|]]]; try discriminate. exists a, b, c, d. auto.
Qed.
Lemma quad2 : forall a b c d x y, quad [[a; b]; [c; d]] [x; y] = a * x * x + (b + c) * x * y + d * y * y.
Proof. intros. unfold quad, mv. cbn [map]. rewrite !dot_cons, !dot_nil_l. ring. Qed.
Lemma trace2 : forall a b c d, trace [[a; b]; [c; d]] = a + d.
Proof. intros. unfold trace, mget, vget. cbn. ring. Qed.
Lemma sq_lit2 : forall a b c d : R, sq 2 [[a; b]; [c; d]].
Proof. intros. split; [reflexivity|]. repeat (apply Forall_cons; [reflexivity|]). apply Forall_nil. Qed.
Lemma sym_lit2 : forall a b d : R, msym 2 [[a; b]; [b; d]].
Proof. intros a b d i j Hi Hj. destruct i as [|[|i]]; try lia; destruct j as [|[|j]]; try lia; reflexivity. Qed.
Lemma vec2 : forall x : vec, length x = 2%nat -> exists a b, x = [a; b].
Proof. intros [|a [|b [|]]] L; try discriminate. exists a, b. auto. Qed.
Lemma dims2 : forall X, Forall (fun x : vec => length x = 2%nat) X -> Forall (dimP 2) X.
Proof. auto. Qed.

(** two samples of f(x) = x_1: the minimiser is not a multiple of e1 e1^T, it has weight in direction e2 on which f does not depend *)
Definition two_X : mat := [[0; 0]; [1; 1]].
Definition two_f : vec := [0; 1].
Lemma two_best : best 2 two_X two_f [] 0 [[/ 4; / 4]; [/ 4; / 4]].
Proof.
  split.
  - split; [|split; [apply sq_lit2|split; [apply sym_lit2|split; [|intros g []]]]].
    + intros x Hx. destruct (vec2 x Hx) as [a [b ->]]. rewrite quad2. pose proof (Rle_0_sqr (a + b)) as S. unfold Rsqr in S. lra.
    + intros i j Hij. cbn in Hij. assert (i = 0%nat /\ j = 1%nat) as [-> ->] by lia. unfold pair_p, vget, two_X, two_f. cbn [nth vsub vmap2]. rewrite quad2.
      replace (0 - 1) with (- (1)) by ring. rewrite Rabs_Ropp, Rabs_R1. rewrite Rmax_left by lra. lra.
  - intros G [P [SG [MG [B _]]]]. destruct (sq2 G SG) as [a [b [c [d ->]]]]. specialize (B 0%nat 1%nat ltac:(cbn; lia)). unfold pair_p, vget, two_X, two_f in B. cbn [nth vsub vmap2] in B. rewrite quad2 in B.
    replace (0 - 1) with (- (1)) in B by ring. rewrite Rabs_Ropp, Rabs_R1, Rmax_left in B by lra. specialize (P [1; -1] eq_refl). rewrite quad2 in P. rewrite !trace2. lra.
Qed.
(** finding: samples of a ridge function do not give a matrix acting on the ridge direction only *)
Theorem best_samples_refuted : exists X fX h H, Forall (dimP 2) X /\ (forall i, (i < length X)%nat -> vget fX i = h (vget (nth i X []) 0)) /\ best 2 X fX [] 0 H /\ mv H [0; 1] <> [0; 0].
Proof.
  exists two_X, two_f, (fun t => t), [[/ 4; / 4]; [/ 4; / 4]]. split; [repeat constructor|]. split; [intros i Hi; cbn in Hi; destruct i as [|[|i]]; [reflexivity|reflexivity|lia]|]. split; [apply two_best|].
  unfold mv. cbn [map]. rewrite !dot_cons, !dot_nil_l. intro E. injection E as E1 _. lra.
Qed.

(** three samples of f(x) = x_1: diag(1,0) and diag(0,1) are both minimisers *)
Definition tri_X : mat := [[0; 0]; [1; 1]; [1; -1]].
Definition tri_f : vec := [0; 1; 1].
Lemma tri_best : forall t, 0 <= t <= 1 -> best 2 tri_X tri_f [] 0 [[t; 0]; [0; 1 - t]].
Proof.
  intros t Ht. split.
  - split; [|split; [apply sq_lit2|split; [apply sym_lit2|split; [|intros g []]]]].
    + intros x Hx. destruct (vec2 x Hx) as [a [b ->]]. rewrite quad2. nra.
    + intros i j Hij. cbn in Hij. unfold pair_p, vget, tri_X, tri_f. assert (C : (i = 0%nat /\ j = 1%nat) \/ (i = 0%nat /\ j = 2%nat) \/ (i = 1%nat /\ j = 2%nat)) by lia. destruct C as [[-> ->]|[[-> ->]|[-> ->]]]; cbn [nth vsub vmap2]; rewrite quad2.
      * replace (0 - 1) with (- (1)) by ring. rewrite Rabs_Ropp, Rabs_R1. rewrite Rmax_left by lra. lra.
      * replace (0 - 1) with (- (1)) by ring. rewrite Rabs_Ropp, Rabs_R1. rewrite Rmax_left by lra. lra.
      * replace (1 - 1) with 0 by ring. rewrite Rabs_R0. rewrite Rmax_left by lra. nra.
  - intros G [P [SG [MG [B _]]]]. destruct (sq2 G SG) as [a [b [c [d ->]]]]. pose proof (B 0%nat 1%nat ltac:(cbn; lia)) as B1. pose proof (B 0%nat 2%nat ltac:(cbn; lia)) as B2. unfold pair_p, vget, tri_X, tri_f in B1, B2. cbn [nth vsub vmap2] in B1, B2. rewrite quad2 in B1, B2.
    replace (0 - 1) with (- (1)) in B1, B2 by ring. rewrite Rabs_Ropp, Rabs_R1, Rmax_left in B1, B2 by lra. rewrite !trace2. lra.
Qed.
(** finding: the minimiser, and with it the most important direction, is not determined by the data; for samples of f(x) = x_1
    one minimiser has e1 and another has e2 as only direction, although f does not depend on x_2 *)
Theorem best_unique_refuted : exists X fX h G H, Forall (dimP 2) X /\ (forall i, (i < length X)%nat -> vget fX i = h (vget (nth i X []) 0)) /\
  best 2 X fX [] 0 G /\ best 2 X fX [] 0 H /\ eigh_post 2 G ([0; 1], [[0; 1]; [1; 0]]) /\ eigh_post 2 H ([0; 1], [[1; 0]; [0; 1]]).
Proof.
  exists tri_X, tri_f, (fun t => t), [[1; 0]; [0; 1 - 1]], [[0; 0]; [0; 1 - 0]]. split; [repeat constructor|]. split; [intros i Hi; cbn in Hi; destruct i as [|[|[|i]]]; [reflexivity|reflexivity|reflexivity|lia]|]. split; [apply tri_best; lra|]. split; [apply tri_best; lra|].
  assert (OK : forall a b, a = [[0; 1]; [1; 0]] \/ a = [[1; 0]; [0; 1]] -> spec 2 [0; 1] a = b -> eigh_post 2 b ([0; 1], a)).
  { intros a b Ha E. split; [auto|]. split; [|split; [exact E|]].
    - split; [destruct Ha as [-> | ->]; auto|]. split; [destruct Ha as [-> | ->]; repeat (apply Forall_cons; [reflexivity|]); apply Forall_nil|].
      intros i j Hi Hj. destruct Ha as [-> | ->]; cbn in Hi, Hj; destruct i as [|[|i]]; try lia; destruct j as [|[|j]]; try lia; cbn [fst snd nth Nat.eqb]; rewrite !dot_cons, !dot_nil_l; ring.
    - intros i j Hij. destruct i as [|[|i]]; try lia; destruct j as [|[|j]]; try lia; unfold vget; cbn; lra. }
  split; apply OK; auto; unfold spec, outer, mscale, madd, mzero, vzero, vscale, vadd; cbn; repeat (f_equal; try ring).
Qed.
(** finding: one gradient in two dimensions; the reported U is not orthonormal, its second column is zero *)
Theorem fit_U_refuted : exists eigh grads H, eigh_post 2 H (eigh H) /\ best 2 [] [] grads 0 H /\ signs_live 2 eigh H grads /\
  fst (fst (lm_fit eigh H [] [] grads 1)) = [[1; 0]; [0; 0]] /\ snd (fst (lm_fit eigh H [] [] grads 1)) = [[1; 0]; [0; 0]].
Proof.
  set (eigh := fun _ : mat => ([0; 1], [[0; 1]; [1; 0]]) : vec * list vec). assert (EE : eigh [[1; 0]; [0; 0]] = ([0; 1], [[0; 1]; [1; 0]])) by reflexivity.
  assert (EK : eigh_post 2 [[1; 0]; [0; 0]] (eigh [[1; 0]; [0; 0]])). 
  { rewrite EE. split; [auto|]. split; [|split].
    - split; [auto|]. split; [repeat (apply Forall_cons; [reflexivity|]); apply Forall_nil|]. intros i j Hi Hj. cbn in Hi, Hj. destruct i as [|[|i]]; try lia; destruct j as [|[|j]]; try lia; cbn [fst snd nth Nat.eqb]; rewrite !dot_cons, !dot_nil_l; ring.
    - unfold spec, outer, mscale, madd, mzero, vzero, vscale, vadd; cbn. repeat (f_equal; try ring).
    - intros i j Hij. destruct i as [|[|i]]; try lia; destruct j as [|[|j]]; try lia; unfold vget; cbn; lra. }
  exists eigh, [[1; 0]], [[1; 0]; [0; 0]]. assert (G : outer [1; 0] [1; 0] = [[1; 0]; [0; 0]]) by (unfold outer, vscale; cbn; repeat (f_equal; try ring)).
  assert (B : best 2 [] [] [[1; 0]] 0 [[1; 0]; [0; 0]]) by (apply best_single; auto).
  assert (S0 : sgn 0 = 0) by apply sgn_0. assert (S1 : sgn 1 = 1) by (unfold sgn; rewrite (proj2 (Rltb_true 0 1)) by lra; auto).
  assert (U : fst (fst (lm_fit eigh [[1; 0]; [0; 0]] [] [] [[1; 0]] 1)) = [[1; 0]; [0; 0]]).
  { unfold lm_fit, fix_signs, signs_grads. rewrite EE. cbn [fst snd rev app map length]. rewrite !vsum_cons. change (vsum []) with 0. unfold vscale. cbn [map]. rewrite !dot_cons, !dot_nil_l.
    change (INR 1) with 1. match goal with |- context [scale_cols [sgn ?a; sgn ?b] _] => replace a with 1 by field; replace b with 0 by field end. rewrite S0, S1. unfold scale_cols, vscale. cbn. repeat (f_equal; try ring). }
  assert (L : signs_live 2 eigh [[1; 0]; [0; 0]] [[1; 0]]).
  { right. rewrite EE. intros k Hk W. destruct k as [|[|k]]; [unfold vget in W; cbn in W; lra| |lia]. cbn [snd nth]. unfold mean_slope. cbn [map]. rewrite vsum_cons. change (vsum []) with 0. rewrite !dot_cons, !dot_nil_l. cbn. lra. }
  split; [auto|]. split; [auto|]. split; [auto|]. split; [auto|].
  assert (E1 : map (vscale (/ 1)) [[1; 0]] = [[1; 0]]) by (unfold vscale; cbn; repeat (f_equal; try field)).
  rewrite (fit_H 2 eigh _ [] [] [[1; 0]] 1); auto; try (apply sq_lit2); try (apply sym_lit2); try (apply B); [|rewrite E1; auto]. unfold mscale, vscale. cbn. repeat (f_equal; try ring).
Qed.

(** ** cases *)
Example ex_best_single : length [3; 4] = 2%nat /\ best 2 [] [] [[3; 4]] 0 [[9; 12]; [12; 16]] /\ (forall g, In g [[3; 4]] -> dot [-4; 3] g = 0) /\ mv [[9; 12]; [12; 16]] [-4; 3] = vzero 2.
Proof.
  split; [reflexivity|]. split; [apply best_single; [reflexivity|]; unfold outer, vscale; cbn; repeat (f_equal; try ring)|]. split.
  - intros g [<-|[]]. rewrite !dot_cons, !dot_nil_l. ring.
  - unfold mv. cbn [map]. rewrite !dot_cons, !dot_nil_l. unfold vzero. cbn. repeat (f_equal; try ring).
Qed.
(** a function of x_1 + 2 x_2 with gradients at two points *)
Example ex_best_ridge : Forall (dimP 2) [[1; 2]] /\ Forall (fun c => length c = length [[1; 2]]) [[1]; [3]] /\ best 2 [] [] (map (lincomb 2 [[1; 2]]) [[1]; [3]]) 0 [[9; 18]; [18; 36]] /\ mv [[1; 2]] [2; -1] = vzero (length [[1; 2]]).
Proof.
  split; [repeat constructor|]. split; [repeat (apply Forall_cons; [reflexivity|]); apply Forall_nil|]. assert (E : map (lincomb 2 [[1; 2]]) [[1]; [3]] = [[1; 2]; [3; 6]]) by (unfold lincomb; cbn; repeat (f_equal; try ring)). rewrite E.
  assert (Q : forall x, length x = 2%nat -> quad [[9; 18]; [18; 36]] x = dot [3; 6] x * dot [3; 6] x) by (intros x Hx; destruct (vec2 x Hx) as [a [b ->]]; rewrite quad2, !dot_cons, !dot_nil_l; ring).
  split; [split|].
  - split; [intros x Hx; rewrite Q by auto; apply Rle_0_sqr|]. split; [apply sq_lit2|]. split; [apply sym_lit2|]. split; [intros i j Hij; cbn in Hij; lia|]. intros g Hg x Hx. rewrite quad_outer, Q by auto. destruct (vec2 x Hx) as [a [b ->]]. destruct Hg as [<-|[<-|[]]]; rewrite !dot_cons, !dot_nil_l; [|lra].
    pose proof (Rle_0_sqr (a + 2 * b)) as S. unfold Rsqr in S. nra.
  - intros G [P [SG [MG [_ B]]]]. destruct (sq2 G SG) as [a [b [c [d ->]]]]. specialize (B [3; 6] ltac:(right; left; reflexivity)). pose proof (B [1; 0] eq_refl) as B1. pose proof (B [0; 1] eq_refl) as B2. rewrite quad_outer, quad2, !dot_cons, !dot_nil_l in B1, B2. rewrite !trace2. lra.
  - unfold mv. cbn [map]. rewrite !dot_cons, !dot_nil_l. unfold vzero. cbn. repeat (f_equal; try ring).
Qed.
(** a further sample raises the trace from 1/2 to 1 *)
Example ex_best_monotone : best 2 two_X two_f [] 0 [[/ 4; / 4]; [/ 4; / 4]] /\ best 2 (two_X ++ [[1; -1]]) (two_f ++ [1]) [] 0 [[/ 3; 0]; [0; 1 - / 3]] /\ trace [[/ 4; / 4]; [/ 4; / 4]] = / 2 /\ trace [[/ 3; 0]; [0; 1 - / 3]] = 1.
Proof. split; [apply two_best|]. split; [apply (tri_best (/ 3)); lra|]. rewrite !trace2. split; lra. Qed.
Lemma norm2_11 : norm2 [-1; -1] = sqrt 2.
Proof. unfold norm2, norm2sq. rewrite !dot_cons, !dot_nil_l. f_equal. ring. Qed.
(** both bounds by the scalar constant are attained: trace = l^2 for the two samples *)
Example ex_best_constant : Forall (dimP 2) two_X /\ best 2 two_X two_f [] 0 [[/ 4; / 4]; [/ 4; / 4]] /\ least (lip_ok two_X two_f [] 0) (/ sqrt 2) /\ trace [[/ 4; / 4]; [/ 4; / 4]] = / sqrt 2 * / sqrt 2.
Proof.
  assert (S0 : 0 < sqrt 2) by (apply sqrt_lt_R0; lra). assert (SS : sqrt 2 * sqrt 2 = 2) by (apply sqrt_sqrt; lra). assert (PR : forall l, Rabs (vget two_f 0 - vget two_f 1) <= l * norm2 (vsub (nth 0 two_X []) (nth 1 two_X [])) + 0 <-> 1 <= l * sqrt 2).
  { intro l. unfold vget, two_f, two_X. cbn [nth vsub vmap2]. replace (0 - 1) with (-1) by ring. rewrite norm2_11. replace (-1) with (- (1)) by ring. rewrite Rabs_Ropp, Rabs_R1. lra. }
  split; [repeat constructor|]. split; [apply two_best|]. split; [split|].
  - split; [left; apply Rinv_0_lt_compat; auto|]. split; [|intros g []]. intros i j Hij. cbn in Hij. assert (i = 0%nat /\ j = 1%nat) as [-> ->] by lia. apply PR. right. field. lra.
  - intros l [L0 [L1 _]]. specialize (L1 0%nat 1%nat ltac:(cbn; lia)). apply PR in L1. apply Rmult_le_reg_r with (sqrt 2); auto. replace (/ sqrt 2 * sqrt 2) with 1 by (field; lra). auto.
  - rewrite trace2. assert (E : / sqrt 2 * / sqrt 2 = / (sqrt 2 * sqrt 2)) by (field; lra). rewrite E, SS. lra.
Qed.
Example ex_best_exists : Forall (dimP 2) tri_X /\ same_only tri_X tri_f 0.
Proof.
  split; [repeat constructor|]. apply (best_exists 2 tri_X tri_f [] 0); [repeat constructor|constructor|]. exists [[1; 0]; [0; 1 - 1]]. apply tri_best. lra.
Qed.
Example ex_best_rotate : onb 2 [[0; 1]; [-1; 0]] /\ best 2 tri_X tri_f [] 0 [[1; 0]; [0; 1 - 1]] /\ congr [[0; 1]; [-1; 0]] [[1; 0]; [0; 1 - 1]] = [[0; 0]; [0; 1]].
Proof.
  split; [|split; [apply tri_best; lra|]].
  - split; [reflexivity|]. split; [repeat (apply Forall_cons; [reflexivity|]); apply Forall_nil|]. intros i j Hi Hj. cbn in Hi, Hj. destruct i as [|[|i]]; try lia; destruct j as [|[|j]]; try lia; cbn [fst snd nth Nat.eqb]; rewrite !dot_cons, !dot_nil_l; ring.
  - unfold congr, mv. cbn [map]. rewrite !dot_cons, !dot_nil_l. repeat (f_equal; try ring).
Qed.
Example ex_best_orthogonal : sdp_H 2 [] [] [[1; 0]; [0; 2]] 0 [[1; 0]; [0; 4]] /\ (forall a b, (a < 2)%nat -> (b < 2)%nat -> a <> b -> dot (nth a [[1; 0]; [0; 2]] []) (nth b [[1; 0]; [0; 2]] []) = 0) /\
  vsum [/ 2; / 2] = 1 /\ vsum (map norm2sq [[1; 0]; [0; 2]]) = 5.
Proof.
  split; [split; [|split; [apply sq_lit2|split; [apply sym_lit2|split; [intros i j Hij; cbn in Hij; lia|]]]]|split; [|split]].
  - intros x Hx. destruct (vec2 x Hx) as [a [b ->]]. rewrite quad2. nra.
  - intros g Hg x Hx. destruct (vec2 x Hx) as [a [b ->]]. rewrite quad_outer, quad2. destruct Hg as [<-|[<-|[]]]; rewrite !dot_cons, !dot_nil_l; nra.
  - intros a b Ha Hb N. destruct a as [|[|a]]; try lia; destruct b as [|[|b]]; try lia; cbn [nth]; rewrite !dot_cons, !dot_nil_l; ring.
  - rewrite !vsum_cons. change (vsum []) with 0. field.
  - cbn [map]. rewrite !vsum_cons. change (vsum []) with 0. unfold norm2sq. rewrite !dot_cons, !dot_nil_l. ring.
Qed.
(** the hypotheses of the theorems about fit: one gradient in the plane, direction (0, 1) *)
Definition fit_eigh (_ : mat) : vec * list vec := ([0; 1], [[0; 1]; [1; 0]]).
Example ex_fit_best : eigh_post 2 [[1; 0]; [0; 0]] (fit_eigh [[1; 0]; [0; 0]]) /\ best 2 [] (vscale (/ 5) []) (map (vscale (/ 5)) [[5; 0]]) (0 / 5) [[1; 0]; [0; 0]] /\ signs_live 2 fit_eigh [[1; 0]; [0; 0]] (map (vscale (/ 5)) [[5; 0]]) /\
  dot [0; 1] [5; 0] = 0 /\ 0 < norm2sq [0; 1].
Proof.
  assert (E1 : map (vscale (/ 5)) [[5; 0]] = [[1; 0]]) by (unfold vscale; cbn; repeat (f_equal; try field)). rewrite E1. replace (0 / 5) with 0 by field. cbn [vscale map]. split; [|split; [|split; [|split]]].
  - split; [auto|]. split; [|split].
    + split; [auto|]. split; [repeat (apply Forall_cons; [reflexivity|]); apply Forall_nil|]. intros i j Hi Hj. cbn in Hi, Hj. destruct i as [|[|i]]; try lia; destruct j as [|[|j]]; try lia; cbn [fit_eigh fst snd nth Nat.eqb]; rewrite !dot_cons, !dot_nil_l; ring.
    + unfold fit_eigh, spec, outer, mscale, madd, mzero, vzero, vscale, vadd; cbn. repeat (f_equal; try ring).
    + intros i j Hij. destruct i as [|[|i]]; try lia; destruct j as [|[|j]]; try lia; unfold vget; cbn; lra.
  - apply best_single; auto. unfold outer, vscale; cbn; repeat (f_equal; try ring).
  - right. intros k Hk W. destruct k as [|[|k]]; [unfold vget, fit_eigh in W; cbn in W; lra| |lia]. unfold fit_eigh. cbn [snd nth]. unfold mean_slope. cbn [map]. rewrite vsum_cons. change (vsum []) with 0. rewrite !dot_cons, !dot_nil_l. cbn. lra.
  - rewrite !dot_cons, !dot_nil_l. ring.
  - unfold norm2sq. rewrite !dot_cons, !dot_nil_l. lra.
Qed.
