(** Concrete domains for C137. *)
Require Import Reals Lra Lia List Bool Arith.
From Verif Require Import RVec Num Sums MatLib GrassLib SpecProofs DomModel DomSpec DomProofs DomMoreModel QuadProofs PredModel CholProofs RandModel RandProofs CholAlg DensModel DensProofs DensRand DensVol.
Import ListNotations.
Local Open Scope R_scope.

Example unif_case : Forall2 Rlt [0; -1] [2; 3] /\ unif_pdf (ubox [0; -1] [2; 3]) [0; -1] [2; 3] (1/10) [1; 0] = 1 / 8 /\ unif_pdf (ubox [0; -1] [2; 3]) [0; -1] [2; 3] (1/10) [3; 0] = 0 /\
  vprod (widths (map (fun a => a - 1/10) [0; -1]) (map (fun b => b + 1/10) [2; 3])) / vprod (widths [0; -1] [2; 3]) = 924 / 800.
Proof.
  split; [repeat constructor; lra|]. split; [|split].
  - unfold unif_pdf. rewrite (proj2 (ubox_inside [0; -1] [2; 3] (1/10) [1; 0] eq_refl eq_refl)); [cbn; field|]. cbn. split; repeat constructor; lra.
  - apply unif_integral_tol; [repeat constructor; lra|lra|reflexivity|]. intros [_ H]. inversion H. lra.
  - cbn. field.
Qed.
Example unif_divisor_case : Forall2 Rle [0; 1] [2; 1] /\ vprod (widths [0; 1] [2; 1]) = 0.
Proof. split; [repeat constructor; lra|cbn; ring]. Qed.
(** the probability of one standard deviation *)
Lemma s2pi_big : 12 / 5 < sqrt (2 * PI).
Proof. rewrite <- (sqrt_square (12/5)) by lra. apply sqrt_lt_1_alt. pose proof PI2_3_2. lra. Qed.
Lemma phi_one : exists t, 0 < t < 1 /\ is_int phi (- sqrt 1) (sqrt 1) (1 - t).
Proof.
  rewrite sqrt_1. assert (AB : - (1) <= 1) by lra. pose proof (continuity_implies_RiemannInt AB (fun x _ => phi_cont x)) as P. pose proof s2pi_big as SB. exists (1 - RiemannInt P).
  assert (U : RiemannInt P <= 5 / 6).
  { replace (5/6) with (RiemannInt (RiemannInt_P14 (- (1)) 1 (5/12))) by (rewrite RiemannInt_P15; lra). apply RiemannInt_P19; auto. intros x Hx. unfold phi, fct_cte. assert (E : exp (- (x * x / 2)) <= 1) by (rewrite <- exp_0; destruct (Req_dec (x * x) 0) as [Z|Z]; [rewrite Z; right; f_equal; lra|apply Rlt_le, exp_increasing; pose proof (Rle_0_sqr x) as Q; unfold Rsqr in Q; lra]).
    apply (Rmult_le_reg_r (sqrt (2 * PI))); [lra|]. replace (exp (- (x * x / 2)) / sqrt (2 * PI) * sqrt (2 * PI)) with (exp (- (x * x / 2))) by (field; lra). lra. }
  assert (L : 0 < RiemannInt P).
  { set (k := exp (- (1 / 2)) / sqrt (2 * PI)). assert (K : 0 < k) by (apply Rdiv_lt_0_compat; [apply exp_pos|lra]). apply Rlt_le_trans with (RiemannInt (RiemannInt_P14 (- (1)) 1 k)); [rewrite RiemannInt_P15; lra|]. apply RiemannInt_P19; auto. intros x Hx. unfold phi, fct_cte, k. apply Rmult_le_compat_r; [apply Rlt_le, Rinv_0_lt_compat; lra|]. apply Rlt_le, exp_increasing. nra. }
  split; [lra|]. exists P. lra.
Qed.
Example normal_integral_case : exists t, 0 < t < 1 /\ chol_spec cholesky /\ tinv_spec tri_inv /\ det_spec det_chol /\ let isf := fun (_ : R) (_ : nat) => 1 in is_int phi (- sqrt (isf t 1%nat)) (sqrt (isf t 1%nat)) (1 - t) /\
  is_int (fun x => normal_pdf det_chol (normal_new cholesky tri_inv isf [3] [[4]] (Some t)) (1/100) [x]) 1 5 1.
Proof.
  destruct phi_one as (t & T & HI). exists t. split; auto. assert (C1 : chol_spec cholesky) by (intros m cov F; apply cholesky_spec; auto). assert (C2 : tinv_spec tri_inv) by apply tri_inv_spec. assert (C3 : det_spec det_chol) by apply det_chol_spec. split; auto. split; auto. split; auto. intro isf. split; auto.
  destruct (n1_integral cholesky tri_inv isf det_chol C1 C2 C3 3 4 ltac:(lra) t (1/100) ltac:(lra) ltac:(lra) ltac:(unfold isf; lra) HI) as [H _]. cbv zeta in H. revert H. unfold isf. replace (sqrt 4) with 2 by (symmetry; apply sqrt_lem_1; lra). rewrite sqrt_1. replace (3 - 2 * 1) with 1 by ring. replace (3 + 2 * 1) with 5 by ring. auto.
Qed.
(** "the density is normalized to have measure one over the domain" fails of truncated log-normal domains, even where the untruncated formula is a density (C70) *)
Theorem logn_truncated_refuted : exists mean cov offset scaling nlb nub t lo hi I, 0 < cov /\ 0 < scaling /\ scaling * scaling = cov /\ nlb < nub /\ 0 < t < 1 /\ is_int (normal_density mean cov) nlb nub (1 - t) /\
  logn_lb offset scaling (Some (nlb, nub)) = Fin lo /\ logn_ub offset scaling (Some (nlb, nub)) = Fin hi /\ is_int (logn_pdf mean cov offset scaling) lo hi I /\ I < 1 /\ forall x, hi < x -> 0 < logn_pdf mean cov offset scaling x.
Proof.
  destruct phi_one as (t & T & HI). rewrite sqrt_1 in HI. exists 0, 1, 0, 1, (-1), 1, t, (0 + 1 * exp (-1)), (0 + 1 * exp 1), (1 / sqrt 1 * (1 - t)).
  assert (HN : is_int (normal_density 0 1) (-1) 1 (1 - t)) by (apply (is_int_ext phi); [lra|intros x _; apply phi_nd|exact HI]).
  split; [lra|]. split; [lra|]. split; [lra|]. split; [lra|]. split; auto. split; auto. split; [reflexivity|]. split; [reflexivity|]. split; [apply (logn_integral 0 1 0 1 (-1) 1 t); auto; lra|]. split; [rewrite sqrt_1; lra|].
  intros x Hx. pose proof (exp_pos 1). pose proof s2pi. unfold logn_pdf. cbv zeta. apply Rdiv_lt_0_compat; [apply exp_pos|]. apply Rmult_lt_0_compat; [|auto]. lra.
Qed.
Example logn_case : exists t, 0 < t < 1 /\ is_int (normal_density 0 1) (-1) 1 (1 - t).
Proof. destruct phi_one as (t & T & HI). rewrite sqrt_1 in HI. exists t. split; auto. apply (is_int_ext phi); [lra|intros x _; apply phi_nd|exact HI]. Qed.
(** the triangle x + y <= 1 in the unit square *)
Definition tri : dom := mkDom LinIneq 2 [Fin 0; Fin 0] [Fin 1; Fin 1] [[1; 1]] [1] [] [] [].
Definition triX : list vec := [[1/4; 1/4]; [1/2; 1/4]; [3/4; 3/4]; [1; 1/2]].
Lemma tri_wf : dom_wf tri.
Proof. unfold dom_wf, tri. cbn. split; auto. split; auto. split; [repeat constructor|]. split; auto. split; auto. split; auto. split; auto. split; auto. split; [intros [H|H]; discriminate|discriminate]. Qed.
Lemma tri_in : forall a b tol, 0 <= tol -> 0 <= a <= 1 -> 0 <= b <= 1 -> (inside1 tri [a; b] tol = true <-> a + b <= 1 + tol).
Proof.
  intros a b tol T A B. rewrite inside1_spec by (try apply tri_wf; discriminate). unfold relaxed, tri. cbn. split.
  - intros (_ & _ & H & _). specialize (H 0%nat _ _ eq_refl eq_refl). rewrite !dot_cons, !dot_nil_l in H. lra.
  - intro H. split; auto. split; [|split; [|split]].
    + intro i. unfold vget. destruct i as [|[|i]]; cbn; split; intros v E; try (injection E as <-; lra); destruct i; discriminate.
    + intros k r c E1 E2. destruct k as [|k]; [|destruct k; discriminate]. injection E1 as <-. injection E2 as <-. rewrite !dot_cons, !dot_nil_l. lra.
    + intros k r c E1. destruct k; discriminate.
    + intros q [].
Qed.
Example vol_mc_case : is_box_domain tri = false /\ Forall2 Rlt [0; 0] [1; 1] /\ volume tri (map Fin [0; 0]) (map Fin [1; 1]) 0 triX = Fin (1 / 2).
Proof.
  split; [reflexivity|]. split; [repeat constructor; lra|]. destruct (vol_mc tri [0; 0] [1; 1] 0 triX eq_refl ltac:(repeat constructor; lra) ltac:(discriminate)) as (v & -> & _ & -> & _).
  assert (E : count_inside tri 0 triX = 2%nat).
  { unfold count_inside, triX. cbn [filter]. rewrite (proj2 (tri_in (1/4) (1/4) 0 ltac:(lra) ltac:(lra) ltac:(lra))) by lra. rewrite (proj2 (tri_in (1/2) (1/4) 0 ltac:(lra) ltac:(lra) ltac:(lra))) by lra.
    destruct (inside1 tri [3/4; 3/4] 0) eqn:E1; [apply tri_in in E1; lra|]. destruct (inside1 tri [1; 1/2] 0) eqn:E2; [apply tri_in in E2; lra|]. reflexivity. }
  rewrite E. cbn. f_equal. lra.
Qed.
Example vol_box_case : exists v, volume (mkDom LinQuad 2 [Fin 0; Fin (-1)] [Fin 2; Fin 3] [] [] [] [] []) [] [] 0 [] = Fin v /\ is_iint [0; -1] [2; 3] (fun _ => 1) v /\ v = 8.
Proof.
  destruct (vol_box (mkDom LinQuad 2 [Fin 0; Fin (-1)] [Fin 2; Fin 3] [] [] [] [] []) [0; -1] [2; 3] [] [] 0 [] eq_refl eq_refl eq_refl ltac:(repeat constructor; lra)) as (v & E & I). exists v. split; auto. split; auto. cbn in E. injection E as <-. ring.
Qed.
Example vol_unbounded_case : is_box_domain (mkDom Box 2 [Fin 0; NInf] [Fin 2; PInf] [] [] [] [] []) = true /\ Forall2 (fun a b => nltb a b = true) [Fin 0; NInf] [Fin 2; PInf].
Proof. split; [reflexivity|]. constructor; [apply Rltb_true; lra|]. constructor; [reflexivity|constructor]. Qed.
(** the diagonal of the unit square *)
Definition diag2 : dom := mkDom LinIneq 2 [Fin 0; Fin 0] [Fin 1; Fin 1] [] [] [[1; -1]] [0] [].
(** "the rule integrates over the domain" fails with equality constraints: the rule is the Monte Carlo rule there (euclidean.py 733-735), whose weights are all zero unless a point drawn from the bounding box satisfies the equality *)
Theorem mc_equality_refuted : exists d l u tol Xt, dom_wf d /\ Forall2 Rlt l u /\ 0 < tol /\ Xt <> [] /\ Forall (fun x => Forall2 Rle l x /\ Forall2 Rle x u) Xt /\ (exists x y, member d x /\ member d y /\ x <> y) /\
  volume d (map Fin l) (map Fin u) tol Xt = Fin 0 /\ forall N f X v, volume d (map Fin l) (map Fin u) tol Xt = Fin v -> mc_rule N v f X = 0.
Proof.
  exists diag2, [0; 0], [1; 1], (1/1000), [[1/4; 3/4]; [1/2; 1/3]].
  assert (W : dom_wf diag2) by (unfold dom_wf, diag2; cbn; split; auto; split; auto; split; auto; split; auto; split; [repeat constructor|]; split; auto; split; auto; split; auto; split; [intros [H|H]; discriminate|discriminate]).
  assert (M : forall a, 0 <= a <= 1 -> member diag2 [a; a]).
  { intros a A. unfold member, diag2. cbn. split; auto. split; [|split; [intros k r c E1; destruct k; discriminate|split; [|intros q []]]].
    - intro i. unfold vget. destruct i as [|[|i]]; cbn; split; intros v E; try (injection E as <-; lra); destruct i; discriminate.
    - intros k r c E1 E2. destruct k as [|k]; [|destruct k; discriminate]. injection E1 as <-. injection E2 as <-. rewrite !dot_cons, !dot_nil_l. lra. }
  split; auto. split; [repeat constructor; lra|]. split; [lra|]. split; [discriminate|]. split; [repeat constructor; lra|]. split; [exists [0; 0], [1; 1]; split; [apply M; lra|]; split; [apply M; lra|]; intro E; injection E; lra|].
  apply vol_equality; auto; [discriminate|repeat constructor; lra|discriminate|]. intros x I. exists 0%nat, [1; -1], 0. split; [reflexivity|]. split; [reflexivity|]. destruct I as [<-|[<-|[]]]; rewrite !dot_cons, !dot_nil_l; [rewrite Rabs_left by lra|rewrite Rabs_right by lra]; lra.
Qed.
Example box_weights_case : is_box_domain (mkDom LinQuad 2 [Fin 0; Fin (-1)] [Fin 2; Fin 3] [] [] [] [] []) = true /\ is_box_domain tri = false /\ mc_weights_num 4 (Fin 8) = [Fin (1 / INR 4 * 8); Fin (1 / INR 4 * 8); Fin (1 / INR 4 * 8); Fin (1 / INR 4 * 8)].
Proof. repeat split. Qed.
