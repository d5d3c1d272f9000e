(** Concrete cases for ActiveSubspace.fit_function on boxes. *)
Require Import Reals Lra Lia List Bool Arith ZArith.
From Verif Require Import RVec Sums Num MatLib GrassLib SpecProofs Decomp DomModel DomSpec DomProofs NormProofs DomOpsProofs DomExamples DomMoreModel SweepProofs QuadProofs QuadExact LipModel LipFitProofs SubModel ActiveProofs AsFunModel AsFunProofs.
Import ListNotations.
Local Open Scope R_scope.

(** a power q^m of gradients gives q points per axis *)
Lemma quad_q_pow : forall q m, (1 <= q)%nat -> (1 <= m)%nat -> quad_q (q ^ m) m = q.
Proof.
  intros q m Hq Hm. assert (PQ : 0 < INR q) by (apply lt_0_INR; lia). assert (PM : 0 < INR m) by (apply lt_0_INR; lia). unfold quad_q. rewrite pow_INR. rewrite <- Rpower_pow by auto. rewrite Rpower_mult. replace (INR m * / INR m) with 1 by (field; lra). rewrite Rpower_1 by auto. rewrite Int_part_INR. apply Nat2Z.id.
Qed.
Lemma gb_rule : let g := gbeta 1 in let s := sqrt (1/2) in eigh_full 2 (jacobi 2) [- g; g] [[s; - s]; [s; s]].
Proof. apply gauss_exact_case. Qed.

(** f(x) = (x_0 + x_1)^2 on [0,1] x [0,2], four gradients *)
Definition qf (x : vec) : R := (vget x 0 + vget x 1) ^ 2.
Definition qg (x : vec) : vec := [2 * (vget x 0 + vget x 1); 2 * (vget x 0 + vget x 1)].
Definition qrules : list (vec * vec) := let g := gbeta 1 in let s := sqrt (1/2) in let ew := [- g; g] in let ev := [[s; - s]; [s; s]] in
  [(gauss_x ew 0 1, gauss_w ev 0 1); (gauss_x ew 0 2, gauss_w ev 0 2)].
Lemma q_full : full_rules 2 [0; 0] [1; 2] qrules.
Proof. pose proof gb_rule as E. constructor; [exists [- gbeta 1; gbeta 1], [[sqrt (1/2); - sqrt (1/2)]; [sqrt (1/2); sqrt (1/2)]]; auto|]. constructor; [exists [- gbeta 1; gbeta 1], [[sqrt (1/2); - sqrt (1/2)]; [sqrt (1/2); sqrt (1/2)]]; auto|constructor]. Qed.
Lemma q_strict : strict [0; 0] [1; 2].
Proof. split; auto. intros i Hi. destruct i as [|[|i]]; [| |simpl in Hi; lia]; unfold vget; simpl; lra. Qed.
Lemma q_wide : wide (1/1000) [0; 0] [1; 2].
Proof. exists O. split; [simpl; lia|]. unfold vget. simpl. lra. Qed.
Lemma q_poly : forall i, (i < 2)%nat -> mpoly 2 2 (fun x => vget (qg x) i).
Proof.
  assert (H : mpoly 2 2 (fun x => 2 * (vget x 0 + vget x 1))).
  { exists [(fun y => 2 * vget y 0); (fun _ => 2)]. split; [simpl; lia|]. split.
    - apply Forall_cons; [|apply Forall_cons; [|constructor]].
      + exists [(fun _ => 0); (fun _ => 2)]. split; [simpl; lia|]. split; [repeat constructor|]. intros x y Ly. unfold vget. simpl. ring.
      + exists [(fun _ => 2)]. split; [simpl; lia|]. split; [repeat constructor|]. intros x y Ly. simpl. ring.
    - intros x y Ly. unfold vget. simpl. ring. }
  intros i Hi. destruct i as [|[|i]]; [exact H|exact H|lia].
Qed.
Lemma q_deriv : forall x v t, length x = 2%nat -> length v = 2%nat -> derivable_pt_lim (fun t => qf (vadd x (vscale t v))) t (dot (qg (vadd x (vscale t v))) v).
Proof.
  intros x v t Lx Lv. destruct x as [|a [|b [|]]]; try discriminate. destruct v as [|c [|d [|]]]; try discriminate.
  replace (dot (qg (vadd [a; b] (vscale t [c; d]))) [c; d]) with (INR 2 * ((a + b) + (c + d) * t) ^ (pred 2) * (0 + (c + d))) by (unfold qg, vget; simpl; rewrite !dot_cons, dot_nil_l; ring).
  assert (D : derivable_pt_lim (comp (fun y => y ^ 2) (fct_cte (a + b) + mult_real_fct (c + d) id)%F) t (INR 2 * ((a + b) + (c + d) * t) ^ pred 2 * (0 + (c + d) * 1))).
  { apply derivable_pt_lim_comp; [apply derivable_pt_lim_plus; [apply derivable_pt_lim_const|apply derivable_pt_lim_scal; apply derivable_pt_lim_id]|].
    apply (derivable_pt_lim_pow (plus_fct (fct_cte (a + b)) (mult_real_fct (c + d) id) t) 2). }
  rewrite Rmult_1_r in D. intros eps He. destruct (D eps He) as [dl K]. exists dl. intros h H1 H2. specialize (K h H1 H2). unfold comp, plus_fct, fct_cte, mult_real_fct, id in K.
  match goal with |- Rabs (?A / h - ?B) < eps => match type of K with Rabs (?A' / h - ?B') < eps => replace A with A'; [exact K|] end end. unfold qf, vget. simpl. ring.
Qed.
Lemma q_len : forall x, length x = 2%nat -> length (qg x) = 2%nat.
Proof. auto. Qed.
Lemma q_int : boxint [0; 0] [1; 2] (fun x => vget (qg x) 0 * vget (qg x) 1) (64 / 3).
Proof.
  cbn [boxint]. exists (fun x => 8 * x ^ 2 + (16 * x + 32 / 3)), (fun x => 8 / 3 * x ^ 3 + (8 * x ^ 2 + 32 / 3 * x)). split; [|split].
  - intro x. exists (fun y => 4 * x ^ 2 + (8 * x * y + 4 * y ^ 2)), (fun y => 4 * x ^ 2 * y + (4 * x * y ^ 2 + 4 / 3 * y ^ 3)). split; [intro y; unfold qg, vget; simpl; ring|]. split; [|field].
    intro y. replace (4 * x ^ 2 + (8 * x * y + 4 * y ^ 2)) with (4 * x ^ 2 * 1 + (4 * x * (INR 2 * y ^ pred 2) + 4 / 3 * (INR 3 * y ^ pred 3))) by (simpl; field).
    apply (derivable_pt_lim_plus (fun y => 4 * x ^ 2 * y) (fun y => 4 * x * y ^ 2 + 4 / 3 * y ^ 3)); [apply (derivable_pt_lim_scal id), derivable_pt_lim_id|].
    apply (derivable_pt_lim_plus (fun y => 4 * x * y ^ 2) (fun y => 4 / 3 * y ^ 3)); [apply (derivable_pt_lim_scal (fun y => y ^ 2)), derivable_pt_lim_pow|apply (derivable_pt_lim_scal (fun y => y ^ 3)), derivable_pt_lim_pow].
  - intro x. replace (8 * x ^ 2 + (16 * x + 32 / 3)) with (8 / 3 * (INR 3 * x ^ pred 3) + (8 * (INR 2 * x ^ pred 2) + 32 / 3 * 1)) by (simpl; field).
    apply (derivable_pt_lim_plus (fun x => 8 / 3 * x ^ 3) (fun x => 8 * x ^ 2 + 32 / 3 * x)); [apply (derivable_pt_lim_scal (fun x => x ^ 3)), derivable_pt_lim_pow|].
    apply (derivable_pt_lim_plus (fun x => 8 * x ^ 2) (fun x => 32 / 3 * x)); [apply (derivable_pt_lim_scal (fun x => x ^ 2)), derivable_pt_lim_pow|apply (derivable_pt_lim_scal id), derivable_pt_lim_id].
  - field.
Qed.
Lemma q_svd : exists svd, svd_of 2 svd (fit_cols qg (cart_w qrules)).
Proof.
  destruct (svd_full_exists 2 (fit_cols qg (cart_w qrules))) as (us & s & vs & H). { apply Forall_forall. intros c Hc. apply in_map_iff in Hc. destruct Hc as (pw & <- & _). rewrite vscale_length. auto. }
  exists (fun _ => (us, s)), vs. exact H.
Qed.
(** the entry of C is the integral, the direction (1,-1) is in the kernel, and f depends on the active coordinates only *)
Theorem fit_function_case : exists svd U s C, svd_of 2 svd (fit_cols qg (cart_w qrules)) /\
  box_fit_function svd 7 [0; 0] [1; 2] (1/1000) (1/1000) (fun _ => qrules) (fun _ => []) 2 4 qg = Some (U, s, C) /\
  mget C 0 1 = 64 / 3 /\ mv C [1; -1] = [0; 0] /\
  (forall k, (k < 2)%nat -> 0 < vget s k -> nth k U [] <> vzero 2) /\
  (forall x y, length x = 2%nat -> length y = 2%nat -> (forall k, (k < 2)%nat -> 0 < vget s k -> dot (nth k U []) x = dot (nth k U []) y) -> qf x = qf y).
Proof.
  destruct q_svd as (svd & SV). assert (Q : quad_q 4 2 = 2%nat) by (apply (quad_q_pow 2 2); lia). exists svd.
  assert (Hq : (2 <= quad_q 4 (length [0; 0]))%nat) by (cbn [length]; rewrite Q; lia). assert (FR : full_rules (quad_q 4 (length [0; 0])) [0; 0] [1; 2] qrules) by (cbn [length]; rewrite Q; apply q_full).
  assert (MP : forall i, (i < length [0; 0])%nat -> mpoly (quad_q 4 (length [0; 0])) (length [0; 0]) (fun x => vget (qg x) i)) by (cbn [length]; rewrite Q; apply q_poly).
  destruct (fit_function_integral svd 7 [0; 0] [1; 2] (1/1000) (1/1000) (fun _ => qrules) (fun _ => []) 2 4 qg q_strict q_wide ltac:(lra) Hq FR q_len SV MP) as (U & s & C & E & _ & EI).
  destruct (fit_function_constant svd 7 [0; 0] [1; 2] (1/1000) (1/1000) (fun _ => qrules) (fun _ => []) 2 4 qf qg q_strict q_wide ltac:(lra) Hq FR q_len SV MP q_deriv) as (U1 & s1 & C1 & E1 & K). rewrite E in E1. injection E1 as <- <- <-.
  destruct (fit_function_active svd 7 [0; 0] [1; 2] (1/1000) (1/1000) (fun _ => qrules) (fun _ => []) 2 4 qf qg q_strict q_wide ltac:(lra) Hq FR q_len SV MP q_deriv) as (U1 & s1 & C1 & E1 & LU & Ls & AC & ZS). rewrite E in E1. injection E1 as <- <- <-.
  exists U, s, C. split; auto. split; auto. split; [apply EI; try (simpl; lia); apply q_int|]. split.
  - apply (K [1; -1] eq_refl). intros x t Lx. destruct x as [|a [|b [|]]]; try discriminate. unfold qf, vget. simpl. ring.
  - assert (NZ : forall k, (k < 2)%nat -> 0 < vget s k -> nth k U [] <> vzero 2); [|split; auto].
    intros k Hk Hs Z. cbn [length] in ZS. specialize (ZS k Hk). destruct ZS as [_ ZS]. assert (vget s k = 0); [|lra]. apply ZS. clear ZS AC K EI. intros x t Lx.
    destruct (fit_res svd 7 [0; 0] [1; 2] (1/1000) (1/1000) (fun _ => []) 2 (fun _ => qrules) 4 qg q_strict q_wide ltac:(lra) Hq FR) as (U' & s' & C' & E1 & E2). rewrite E in E1. injection E1 as <- <- <-. unfold as_fit in E2. change (as_weights (map (fun pw => qg (fst pw)) (cart_w qrules)) (Some (map snd (cart_w qrules)))) with (map snd (cart_w qrules)) in E2. rewrite fit_cols_as in E2.
    destruct SV as (vs & SV). destruct (svd (fit_cols qg (cart_w qrules))) as [us s0]. cbn [fst snd] in SV |- *. injection E2 as EU Es EC. destruct SV as [[LUs [FUs OR]] _]. rewrite <- EU in Z. rewrite sg_cols_nth in Z by lia.
    assert (Luk : length (nth k us []) = 2%nat) by (apply (proj1 (Forall_forall _ _) FUs); apply nth_In; lia). pose proof (OR k k ltac:(lia) ltac:(lia)) as N1. rewrite Nat.eqb_refl in N1.
    destruct (nth k us []) as [|c [|d [|]]]; try discriminate. rewrite !dot_cons, dot_nil_l in N1.
    assert (MS : mean_slope [c; d] (map (fun pw => qg (fst pw)) (cart_w qrules)) = 3 * (c + d)). { unfold mean_slope, qrules, qg, gauss_x, gauss_w, vget. simpl. rewrite !dot_cons, !dot_nil_l. field. }
    change (vscale (sgn (mean_slope [c; d] (map (fun pw => qg (fst pw)) (cart_w qrules)))) [c; d] = vzero 2) in Z. rewrite MS in Z. assert (S0 : c + d = 0).
    { destruct (Req_dec (c + d) 0) as [|NE]; auto. exfalso. assert (SG : sgn (3 * (c + d)) <> 0). { unfold sgn. destruct (Rltb 0 (3 * (c + d))) eqn:A; [lra|]. destruct (Rltb (3 * (c + d)) 0) eqn:B; [lra|]. apply Rltb_false in A. apply Rltb_false in B. lra. }
      unfold vzero in Z. cbn [vscale map repeat] in Z. injection Z as Z1 Z2. assert (c = 0) by nra. assert (d = 0) by nra. nra. }
    destruct x as [|a [|b [|]]]; try discriminate. unfold qf, vget. simpl. replace d with (- c) by lra. ring.
Qed.

(** the sign fix destroys the result for even functions: f(x) = x^2 on [-1,1] with two gradients has s_0 > 0 but U = 0 *)
Theorem fit_function_refuted : exists svd rules U s C, let grad := fun x : vec => [2 * vget x 0] in
  full_rules 2 [-1] [1] rules /\ quad_q 2 1 = 2%nat /\ svd_of 1 svd (fit_cols grad (cart_w rules)) /\ mpoly 2 1 (fun x => vget (grad x) 0) /\
  box_fit_function svd 7 [-1] [1] (1/1000) (1/1000) (fun _ => rules) (fun _ => []) 2 2 grad = Some (U, s, C) /\ mget C 0 0 = 8 / 3 /\ 0 < vget s 0 /\ U = [[0]].
Proof.
  set (grad := fun x : vec => [2 * vget x 0]). set (rules := [(gauss_x [- gbeta 1; gbeta 1] (-1) 1, gauss_w [[sqrt (1/2); - sqrt (1/2)]; [sqrt (1/2); sqrt (1/2)]] (-1) 1)]).
  assert (FR : full_rules 2 [-1] [1] rules). { constructor; [|constructor]. exists [- gbeta 1; gbeta 1], [[sqrt (1/2); - sqrt (1/2)]; [sqrt (1/2); sqrt (1/2)]]. split; [apply gb_rule|reflexivity]. }
  assert (Q : quad_q 2 1 = 2%nat) by (apply (quad_q_pow 2 1); lia).
  destruct (svd_full_exists 1 (fit_cols grad (cart_w rules))) as (us & s0 & vs & SV). { apply Forall_forall. intros c Hc. apply in_map_iff in Hc. destruct Hc as (pw & <- & _). rewrite vscale_length. auto. }
  set (svd := fun _ : list vec => (us, s0)). assert (SVO : svd_of 1 svd (fit_cols grad (cart_w rules))) by (exists vs; exact SV).
  assert (S : strict [-1] [1]). { split; auto. intros i Hi. destruct i as [|i]; [|simpl in Hi; lia]; unfold vget; simpl; lra. }
  assert (W : wide (1/1000) [-1] [1]). { exists O. split; [simpl; lia|]. unfold vget. simpl. lra. }
  assert (MP : mpoly 2 1 (fun x => vget (grad x) 0)). { exists [(fun _ => 0); (fun _ => 2)]. split; [simpl; lia|]. split; [repeat constructor|]. intros x y Ly. unfold grad, vget. simpl. ring. }
  assert (Hq : (2 <= quad_q 2 1)%nat) by (rewrite Q; lia). assert (FR' : full_rules (quad_q 2 1) [-1] [1] rules) by (rewrite Q; auto).
  assert (MP' : forall i, (i < 1)%nat -> mpoly (quad_q 2 1) 1 (fun x => vget (grad x) i)). { rewrite Q. intros i Hi. replace i with O by lia. auto. }
  destruct (fit_function_integral svd 7 [-1] [1] (1/1000) (1/1000) (fun _ => rules) (fun _ => []) 2 2 grad S W ltac:(lra) Hq FR' ltac:(auto) SVO MP') as (U & s & C & E & SC & EI).
  assert (C00 : mget C 0 0 = 8 / 3).
  { apply EI; try (simpl; lia). cbn [boxint]. exists (fun x => 4 * x ^ 2), (fun x => 4 / 3 * x ^ 3). split; [intro x; unfold grad, vget; simpl; ring|]. split; [|field]. intro x. replace (4 * x ^ 2) with (4 / 3 * (INR 3 * x ^ pred 3)) by (simpl; field). apply (derivable_pt_lim_scal (fun x => x ^ 3)), derivable_pt_lim_pow. }
  exists svd, rules, U, s, C. cbv zeta. fold grad. split; auto. split; auto. split; auto. split; auto. split; auto. split; auto.
  destruct (fit_res svd 7 [-1] [1] (1/1000) (1/1000) (fun _ => []) 2 (fun _ => rules) 2 grad S W ltac:(lra) Hq FR') as (U' & s' & C' & E1 & E2). rewrite E in E1. injection E1 as <- <- <-. unfold as_fit in E2. cbn [length] in E2.
  unfold svd in E2. injection E2 as EU Es EC. destruct SV as [[LUs [FUs OR]] [_ [L0 [P0 _]]]]. destruct us as [|u0 [|]]; try discriminate. pose proof (Forall_inv FUs) as Lu. destruct u0 as [|c [|]]; try discriminate. split.
  - rewrite <- EC in C00. rewrite Es in C00. assert (Ls : length s = 1%nat). { rewrite <- Es. unfold as_pad. rewrite app_length, repeat_length, L0. simpl. auto. } destruct s as [|a [|]]; try discriminate. unfold mget, vget in C00 |- *. simpl in C00 |- *.
    assert (A : 0 <= a). { unfold as_pad in Es. destruct s0 as [|b s0]; [simpl in Es; injection Es as <-; lra|]. simpl in Es. injection Es as <- _. exact (Forall_inv P0). }
    destruct (Req_dec a 0) as [Z|Z]; [exfalso; subst a; lra|lra].
  - assert (MS : mean_slope [c] (map (fun pw => grad (fst pw)) (cart_w rules)) = 0). { unfold mean_slope, rules, grad, gauss_x, gauss_w, vget. simpl. rewrite !dot_cons, !dot_nil_l. field. }
    assert (L : length U = 1%nat) by (rewrite <- EU, sg_cols_len; auto). assert (N : nth 0 U [] = [0]). { rewrite <- EU, sg_cols_nth by (simpl; lia). change (vscale (sgn (mean_slope [c] (map (fun pw => grad (fst pw)) (cart_w rules)))) [c] = [0]). rewrite MS. unfold sgn. replace (Rltb 0 0) with false by (symmetry; apply Rltb_false; lra). simpl. f_equal. ring. }
    destruct U as [|a [|]]; try discriminate. simpl in N. congruence.
Qed.

(** * quadrature_rule on any domain *)
(** at most N points, inside the domain, weights not negative, whatever the branch *)
Theorem rule_points : forall fuel d pt unb tol rules sample vol N nlb nub res, length nlb = dim d -> ordered nlb nub -> gauss_rules nlb nub rules -> (1 <= dim d)%nat -> (1 <= N)%nat -> 0 <= vol ->
  (forall n, length (sample n) = n /\ Forall (fun x => inside1 d x tol = true) (sample n)) ->
  quadrature_rule fuel d pt unb tol rules sample vol N = Some res ->
  (length res <= N)%nat /\ Forall (fun pw => inside1 d (fst pw) tol = true /\ 0 <= snd pw) res.
Proof.
  intros fuel d pt unb tol rules sample vol N nlb nub res LD O G HD HN HV HS E. unfold quadrature_rule in E.
  assert (K : forall n ws, Forall (fun w => 0 <= w) ws -> Forall (fun pw => inside1 d (fst pw) tol = true /\ 0 <= snd pw) (combine (sample n) ws)).
  { intros n ws W. apply Forall_forall. intros [p w] I. rewrite Forall_forall in W. pose proof (in_combine_l _ _ _ _ I). pose proof (in_combine_r _ _ _ _ I).
    destruct (HS n) as [_ F]. rewrite Forall_forall in F. cbn. auto. }
  destruct pt.
  - injection E as <-. rewrite combine_length, (proj1 (HS 1%nat)). cbn [length]. split; [apply Nat.le_trans with (2 := HN); apply Nat.le_min_l|]. apply K. constructor; [lra|constructor].
  - destruct (_ && _)%bool.
    + apply (quadrature_gauss_correct fuel d tol rules nlb nub N (quad_q N (dim d))); auto. apply quad_q_bound; auto.
    + injection E as <-. rewrite combine_length, (proj1 (HS N)). split; [apply Nat.le_min_l|]. apply K. apply Forall_forall. intros w I. apply repeat_spec in I. subst w.
      apply Rmult_le_pos; auto. unfold Rdiv. rewrite Rmult_1_l. left. apply Rinv_0_lt_compat, lt_0_INR. lia.
Qed.
Lemma cub_repeat : forall f c X n, length X = n -> cub f (combine X (repeat c n)) = c * vsum (map f X).
Proof.
  intros f c X. induction X as [|x X IH]; intros [|n] H; cbn in H; try lia.
  - unfold cub, vsum. cbn. ring.
  - injection H as H. specialize (IH n H). unfold cub in *. cbn [repeat combine map fst snd]. rewrite !vsum_cons, IH. ring.
Qed.
(** with equality constraints, on an unbounded domain, or with fewer than 2^m points the rule is the volume times the mean *)
Theorem rule_monte_carlo : forall fuel d unb tol rules sample vol N, dAeq d <> [] \/ unb = true \/ (N < 2 ^ dim d)%nat -> (1 <= dim d)%nat -> (1 <= N)%nat -> length (sample N) = N ->
  exists res, quadrature_rule fuel d false unb tol rules sample vol N = Some res /\ forall f, cub f res = vol * (vsum (map f (sample N)) / INR N).
Proof.
  intros fuel d unb tol rules sample vol N H HD HN LS. exists (combine (sample N) (mc_weights N vol)).
  assert (B : (Nat.ltb 1 (quad_q N (dim d)) && negb unb && Nat.eqb (length (dAeq d)) 0)%bool = false).
  { destruct H as [H|[H|H]].
    - destruct (dAeq d); [congruence|]. cbn. apply andb_false_r.
    - subst unb. rewrite andb_false_r. reflexivity.
    - assert (Q : Nat.ltb 1 (quad_q N (dim d)) = false); [|rewrite Q; reflexivity]. apply Nat.ltb_ge. destruct (le_lt_dec 2 (quad_q N (dim d))) as [L|L]; [|lia].
      pose proof (quad_q_bound N (dim d) HN HD). pose proof (Nat.pow_le_mono_l 2 (quad_q N (dim d)) (dim d) L). lia. }
  unfold quadrature_rule. rewrite B. split; [reflexivity|]. intro f. unfold mc_weights. rewrite cub_repeat by auto. unfold Rdiv. ring.
Qed.
(** on a single point the rule is the value there *)
Theorem rule_point : forall fuel d unb tol rules sample vol N x, sample 1%nat = [x] ->
  exists res, quadrature_rule fuel d true unb tol rules sample vol N = Some res /\ forall f, cub f res = f x.
Proof. intros fuel d unb tol rules sample vol N x H. exists [(x, 1)]. unfold quadrature_rule. rewrite H. split; [reflexivity|]. intro f. unfold cub, vsum. cbn. ring. Qed.
Example rule_case : exists res, quadrature_rule 5 (mkDom LinQuad 2 [Fin 0; Fin 0] [Fin 1; Fin 1] [] [] [[1; 1]] [1] []) false false (1/10) (fun _ => []) (fun n => repeat [1/2; 1/2] n) 3 9 = Some res /\
  cub (fun p => vget p 0 * vget p 1) res = 3 * (1 / 4).
Proof.
  destruct (rule_monte_carlo 5 (mkDom LinQuad 2 [Fin 0; Fin 0] [Fin 1; Fin 1] [] [] [[1; 1]] [1] []) false (1/10) (fun _ => []) (fun n => repeat [1/2; 1/2] n) 3 9) as [res [E F]].
  - left. discriminate.
  - cbn. lia.
  - lia.
  - reflexivity.
  - exists res. split; [exact E|]. rewrite F. unfold vsum. cbn. lra.
Qed.
