(** Generated by tools/mkprops.py from tools/props/AsFunProps.spec: the property theorems. *)
Require Import Reals List Bool Arith ZArith.
From Verif Require Import RVec Sums Num MatLib GrassLib SpecProofs Decomp DomModel DomSpec DomProofs NormProofs DomOpsProofs DomExamples DomMoreModel SweepProofs QuadProofs QuadExact LipModel LipFitProofs SubModel ActiveProofs AsFunModel AsFunProofs AsFunCases.
Import ListNotations.
Local Open Scope R_scope.

Local Open Scope R_scope.

(** C131: the active subspace of a function from a quadrature rule *)
Theorem C131_integral : forall svd fuel l u ptol tol rules sample vol N grad, let m := length l in let q := quad_q N m in
  strict l u -> wide ptol l u -> 0 < tol -> (2 <= q)%nat -> full_rules q l u (rules q) -> (forall x, length x = m -> length (grad x) = m) ->
  svd_of m svd (fit_cols grad (cart_w (rules q))) ->
  (forall i, (i < m)%nat -> mpoly q m (fun x => vget (grad x) i)) ->
  exists U s C, box_fit_function svd fuel l u ptol tol rules sample vol N grad = Some (U, s, C) /\ sq m C /\
    forall i j v, (i < m)%nat -> (j < m)%nat -> boxint l u (fun x => vget (grad x) i * vget (grad x) j) v -> mget C i j = v.
Proof. exact fit_function_integral. Qed.
Print Assumptions C131_integral.

Theorem C131_kernel : forall svd fuel l u ptol tol rules sample vol N grad, let m := length l in let q := quad_q N m in
  strict l u -> wide ptol l u -> 0 < tol -> (2 <= q)%nat -> full_rules q l u (rules q) -> (forall x, length x = m -> length (grad x) = m) ->
  svd_of m svd (fit_cols grad (cart_w (rules q))) ->
  (forall i, (i < m)%nat -> mpoly q m (fun x => vget (grad x) i)) ->
  exists U s C, box_fit_function svd fuel l u ptol tol rules sample vol N grad = Some (U, s, C) /\
    forall v, length v = m -> (mv C v = vzero m <-> forall x, length x = m -> dot (grad x) v = 0).
Proof. exact fit_function_kernel. Qed.
Print Assumptions C131_kernel.

Theorem C131_constant_directions : forall svd fuel l u ptol tol rules sample vol N f grad, let m := length l in let q := quad_q N m in
  strict l u -> wide ptol l u -> 0 < tol -> (2 <= q)%nat -> full_rules q l u (rules q) -> (forall x, length x = m -> length (grad x) = m) ->
  svd_of m svd (fit_cols grad (cart_w (rules q))) ->
  (forall i, (i < m)%nat -> mpoly q m (fun x => vget (grad x) i)) ->
  (forall x v t, length x = m -> length v = m -> derivable_pt_lim (fun t => f (vadd x (vscale t v))) t (dot (grad (vadd x (vscale t v))) v)) ->
  exists U s C, box_fit_function svd fuel l u ptol tol rules sample vol N grad = Some (U, s, C) /\
    forall v, length v = m -> (mv C v = vzero m <-> forall x t, length x = m -> f (vadd x (vscale t v)) = f x).
Proof. exact fit_function_constant. Qed.
Print Assumptions C131_constant_directions.

Theorem C131_active_coordinates_partial : forall svd fuel l u ptol tol rules sample vol N f grad, let m := length l in let q := quad_q N m in
  strict l u -> wide ptol l u -> 0 < tol -> (2 <= q)%nat -> full_rules q l u (rules q) -> (forall x, length x = m -> length (grad x) = m) ->
  svd_of m svd (fit_cols grad (cart_w (rules q))) ->
  (forall i, (i < m)%nat -> mpoly q m (fun x => vget (grad x) i)) ->
  (forall x v t, length x = m -> length v = m -> derivable_pt_lim (fun t => f (vadd x (vscale t v))) t (dot (grad (vadd x (vscale t v))) v)) ->
  exists U s C, box_fit_function svd fuel l u ptol tol rules sample vol N grad = Some (U, s, C) /\ length U = m /\ length s = m /\
    ((forall k, (k < m)%nat -> 0 < vget s k -> nth k U [] <> vzero m) ->
     forall x y, length x = m -> length y = m -> (forall k, (k < m)%nat -> 0 < vget s k -> dot (nth k U []) x = dot (nth k U []) y) -> f x = f y) /\
    (forall k, (k < m)%nat -> (vget s k = 0 <-> forall x t, length x = m -> f (vadd x (vscale t (nth k (fst (svd (fit_cols grad (cart_w (rules q))))) []))) = f x)).
Proof. exact fit_function_active. Qed.
Print Assumptions C131_active_coordinates_partial.

Theorem C131_rule_points : forall fuel d pt unb tol rules sample vol N nlb nub res, length nlb = dim d -> ordered nlb nub -> gauss_rules nlb nub rules -> (1 <= dim d)%nat -> (1 <= N)%nat -> 0 <= vol ->
  (forall n, length (sample n) = n /\ Forall (fun x => inside1 d x tol = true) (sample n)) ->
  quadrature_rule fuel d pt unb tol rules sample vol N = Some res ->
  (length res <= N)%nat /\ Forall (fun pw => inside1 d (fst pw) tol = true /\ 0 <= snd pw) res.
Proof. exact rule_points. Qed.
Print Assumptions C131_rule_points.

Theorem C131_rule_monte_carlo : forall fuel d unb tol rules sample vol N, dAeq d <> [] \/ unb = true \/ (N < 2 ^ dim d)%nat -> (1 <= dim d)%nat -> (1 <= N)%nat -> length (sample N) = N ->
  exists res, quadrature_rule fuel d false unb tol rules sample vol N = Some res /\ forall f, cub f res = vol * (vsum (map f (sample N)) / INR N).
Proof. exact rule_monte_carlo. Qed.
Print Assumptions C131_rule_monte_carlo.

Example C131_rule_case : exists res, quadrature_rule 5 (mkDom LinQuad 2 [Fin 0; Fin 0] [Fin 1; Fin 1] [] [] [[1; 1]] [1] []) false false (1/10) (fun _ => []) (fun n => repeat [1/2; 1/2] n) 3 9 = Some res /\
  cub (fun p => vget p 0 * vget p 1) res = 3 * (1 / 4).
Proof. exact rule_case. Qed.

Theorem C131_rule_point : forall fuel d unb tol rules sample vol N x, sample 1%nat = [x] ->
  exists res, quadrature_rule fuel d true unb tol rules sample vol N = Some res /\ forall f, cub f res = f x.
Proof. exact rule_point. Qed.
Print Assumptions C131_rule_point.

Theorem C131_points_per_axis : forall q m, (1 <= q)%nat -> (1 <= m)%nat -> quad_q (q ^ m) m = q.
Proof. exact quad_q_pow. Qed.
Print Assumptions C131_points_per_axis.

Example C131_case : exists svd U s C, svd_of 2 svd (fit_cols qg (cart_w qrules)) /\
  box_fit_function svd 7 [0; 0] [1; 2] (1/1000) (1/1000) (fun _ => qrules) (fun _ => []) 2 4 qg = Some (U, s, C) /\
  mget C 0 1 = 64 / 3 /\ mv C [1; -1] = [0; 0] /\
  (forall k, (k < 2)%nat -> 0 < vget s k -> nth k U [] <> vzero 2) /\
  (forall x y, length x = 2%nat -> length y = 2%nat -> (forall k, (k < 2)%nat -> 0 < vget s k -> dot (nth k U []) x = dot (nth k U []) y) -> qf x = qf y).
Proof. exact fit_function_case. Qed.

Theorem C131_active_coordinates_refuted : exists svd rules U s C, let grad := fun x : vec => [2 * vget x 0] in
  full_rules 2 [-1] [1] rules /\ quad_q 2 1 = 2%nat /\ svd_of 1 svd (fit_cols grad (cart_w rules)) /\ mpoly 2 1 (fun x => vget (grad x) 0) /\
  box_fit_function svd 7 [-1] [1] (1/1000) (1/1000) (fun _ => rules) (fun _ => []) 2 2 grad = Some (U, s, C) /\ mget C 0 0 = 8 / 3 /\ 0 < vget s 0 /\ U = [[0]].
Proof. exact fit_function_refuted. Qed.
Print Assumptions C131_active_coordinates_refuted.
