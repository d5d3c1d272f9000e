(** Generated by tools/mkprops.py from tools/props/FunProps.spec: the property theorems. *)
Require Import Reals List Bool Arith ZArith.
From Verif Require Import RVec Num Sums DomModel DomSpec DomProofs NormProofs DomMoreModel ChebProofs Deriv FunModel FunProofs.
Import ListNotations.
Local Open Scope R_scope.

(** C19: the wrapper evaluates through unnormalize and differentiates by the chain rule *)
Theorem C19_eval : forall F kw x, length (f_lb F) = length (f_ub F) -> length x = length (f_lb F) ->
  eval1 F kw (normalize (f_lb F) (f_ub F) x) = concat (map (fun f => f (merge (f_kw F) kw) x) (f_funs F)).
Proof. exact eval_normalized. Qed.
Print Assumptions C19_eval.

Theorem C19_chain_rule : forall F gs kw z, length (f_lb F) = length (f_ub F) -> length z = length (f_lb F) ->
  f_fd F = false -> f_grads F = Some gs -> length (f_funs F) = length gs ->
  (forall a f g, nth_error (f_funs F) a = Some f -> nth_error gs a = Some g ->
     jacobian (f (merge (f_kw F) kw)) (unnormalize (f_lb F) (f_ub F) z) (g (merge (f_kw F) kw) (unnormalize (f_lb F) (f_ub F) z))) ->
  exists G, jacobian (eval1 F kw) z G /\
    (length G = 1%nat -> grad F kw true [z] = Some (T1 (nth 0 G []))) /\ (length G <> 1%nat -> grad F kw true [z] = Some (T2 G)).
Proof. exact grad_chain_rule. Qed.
Print Assumptions C19_chain_rule.

Example C19_jacobian_case : forall kw a b, jacobian (ex_f1 kw) [a; b] (ex_g1 kw [a; b]).
Proof. exact ex_jacobian. Qed.

Example C19_case : grad ex_fun nokw true [[1/2; 3]] = Some (T2 [[6; 3]; [2; 0]]) /\ eval1 ex_fun nokw [1/2; 3] = [9; 3].
Proof. exact ex_grad_case. Qed.

Theorem C19_scalar_rows : forall F gs kw Z, f_fd F = false -> f_grads F = Some gs -> Z <> [] ->
  (forall z, In z Z -> length (concat (map (fun g => g (merge (f_kw F) kw) (unnormalize (f_lb F) (f_ub F) z)) gs)) = 1%nat) ->
  exists A, grad F kw false Z = Some (T2 A) /\ length A = length Z /\ forall i, (i < length Z)%nat -> grad F kw true [nth i Z []] = Some (T1 (nth i A [])).
Proof. exact grad_scalar_rows. Qed.
Print Assumptions C19_scalar_rows.

Theorem C19_call_consistent : forall F rs kw z, f_fd F = false -> f_grads F = None -> f_ret F = Some rs ->
  map (fun f => f) (f_funs F) = map (fun r k x => fst (r k x)) rs ->
  call_ret F rs kw true [z] = match grad F kw true [z] with Some g => Some (T1 (eval1 F kw z), g) | None => None end.
Proof. exact call_consistent. Qed.
Print Assumptions C19_call_consistent.

Theorem C19_call_consistent_rows : forall F rs kw Z, f_fd F = false -> f_grads F = None -> f_ret F = Some rs ->
  map (fun f => f) (f_funs F) = map (fun r k x => fst (r k x)) rs ->
  call_ret F rs kw false Z = match grad F kw false Z with Some g => Some (T2 (eval2 F kw Z), g) | None => None end.
Proof. exact call_consistent_rows. Qed.
Print Assumptions C19_call_consistent_rows.

Theorem C19_vectorized_rows : forall F vf kw Z, length vf = length (f_funs F) ->
  (forall a v f, nth_error vf a = Some v -> nth_error (f_funs F) a = Some f -> forall k X, vrows (v k X) = map (f k) X) ->
  eval_vec F vf kw Z = Some (eval2 F kw Z).
Proof. exact eval_vec_rows. Qed.
Print Assumptions C19_vectorized_rows.

Theorem C19_vectorized_grad_rows : forall F gv gs kw one_d Z, f_fd F = false -> f_grads F = Some gs -> length gv = length gs ->
  (forall a v g, nth_error gv a = Some v -> nth_error gs a = Some g -> forall k X, length (v k X) = length X /\ forall i x, nth_error X i = Some x -> g k x = [nth i (v k X) []]) ->
  grad_vec F gv kw one_d Z = grad F kw one_d Z.
Proof. exact grad_vec_rows. Qed.
Print Assumptions C19_vectorized_grad_rows.

(** findings: the vectorized branches mix up functions and samples *)
Theorem C19_vec_grad_refuted : exists vals,
  grad_vec_ret ex_vecF ex_rv nokw false [[0; 0]; [1; 1]] = Some (T3 [[[1; 0]; [1; 0]]]) /\
  call_vec_ret ex_vecF ex_rv nokw false [[0; 0]; [1; 1]] = Some (vals, Some (T2 [[1; 0]; [1; 0]])).
Proof. exact vec_grad_refuted. Qed.
Print Assumptions C19_vec_grad_refuted.

Theorem C19_vec_values_refuted : forall M (v w : vec), length v = M -> length w = M -> (2 <= M)%nat ->
  vhstack M [V1 v; V1 w] = Some (T1 (v ++ w)) /\ hstack_rows M (map vrows [V1 v; V1 w]) = map (fun i => [vget v i; vget w i]) (seq 0 M).
Proof. exact vec_values_refuted. Qed.
Print Assumptions C19_vec_values_refuted.

(** C20: forward differences *)
Theorem C20_entries : forall F kw z g, merge (f_kw F) kw = f_kw F -> fd_grad F kw z = Some g ->
  length g = length z /\ forall i, (i < length z)%nat ->
  vget g i = (vget (eval1 F kw (vadd z (vscale fdh (unit_row_ (length z) i)))) 0 - vget (eval1 F kw z) 0) / fdh.
Proof. exact fd_grad_spec. Qed.
Print Assumptions C20_entries.

Theorem C20_points : forall F G kw z, f_kw F = f_kw G ->
  (forall k y, y = z \/ (exists i, (i < length z)%nat /\ y = vadd z (vscale fdh (unit_row_ (length z) i))) -> eval1 F k y = eval1 G k y) ->
  fd_grad F kw z = fd_grad G kw z.
Proof. exact fd_points. Qed.
Print Assumptions C20_points.

Example C20_points_case : let F := fun f : R -> R => mkFun [Fin (-1)] [Fin 1] [fun _ x => [f (vget x 0)]] None None true nokw in
  forall kw, fd_grad (F (fun t => t)) kw [0] = fd_grad (F (fun t => if Rlt_dec t (1/2) then t else 0)) kw [0].
Proof. exact ex_fd_points. Qed.

Theorem C20_affine : forall F kw z c d, length (f_lb F) = length (f_ub F) -> length z = length (f_lb F) -> length c = length z ->
  merge (f_kw F) kw = f_kw F -> (forall x, concat (map (fun f => f (f_kw F) x) (f_funs F)) = [dot c x + d]) ->
  fd_grad F kw z = Some (vmul (uslopes (f_lb F) (f_ub F)) c).
Proof. exact fd_exact_affine. Qed.
Print Assumptions C20_affine.

Example C20_case : fd_grad ex_aff nokw [1/3; 1/5] = Some [6; 5].
Proof. exact ex_fd_case. Qed.

Theorem C20_error : forall F kw z g i df C, merge (f_kw F) kw = f_kw F -> fd_grad F kw z = Some g -> (i < length z)%nat ->
  let f := fun t => vget (eval1 F kw (vadd z (vscale t (unit_row_ (length z) i)))) 0 in
  (forall t, 0 <= t <= fdh -> derivable_pt_lim f t (df t)) -> (forall t, 0 <= t <= fdh -> Rabs (df t - df 0) <= C * t) ->
  Rabs (vget g i - df 0) <= C / 2 * / 10000000.
Proof. exact fd_error. Qed.
Print Assumptions C20_error.

Example C20_error_case : exists g df, fd_grad ex_sq nokw [1/2] = Some g /\
  (forall t, 0 <= t <= fdh -> derivable_pt_lim (fun t => vget (eval1 ex_sq nokw (vadd [1/2] (vscale t (unit_row_ 1 0)))) 0) t (df t)) /\
  (forall t, 0 <= t <= fdh -> Rabs (df t - df 0) <= 2 * t) /\ vget g 0 - df 0 = fdh.
Proof. exact ex_fd_err. Qed.

Theorem C20_kwargs_refuted : (forall kw z z', eval1 ex_const kw z = eval1 ex_const kw z') /\ fd_grad ex_const ex_kw1 [0] = Some [10000000].
Proof. exact fd_kwargs_refuted. Qed.
Print Assumptions C20_kwargs_refuted.

Theorem C20_multi_refuted : forall F kw z, z <> [] -> (forall k y, (2 <= length (eval1 F k y))%nat) -> fd_grad F kw z = None.
Proof. exact fd_multi_refuted. Qed.
Print Assumptions C20_multi_refuted.

Theorem C20_outside_refuted : exists (z : vec) i, Forall (fun a => -1 <= a <= 1) z /\ (i < length z)%nat /\
  ~ Forall (fun a => -1 <= a <= 1) (vadd z (vscale fdh (unit_row_ (length z) i))).
Proof. exact fd_outside_refuted. Qed.
Print Assumptions C20_outside_refuted.
