(** Generated by tools/mkprops.py from tools/props/AsyncProps.spec: the property theorems. *)
Require Import String.
Require Import Reals List Bool Arith ZArith.
From Verif Require Import RVec Num DomModel DomMoreModel NormProofs AsyncModel AsyncProofs.
Import ListNotations.
Local Open Scope R_scope.

Local Open Scope R_scope.

(** C142: asynchronous evaluation *)
Theorem C142_schedule : forall A (ts : list (unit -> A)) s i,
  nth_error (schedule ts s) i = match nth_error ts i with None => None | Some t => Some (if existsb (Nat.eqb i) s then Some (t tt) else None) end.
Proof. exact schedule_result. Qed.
Print Assumptions C142_schedule.

Theorem C142_schedules_agree : forall e F kw Z s s', complete (length Z) s -> complete (length Z) s' -> eval_async e F kw Z s = eval_async e F kw Z s'.
Proof. exact schedules_agree. Qed.
Print Assumptions C142_schedules_agree.

Theorem C142_worker : forall e f kw x,
  call_py (worker_env e f) f kw x =
  match call_py e f kw x with TypeErr => TypeErr | r => if only (p_name f) (looks e (p_body f (kget kw) x)) then r else NameErr end.
Proof. exact worker_call. Qed.
Print Assumptions C142_worker.

Theorem C142_values : forall e F kw Z s, complete (length Z) s -> Forall (contained e F kw) Z ->
  map (fun r => match r with Some o => Some (bind o (fun os => concat (map vals os))) | None => None end) (eval_async e F kw Z s) = map (fun z => Some (eval_sync e F kw z)) Z.
Proof. exact async_eval. Qed.
Print Assumptions C142_values.

Example C142_values_case : complete 3 [2; 0; 1; 2]%nat /\ Forall (contained host (on04 plain) []) [[0]; [1]; [-1]] /\
  eval_async host (on04 plain) [] [[0]; [1]; [-1]] [2; 0; 1; 2]%nat = [Some (Ok [PV [2]]); Some (Ok [PV [4]]); Some (Ok [PV [0]])].
Proof. exact async_case. Qed.

Theorem C142_global : forall e F kw Z s i z f, complete (length Z) s -> nth_error Z i = Some z -> In f (a_funs F) ->
  only (p_name f) (looks e (p_body f (kget (kmerge (a_kw F) kw)) (unnormalize (a_lb F) (a_ub F) z))) = false ->
  nth_error (eval_async e F kw Z s) i = Some (Some NameErr) \/ nth_error (eval_async e F kw Z s) i = Some (Some TypeErr).
Proof. exact async_global. Qed.
Print Assumptions C142_global.

Theorem C142_parameter : forall e F b kw Z s i z f, complete (length Z) s -> nth_error Z i = Some z -> In f (a_funs F) -> ~ In "return_grad"%string (p_kws f) ->
  call_async e F b kw Z s = TypeErr \/
  exists rs, call_async e F b kw Z s = Ok rs /\ (nth_error rs i = Some (Some NameErr) \/ nth_error rs i = Some (Some TypeErr)).
Proof. exact async_parameter. Qed.
Print Assumptions C142_parameter.

Theorem C142_gradients : forall e F kw Z s i z, complete (length Z) s -> nth_error Z i = Some z -> kget (kmerge (a_kw F) kw) "return_grad"%string = None ->
  Forall (fun f => only (p_name f) (looks e (p_body f (kget (kmerge (kmerge (a_kw F) kw) (rg true))) (unnormalize (a_lb F) (a_ub F) z))) = true) (a_funs F) ->
  exists rs r, call_async e F true kw Z s = Ok rs /\ nth_error rs i = Some (Some r) /\
    call_sync e F kw z = bind r (fun os => (concat (map vals os), map (mv (diag (uslopes (a_lb F) (a_ub F)))) (concat (map rows os)))).
Proof. exact async_gradients. Qed.
Print Assumptions C142_gradients.

Theorem C142_unscaled : forall e F kw Z s i z, complete (length Z) s -> nth_error Z i = Some z -> kget (kmerge (a_kw F) kw) "return_grad"%string = None ->
  Forall (fun f => only (p_name f) (looks e (p_body f (kget (kmerge (kmerge (a_kw F) kw) (rg true))) (unnormalize (a_lb F) (a_ub F) z))) = true) (a_funs F) ->
  uslopes (a_lb F) (a_ub F) = repeat 1 (length (a_lb F)) ->
  exists rs r, call_async e F true kw Z s = Ok rs /\ nth_error rs i = Some (Some r) /\
    forall os, r = Ok os -> Forall (fun row => length row = length (a_lb F)) (concat (map rows os)) -> call_sync e F kw z = Ok (concat (map vals os), concat (map rows os)).
Proof. exact async_unscaled. Qed.
Print Assumptions C142_unscaled.

Theorem C142_gradient_refuted : exists e F z s, complete 1 s /\ exists v, call_sync e F [] z = Ok (v, [[2]]) /\ call_async e F true [] [z] s = Ok [Some (Ok [PP v [[1]]])].
Proof. exact async_gradient_refuted. Qed.
Print Assumptions C142_gradient_refuted.

Theorem C142_call_refuted : exists e F z s, complete 1 s /\ eval_sync e F [] z = Ok [2] /\ eval_async e F [] [z] s = [Some (Ok [PV [2]])] /\ call_async e F false [] [z] s = Ok [Some TypeErr].
Proof. exact async_call_refuted. Qed.
Print Assumptions C142_call_refuted.

Theorem C142_global_refuted : exists e F z s, complete 1 s /\ init_async F = Some F /\ eval_sync e F [] z = Ok [7] /\ eval_async e F [] [z] s = [Some NameErr].
Proof. exact async_global_refuted. Qed.
Print Assumptions C142_global_refuted.

Theorem C142_lambda_refuted : exists e F z, eval_sync e F [] z = Ok [2] /\ init_async F = None.
Proof. exact lambda_refuted. Qed.
Print Assumptions C142_lambda_refuted.
