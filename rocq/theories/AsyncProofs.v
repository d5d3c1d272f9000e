(** Asynchronous evaluation gives the values of eval whatever the scheduler does, if the functions are self-contained; its gradients and
    its exceptions differ (C142). *)
Require Import Reals Lra Lia String List Bool Arith FunctionalExtensionality.
From Verif Require Import RVec Num DomModel DomMoreModel NormProofs AsyncModel.
Import ListNotations.
Local Open Scope R_scope.

(** * the scheduler *)
Lemma list_ext_error : forall A (l l' : list A), (forall i, nth_error l i = nth_error l' i) -> l = l'.
Proof.
  induction l as [|a l IH]; intros [|b l'] H; auto.
  - specialize (H O). discriminate.
  - specialize (H O). discriminate.
  - pose proof (H O) as H0. cbn in H0. injection H0 as <-. f_equal. apply IH. intro i. apply (H (S i)).
Qed.
Lemma nth_set_at : forall A (l : list A) i j a, (i < length l)%nat -> nth_error (set_at i a l) j = if Nat.eqb i j then Some a else nth_error l j.
Proof.
  induction l as [|b l IH]; intros i j a H; cbn in H; [lia|]. destruct i as [|i], j as [|j]; cbn; auto. apply IH. lia.
Qed.
Lemma set_at_length : forall A (l : list A) i a, length (set_at i a l) = length l.
Proof. induction l as [|b l IH]; intros [|i] a; cbn; auto. Qed.
(** finished tasks, after any schedule, are exactly those that were run, and each has its own result *)
Theorem schedule_result : forall A (ts : list (unit -> A)) s i,
  nth_error (schedule ts s) i = match nth_error ts i with None => None | Some t => Some (if existsb (Nat.eqb i) s then Some (t tt) else None) end.
Proof.
  intros A ts s i. unfold schedule.
  assert (G : forall s st, length st = length ts ->
    nth_error (fold_left (step ts) s st) i = match nth_error ts i with None => None | Some t => if existsb (Nat.eqb i) s then Some (Some (t tt)) else nth_error st i end).
  { clear s. induction s as [|j s IH]; intros st L; cbn [fold_left existsb].
    - destruct (nth_error ts i) eqn:E; auto. apply nth_error_None in E. apply nth_error_None. lia.
    - assert (L' : length (step ts st j) = length ts) by (unfold step; destruct (nth_error ts j); auto; rewrite set_at_length; auto). rewrite IH by auto.
      destruct (nth_error ts i) eqn:E; auto. destruct (existsb (Nat.eqb i) s); [rewrite orb_true_r; reflexivity|]. rewrite orb_false_r.
      unfold step. destruct (nth_error ts j) eqn:Ej.
      + rewrite nth_set_at by (rewrite L; apply nth_error_Some; congruence). rewrite (Nat.eqb_sym j i). destruct (Nat.eqb i j) eqn:B; auto. apply Nat.eqb_eq in B. subst j. congruence.
      + destruct (Nat.eqb i j) eqn:B; auto. apply Nat.eqb_eq in B. subst j. congruence. }
  rewrite G by apply map_length. destruct (nth_error ts i) eqn:E; auto. destruct (existsb (Nat.eqb i) s); auto.
  rewrite nth_error_map, E. reflexivity.
Qed.
(** every task has been run *)
Definition complete (n : nat) (s : list nat) : Prop := forall i, (i < n)%nat -> In i s.
Lemma schedule_complete : forall A (ts : list (unit -> A)) s, complete (length ts) s -> schedule ts s = map (fun t => Some (t tt)) ts.
Proof.
  intros A ts s C. apply list_ext_error. intro i. rewrite schedule_result, nth_error_map. destruct (nth_error ts i) eqn:E; auto. cbn. f_equal.
  assert (I : In i s) by (apply C, nth_error_Some; congruence). replace (existsb (Nat.eqb i) s) with true; auto. symmetry. apply existsb_exists. exists i. split; auto. apply Nat.eqb_refl.
Qed.
Theorem schedules_agree : forall e F kw Z s s', complete (length Z) s -> complete (length Z) s' -> eval_async e F kw Z s = eval_async e F kw Z s'.
Proof. intros e F kw Z s s' C C'. unfold eval_async. rewrite !schedule_complete; auto; unfold tasks; rewrite map_length; auto. Qed.

(** * global names *)
Definition only (own : string) (gs : list string) : bool := forallb (fun g => String.eqb g own) gs.
Lemma exec_restrict : forall e own p, exec (fun g => if String.eqb g own then e g else None) p = if only own (looks e p) then exec e p else NameErr.
Proof.
  intros e own. induction p as [v|g k IH]; auto. cbn [exec looks only forallb]. destruct (String.eqb g own) eqn:B; [|reflexivity]. cbn [andb].
  destruct (e g) as [[a b]|] eqn:E; [|destruct (only own []); reflexivity]. apply IH.
Qed.
(** the worker's copy: the same result if the run looks up no global but the function's own name, NameError otherwise *)
Theorem worker_call : forall e f kw x,
  call_py (worker_env e f) f kw x =
  match call_py e f kw x with TypeErr => TypeErr | r => if only (p_name f) (looks e (p_body f (kget kw) x)) then r else NameErr end.
Proof.
  intros e f kw x. unfold call_py. destruct (forallb _ kw); auto. unfold worker_env. rewrite exec_restrict.
  destruct (only _ _) eqn:O; destruct (exec e (p_body f (kget kw) x)) eqn:E; auto; exfalso; revert E; generalize (p_body f (kget kw) x); induction p as [v|g k IH]; cbn; try discriminate;
    destruct (e g) as [[a b]|]; try discriminate; apply IH.
Qed.

(** * values *)
(** functions that look up nothing but themselves at the point *)
Definition contained (e : genv) (F : afun) (kw : kws) (z : vec) : Prop :=
  Forall (fun f => only (p_name f) (looks e (p_body f (kget (kmerge (a_kw F) kw)) (unnormalize (a_lb F) (a_ub F) z))) = true) (a_funs F).
Lemma subcall_sync : forall e fs kw x, Forall (fun f => only (p_name f) (looks e (p_body f (kget kw) x)) = true) fs -> subcall e fs kw x = all_ok (map (fun f => call_py e f kw x) fs).
Proof.
  intros e fs kw x H. unfold subcall. induction H as [|f fs O H IH]; auto. cbn [map all_ok]. rewrite worker_call, O, IH. destruct (call_py e f kw x); auto.
Qed.
(** whatever the schedule, the results are those of eval, as lists per function *)
Theorem async_eval : forall e F kw Z s, complete (length Z) s -> Forall (contained e F kw) Z ->
  map (fun r => match r with Some o => Some (bind o (fun os => concat (map vals os))) | None => None end) (eval_async e F kw Z s) = map (fun z => Some (eval_sync e F kw z)) Z.
Proof.
  intros e F kw Z s C H. unfold eval_async. rewrite schedule_complete by (unfold tasks; rewrite map_length; auto). unfold tasks. rewrite !map_map. apply map_ext_in. intros z I.
  rewrite Forall_forall in H. specialize (H z I). unfold eval_sync. rewrite subcall_sync; auto.
Qed.
(** a function that looks up another global raises NameError on the worker, unless an earlier function or its keyword arguments raise *)
Theorem async_global : forall e F kw Z s i z f, complete (length Z) s -> nth_error Z i = Some z -> In f (a_funs F) ->
  only (p_name f) (looks e (p_body f (kget (kmerge (a_kw F) kw)) (unnormalize (a_lb F) (a_ub F) z))) = false ->
  nth_error (eval_async e F kw Z s) i = Some (Some NameErr) \/ nth_error (eval_async e F kw Z s) i = Some (Some TypeErr).
Proof.
  intros e F kw Z s i z f C N I O. unfold eval_async. rewrite schedule_complete by (unfold tasks; rewrite map_length; auto). unfold tasks. rewrite map_map, nth_error_map, N. cbn.
  set (x := unnormalize _ _ z) in *. set (k := kmerge (a_kw F) kw) in *. clearbody x k. unfold subcall. induction (a_funs F) as [|g fs IH]; [destruct I|]. cbn [map all_ok]. destruct I as [->|I].
  - rewrite worker_call, O. destruct (call_py e f k x); auto.
  - specialize (IH I). destruct (call_py (worker_env e g) g k x); auto. destruct (all_ok _); auto. destruct IH as [IH|IH]; inversion IH.
Qed.

(** * keyword arguments *)
Lemma kget_app : forall x y n, kget (x ++ y) n = match kget x n with Some v => Some v | None => kget y n end.
Proof. intros x y n. unfold kget. induction x as [|[m v] x IH]; cbn; auto. destruct (String.eqb m n); auto. Qed.
Lemma kget_in : forall k p, In p k -> kget k (fst p) <> None.
Proof.
  intros k [m v] I. unfold kget. destruct (find _ k) eqn:E; [discriminate|]. apply find_none with (x := (m, v)) in E; auto. cbn in E. rewrite String.eqb_refl in E. discriminate.
Qed.
Lemma kget_some : forall k n v, kget k n = Some v -> exists p, In p k /\ fst p = n.
Proof. intros k n v H. unfold kget in H. destruct (find _ k) as [p|] eqn:E; [|discriminate]. apply find_some in E. destruct E as [I B]. apply String.eqb_eq in B. eauto. Qed.
(** a call depends on what the names stand for, not on the order of the entries *)
Lemma call_py_ext : forall e f k1 k2 x, (forall n, kget k1 n = kget k2 n) -> call_py e f k1 x = call_py e f k2 x.
Proof.
  intros e f k1 k2 x H. unfold call_py.
  assert (S : forall k1 k2, (forall n, kget k1 n = kget k2 n) -> forallb (fun p => existsb (String.eqb (fst p)) (p_kws f)) k1 = true -> forallb (fun p => existsb (String.eqb (fst p)) (p_kws f)) k2 = true).
  { clear. intros k1 k2 H A. rewrite forallb_forall in *. intros p I. pose proof (kget_in k2 p I) as N. rewrite <- H in N. destruct (kget k1 (fst p)) eqn:E; [|congruence].
    apply kget_some in E. destruct E as [q [J E]]. rewrite <- E. apply A; auto. }
  assert (B : forallb (fun p => existsb (String.eqb (fst p)) (p_kws f)) k1 = forallb (fun p => existsb (String.eqb (fst p)) (p_kws f)) k2).
  { destruct (forallb _ k1) eqn:E1.
    - symmetry. apply (S k1 k2); auto.
    - destruct (forallb _ k2) eqn:E2; auto. rewrite <- E1. apply (S k2 k1); auto. }
  rewrite B. replace (kget k2) with (kget k1) by (apply functional_extensionality; auto). reflexivity.
Qed.
Lemma async_keys : forall F b kw n, kget (kmerge (a_kw F) kw) "return_grad" = None ->
  kget (kmerge (a_kw F) (kmerge (rg b) (kmerge (a_kw F) kw))) n = kget (kmerge (kmerge (a_kw F) kw) (rg b)) n.
Proof.
  intros F b kw n H. unfold kmerge in *. rewrite !kget_app in *. unfold rg. unfold kget at 3 5. cbn [find fst snd]. destruct (String.eqb "return_grad" n) eqn:E.
  - apply String.eqb_eq in E. subst n. destruct (kget kw "return_grad"); [discriminate|]. rewrite H. reflexivity.
  - destruct (kget kw n); auto. destruct (kget (a_kw F) n); auto.
Qed.

(** * call_async *)
(** return_grad is always passed on: a function without that parameter raises for either value of it *)
Theorem async_parameter : forall e F b kw Z s i z f, complete (length Z) s -> nth_error Z i = Some z -> In f (a_funs F) -> ~ In "return_grad"%string (p_kws f) ->
  call_async e F b kw Z s = TypeErr \/
  exists rs, call_async e F b kw Z s = Ok rs /\ (nth_error rs i = Some (Some NameErr) \/ nth_error rs i = Some (Some TypeErr)).
Proof.
  intros e F b kw Z s i z f C N I A. unfold call_async. destruct (kget _ "return_grad"); auto. right. eexists. split; [reflexivity|].
  unfold eval_async. rewrite schedule_complete by (unfold tasks; rewrite map_length; auto). unfold tasks. rewrite map_map, nth_error_map, N. cbn [option_map].
  set (x := unnormalize _ _ z). set (k := kmerge (a_kw F) (kmerge (rg b) (kmerge (a_kw F) kw))).
  assert (T : call_py (worker_env e f) f k x = TypeErr).
  { unfold call_py. destruct (forallb _ k) eqn:E; auto. rewrite forallb_forall in E. assert (J : In ("return_grad"%string, KB b) k) by (unfold k, kmerge, rg; rewrite !in_app_iff; cbn; tauto).
    specialize (E _ J). apply existsb_exists in E. destruct E as [n [M B]]. apply String.eqb_eq in B. cbn in B. subst n. contradiction. }
  clearbody x k. unfold subcall. induction (a_funs F) as [|g fs IH]; [destruct I|]. cbn [map all_ok]. destruct I as [->|I].
  - rewrite T. auto.
  - specialize (IH I). destruct (call_py (worker_env e g) g k x); auto. destruct (all_ok _); auto. destruct IH as [IH|IH]; inversion IH.
Qed.
(** the gradients of call_async are those of the application domain: __call__ multiplies each row by the slopes of the normalization *)
Theorem async_gradients : forall e F kw Z s i z, complete (length Z) s -> nth_error Z i = Some z -> kget (kmerge (a_kw F) kw) "return_grad"%string = None ->
  Forall (fun f => only (p_name f) (looks e (p_body f (kget (kmerge (kmerge (a_kw F) kw) (rg true))) (unnormalize (a_lb F) (a_ub F) z))) = true) (a_funs F) ->
  exists rs r, call_async e F true kw Z s = Ok rs /\ nth_error rs i = Some (Some r) /\
    call_sync e F kw z = bind r (fun os => (concat (map vals os), map (mv (diag (uslopes (a_lb F) (a_ub F)))) (concat (map rows os)))).
Proof.
  intros e F kw Z s i z C N K H. unfold call_async. rewrite K. do 2 eexists. split; [reflexivity|].
  unfold eval_async. rewrite schedule_complete by (unfold tasks; rewrite map_length; auto). unfold tasks. rewrite map_map, nth_error_map, N. cbn [option_map]. split; [reflexivity|].
  unfold call_sync. f_equal. rewrite subcall_sync.
  - f_equal. apply map_ext. intro f. apply call_py_ext. intro n. symmetry. apply async_keys. auto.
  - revert H. apply Forall_impl. intros f O. erewrite (functional_extensionality (kget _)); [exact O|]. intro n. apply async_keys. auto.
Qed.
(** so the two agree on domains that normalization does not scale *)
Lemma diag_ones : forall n r, length r = n -> mv (diag (repeat 1 n)) r = r.
Proof.
  intros n r H. rewrite mv_diag by (rewrite repeat_length; auto). revert n H. induction r as [|a r IH]; intros [|n] H; cbn in H; try lia; auto. cbn. f_equal; [ring|]. apply IH. lia.
Qed.
Theorem async_unscaled : forall e F kw Z s i z, complete (length Z) s -> nth_error Z i = Some z -> kget (kmerge (a_kw F) kw) "return_grad"%string = None ->
  Forall (fun f => only (p_name f) (looks e (p_body f (kget (kmerge (kmerge (a_kw F) kw) (rg true))) (unnormalize (a_lb F) (a_ub F) z))) = true) (a_funs F) ->
  uslopes (a_lb F) (a_ub F) = repeat 1 (length (a_lb F)) ->
  exists rs r, call_async e F true kw Z s = Ok rs /\ nth_error rs i = Some (Some r) /\
    forall os, r = Ok os -> Forall (fun row => length row = length (a_lb F)) (concat (map rows os)) -> call_sync e F kw z = Ok (concat (map vals os), concat (map rows os)).
Proof.
  intros e F kw Z s i z C N K H U. destruct (async_gradients e F kw Z s i z C N K H) as [rs [r [E1 [E2 E3]]]]. exists rs, r. split; auto. split; auto.
  intros os -> L. rewrite E3. cbn [bind]. do 2 f_equal. rewrite U. rewrite <- (map_id (concat (map rows os))) at 2. apply map_ext_in. intros row I. rewrite Forall_forall in L. apply diag_ones. auto.
Qed.

(** * refutations *)
(** the identity on one variable with gradient 1, and without the parameter *)
Definition ident : pyfun := mkPy "f" ["return_grad"%string] (fun k x => Ret (match k "return_grad"%string with Some (KB true) => PP x [[1]] | _ => PV x end)).
Definition plain : pyfun := mkPy "f" [] (fun _ x => Ret (PV x)).
(** looks up np, as robot_arm does (demos/robot_arm.py 60-80, no import inside the function); golinski.py 119-310 look up expand_variables *)
Definition with_np : pyfun := mkPy "f" [] (fun _ x => Read "np" (fun a b => Ret (PV (map (fun y => a * y + b) x)))).
Definition host : genv := fun g => if String.eqb g "np" then Some (2, 3) else None.
Definition on04 (f : pyfun) : afun := mkA [Fin 0] [Fin 4] [f] [].
Lemma unnorm04 : forall z, unnormalize [Fin 0] [Fin 4] [z] = [2 + 2 * z].
Proof.
  intro z. unfold unnormalize, uslopes, center, uslope. cbn. destruct (Req_EM_T 4 0) as [B|B]; [lra|]. rewrite !dot_cons, !dot_nil_l. f_equal. lra.
Qed.
Theorem async_gradient_refuted : exists e F z s, complete 1 s /\ exists v, call_sync e F [] z = Ok (v, [[2]]) /\ call_async e F true [] [z] s = Ok [Some (Ok [PP v [[1]]])].
Proof.
  exists host, (on04 ident), [0], [0%nat]. split; [intros i H; replace i with 0%nat by lia; left; reflexivity|]. exists [2].
  unfold call_sync, call_async, on04. cbn -[unnormalize diag uslopes]. rewrite unnorm04. replace (2 + 2 * 0) with 2 by lra. split; [|reflexivity].
  - do 2 f_equal. unfold uslopes, uslope, mv, diag. cbn. destruct (Req_EM_T 4 0) as [B|B]; [lra|]. rewrite !dot_cons, !dot_nil_l. do 2 f_equal. lra.
Qed.
Theorem async_call_refuted : exists e F z s, complete 1 s /\ eval_sync e F [] z = Ok [2] /\ eval_async e F [] [z] s = [Some (Ok [PV [2]])] /\ call_async e F false [] [z] s = Ok [Some TypeErr].
Proof.
  exists host, (on04 plain), [0], [0%nat]. split; [intros i H; replace i with 0%nat by lia; left; reflexivity|].
  unfold eval_sync, eval_async, schedule, tasks, call_async, on04. cbn -[unnormalize]. rewrite unnorm04. replace (2 + 2 * 0) with 2 by lra. auto.
Qed.
Theorem async_global_refuted : exists e F z s, complete 1 s /\ init_async F = Some F /\ eval_sync e F [] z = Ok [7] /\ eval_async e F [] [z] s = [Some NameErr].
Proof.
  exists host, (on04 with_np), [0], [0%nat]. split; [intros i H; replace i with 0%nat by lia; left; reflexivity|]. split; [reflexivity|].
  unfold eval_sync, eval_async, schedule, tasks, on04. cbn -[unnormalize]. rewrite unnorm04. split; auto. cbn. f_equal. f_equal. lra.
Qed.
(** lambdas cannot be used with a client at all *)
Theorem lambda_refuted : exists e F z, eval_sync e F [] z = Ok [2] /\ init_async F = None.
Proof.
  exists host, (on04 (mkPy "<lambda>" [] (fun _ x => Ret (PV x)))), [0]. split; [|reflexivity]. unfold eval_sync, on04. cbn -[unnormalize]. rewrite unnorm04. cbn. f_equal. f_equal. lra.
Qed.
(** three points, run out of order and one of them twice *)
Example async_case : complete 3 [2; 0; 1; 2]%nat /\ Forall (contained host (on04 plain) []) [[0]; [1]; [-1]] /\
  eval_async host (on04 plain) [] [[0]; [1]; [-1]] [2; 0; 1; 2]%nat = [Some (Ok [PV [2]]); Some (Ok [PV [4]]); Some (Ok [PV [0]])].
Proof.
  split; [|split].
  - intros i H. destruct i as [|[|[|i]]]; cbn; try tauto; lia.
  - repeat constructor.
  - unfold eval_async, schedule, tasks. cbn -[unnormalize]. rewrite !unnorm04. repeat (apply f_equal2; [do 5 f_equal; lra|]). reflexivity.
Qed.
