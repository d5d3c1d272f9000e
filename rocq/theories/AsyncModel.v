(** Model of the asynchronous interface of Function: the pickling of the functions in __init__ (psdr/function.py 92-126), eval_async
    (158-178) and call_async (297-304), next to the synchronous calls of the same python functions.
    Left out: the keyword arguments that dask's submit takes for itself (key, workers, retries, priority, pure ...), results of python
    functions other than 1-d arrays and pairs of values and gradient rows, other exceptions of the functions. *)
Require Import Reals String List Bool Arith.
From Verif Require Import RVec Num DomModel DomMoreModel.
Import ListNotations.
Local Open Scope R_scope.

(** keyword arguments: a dictionary; the entry found first counts.  merge of misc.py 6-9 *)
Inductive kval := KB (b : bool) | KR (r : R).
Definition kws := list (string * kval).
Definition kget (k : kws) (n : string) : option kval := match find (fun p => String.eqb (fst p) n) k with Some p => Some (snd p) | None => None end.
Definition kmerge (x y : kws) : kws := y ++ x.

(** what a python function hands back: values, or values and gradient rows *)
Inductive pyval := PV (v : vec) | PP (v : vec) (g : mat).
Inductive pyres (A : Type) := Ok (a : A) | NameErr | TypeErr.
Arguments Ok {A} a. Arguments NameErr {A}. Arguments TypeErr {A}.

(** a function body: a program that looks up global names one after another (builtins and local imports are not global names) *)
Inductive prog := Ret (v : pyval) | Read (g : string) (k : R -> R -> prog).
(** globals: a name is missing or stands for some object; objects are pairs of numbers here, enough to tell them apart *)
Definition genv := string -> option (R * R).
Fixpoint exec (e : genv) (p : prog) : pyres pyval :=
  match p with
  | Ret v => Ok v
  | Read g k => match e g with Some (a, b) => exec e (k a b) | None => NameErr end
  end.
(** the names a run looks up *)
Fixpoint looks (e : genv) (p : prog) : list string :=
  match p with
  | Ret _ => []
  | Read g k => g :: match e g with Some (a, b) => looks e (k a b) | None => [] end
  end.

(** a python function: its name, its keyword parameters, its body *)
Record pyfun := mkPy { p_name : string; p_kws : list string; p_body : (string -> option kval) -> vec -> prog }.
(** fun(x, **kw) *)
Definition call_py (e : genv) (f : pyfun) (kw : kws) (x : vec) : pyres pyval :=
  if forallb (fun p => existsb (String.eqb (fst p)) (p_kws f)) kw then exec e (p_body f (kget kw) x) else TypeErr.
(** the scope of the pickled copy, function.py 117-126: exec of the source in an empty dictionary defines the function's own name only *)
Definition worker_env (e : genv) (f : pyfun) : genv := fun g => if String.eqb g (p_name f) then e g else None.
(** scope[fun.__name__], function.py 126: the name of a lambda is no key of the scope; None: KeyError *)
Definition pickle (f : pyfun) : option pyfun := if String.eqb (p_name f) "<lambda>" then None else Some f.

(** a Function with a client: bounds of the application domain, functions, keyword arguments *)
Record afun := mkA { a_lb : list num; a_ub : list num; a_funs : list pyfun; a_kw : kws }.
(** __init__ with a dask_client: None if a function cannot be pickled *)
Definition init_async (F : afun) : option afun := if forallb (fun f => match pickle f with Some _ => true | None => false end) (a_funs F) then Some F else None.

Fixpoint all_ok {A} (l : list (pyres A)) : pyres (list A) :=
  match l with
  | [] => Ok []
  | Ok a :: r => match all_ok r with Ok s => Ok (a :: s) | NameErr => NameErr | TypeErr => TypeErr end
  | NameErr :: _ => NameErr
  | TypeErr :: _ => TypeErr
  end.
Definition bind {A B} (r : pyres A) (f : A -> B) : pyres B := match r with Ok a => Ok (f a) | NameErr => NameErr | TypeErr => TypeErr end.

(** eval at one point, function.py 132-140 *)
Definition vals (o : pyval) : vec := match o with PV v => v | PP v _ => v end.
Definition rows (o : pyval) : mat := match o with PV _ => [] | PP _ g => g end.
Definition eval_sync (e : genv) (F : afun) (kw : kws) (z : vec) : pyres vec :=
  let x := unnormalize (a_lb F) (a_ub F) z in
  bind (all_ok (map (fun f => call_py e f (kmerge (a_kw F) kw) x) (a_funs F))) (fun os => concat (map vals os)).
(** __call__ with return_grad = True at one point for functions that return both, function.py 258-294: the rows are multiplied by D *)
Definition rg (b : bool) : kws := [("return_grad"%string, KB b)].
Definition call_sync (e : genv) (F : afun) (kw : kws) (z : vec) : pyres (vec * mat) :=
  let x := unnormalize (a_lb F) (a_ub F) z in
  bind (all_ok (map (fun f => call_py e f (kmerge (kmerge (a_kw F) kw) (rg true)) x) (a_funs F)))
    (fun os => (concat (map vals os), map (mv (diag (uslopes (a_lb F) (a_ub F)))) (concat (map rows os)))).

(** subcall, function.py 170-173, at one point *)
Definition subcall (e : genv) (fs : list pyfun) (kw : kws) (x : vec) : pyres (list pyval) := all_ok (map (fun f => call_py (worker_env e f) f kw x) fs).
(** the tasks that eval_async submits, one per row, in order (165-174) *)
Definition tasks (e : genv) (F : afun) (kw : kws) (Z : mat) : list (unit -> pyres (list pyval)) :=
  map (fun z _ => subcall e (a_funs F) (kmerge (a_kw F) kw) (unnormalize (a_lb F) (a_ub F) z)) Z.
(** the scheduler: a sequence of task numbers, in any order, a task may be run again; None: still pending *)
Fixpoint set_at {A} (i : nat) (a : A) (l : list A) : list A :=
  match l, i with
  | [], _ => []
  | _ :: l', O => a :: l'
  | b :: l', S i' => b :: set_at i' a l'
  end.
Definition step {A} (ts : list (unit -> A)) (st : list (option A)) (i : nat) : list (option A) :=
  match nth_error ts i with Some t => set_at i (Some (t tt)) st | None => st end.
Definition schedule {A} (ts : list (unit -> A)) (s : list nat) : list (option A) := fold_left (step ts) s (map (fun _ => None) ts).
(** eval_async on a 2-d array, the results of the futures after the scheduler has run *)
Definition eval_async (e : genv) (F : afun) (kw : kws) (Z : mat) (s : list nat) : list (option (pyres (list pyval))) := schedule (tasks e F kw Z) s.
(** call_async, function.py 297-304: return_grad becomes a keyword argument of the functions, whatever its value.
    A return_grad in self.kwargs would be passed twice (TypeError). *)
Definition call_async (e : genv) (F : afun) (b : bool) (kw : kws) (Z : mat) (s : list nat) : pyres (list (option (pyres (list pyval)))) :=
  match kget (kmerge (a_kw F) kw) "return_grad" with
  | Some _ => TypeErr
  | None => Ok (eval_async e F (kmerge (rg b) (kmerge (a_kw F) kw)) Z s)
  end.
