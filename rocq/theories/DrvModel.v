(** Model of the demos that run a simulation in a container and talk to it through text files:
    psdr/demos/oas.py, oas/oas_driver.py, naca0012.py, multif.py, and Function.eval (function.py 132-155) around them.  The simulation is an oracle. *)
Require Import Reals List Bool Arith ZArith String.
From Verif Require Import RVec Num.
Import ListNotations.
Local Open Scope R_scope.
Local Open Scope list_scope.

(** * Arrays and text files *)
(** a numpy array with zero, one or two dimensions *)
Inductive arr := A0 (x : R) | A1 (v : vec) | A2 (M : mat).
(** a text file: the numbers on each line *)
Definition file := list vec.
(** [np.savetxt(fname, a, fmt)]: one line for each row of a matrix, one line for each entry of a vector; None: ValueError.  [fmt] is what printing
    and reading a number gives ('%.15e' in oas.py 75, naca0012.py 72 and multif.py 166; '%.18e', exact for doubles, in the drivers) *)
Definition savetxt (fmt : R -> R) (a : arr) : option file :=
  match a with A0 _ => None | A1 v => Some (map (fun x => [fmt x]) v) | A2 M => Some (map (map fmt) M) end.
(** [np.loadtxt(fname)]: blank lines are skipped, lines of different lengths raise ValueError (None), dimensions of length one are squeezed away *)
Definition squeeze (rows : mat) : arr :=
  match rows with
  | [] => A1 []
  | [[x]] => A0 x
  | [v] => A1 v
  | v :: _ => if Nat.eqb (List.length v) 1 then A1 (map (fun r => vget r 0) rows) else A2 rows
  end.
Definition loadtxt (f : file) : option arr :=
  let rows := filter (fun l => negb (Nat.eqb (List.length l) 0)) f in
  if forallb (fun l => Nat.eqb (List.length l) (List.length (hd [] rows))) rows then Some (squeeze rows) else None.
(** number of entries along the first axis, len(a); None: TypeError *)
Definition arr_len (a : arr) : option nat := match a with A0 _ => None | A1 v => Some (List.length v) | A2 M => Some (List.length M) end.

(** printing with 16 significant digits: x = 0 or the decimal with 15 digits after the point of the leading digit, exponent e = floor(log10 |x|).
    Simplification: ties are rounded away from zero and a carry to the next power of ten keeps e (the value is the same). *)
Definition dec_exp (x : R) : Z := Int_part (ln (Rabs x) / ln 10).
Definition dec16 (x : R) : R :=
  if Reqb x 0 then 0
  else let e := dec_exp x in
       let m := IZR (Int_part (Rabs x * Rpower 10 (15 - IZR e) + / 2)) * Rpower 10 (IZR e - 15) in
       if Rltb x 0 then - m else m.

(** * OpenAeroStruct *)
(** the driver, oas/oas_driver.py 35-108 and 111-127: [g] is one analysis (5 outputs); None: an exception, no output file *)
Definition oas_main (g : vec -> vec) (f : file) : option file :=
  match loadtxt f with
  | None => None
  | Some a => let X := match a with A0 _ => [] | A1 v => [v] | A2 M => M end in
              if Nat.eqb (List.length (hd [] X)) 12 then savetxt (fun y => y) (A2 (map g X)) else None
  end.
(** [oas_func], oas.py 51-99 *)
Definition oas_func (fmt : R -> R) (g : vec -> vec) (x : arr) : option arr :=
  match savetxt fmt x with
  | None => None
  | Some f => match oas_main g f with None => None | Some o => loadtxt o end
  end.
(** Function.eval of a vectorized function (function.py 132-153) with the single function [fn]; [un] = domain_app.unnormalize on a row *)
Definition eval_vectorized (fn : arr -> option arr) (un : vec -> vec) (X : arr) : option arr :=
  match X with
  | A0 x => match fn (A1 (un [x])) with None => None | Some (A0 y) => Some (A1 [y]) | Some (A1 v) => Some (A1 v) | Some (A2 M) => Some (A1 (List.concat M)) end
  | A1 x => match fn (A1 (un x)) with None => None | Some (A0 y) => Some (A1 [y]) | Some (A1 v) => Some (A1 v) | Some (A2 M) => Some (A1 (List.concat M)) end
  | A2 M => match fn (A2 (map un M)) with
            | None => None
            | Some r => match arr_len r with
                        | None => None
                        | Some k => if Nat.eqb k (List.length M) then Some (match r with A1 v => A2 (map (fun y => [y]) v) | _ => r end) else None
                        end
            end
  end.
(** OpenAeroStruct()(X), oas.py 21-23 *)
Definition oas_eval (fmt : R -> R) (g : vec -> vec) (un : vec -> vec) (X : arr) : option arr := eval_vectorized (oas_func fmt g) un X.

(** * Working directories *)
(** outcome of one run: values, FileExistsError of os.makedirs, AssertionError, or OSError because the output file is missing *)
Inductive res := Ran (v : vec) | FileExists | AssertErr | NoOutput.
(** one call of naca0012_func (naca0012.py 45-109) or multif (multif.py 108-217) as far as directories go: [sim x] are the values read from the output file,
    None if the container wrote none; directories are numbers, [tmp] is the name given by mkdtemp; [ask] says whether keep_data needs a directory
    (naca0012.py 66, multif.py 151; not in oas.py) *)
Definition run_point (ask : bool) (sim : vec -> option vec) (wd : option nat) (keep : bool) (tmp : nat) (dirs : list nat) (x : vec) : res * list nat :=
  let finish w := match sim x with None => (NoOutput, w :: dirs) | Some v => (Ran v, if keep then w :: dirs else dirs) end in
  match wd with
  | None => if (ask && keep)%bool then (AssertErr, tmp :: dirs) else finish tmp
  | Some w => if existsb (Nat.eqb w) dirs then (FileExists, dirs) else finish w
  end.
(** Function.eval of a matrix for a function that is not vectorized (function.py 154-155): row by row, up to the first exception *)
Fixpoint run_rows (ask : bool) (sim : vec -> option vec) (wd : option nat) (keep : bool) (tmps : nat -> nat) (n : nat) (dirs : list nat) (X : mat) : option mat * list nat :=
  match X with
  | [] => (Some [], dirs)
  | x :: X' => match run_point ask sim wd keep (tmps n) dirs x with
               | (Ran v, dirs1) => let (r, dirs2) := run_rows ask sim wd keep tmps (S n) dirs1 X' in ((match r with Some Y => Some (v :: Y) | None => None end), dirs2)
               | (_, dirs1) => (None, dirs1)
               end
  end.

(** * Keyword arguments of MULTI-F *)
Definition kw := list (string * Z).
Definition kget (k : string) (l : kw) : option Z := match find (fun p => String.eqb (fst p) k) l with Some p => Some (snd p) | None => None end.
(** [merge], misc.py 6-9: the second argument wins *)
Definition kmerge (x y : kw) : kw := y ++ x.
(** MULTIF.__init__, multif.py 80-91: level, su2_maxiter and workdir are named parameters, only the remaining keyword arguments are stored *)
Definition multif_init (level su2 : Z) (workdir : option Z) (kwargs : kw) : kw := kwargs.
(** what the simulation is started with, multif.py 108-177: the level, and the line for the iterations if su2_maxiter is given;
    [__call__] and eval both merge (function.py 259-261, 136) *)
Definition multif_level (stored call : kw) : Z := match kget "level"%string (kmerge stored (kmerge stored call)) with Some l => l | None => 0%Z end.
Definition multif_su2 (stored call : kw) : option Z := kget "su2_maxiter"%string (kmerge stored (kmerge stored call)).

(** * The log *)
(** the loop reading the output of the container (oas.py 80-91, naca0012.py 83-94, multif.py 184-195): [ended n] is p.poll() is not None after n + 1 reads;
    reading past the last line gives the empty string *)
Fixpoint log_loop (fuel n : nat) (lines : list string) (ended : nat -> bool) : option (list string) :=
  match fuel with
  | O => None
  | S f => let l := match nth_error lines n with Some s => [s] | None => [] end in
           if ended n then Some l else match log_loop f (S n) lines ended with Some r => Some (l ++ r) | None => None end
  end.
