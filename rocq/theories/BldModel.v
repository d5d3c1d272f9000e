(** Model of the builders of the demonstration domains: psdr/demos/oas.py 28-49, naca0012.py 38-42, golinski.py 332-338, multif.py 96-105.
    A domain is given by the names of its variables and their bounds. *)
Require Import String Reals List Bool Arith.
From Verif Require Import NamesModel.
Import ListNotations.
Local Open Scope R_scope.
Local Open Scope string_scope.
Local Open Scope list_scope.

(** BoxDomain(l*ones(n), u*ones(n), names = a): None is the AssertionError for a list of names of another length.
    UniformDomain is the same for this purpose; the checks lb <= ub of the constructor are left out *)
Record bdom := mkB { b_dom : ndom; b_bounds : list (R * R) }.
Definition box (l u : R) (n : nat) (a : narg) : option bdom := match make n a with Some d => Some (mkB (Single d) (repeat (l, u) n)) | None => None end.
(** TensorProductDomain of such domains *)
Fixpoint all_some {A : Type} (l : list (option A)) : option (list A) :=
  match l with [] => Some [] | Some a :: l' => option_map (cons a) (all_some l') | None :: _ => None end.
Definition tensor (ds : list (option bdom)) : option bdom := option_map (fun l => mkB (product (map b_dom l)) (flat_map b_bounds l)) (all_some ds).
(** '%d' % i for i in range(1,4): three names whatever n_cp is, oas.py 30-32 *)
Definition three (s : string) : narg := Given (map (fun i => s ++ fmt_d i)%string [1; 2; 3]%nat).
Definition oas_design (n_cp : nat) : option bdom :=
  tensor [box (-1) 1 n_cp (three "twist "); box 0.005 0.05 n_cp (three "thickness "); box 0.7 1.3 1 (Given ["root chord"]); box 0.75 1.25 1 (Given ["taper ratio"])].
Definition oas_robust : option bdom := box 2 5 1 (Given ["angle of attack"]).
Definition oas_random : option bdom :=
  tensor [box (0.8 * 70e9) (1.2 * 70e9) 1 (Given ["Young's modulus of the spar [Pa]"]); box (0.8 * 30e9) (1.2 * 30e9) 1 (Given ["sheear modulus of the spar [Pa]"]); box (0.8 * 3e3) (1.2 * 3e3) 1 (Given ["material density [kg/m^3]"])].
(** the domain of OpenAeroStruct, oas.py 21-22 *)
Definition oas_domain : option bdom := tensor [tensor [oas_design 3; oas_robust]; oas_random].
(** build_hicks_henne_domain, naca0012.py 38-42 *)
Definition hicks_henne (n_lower n_upper : nat) (fraction : R) : option bdom :=
  tensor [box (- fraction) fraction n_lower (Base "lower bump"); box (- fraction) fraction n_upper (Base "upper bump")].
(** NormalDomain(mean, var, **kw) in one dimension, normal.py 47-92 (names left out): [kw] are the keyword arguments with their values (None: Python's None);
    truncate is a parameter, every other key is kept for the solvers (line 49).  [isf] is chi2.isf(., 1) *)
Record normal1 := mkN1 { n_mean : R; n_var : R; n_clip : option R; n_solver : list (string * option R) }.
Fixpoint lookup (k : string) (kw : list (string * option R)) : option R := match kw with [] => None | (k', v) :: kw' => if String.eqb k k' then v else lookup k kw' end.
Definition normal (isf : R -> R) (mean var : R) (kw : list (string * option R)) : normal1 :=
  mkN1 mean var (option_map isf (lookup "truncate" kw)) (filter (fun p => negb (String.eqb "truncate" (fst p))) kw).
(** membership: the quadratic constraint of lines 76-87, none without truncate *)
Definition in_normal (d : normal1) (x : R) : Prop := match n_clip d with Some c => (x - n_mean d) ^ 2 / n_var d <= c | None => True end.
(** build_golinski_random_domain(clip), golinski.py 332-338 *)
Definition golinski_random (isf : R -> R) (clip : option R) : list normal1 :=
  map (fun s => normal isf 0 (s ^ 2) [("clip", clip)]) [21e-4; 1e-4; 30e-4; 30e-4; 21e-4; 30e-4].
(** multif.py 96-105 and the signatures in _multif_domains3d.py 10, 266; [kw] are the keys in **kwargs, [lin kw] is false if a constructor of the design domain raises *)
Inductive bres := BOk | BTypeErr | BNameErr.
Definition design_domain (lin : list string -> bool) (kw : list string) : bres := if existsb (String.eqb "output") kw then BTypeErr else if lin kw then BOk else BTypeErr.
Definition random_domain (kw : list string) : bres := if forallb (String.eqb "output") kw then BOk else BTypeErr.
Definition multif_domain (lin : list string -> bool) (kw : list string) : bres := match design_domain lin kw with BOk => random_domain kw | e => e end.
(** build_multif_random_domain, multif.py 104-105: kwargs is looked up among the parameters and the names [globals] of the module *)
Definition multif_random (globals : list string) : bres := if existsb (String.eqb "kwargs") (["truncate"] ++ globals) then random_domain [] else BNameErr.
