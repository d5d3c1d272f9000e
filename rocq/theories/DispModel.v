(** Model of the abstract class BaseFunction (psdr/function.py 19-41) and of the lookup of eval, grad and __call__ in its subclasses.
    The defaults call each other, so a class that overrides too little never returns; [n] is python's recursion limit. *)
Require Import List Bool Arith String.
Import ListNotations.
Local Open Scope string_scope.
Local Open Scope list_scope.

(** result of a call: a value, an exception of an overriding method, or RecursionError *)
Inductive out (A : Type) := Val (a : A) | Exc | Deep.
Arguments Val {A} a. Arguments Exc {A}. Arguments Deep {A}.

Section Disp.
  Variables X V G K : Type.   (* points, values, gradients, keyword arguments *)
  Variable k0 : K.            (* no keyword arguments *)

  (** the overriding methods of a class (None: that of BaseFunction).  An overriding __call__ gives the value and, when it is asked
      for, the gradient. *)
  Record methods := mkM { m_eval : option (X -> K -> out V); m_grad : option (X -> out G); m_call : option (X -> bool -> K -> out (V * option G)) }.

  Inductive meth := MEval (k : K) | MGrad | MCall (b : bool) (k : K).
  (** what a method hands back: values, a gradient, or the pair *)
  Inductive ret := RV (v : V) | RG (g : G) | RB (v : V) (g : G).

  (** function.py 23-36.  The default eval drops its keyword arguments (24), the default grad takes entry 1 of the pair (27); entry 1 of
      something that is no pair is not modelled (Exc). *)
  Fixpoint run (n : nat) (c : methods) (m : meth) (x : X) : out ret :=
    match n with
    | O => Deep
    | S n' =>
        match m with
        | MEval k => match m_eval c with
                     | Some f => match f x k with Val v => Val (RV v) | Exc => Exc | Deep => Deep end
                     | None => run n' c (MCall false k0) x
                     end
        | MGrad => match m_grad c with
                   | Some f => match f x with Val g => Val (RG g) | Exc => Exc | Deep => Deep end
                   | None => match run n' c (MCall true k0) x with Val (RB _ g) => Val (RG g) | Val _ => Exc | Exc => Exc | Deep => Deep end
                   end
        | MCall b k => match m_call c with
                       | Some f => match f x b k with
                                   | Val (v, None) => Val (RV v)
                                   | Val (v, Some g) => Val (RB v g)
                                   | Exc => Exc | Deep => Deep
                                   end
                       | None => if b then match run n' c (MEval k) x with
                                           | Val (RV v) => match run n' c MGrad x with Val (RG g) => Val (RB v g) | Val _ => Exc | Exc => Exc | Deep => Deep end
                                           | Val _ => Exc | Exc => Exc | Deep => Deep
                                           end
                                 else run n' c (MEval k) x
                       end
        end
    end.
  (** predict, function.py 38-41 *)
  Definition predict (n : nat) (c : methods) (x : X) : out ret := match n with O => Deep | S n' => run n' c (MCall false k0) x end.
End Disp.
Arguments mkM {X V G K}. Arguments m_eval {X V G K}. Arguments m_grad {X V G K}. Arguments m_call {X V G K}. Arguments MEval {K}. Arguments MGrad {K}.
Arguments MCall {K}. Arguments RV {V G}. Arguments RG {V G}. Arguments RB {V G}.

(** * Which methods a class of the package has: python's method resolution order *)
Definition name := string.
(** a class: its bases in order, and whether its body defines eval, grad, __call__ *)
Record cdef := mkC { c_name : name; c_bases : list name; c_eval : bool; c_grad : bool; c_call : bool }.
Definition find_cls (t : list cdef) (c : name) : option cdef := find (fun d => String.eqb (c_name d) c) t.

Definition in_tail (c : name) (l : list name) : bool := match l with [] => false | _ :: r => existsb (String.eqb c) r end.
Definition drop_head (c : name) (l : list name) : list name := match l with h :: r => if String.eqb h c then r else l | [] => [] end.
(** the first head that is in no tail *)
Fixpoint pick (ls all : list (list name)) : option name :=
  match ls with
  | [] => None
  | [] :: ls' => pick ls' all
  | (h :: _) :: ls' => if existsb (in_tail h) all then pick ls' all else Some h
  end.
(** the merge of C3 linearization; None: inconsistent hierarchy (TypeError) *)
Fixpoint merge3 (fuel : nat) (ls : list (list name)) : option (list name) :=
  match fuel with
  | O => None
  | S f => if forallb (fun l => match l with [] => true | _ => false end) ls then Some []
           else match pick ls ls with
                | None => None
                | Some h => match merge3 f (map (drop_head h) ls) with Some r => Some (h :: r) | None => None end
                end
  end.
Fixpoint all_some {A} (l : list (option A)) : option (list A) :=
  match l with [] => Some [] | None :: _ => None | Some a :: r => match all_some r with Some s => Some (a :: s) | None => None end end.
Fixpoint mro (fuel : nat) (t : list cdef) (c : name) : option (list name) :=
  match fuel with
  | O => None
  | S f => match find_cls t c with
           | None => None
           | Some d => match all_some (map (mro f t) (c_bases d)) with
                       | None => None
                       | Some ls => match merge3 40 (ls ++ [c_bases d]) with Some r => Some (c :: r) | None => None end
                       end
           end
  end.
(** the class in whose body a method is found *)
Definition lookup (t : list cdef) (sel : cdef -> bool) (c : name) : option name :=
  match mro 10 t c with
  | None => None
  | Some ms => find (fun m => match find_cls t m with Some d => sel d | None => false end) ms
  end.

(** the classes that derive from BaseFunction and their bases: function.py 19, 44; subspace.py 29; ridge.py 10; poly.py 47, 77, 83, 114;
    polyridge.py 23, 50, 54, 179; gp.py 16, 365; lipschitz.py 36, 647, 653, 658, 667, 673, 678; lipschitz_approx.py 47, 68 *)
Definition psdr_classes : list cdef :=
  [ mkC "object" [] false false false;
    mkC "BaseFunction" ["object"] true true true;
    mkC "Function" ["BaseFunction"] true true true;
    mkC "SubspaceBasedDimensionReduction" ["object"] false false false;
    mkC "RidgeFunction" ["BaseFunction"; "SubspaceBasedDimensionReduction"] false false false;
    mkC "PolynomialFunction" ["BaseFunction"] true true false;
    mkC "PolynomialApproximation" ["PolynomialFunction"] false false false;
    mkC "PolynomialRidgeFunction" ["RidgeFunction"] true true false;
    mkC "PolynomialRidgeApproximation" ["PolynomialRidgeFunction"] false false false;
    mkC "GaussianProcess" ["BaseFunction"] true false false;
    mkC "LipschitzMatrix" ["SubspaceBasedDimensionReduction"] false false false;
    mkC "LowerBound" ["BaseFunction"] true true false;
    mkC "UpperBound" ["BaseFunction"] true true false;
    mkC "LipschitzApproximation" ["LipschitzMatrix"; "RidgeFunction"] true false false ].
(** the classes of the list that are functions *)
Definition is_function (t : list cdef) (c : name) : bool := match mro 10 t c with Some ms => existsb (String.eqb "BaseFunction") ms | None => false end.
(** the method was overridden *)
Definition own (t : list cdef) (sel : cdef -> bool) (c : name) : bool := match lookup t sel c with Some d => negb (String.eqb d "BaseFunction") | None => false end.

(** the methods of an object of class [c], given the bodies of its overriding methods *)
Definition methods_of {X V G K} (t : list cdef) (c : name) (fe : X -> K -> out V) (fg : X -> out G) (fc : X -> bool -> K -> out (V * option G)) : methods X V G K :=
  mkM (if own t c_eval c then Some fe else None) (if own t c_grad c then Some fg else None) (if own t c_call c then Some fc else None).
