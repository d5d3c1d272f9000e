(** Model of the whole of stretch.py and of the calling conventions of the samplers of sample.py. *)
Require Import Reals String List Bool Arith.
From Verif Require Import RVec Num DomModel DomMoreModel LipModel SampModel GeoModel SampMoreModel.
Import ListNotations.
Local Open Scope R_scope.

(** the domain with constraints added is the list of pairs (L, L x) of [add_constraints(A_eq = L, b_eq = L @ x)], stretch.py 67; what the try block
    of stretch.py 69-77 finds out about it: sampling raises, the domain is a point, or neither *)
Inductive dstat := DErr | DPoint | DFine.
(** [Ls.pop(k)], stretch.py 62 *)
Definition pop {A : Type} (k : nat) (l : list A) : list A := firstn k l ++ skipn (S k) l.
(** the loop of [stretch_sample_domain], stretch.py 41-84.  [V cs X L] are the vertices from which _maximin_block_candidate chooses (None: SolverError or
    EmptyDomainException); X and d are the variables of the function, which survive from one pass to the next.  The pass over the metrics is
    stretch_cands (SampMoreModel.v); [max(xd, key = d)] is the first largest entry.  None: UnboundLocalError (d).  n bounds the number of passes: each
    pass removes one metric. *)
Fixpoint stretch_loop (n : nat) (V : list (mat * vec) -> mat -> mat -> option mat) (stat : list (mat * vec) -> dstat) (Ls : list mat) (X : mat) (d : option R)
    (cs : list (mat * vec)) : option (list (mat * vec)) :=
  match n, Ls with
  | O, _ => Some cs
  | _, [] => Some cs
  | S n', _ =>
      match stretch_cands Ls (V cs) X d with
      | None => None
      | Some (xd, X', d') =>
          let k := argmax (map (fun e => snd (fst e)) xd) in
          let '(x, _, L) := nth k xd ([], 0, []) in
          let cs' := cs ++ [(L, mv L (nth 0 x []))] in
          match stat cs' with
          | DErr => Some cs
          | DPoint => Some cs'
          | DFine => stretch_loop n' V stat (pop k Ls) X' d' cs'
          end
      end
  end.
Definition stretch_domain (V : list (mat * vec) -> mat -> mat -> option mat) (stat : list (mat * vec) -> dstat) (Ls : list mat) (X : mat) : option (list (mat * vec)) :=
  stretch_loop (length Ls) V stat Ls X None [].
(** [stretch_sample], stretch.py 86-96; [W cs Xf] the vertices found from 100 samples of the stretched domain in the Euclidean metric (the metrics Ls are not
    passed on).  None: an exception of the loop, or no vertex at all (argmax of an empty array). *)
Definition stretch_sample (m : nat) (V : list (mat * vec) -> mat -> mat -> option mat) (stat : list (mat * vec) -> dstat) (W : list (mat * vec) -> mat -> mat) (Ls : list mat) (Xf : mat) : option vec :=
  match stretch_domain V stat Ls Xf with
  | None => None
  | Some cs => match W cs Xf with
               | [] => None
               | X => Some (nth (argmax (map (fun x => vmin (map (fun xf => edist xf x) Xf)) X)) X [])
               end
  end.

(** * calling a sampler, sample.py 57-83 and 128-171 *)
Inductive serr := NotImplementedE | NameE (n : string) | TypeE (kw : string).
(** a method: the keywords it takes and what it does with the number of draws; the objects are samplers (SampMoreModel.v) *)
Record meth := mkMeth { kws : list string; body : nat -> sampler -> sampler + serr }.
(** python's binding of keyword arguments: the first one that is not a parameter is refused before the body runs *)
Definition kcall (f : meth) (args : list string) (n : nat) (s : sampler) : sampler + serr :=
  match filter (fun a => negb (existsb (String.eqb a) (kws f))) args with
  | a :: _ => inr (TypeE a)
  | [] => body f n s
  end.
Inductive scls := SamplerC | SequentialC | StretchedC.
(** [_sample] of the three classes, sample.py 79-80, 128-150, 165-171.  [next] = the function seq_maximin_sample if the name is bound in sample.py (it is not:
    None).  StretchedSampler._sample returns the None of its first _sample_one and changes nothing. *)
Definition sample_of (next : option (mat -> vec)) (feval : vec -> vec) (c : scls) : meth :=
  match c with
  | SamplerC => mkMeth ["draw"; "verbose"]%string (fun _ _ => inr NotImplementedE)
  | SequentialC => mkMeth ["draw"; "verbose"]%string (fun n s => match sampler_sample next feval n s with Some s' => inl s' | None => inr (NameE "seq_maximin_sample"%string) end)
  | StretchedC => mkMeth ["draw"]%string (fun n s => inl s)
  end.
(** [Sampler.sample], sample.py 57-66: self._sample(draw = draw, verbose = verbose) *)
Definition sampler_call (next : option (mat -> vec)) (feval : vec -> vec) (c : scls) (n : nat) (s : sampler) : sampler + serr :=
  kcall (sample_of next feval c) ["draw"; "verbose"]%string n s.
(** not modelled: [Sampler.sample_async], sample.py 68-77 and 82-83 (no class implements _sample_async, so it always raises NotImplementedError) *)
