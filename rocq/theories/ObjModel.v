(** Domains as python objects: which attributes a constructor sets, and what the methods do with an object that lacks the solver
    options [self.kwargs].  Sources: psdr/domains/euclidean.py, unbounded.py, lognormal.py, normal.py, linquad.py, tensor.py.
    An exception is [None]; besides EmptyDomainException of NbModel it is AttributeError: object has no attribute 'kwargs'. *)
Require Import Reals List Bool Arith.
From Verif Require Import RVec Num DomModel DomMoreModel PredModel NbModel DemoModel.
Import ListNotations.
Local Open Scope R_scope.

(** which methods the class overrides.
    [KPlain]: those of EuclideanDomain (LinQuadDomain, LinIneqDomain, BoxDomain, PointDomain, UniformDomain, LogNormalDomain);
    [KMean c]: NormalDomain, whose _center is its mean (normal.py 113-116);
    [KIdent]: UnboundedDomain, whose _normalize and _unnormalize are the identity (unbounded.py 44-48) *)
Inductive kind := KPlain | KMean (c : vec) | KIdent.

(** one object apart from the cached bounds: [o_kw] is whether the constructor set self.kwargs, [o_cor] is the outcome of _corner when
    the cached bounds are the given arrays (SolverError is not modelled) *)
Record obj := mkObj { o_kind : kind; o_kw : bool; o_lb : list num; o_ub : list num; o_cor : list num -> list num -> vec -> answer }.

(** constructors.  linquad.py 63-83 (also through LinIneqDomain, BoxDomain, PointDomain, UniformDomain): self.kwargs is set (83) *)
Definition linquad_obj (l u : list num) (cor : list num -> list num -> vec -> answer) : obj := mkObj KPlain true l u cor.
(** normal.py 47-94: self.kwargs is set (49), the bounds are infinite (130-134) *)
Definition normal_obj (mean : vec) (cor : list num -> list num -> vec -> answer) : obj :=
  mkObj (KMean mean) true (repeat NInf (length mean)) (repeat PInf (length mean)) cor.
(** without truncation there are no constraints at all, so corner raises UnboundedDomainException in every direction (euclidean.py 296-301) *)
Definition normal_free (mean : vec) : obj := normal_obj mean (fun _ _ _ => UnboundedExc).
(** lognormal.py 36-58: BoxDomain.__init__ is not called and self.kwargs is not set; bounds of DomMoreModel *)
Definition lognormal_obj (offset scaling : R) (trunc : option (R * R)) : obj :=
  mkObj KPlain false [logn_lb offset scaling trunc] [logn_ub offset scaling trunc] (fun _ _ _ => EmptyExc).
(** unbounded.py 21-27: self.kwargs is not set; lb and ub of euclidean.py 913-917 *)
Definition unbounded_obj (m : nat) : obj := mkObj KIdent false (repeat NInf m) (repeat PInf m) (fun _ _ _ => EmptyExc).

(** self.corner(p), euclidean.py 228-263: merge(self.kwargs, kwargs) is evaluated before _corner; None: AttributeError *)
Definition corner (o : obj) (nl nu : list num) (p : vec) : option answer := if o_kw o then Some (o_cor o nl nu p) else None.
(** is_empty, is_point and is_unbounded of EuclideanDomain on such an object (euclidean.py 79-126): an AttributeError is not caught *)
Definition euclid_is_empty (o : obj) (nl nu : list num) : option bool :=
  match corner o nl nu (repeat 1 (length (o_lb o))) with None => None | Some EmptyExc => Some true | Some _ => Some false end.
(** self.closest_point(x0), euclidean.py 168-190: merge(self.kwargs, kwargs) before _closest_point, also where that is overridden
    (unbounded.py 41-42, [o_kind] KIdent returns x0); [cl] is the solver's point *)
Definition closest_point (o : obj) (cl : vec -> vec) (x0 : vec) : option vec :=
  if o_kw o then Some (match o_kind o with KIdent => x0 | _ => cl x0 end) else None.

(** self.norm_lb, self.norm_ub (euclidean.py 1019-1072).  With options: NbModel.  Without: the array of infinities is stored, the
    entries are filled in order, and the first call of corner raises with the array left as it is. *)
Definition get_lb (o : obj) (st : nst) : option (list num) * nst :=
  if o_kw o then norm_lb (o_lb o) (o_ub o) (o_cor o) st
  else match s_lb st with
       | Some nl => (Some nl, st)
       | None => let m := length (o_lb o) in
                 let (ok, nl) := low_inner (o_lb o) (o_ub o) (fun _ _ _ => EmptyExc) (seq 0 m) (repeat NInf m) [] in
                 ((if ok then Some nl else None), mkNst (Some nl) (s_ub st))
       end.
Definition get_ub (o : obj) (st : nst) : option (list num) * nst :=
  if o_kw o then norm_ub (o_lb o) (o_ub o) (o_cor o) st
  else match s_ub st with
       | Some nu => (Some nu, st)
       | None => let m := length (o_lb o) in
                 let (ok, nu) := up_inner (o_lb o) (o_ub o) (fun _ _ _ => EmptyExc) (seq 0 m) [] (repeat PInf m) in
                 ((if ok then Some nu else None), mkNst (s_lb st) (Some nu))
       end.

(** _center, euclidean.py 1095-1099: norm_lb is read before norm_ub *)
Definition do_center (o : obj) (st : nst) : option vec * nst :=
  match o_kind o with
  | KMean c => (Some c, st)
  | _ => match get_lb o st with
         | (None, st1) => (None, st1)
         | (Some nl, st1) => match get_ub o st1 with (None, st2) => (None, st2) | (Some nu, st2) => (Some (center nl nu), st2) end
         end
  end.
(** _normalize_der and _unnormalize_der, euclidean.py 1081-1093: norm_ub is read before norm_lb; the slopes on the diagonal *)
Definition do_der (slopes : list num -> list num -> vec) (o : obj) (st : nst) : option vec * nst :=
  match get_ub o st with
  | (None, st1) => (None, st1)
  | (Some nu, st1) => match get_lb o st1 with (None, st2) => (None, st2) | (Some nl, st2) => (Some (slopes nl nu), st2) end
  end.

(** the three operations on one point: normalize(x), unnormalize(z) and _unnormalize_der() *)
Inductive op := Nrm (x : vec) | Unn (z : vec) | Der.
(** the part of the argument that a factor of dimension m gets, and what is left for the later factors (tensor.py 57-63) *)
Definition op_head (m : nat) (a : op) : op := match a with Nrm x => Nrm (firstn m x) | Unn z => Unn (firstn m z) | Der => Der end.
Definition op_tail (m : nat) (a : op) : op := match a with Nrm x => Nrm (skipn m x) | Unn z => Unn (skipn m z) | Der => Der end.

(** _normalize (euclidean.py 1101-1105), _unnormalize (1107-1111) on one row: first the centre, then the slopes; for Der the diagonal *)
Definition run1 (o : obj) (a : op) (st : nst) : option vec * nst :=
  match a with
  | Der => do_der uslopes o st
  | Nrm x => match o_kind o with
             | KIdent => (Some x, st)
             | _ => match do_center o st with
                    | (None, st1) => (None, st1)
                    | (Some c, st1) => match do_der nslopes o st1 with
                                       | (None, st2) => (None, st2)
                                       | (Some s, st2) => (Some (mv (diag s) (vsub x c)), st2)
                                       end
                    end
             end
  | Unn z => match o_kind o with
             | KIdent => (Some z, st)
             | _ => match do_center o st with
                    | (None, st1) => (None, st1)
                    | (Some c, st1) => match do_der uslopes o st1 with
                                       | (None, st2) => (None, st2)
                                       | (Some s, st2) => (Some (vadd (mv (diag s) z) c), st2)
                                       end
                    end
             end
  end.

(** the same operations of TensorProductDomain, tensor.py 88-101: the factors in order, np.hstack of the results; an exception leaves
    the later factors untouched *)
Fixpoint runT (fs : list (obj * nst)) (a : op) : option vec * list (obj * nst) :=
  match fs with
  | [] => (Some [], [])
  | (o, st) :: fs' =>
      let m := length (o_lb o) in
      match run1 o (op_head m a) st with
      | (None, st') => (None, (o, st') :: fs')
      | (Some y, st') => let (r, fs'') := runT fs' (op_tail m a) in
                         ((match r with Some ys => Some (y ++ ys) | None => None end), (o, st') :: fs'')
      end
  end.
(** a history of operations on the same object *)
Fixpoint history (fs : list (obj * nst)) (ops : list op) : list (option vec) * list (obj * nst) :=
  match ops with
  | [] => ([], fs)
  | a :: ops' => let (r, fs1) := runT fs a in let (rs, fs2) := history fs1 ops' in (r :: rs, fs2)
  end.
(** objects fresh from their constructors *)
Definition new (os : list obj) : list (obj * nst) := map (fun o => (o, mkNst None None)) os.

(** build_borehole_uncertain_domain, demos/borehole.py 89-106; [cor] stands for the _corner of the uniform factors (never called, their
    bounds are finite) *)
Definition borehole_uncertain (cor : list num -> list num -> vec -> answer) : list obj :=
  normal_free [0.10] :: lognormal_obj 0 1 None ::
  map (fun p => linquad_obj [Fin (fst p)] [Fin (snd p)] cor)
      [(63070, 115600); (990, 1110); (63.1, 116); (700, 820); (1120, 1680); (9855, 12045)].
(** Borehole(domain = 'uncertain').eval(z), demos/borehole.py 59-69 and function.py 132-140 *)
Definition borehole_eval (fs : list (obj * nst)) (z : vec) : option R * list (obj * nst) :=
  let (r, fs') := runT fs (Unn z) in ((match r with Some x => Some (borehole x) | None => None end), fs').
