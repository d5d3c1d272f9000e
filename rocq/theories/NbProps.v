(** Generated by tools/mkprops.py from tools/props/NbProps.spec: the property theorems. *)
Require Import Reals List Bool Arith ZArith.
From Verif Require Import RVec Num Sums MatLib SpecProofs DomModel DomSpec DomProofs NormProofs DomMoreModel CvxProofs PredModel PredProofs NbModel NbProofs NbCases.
Import ListNotations.
Local Open Scope R_scope.

Local Open Scope R_scope.

(** C129: the normalization bounds *)
Theorem C129_exact_ranges : forall M l u cor, sided l u -> in_bounds M l u -> in_dim M (length l) -> (exists x, M x) ->
  (forall nlb nub, okl M l u nlb -> oku M l u nub -> corner_ok M (length l) (cor nlb nub)) ->
  exists L U, length L = length l /\ length U = length l /\ (forall i, (i < length l)%nat -> low_spec M l u i (nth i L NaN) /\ up_spec M l u i (nth i U NaN)) /\
    forall qs, run l u cor qs fresh = map (fun q => Some (match q with QLower => L | QUpper => U end)) qs.
Proof. exact norm_bounds_exact. Qed.
Print Assumptions C129_exact_ranges.

Theorem C129_domain_ranges : forall d cor, normalizes d -> exact_solver d cor -> (exists x, member d x) ->
  exists L U, length L = dim d /\ length U = dim d /\ (forall i, (i < dim d)%nat -> low_spec (member d) (lb d) (ub d) i (nth i L NaN) /\ up_spec (member d) (lb d) (ub d) i (nth i U NaN)) /\
    oriented L U /\ corner_ok (member d) (dim d) (cor L U) /\
    forall qs, run (lb d) (ub d) cor qs fresh = map (fun q => Some (match q with QLower => L | QUpper => U end)) qs.
Proof. exact dom_norm_bounds. Qed.
Print Assumptions C129_domain_ranges.

Theorem C129_domain_predicates : forall d cor V, normalizes d -> exact_solver d cor -> (exists x, member d x) -> onb (dim d) V ->
  exists L U, (forall qs, run (lb d) (ub d) cor qs fresh = map (fun q => Some (match q with QLower => L | QUpper => U end)) qs) /\
    ((0 < dim d)%nat -> is_empty (dim d) (cor L U) = false) /\
    ((2 <= dim d)%nat -> exists b, is_unbounded (dim d) (cor L U) V = Some b /\ (b = true <-> ~ bounded (member d))).
Proof. exact dom_predicates. Qed.
Print Assumptions C129_domain_predicates.

Theorem C129_solver_answers : forall nlb nub d p, norm_ok nlb nub d -> quads d = [] -> length p = dim d -> exists a, corner_outcome nlb nub d p a.
Proof. exact outcome_total. Qed.
Print Assumptions C129_solver_answers.

Example C129_strip_case : normalizes strip /\ exact_solver strip strip_corner /\ (exists x, member strip x) /\
  run (lb strip) (ub strip) strip_corner [QUpper; QLower; QUpper] fresh = [Some [Fin 1; PInf]; Some [Fin 0; Fin 0]; Some [Fin 1; PInf]].
Proof. exact strip_case. Qed.

Example C129_disc_case : normalizes disc /\ exact_solver disc disc_corner /\ (exists x, member disc x) /\
  run (lb disc) (ub disc) disc_corner [QLower; QUpper] fresh = [Some [Fin 0; Fin 1]; Some [Fin 2; Fin 3]].
Proof. exact disc_case. Qed.

Theorem C129_empty_raises_once : forall (M : vec -> Prop) l u cor, sided l u -> (forall x, ~ M x) -> (forall nlb nub, okl M l u nlb -> oku M l u nub -> corner_ok M (length l) (cor nlb nub)) ->
  (exists i, (i < length l)%nat /\ nth i l NaN = NInf) -> exists nl, forall n, run l u cor (repeat QLower (S (S n))) fresh = None :: repeat (Some nl) (S n).
Proof. exact norm_lb_empty. Qed.
Print Assumptions C129_empty_raises_once.

Theorem C129_empty_domain_raises_once : forall d cor, normalizes d -> exact_solver d cor -> (forall x, ~ member d x) -> (exists i, (i < dim d)%nat /\ nth i (lb d) NaN = NInf) ->
  exists nl, forall n, run (lb d) (ub d) cor (repeat QLower (S (S n))) fresh = None :: repeat (Some nl) (S n).
Proof. exact dom_norm_lb_empty. Qed.
Print Assumptions C129_empty_domain_raises_once.

Example C129_empty_case : normalizes nothing /\ exact_solver nothing (fun _ _ _ => EmptyExc) /\ (forall x, ~ member nothing x) /\ nth 0 (lb nothing) NaN = NInf /\
  run (lb nothing) (ub nothing) (fun _ _ _ => EmptyExc) [QLower; QUpper; QLower] fresh = [None; Some [PInf]; Some [NInf]].
Proof. exact nothing_case. Qed.

Theorem C129_off_centre_refuted : exists d x, dom_wf d /\ uniform (lb d) /\ uniform (ub d) /\ sided (lb d) (ub d) /\ member d x /\
  forall cor, exists L U, (forall qs, run (lb d) (ub d) cor qs fresh = map (fun q => Some (match q with QLower => L | QUpper => U end)) qs) /\
    ((forall p, length p = dim d -> corner_outcome L U d p (cor L U p)) -> is_empty (dim d) (cor L U) = true).
Proof. exact offc_refuted. Qed.
Print Assumptions C129_off_centre_refuted.

Theorem C129_mixed_bounds_refuted : exists d cor V L U, dom_wf d /\ quads d = [] /\ sided (lb d) (ub d) /\ bounded (member d) /\ onb (dim d) V /\
  run (lb d) (ub d) cor [QLower; QUpper; QLower] fresh = [Some L; Some U; Some L] /\ run (lb d) (ub d) cor [QUpper; QLower; QUpper] fresh = [Some U; Some L; Some U] /\
  (forall p, length p = dim d -> corner_outcome L U d p (cor L U p)) /\ nth 1 L NaN = NInf /\ (forall x, member d x -> -1 <= vget x 1) /\ is_unbounded (dim d) (cor L U) V = Some true.
Proof. exact mixed_bounds_refuted. Qed.
Print Assumptions C129_mixed_bounds_refuted.
