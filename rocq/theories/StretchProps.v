(** Generated by tools/mkprops.py from tools/props/StretchProps.spec: the property theorems. *)
Require Import String.
Require Import Reals List Bool Arith ZArith Permutation.
From Verif Require Import RVec Num Sums DomModel DomSpec DomProofs DomMoreModel SweepProofs HullProofs HullIneqProofs LipModel LipProofs MatLib SampModel PigeonLib LatinProofs PoissonProofs PoissonCases DesignProofs CoffeeProofs GeoModel GeoProofs VoronoiProofs SampMoreModel MinimaxProofs LloydProofs SeqSampProofs StretchModel StretchProofs.
Import ListNotations.
Local Open Scope R_scope.

Local Open Scope R_scope.

(** the constraints added by stretch_sample_domain *)
Theorem C145_constraints : forall V stat Ls X cs, stretch_domain V stat Ls X = Some cs ->
  (exists rest, Permutation (map fst cs ++ rest) Ls) /\ (cs = [] \/ stat cs <> DErr) /\ Forall (fun p => exists x pre rest, snd p = mv (fst p) x /\ chosen V pre x /\ cs = pre ++ rest) cs.
Proof. exact stretch_constraints. Qed.
Print Assumptions C145_constraints.

Theorem C145_returns : forall V stat L Ls X v W, V [] X L = Some (v :: W) -> exists cs, stretch_domain V stat (L :: Ls) X = Some cs.
Proof. exact stretch_returns. Qed.
Print Assumptions C145_returns.

Theorem C145_keeps : forall cs L x y z, In (L, mv L x) cs -> fits cs y -> Ldist L z y = Ldist L z x.
Proof. exact stretch_keeps. Qed.
Print Assumptions C145_keeps.

Theorem C145_keeps_mind : forall cs L x y X, In (L, mv L x) cs -> fits cs y -> mind L X y = mind L X x.
Proof. exact stretch_keeps_mind. Qed.
Print Assumptions C145_keeps_mind.

Theorem C145_nonempty : forall cs L x, fits cs x -> fits (cs ++ [(L, mv L x)]) x.
Proof. exact stretch_nonempty. Qed.
Print Assumptions C145_nonempty.

Theorem C145_single : forall V stat L X v W cs y, V [] X L = Some (v :: W) -> stretch_domain V stat [L] X = Some cs -> cs <> [] -> fits cs y -> forall w, In w (v :: W) -> mind L X w <= mind L X y.
Proof. exact stretch_single. Qed.
Print Assumptions C145_single.

Example C145_single_ex : exists cs, stretch_domain rectV (fun _ => DFine) [ax2] [[0; 0]] = Some cs /\ cs <> [] /\ forall y, fits cs y -> 2 <= mind ax2 [[0; 0]] y.
Proof. exact ex_single. Qed.

Theorem C145_two_refuted : exists V stat Ls X cs, stretch_domain V stat Ls X = Some cs /\
  (forall pre rest X' L W v, cs = pre ++ rest -> rest <> [] -> V pre X' L = Some W -> In v W -> rect v /\ fits pre v) /\
  (exists v, rect v /\ forall L, In L Ls -> 1 <= mind L X v /\ exists W, V [] X L = Some W /\ In v W) /\
  (exists y, rect y /\ fits cs y) /\ exists L, In L Ls /\ forall y, rect y -> fits cs y -> mind L X y = 0.
Proof. exact stretch_two_refuted. Qed.
Print Assumptions C145_two_refuted.

Theorem C145_sample : forall m V stat W Ls Xf x, stretch_sample m V stat W Ls Xf = Some x ->
  exists cs, stretch_domain V stat Ls Xf = Some cs /\ In x (W cs Xf) /\ forall y, In y (W cs Xf) -> vmin (map (fun xf => edist xf y) Xf) <= vmin (map (fun xf => edist xf x) Xf).
Proof. exact stretch_sample_spec. Qed.
Print Assumptions C145_sample.

(** calling the samplers *)
Theorem C145_kcall_runs : forall f args n s, (forall a, In a args -> In a (kws f)) -> kcall f args n s = body f n s.
Proof. exact kcall_runs. Qed.
Print Assumptions C145_kcall_runs.

Theorem C145_kcall_refuses : forall f args n s a, In a args -> ~ In a (kws f) -> exists b, In b args /\ ~ In b (kws f) /\ kcall f args n s = inr (TypeE b).
Proof. exact kcall_refuses. Qed.
Print Assumptions C145_kcall_refuses.

Theorem C145_samplers_raise : forall feval c n s, n <> O -> exists e, sampler_call None feval c n s = inr e /\
  e = match c with SamplerC => NotImplementedE | SequentialC => NameE "seq_maximin_sample"%string | StretchedC => TypeE "verbose"%string end.
Proof. exact samplers_raise. Qed.
Print Assumptions C145_samplers_raise.

Example C145_import_ex : exists s, sampler_call (Some (fun X => [INR (length X)])) (fun x => x) SequentialC 2 (mkSampler [[5]] None) = inl s /\ length (sp_X s) = 3%nat.
Proof. exact ex_import. Qed.
