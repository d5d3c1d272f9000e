(** Stretched sampling: what the added constraints are, what they keep, and what they do not. *)
Require Import Reals Lra Lia String List Bool Arith Permutation.
From Verif Require Import RVec Num Sums DomModel DomSpec DomProofs DomMoreModel SweepProofs HullProofs HullIneqProofs LipModel LipProofs MatLib SampModel PigeonLib LatinProofs PoissonProofs PoissonCases DesignProofs CoffeeProofs GeoModel GeoProofs VoronoiProofs SampMoreModel MinimaxProofs LloydProofs SeqSampProofs StretchModel.
Import ListNotations.
Local Open Scope R_scope.

(** a point satisfies the added constraints *)
Definition fits (cs : list (mat * vec)) (y : vec) : Prop := forall L b, In (L, b) cs -> mv L y = b.
(** x was chosen in a domain with constraints cs: a vertex found there, farthest in some metric from the points then taken for the samples *)
Definition chosen (V : list (mat * vec) -> mat -> mat -> option mat) (cs : list (mat * vec)) (x : vec) : Prop :=
  exists Xf L W, V cs Xf L = Some W /\ In x W /\ forall y, In y W -> mind L Xf y <= mind L Xf x.
Lemma block_chosen : forall L Xf Vo x d, block_candidate L Xf Vo = Some (x, d) -> exists W, Vo = Some W /\ In x W /\ d = mind L Xf x /\ forall y, In y W -> mind L Xf y <= mind L Xf x.
Proof.
  intros L Xf Vo x d H. destruct Vo as [[|v V']|]; try discriminate. cbn [block_candidate] in H. set (W := v :: V') in *. set (k := argmax (map (mind L Xf) W)) in *. injection H as <- <-.
  destruct (argmax_spec (map (mind L Xf) W)) as [A1 [A2 _]]; [discriminate|]. fold k in A1, A2. rewrite map_length in A1, A2. exists W. split; auto. change (match k with O => v | S m => nth m V' [] end) with (nth k W []). split; [apply nth_In; auto|]. split; auto.
  intros y Iy. apply (In_nth _ _ []) in Iy. destruct Iy as [j [Hj <-]]. specialize (A2 j Hj). unfold vget in A2. rewrite !(nth_indep _ 0 (mind L Xf [])) in A2 by (rewrite map_length; auto). rewrite !map_nth in A2. auto.
Qed.
(** X is a single point chosen in this pass or before *)
Definition one_of (H : vec -> Prop) (X : mat) : Prop := exists x, X = [x] /\ H x.
Lemma cands_spec : forall (H : vec -> Prop) V, (forall Xf L x d, block_candidate L Xf (V Xf L) = Some (x, d) -> H x) ->
  forall Ls X d l X' d', stretch_cands Ls V X d = Some (l, X', d') -> (d <> None -> one_of H X) ->
  map snd l = Ls /\ Forall (fun e => one_of H (fst (fst e))) l /\ (d' <> None -> one_of H X') /\ (d <> None \/ Ls <> [] -> d' <> None).
Proof.
  intros H V HB. induction Ls as [|L Ls IH]; intros X d l X' d' E HX; cbn [stretch_cands] in E; [injection E as <- <- <-; repeat split; auto; intros [|]; congruence|].
  destruct (block_candidate L X (V X L)) as [[x dd]|] eqn:EB; cbn [fst snd] in E.
  - assert (O1 : one_of H [x]) by (exists x; split; eauto). destruct (stretch_cands Ls V [x] (Some dd)) as [[[l0 X0] d0]|] eqn:ES; [|discriminate]. injection E as <- <- <-. destruct (IH _ _ _ _ _ ES (fun _ => O1)) as [A [B [C D]]].
    repeat split; [cbn; f_equal; auto|constructor; auto|auto|intros _; apply D; left; discriminate].
  - destruct d as [d|]; [|discriminate]. assert (O1 : one_of H X) by (apply HX; discriminate). destruct (stretch_cands Ls V X (Some d)) as [[[l0 X0] d0]|] eqn:ES; [|discriminate]. injection E as <- <- <-. destruct (IH _ _ _ _ _ ES (fun _ => O1)) as [A [B [C D]]].
    repeat split; [cbn; f_equal; auto|constructor; auto|auto|intros _; apply D; left; discriminate].
Qed.
Lemma pop_perm : forall (A : Type) k (l : list A) d, (k < length l)%nat -> Permutation (nth k l d :: pop k l) l.
Proof.
  intros A k l d. revert k. induction l as [|a l IH]; intros k H; [simpl in H; lia|]. destruct k as [|k]; [apply Permutation_refl|]. cbn [nth]. unfold pop. cbn [firstn skipn app]. simpl in H.
  eapply perm_trans; [apply perm_swap|]. constructor. apply IH. lia.
Qed.
Lemma pop_len : forall (A : Type) k (l : list A), (k < length l)%nat -> length (pop k l) = (length l - 1)%nat.
Proof. intros A k l H. unfold pop. rewrite app_length, firstn_length, skipn_length. lia. Qed.

Section Loop.
Variables (V : list (mat * vec) -> mat -> mat -> option mat) (stat : list (mat * vec) -> dstat).
(** every constraint is (L, L x) with x chosen in a domain with a prefix of the constraints *)
Definition justified (cs : list (mat * vec)) : Prop := Forall (fun p => exists x pre, snd p = mv (fst p) x /\ chosen V pre x /\ exists rest, cs = pre ++ rest) cs.
Lemma justified_app : forall cs p, justified cs -> (exists x pre, snd p = mv (fst p) x /\ chosen V pre x /\ exists rest, cs = pre ++ rest) -> justified (cs ++ [p]).
Proof.
  intros cs p HJ [x [pre [E [C [rest R]]]]]. apply Forall_app. split.
  - eapply Forall_impl; [|exact HJ]. intros q [x' [pre' [E' [C' [rest' R']]]]]. exists x', pre'. split; auto. split; auto. exists (rest' ++ [p]). rewrite R', app_assoc. auto.
  - constructor; [|constructor]. exists x, pre. split; auto. split; auto. exists (rest ++ [p]). rewrite R, app_assoc. auto.
Qed.
Definition hist (cs : list (mat * vec)) (x : vec) : Prop := exists pre rest, cs = pre ++ rest /\ chosen V pre x.
Lemma hist_app : forall cs p x, hist cs x -> hist (cs ++ p) x.
Proof. intros cs p x [pre [rest [E C]]]. exists pre, (rest ++ p). rewrite E, app_assoc. auto. Qed.
Lemma loop_spec : forall n Ls X d cs r, stretch_loop n V stat Ls X d cs = Some r -> (d <> None -> one_of (hist cs) X) -> justified cs ->
  justified r /\ (r = cs \/ stat r <> DErr) /\ exists add, r = cs ++ add /\ exists rest, Permutation (map fst add ++ rest) Ls.
Proof.
  induction n as [|n IH]; intros Ls X d cs r E HX HJ.
  - cbn in E. injection E as <-. split; auto. split; auto. exists []. rewrite app_nil_r. split; auto. exists Ls. apply Permutation_refl.
  - cbn [stretch_loop] in E. destruct Ls as [|L0 Ls0]; [injection E as <-; split; auto; split; auto; exists []; rewrite app_nil_r; split; auto; exists []; apply Permutation_refl|]. set (Ls := L0 :: Ls0) in *.
    destruct (stretch_cands Ls (V cs) X d) as [[[xd X'] d']|] eqn:ES; [|discriminate].
    assert (HB : forall Xf L x d0, block_candidate L Xf (V cs Xf L) = Some (x, d0) -> hist cs x).
    { intros Xf L x d0 EB. destruct (block_chosen _ _ _ _ _ EB) as [W [EW [IW [_ MW]]]]. exists cs, []. rewrite app_nil_r. split; auto. exists Xf, L, W. auto. }
    destruct (cands_spec (hist cs) (V cs) HB Ls X d xd X' d' ES HX) as [A [B [C D]]]. cbv zeta in E. set (k := argmax (map (fun e => snd (fst e)) xd)) in *.
    assert (LX : length xd = length Ls) by (rewrite <- A, map_length; auto). assert (NX : map (fun e : mat * R * mat => snd (fst e)) xd <> []) by (destruct xd; [discriminate|discriminate]).
    destruct (argmax_spec _ NX) as [K1 _]. fold k in K1. rewrite map_length in K1. pose proof (nth_In xd ([], 0, []) K1) as IK. destruct (nth k xd ([], 0, [])) as [[x dv] L] eqn:EK.
    rewrite Forall_forall in B. destruct (B _ IK) as [x1 [EX HX1]]. cbn [fst] in EX. subst x. cbn [nth] in E.
    assert (EL : nth k Ls [] = L). { rewrite <- A. rewrite (nth_indep _ [] (snd ([] : mat, 0, [] : mat))) by (rewrite map_length; lia). rewrite map_nth, EK. auto. }
    set (cs' := cs ++ [(L, mv L x1)]) in *. destruct HX1 as [pre [rest [ER CR]]].
    assert (HJ' : justified cs') by (apply justified_app; auto; exists x1, pre; cbn [fst snd]; split; auto; split; auto; exists rest; auto).
    destruct (stat cs') eqn:ST.
    + injection E as <-. split; auto. split; auto. exists []. rewrite app_nil_r. split; auto. exists Ls. apply Permutation_refl.
    + injection E as <-. split; auto. split; [right; rewrite ST; discriminate|]. exists [(L, mv L x1)]. split; auto. exists (pop k Ls). cbn [map fst app]. rewrite <- EL. apply pop_perm. lia.
    + destruct (IH _ _ _ _ _ E) as [R1 [R2 [add [R3 [rest' R4]]]]]; auto.
      * intro ND. destruct (C ND) as [y [EY HY]]. exists y. split; auto. apply hist_app. auto.
      * split; auto. split. { right. destruct R2 as [->|R2]; [rewrite ST; discriminate|auto]. }
        exists ((L, mv L x1) :: add). split; [rewrite R3; unfold cs'; rewrite <- app_assoc; auto|]. exists rest'. cbn [map fst app]. eapply perm_trans; [apply perm_skip; exact R4|]. rewrite <- EL. apply pop_perm. lia.
Qed.
End Loop.
(** the constraints added: for different metrics of the list (each at most once), each fixing L x at a vertex chosen in a domain with earlier constraints only; the
    domain returned is the given one or was sampled successfully *)
Theorem stretch_constraints : forall V stat Ls X cs, stretch_domain V stat Ls X = Some cs ->
  (exists rest, Permutation (map fst cs ++ rest) Ls) /\ (cs = [] \/ stat cs <> DErr) /\ Forall (fun p => exists x pre rest, snd p = mv (fst p) x /\ chosen V pre x /\ cs = pre ++ rest) cs.
Proof.
  intros V stat Ls X cs E. destruct (loop_spec V stat _ _ _ _ _ _ E) as [J [S [add [EA [rest P]]]]]; [congruence|constructor|]. cbn in EA. subst add. split; [exists rest; auto|]. split; auto.
  eapply Forall_impl; [|exact J]. intros p [x [pre [A [B [r C]]]]]. exists x, pre, r. auto.
Qed.
Lemma cands_d : forall Ls V X d l X' d', stretch_cands Ls V X (Some d) = Some (l, X', d') -> d' <> None.
Proof.
  induction Ls as [|L Ls IH]; intros V X d l X' d' E; cbn [stretch_cands] in E; [injection E as <- <- <-; discriminate|].
  destruct (block_candidate L X (V X L)) as [[x dd]|]; cbn [fst snd] in E.
  - destruct (stretch_cands Ls V [x] (Some dd)) as [[[l0 X0] d0]|] eqn:ES; [|discriminate]. injection E as <- <- <-. eapply IH. eauto.
  - destruct (stretch_cands Ls V X (Some d)) as [[[l0 X0] d0]|] eqn:ES; [|discriminate]. injection E as <- <- <-. eapply IH. eauto.
Qed.
(** no exception once the first metric of the list has a candidate *)
Theorem stretch_returns : forall V stat L Ls X v W, V [] X L = Some (v :: W) -> exists cs, stretch_domain V stat (L :: Ls) X = Some cs.
Proof.
  intros V stat L Ls X v W H. unfold stretch_domain.
  assert (G : forall n Ls X d cs, d <> None -> exists r, stretch_loop n V stat Ls X d cs = Some r).
  { induction n as [|n IH]; intros Ls' X' d cs Hd; [exists cs; reflexivity|]. cbn [stretch_loop]. destruct Ls' as [|L0 Ls0]; [exists cs; auto|]. destruct d as [d|]; [|congruence].
    destruct (stretch_some (L0 :: Ls0) (V cs) X' d) as [l [X2 [d2 [E EL]]]]. rewrite E. pose proof (cands_d _ _ _ _ _ _ _ E) as D. cbv zeta. destruct (nth _ l _) as [[x dv] L1]. destruct (stat _); [eexists; reflexivity|eexists; reflexivity|apply IH; auto]. }
  cbn [length stretch_loop]. destruct (stretch_first L Ls (V []) X v W H) as [x [d [l [X' [d' [E _]]]]]]. rewrite E.
  assert (D : d' <> None).
  { cbn [stretch_cands] in E. rewrite H in E. cbn [block_candidate fst snd] in E. match type of E with match ?t with _ => _ end = _ => destruct t as [[[l0 X0] d0]|] eqn:ES; [|discriminate] end. injection E as E1 E2 E3 E4 E5. subst d0. eapply cands_d. eauto. }
  cbv zeta. destruct (nth _ _ _) as [[x1 dv] L1]. destruct (stat _); [eexists; reflexivity|eexists; reflexivity|apply G; auto].
Qed.
(** what a constraint means: every point of the stretched domain is as far from any point, in that metric, as the vertex that was chosen *)
Theorem stretch_keeps : forall cs L x y z, In (L, mv L x) cs -> fits cs y -> Ldist L z y = Ldist L z x.
Proof. intros cs L x y z I F. unfold Ldist. rewrite (F L _ I). auto. Qed.
Theorem stretch_keeps_mind : forall cs L x y X, In (L, mv L x) cs -> fits cs y -> mind L X y = mind L X x.
Proof. intros cs L x y X I F. unfold mind. f_equal. apply map_ext. intro z. apply (stretch_keeps cs); auto. Qed.
(** the chosen vertex satisfies the constraints of the domain it was found in, hence also the new one *)
Theorem stretch_nonempty : forall cs L x, fits cs x -> fits (cs ++ [(L, mv L x)]) x.
Proof. intros cs L x F L' b I. apply in_app_or in I. destruct I as [I|[E|[]]]; [apply F; auto|]. injection E as <- <-. auto. Qed.
(** a single metric: the points of the stretched domain are as far from the samples as the best vertex found *)
Theorem stretch_single : forall V stat L X v W cs y, V [] X L = Some (v :: W) -> stretch_domain V stat [L] X = Some cs -> cs <> [] -> fits cs y -> forall w, In w (v :: W) -> mind L X w <= mind L X y.
Proof.
  intros V stat L X v W cs y H E NE F w Iw. unfold stretch_domain in E. cbn [length stretch_loop] in E. destruct (stretch_first L [] (V []) X v W H) as [x [d [l [X' [d' [EC [EL [_ [Ed M]]]]]]]]]. rewrite EC in E. cbv zeta in E.
  destruct l; [|discriminate]. change (argmax (map (fun e => snd (fst e)) [([x], d, L)])) with O in E. cbn [nth app] in E. rewrite (stretch_keeps_mind cs L x y X); auto; [rewrite <- Ed; auto|].
  destruct (stat _); cbn [stretch_loop] in E; injection E as <-; [congruence|left; auto|left; auto].
Qed.
(** the sample: a vertex found in the stretched domain, farthest from the samples in the Euclidean metric *)
Theorem stretch_sample_spec : forall m V stat W Ls Xf x, stretch_sample m V stat W Ls Xf = Some x ->
  exists cs, stretch_domain V stat Ls Xf = Some cs /\ In x (W cs Xf) /\ forall y, In y (W cs Xf) -> vmin (map (fun xf => edist xf y) Xf) <= vmin (map (fun xf => edist xf x) Xf).
Proof.
  intros m V stat W Ls Xf x E. unfold stretch_sample in E. destruct (stretch_domain V stat Ls Xf) as [cs|]; [|discriminate]. exists cs. split; auto. destruct (W cs Xf) as [|w0 W0]; [discriminate|]. set (T := w0 :: W0) in *. assert (E0 : nth (argmax (map (fun x => vmin (map (fun xf => edist xf x) Xf)) T)) T [] = x) by congruence. clear E. rename E0 into E.
  set (f := fun x => vmin (map (fun xf => edist xf x) Xf)) in *. destruct (argmax_spec (map f T)) as [A1 [A2 _]]; [discriminate|]. rewrite map_length in A1, A2. subst x. split; [apply nth_In; auto|]. intros y Iy. apply (In_nth _ _ []) in Iy. destruct Iy as [j [Hj <-]].
  specialize (A2 j Hj). unfold vget in A2. rewrite !(nth_indep _ 0 (f [])) in A2 by (rewrite map_length; auto). rewrite !map_nth in A2. auto.
Qed.

(** ** two metrics: the second one is scored by its distance to the candidate of the first, not to the samples *)
Definition ax1 : mat := [[1; 0]].
Definition ax2 : mat := [[0; 1]].
(** the rectangle [0,1] x [0,2]; vertices on both sides; with y fixed at 0, those of the lower side *)
Definition rect (x : vec) : Prop := exists a b, x = [a; b] /\ 0 <= a <= 1 /\ 0 <= b <= 2.
Definition rectV (cs : list (mat * vec)) (X L : mat) : option mat := match cs with [] => Some [[0; 0]; [1; 2]] | _ => Some [[0; 0]; [1; 0]] end.
Definition rect_stat (cs : list (mat * vec)) : dstat := match cs with [_] => DFine | _ => DPoint end.
Lemma ax1_d : forall a b c d, Ldist ax1 [a; b] [c; d] = Rabs (a - c).
Proof. intros. unfold ax1. rewrite Ldist_row. rewrite !dot_cons, !dot_nil_l. f_equal. ring. Qed.
Lemma ax2_d : forall a b c d, Ldist ax2 [a; b] [c; d] = Rabs (b - d).
Proof. intros. unfold ax2. rewrite Ldist_row. rewrite !dot_cons, !dot_nil_l. f_equal. ring. Qed.
Lemma mindc : forall L c x, mind L [c] x = Ldist L c x. Proof. reflexivity. Qed.
Lemma prefix2 : forall (A : Type) (a b : A) pre rest, [a; b] = pre ++ rest -> rest <> [] -> pre = [] \/ pre = [a].
Proof. intros A a b pre rest E N. destruct pre as [|p [|q pre]]; [auto|right; cbn in E; congruence|]. cbn in E. injection E as _ _ E. symmetry in E. apply app_eq_nil in E. destruct E; congruence. Qed.
(** every vertex lies in the domain it was searched in, a vertex exists that is far from the samples in all metrics, the stretched domain is not empty, and yet all its
    points coincide with a sample in one of the metrics *)
Theorem stretch_two_refuted : exists V stat Ls X cs, stretch_domain V stat Ls X = Some cs /\
  (forall pre rest X' L W v, cs = pre ++ rest -> rest <> [] -> V pre X' L = Some W -> In v W -> rect v /\ fits pre v) /\
  (exists v, rect v /\ forall L, In L Ls -> 1 <= mind L X v /\ exists W, V [] X L = Some W /\ In v W) /\
  (exists y, rect y /\ fits cs y) /\ exists L, In L Ls /\ forall y, rect y -> fits cs y -> mind L X y = 0.
Proof.
  exists rectV, rect_stat, [ax1; ax2], [[0; 0]], [(ax2, [0]); (ax1, [1])].
  assert (M1 : forall a b, mv ax1 [a; b] = [a]) by (intros; unfold ax1, mv; cbn [map]; rewrite !dot_cons, !dot_nil_l; f_equal; ring).
  assert (M2 : forall a b, mv ax2 [a; b] = [b]) by (intros; unfold ax2, mv; cbn [map]; rewrite !dot_cons, !dot_nil_l; f_equal; ring).
  assert (E1 : argmax (map (mind ax1 [[0; 0]]) [[0; 0]; [1; 2]]) = 1%nat).
  { cbn [map]. rewrite !mindc, !ax1_d. unfold argmax, argmax_from. rabs. destruct (Rltb _ _) eqn:Q; auto. apply Rltb_false in Q. lra. }
  assert (E2 : argmax (map (mind ax2 [[1; 2]]) [[0; 0]; [1; 2]]) = O).
  { cbn [map]. rewrite !mindc, !ax2_d. unfold argmax, argmax_from. rabs. destruct (Rltb _ _) eqn:Q; auto. apply Rltb_true in Q. lra. }
  assert (E4 : argmax (map (mind ax1 [[0; 0]]) [[0; 0]; [1; 0]]) = 1%nat).
  { cbn [map]. rewrite !mindc, !ax1_d. unfold argmax, argmax_from. rabs. destruct (Rltb _ _) eqn:Q; auto. apply Rltb_false in Q. lra. }
  split.
  - unfold stretch_domain. cbn [length stretch_loop stretch_cands]. change (rectV [] [[0; 0]] ax1) with (Some [[0; 0]; [1; 2]]). cbn [block_candidate]. rewrite E1. cbn [nth fst snd]. change (rectV [] [[1; 2]] ax2) with (Some [[0; 0]; [1; 2]]). cbn [block_candidate]. rewrite E2. cbn [nth fst snd app map].
    rewrite !mindc, ax1_d, ax2_d. assert (E3 : argmax [Rabs (0 - 1); Rabs (2 - 0)] = 1%nat). { unfold argmax, argmax_from. rabs. destruct (Rltb _ _) eqn:Q; auto. apply Rltb_false in Q. lra. } rewrite E3. cbn [nth app]. rewrite M2. cbn [rect_stat pop firstn skipn app].
    cbn [stretch_cands]. change (rectV [(ax2, [0])] [[0; 0]] ax1) with (Some [[0; 0]; [1; 0]]). cbn [block_candidate]. rewrite E4. cbn [nth fst snd app map argmax argmax_from]. rewrite M1. reflexivity.
  - split. { intros pre rest X' L W v E N EV IV. destruct (prefix2 _ _ _ _ _ E N) as [->| ->]; cbn [rectV] in EV; injection EV as <-.
      - split; [|intros ? ? []]. destruct IV as [<-|[<-|[]]]; [exists 0, 0|exists 1, 2]; repeat split; lra.
      - split; [destruct IV as [<-|[<-|[]]]; [exists 0, 0|exists 1, 0]; repeat split; lra|]. intros L' b [E'|[]]. injection E' as <- <-. destruct IV as [<-|[<-|[]]]; apply M2. }
    split. { exists [1; 2]. split; [exists 1, 2; repeat split; lra|]. intros L [<-|[<-|[]]]; rewrite mindc, ?ax1_d, ?ax2_d; (split; [rabs; lra|exists [[0; 0]; [1; 2]]; split; [reflexivity|simpl; auto]]). }
    split. { exists [1; 0]. split; [exists 1, 0; repeat split; lra|]. intros L b [E|[E|[]]]; injection E as <- <-; [apply M2|apply M1]. }
    exists ax2. split; [right; left; auto|]. intros y [a [b [-> _]]] F. specialize (F ax2 [0] (or_introl eq_refl)). rewrite M2 in F. injection F as F. rewrite mindc, ax2_d. replace (0 - b) with 0 by lra. apply Rabs_R0.
Qed.
Example ex_single : exists cs, stretch_domain rectV (fun _ => DFine) [ax2] [[0; 0]] = Some cs /\ cs <> [] /\ forall y, fits cs y -> 2 <= mind ax2 [[0; 0]] y.
Proof.
  destruct (stretch_returns rectV (fun _ => DFine) ax2 [] [[0; 0]] [0; 0] [[1; 2]] eq_refl) as [cs E]. exists cs. split; auto.
  assert (NE : cs <> []). { unfold stretch_domain in E. cbn [length stretch_loop stretch_cands] in E. change (rectV [] [[0; 0]] ax2) with (Some [[0; 0]; [1; 2]]) in E. cbn [block_candidate fst snd map] in E. cbn [app nth argmax argmax_from] in E. injection E as <-. discriminate. }
  split; auto. intros y F. pose proof (stretch_single rectV (fun _ => DFine) ax2 [[0; 0]] [0; 0] [[1; 2]] cs y eq_refl E NE F [1; 2] ltac:(simpl; auto)) as H. rewrite mindc, ax2_d in H. revert H. rabs. lra.
Qed.

(** ** the samplers of sample.py *)
(** as the code stands (seq_maximin_sample is not bound in sample.py) no sampler draws anything: each class raises, for every number of draws and every state *)
Theorem samplers_raise : forall feval c n s, n <> O -> exists e, sampler_call None feval c n s = inr e /\
  e = match c with SamplerC => NotImplementedE | SequentialC => NameE "seq_maximin_sample"%string | StretchedC => TypeE "verbose"%string end.
Proof. intros feval c n s Hn. destruct n as [|n]; [congruence|]. destruct c; (eexists; split; [reflexivity|reflexivity]). Qed.
(** a method that takes the keywords passed runs, any other is refused before it runs *)
Lemma takes : forall f a, existsb (String.eqb a) (kws f) = true <-> In a (kws f).
Proof. intros f a. rewrite existsb_exists. split; [intros [b [I E]]; apply String.eqb_eq in E; congruence|intro I; exists a; split; [auto|apply String.eqb_refl]]. Qed.
Theorem kcall_runs : forall f args n s, (forall a, In a args -> In a (kws f)) -> kcall f args n s = body f n s.
Proof.
  intros f args n s H. unfold kcall. destruct (filter _ args) as [|a l] eqn:E; auto. exfalso. assert (I : In a (filter (fun a => negb (existsb (String.eqb a) (kws f))) args)) by (rewrite E; left; auto). apply filter_In in I. destruct I as [I N]. apply H in I. apply takes in I. rewrite I in N. discriminate.
Qed.
Theorem kcall_refuses : forall f args n s a, In a args -> ~ In a (kws f) -> exists b, In b args /\ ~ In b (kws f) /\ kcall f args n s = inr (TypeE b).
Proof.
  intros f args n s a Ia Na. assert (Q : existsb (String.eqb a) (kws f) = false) by (destruct (existsb _ _) eqn:Q; auto; apply takes in Q; congruence).
  assert (I : In a (filter (fun a => negb (existsb (String.eqb a) (kws f))) args)) by (apply filter_In; rewrite Q; auto). unfold kcall. destruct (filter (fun a => negb (existsb (String.eqb a) (kws f))) args) as [|b l] eqn:E; [destruct I|].
  assert (Ib : In b (filter (fun a => negb (existsb (String.eqb a) (kws f))) args)) by (rewrite E; left; auto). apply filter_In in Ib. destruct Ib as [Ib Nb]. exists b. split; auto. split; auto. intro T. apply takes in T. rewrite T in Nb. discriminate.
Qed.
(** with the import in place the sequential sampler would draw *)
Example ex_import : exists s, sampler_call (Some (fun X => [INR (length X)])) (fun x => x) SequentialC 2 (mkSampler [[5]] None) = inl s /\ length (sp_X s) = 3%nat.
Proof. eexists. split; [reflexivity|reflexivity]. Qed.
