(** Sequential maximin sampling, stretched sampling, the sampler object. *)
Require Import Reals Lra Lia List Bool Arith ZArith.
From Verif Require Import RVec Num Sums DomModel DomSpec DomProofs DomMoreModel SweepProofs HullProofs LipModel LipProofs MatLib SampModel PigeonLib LatinProofs PoissonProofs PoissonCases DesignProofs CoffeeProofs GeoModel GeoProofs VoronoiProofs SampMoreModel MinimaxProofs.
Import ListNotations.
Local Open Scope R_scope.

(** the product of the distances to the nearest sample, over the metrics *)
Fixpoint prod_dist (Ls : list mat) (Xhat : mat) (x : vec) : R := match Ls with [] => 1 | L :: Ls' => mind L Xhat x * prod_dist Ls' Xhat x end.
Lemma score_prod : forall Ls Xhat x, score_Ls Ls Xhat x = prod_dist Ls Xhat x.
Proof.
  intros Ls Xhat x. unfold score_Ls. assert (G : forall Ls a, fold_left (fun s L => s * mind L Xhat x) Ls a = a * prod_dist Ls Xhat x).
  { induction Ls0 as [|L Ls0 IH]; intro a; cbn [fold_left prod_dist]; [ring|]. rewrite IH. ring. }
  rewrite G. ring.
Qed.
Lemma mind_nonneg : forall L Xhat x, Xhat <> [] -> 0 <= mind L Xhat x.
Proof. intros L Xhat x H. destruct (mind_at L Xhat x H) as [y [_ ->]]. apply Ldist_nonneg. Qed.
Lemma prod_nonneg : forall Ls Xhat x, Xhat <> [] -> 0 <= prod_dist Ls Xhat x.
Proof. intros Ls Xhat x H. induction Ls as [|L Ls IH]; cbn [prod_dist]; [lra|]. apply Rmult_le_pos; auto. apply mind_nonneg. auto. Qed.
Lemma select_nonempty : forall X : mat, X <> [] -> select (unique_mask X) X <> [].
Proof.
  intros X H E. pose proof (unique_last X H) as U. pose proof (select_in X (unique_mask X) (length X - 1) (mask_len X)) as Q. destruct X; [congruence|]. specialize (Q ltac:(simpl; lia) U). rewrite E in Q. destruct Q.
Qed.
(** the point selected: a candidate whose product of distances is within the slack of the best, and the one of these farthest from the samples in the Euclidean metric *)
Theorem select_best : forall Ls Xhat slack Xcan, Xhat <> [] -> Xcan <> [] -> slack <= 1 ->
  let Xc := select (unique_mask Xcan) Xcan in
  exists x, seq_select Ls Xhat slack Xcan = Some x /\ In x Xcan /\
    (forall y, In y Xc -> 0 <= slack -> slack * prod_dist Ls Xhat y <= prod_dist Ls Xhat x) /\
    (forall y, In y Xc -> (forall z, In z Xc -> prod_dist Ls Xhat z <= prod_dist Ls Xhat y) ->
       forall w, In w Xc -> slack * prod_dist Ls Xhat y <= prod_dist Ls Xhat w ->
       forall s, In s Xhat -> (forall s', In s' Xhat -> edist w s <= edist w s') -> forall s', In s' Xhat -> edist w s <= edist x s').
Proof.
  intros Ls Xhat slack Xcan NX NC HS Xc. assert (NXc : Xc <> []) by (apply select_nonempty; auto). unfold seq_select. fold Xc. set (best := vmax (map (score_Ls Ls Xhat) Xc)). set (K := filter (fun x => Rleb (best * slack) (score_Ls Ls Xhat x)) Xc).
  destruct (vmax_map_at vec (score_Ls Ls Xhat) Xc NXc) as [b [Ib Eb]]. fold best in Eb. assert (B0 : 0 <= best) by (rewrite Eb, score_prod; apply prod_nonneg; auto).
  assert (Ibk : In b K) by (apply filter_In; split; auto; apply Rleb_true; rewrite <- Eb; nra). destruct K as [|k0 K'] eqn:EK; [destruct Ibk|]. rewrite <- EK in *. assert (NK : K <> []) by (rewrite EK; discriminate). set (f := fun x => vmin (map (edist x) Xhat)). set (i := argmax (map f K)).
  destruct (argmax_spec (map f K)) as [A1 [A2 _]]; [rewrite EK; discriminate|]. fold i in A1, A2. rewrite map_length in A1, A2. exists (nth i K []). split; auto. assert (IK : In (nth i K []) K) by (apply nth_In; auto). assert (HK := IK). unfold K at 2 in HK. apply filter_In in HK. destruct HK as [I1 I2]. apply Rleb_true in I2.
  split; [unfold Xc in I1; apply select_incl in I1; auto|]. split.
  - intros y Iy S0. rewrite <- !score_prod. pose proof (vmax_map_ge vec (score_Ls Ls Xhat) Xc y Iy) as G. fold best in G. pose proof (Rmult_le_compat_l slack _ _ S0 G). lra.
  - intros y Iy HY w Iw HW s Is Hs s' Is'. assert (EB : best = prod_dist Ls Xhat y).
    { apply Rle_antisym; [rewrite Eb, score_prod; auto|]. rewrite <- score_prod. apply (vmax_map_ge vec (score_Ls Ls Xhat)). auto. }
    assert (IwK : In w K) by (apply filter_In; split; auto; apply Rleb_true; rewrite score_prod; rewrite EB; lra). apply (In_nth _ _ []) in IwK. destruct IwK as [j [Hj Ej]]. pose proof (A2 j Hj) as AJ. unfold vget in AJ. rewrite !(nth_indep _ 0 (f [])) in AJ by (rewrite map_length; auto). rewrite !map_nth in AJ. rewrite Ej in AJ. unfold f in AJ.
    pose proof (vmin_map_le vec (edist (nth i K [])) Xhat s' Is') as M1. assert (M2 : edist w s <= vmin (map (edist w) Xhat)) by (apply (vmin_map_lb vec (edist w)); auto). lra.
Qed.
(** with positive slack, the point is new in every metric as soon as one candidate is *)
Theorem select_new : forall Ls Xhat slack Xcan y, Xhat <> [] -> 0 < slack <= 1 -> In y (select (unique_mask Xcan) Xcan) -> 0 < prod_dist Ls Xhat y ->
  exists x, seq_select Ls Xhat slack Xcan = Some x /\ forall L s, In L Ls -> In s Xhat -> 0 < Ldist L s x.
Proof.
  intros Ls Xhat slack Xcan y NX HS Iy PY. assert (NC : Xcan <> []) by (intro E; rewrite E in Iy; destruct Iy). destruct (select_best Ls Xhat slack Xcan NX NC ltac:(lra)) as [x [E [_ [Q _]]]]. exists x. split; auto. specialize (Q y Iy ltac:(lra)).
  assert (PX : 0 < prod_dist Ls Xhat x) by nra. intros L s IL Is. assert (PL : 0 < mind L Xhat x).
  { clear - PX IL NX. induction Ls as [|L0 Ls IH]; [destruct IL|]. cbn [prod_dist] in PX. pose proof (mind_nonneg L0 Xhat x NX). pose proof (prod_nonneg Ls Xhat x NX). destruct IL as [->|IL]; [nra|]. apply IH; auto. nra. }
  pose proof (mind_le L Xhat x s Is). lra.
Qed.
(** ** the candidate domains *)
(** x satisfies the equality constraints L_k x = L_k v *)
Definition meets (Ls : list mat) (cs : list (nat * vec)) (x : vec) : Prop := forall k v, In (k, v) cs -> mv (nth k Ls []) x = mv (nth k Ls []) v.
Lemma chain_ok : forall empty order vert cs, (cs = [] \/ empty cs = false) -> let r := seq_chain empty order vert cs in
  (r = [] \/ empty r = false) /\ (exists t, r = cs ++ map (fun k => (k, vert k)) t /\ exists t', order = t ++ t').
Proof.
  intros empty order vert. induction order as [|k order IH]; intros cs H r; unfold r; cbn [seq_chain].
  - split; auto. exists []. rewrite app_nil_r. split; auto. exists []. auto.
  - destruct (empty (cs ++ [(k, vert k)])) eqn:E.
    + split; auto. exists []. rewrite app_nil_r. split; auto. exists (k :: order). auto.
    + destruct (IH (cs ++ [(k, vert k)]) (or_intror E)) as [Q1 [t [Q2 [t' Q3]]]]. split; auto. exists (k :: t). split; [rewrite Q2, <- app_assoc; auto|]. exists t'. rewrite Q3. auto.
Qed.
Lemma next_ok : forall empty order vertices used idx cs f rest, next_domain empty order vertices used idx = Some (cs, f, rest) ->
  (cs = [] \/ empty cs = false) /\ existsb (same_found f) used = false /\ exists i, In i idx /\ (forall k v, In (k, v) cs -> v = vert_of vertices i k) /\ f = found_of cs i.
Proof.
  intros empty order vertices used idx. induction idx as [|i idx IH]; intros cs f rest E; [discriminate|]. cbn [next_domain] in E. set (c := seq_chain empty (order i) (vert_of vertices i) []) in *. destruct (existsb (same_found (found_of c i)) used) eqn:EX.
  - destruct (IH _ _ _ E) as [Q1 [Q2 [j [Ij Q3]]]]. split; auto. split; auto. exists j. split; [right; auto|auto].
  - inversion E; subst. destruct (chain_ok empty (order i) (vert_of vertices i) [] (or_introl eq_refl)) as [C1 [t [C2 _]]]. fold c in C1, C2. split; auto. split; auto. exists i. split; [left; auto|]. split; auto. intros k v Ikv. rewrite C2 in Ikv. cbn [app] in Ikv. apply in_map_iff in Ikv. destruct Ikv as [k' [Ek _]]. inversion Ek. auto.
Qed.
(** every candidate lies in the domain, provided the vertex search stays in the (nonempty) domain it is given *)
Lemma cands_in : forall (P : vec -> Prop) Ls Xhat slack empty order vertices gen n it used idx acc,
  (forall it cs, (cs = [] \/ empty cs = false) -> Forall (fun x => P x /\ meets Ls cs x) (gen it cs)) -> Forall P acc ->
  Forall P (seq_cands n it Ls Xhat slack empty order vertices gen used idx acc).
Proof.
  intros P Ls Xhat slack empty order vertices gen n. induction n as [|n IH]; intros it used idx acc G FA; auto. cbn [seq_cands]. destruct (next_domain empty order vertices used idx) as [[[cs f] rest]|] eqn:E; auto. destruct (next_ok _ _ _ _ _ _ _ _ E) as [C _]. assert (FN : Forall P (acc ++ gen it cs)) by (apply Forall_app; split; auto; eapply Forall_impl; [|apply (G it cs C)]; intros a [Pa _]; auto).
  destruct (_ && _)%bool; auto.
Qed.
Theorem seq_inside : forall (P : vec -> Prop) Ls Xhat slack corner u empty order vertices idx gen x, P (corner u) ->
  (forall it cs, (cs = [] \/ empty cs = false) -> Forall (fun x => P x /\ meets Ls cs x) (gen it cs)) ->
  seq_maximin Ls Xhat slack corner u empty order vertices idx gen = Some x -> P x.
Proof.
  intros P Ls Xhat slack corner u empty order vertices idx gen x PC G E. unfold seq_maximin in E. destruct Xhat as [|x1 Xr] eqn:EX; [inversion E; subst; auto|]. rewrite <- EX in *. pose proof (cands_in P Ls Xhat slack empty order vertices gen 100 0 [] idx [] G (Forall_nil _)) as F. set (Xcan := seq_cands _ _ _ _ _ _ _ _ _ _ _ _) in *.
  unfold seq_select in E. destruct (filter _ _) as [|k K] eqn:EK; [discriminate|]. injection E as <-. set (i := argmax (map (fun x : vec => vmin (map (edist x) Xhat)) (k :: K))). change (P (nth i (k :: K) [])). assert (Hi : (i < length (k :: K))%nat). { unfold i. match goal with |- (argmax ?l < _)%nat => destruct (argmax_spec l) as [A _]; [discriminate|rewrite map_length in A; auto] end. }
  assert (I : In (nth i (k :: K) []) (k :: K)) by (apply nth_In; auto). rewrite <- EK in I at 2. apply filter_In in I. destruct I as [I _]. apply select_incl in I. rewrite Forall_forall in F. apply F. auto.
Qed.
(** Example: existing samples 0 and 1 on the line, two candidates *)
Lemma prod1 : forall Xhat x, prod_dist [[[1]]] Xhat x = mind [[1]] Xhat x.
Proof. intros. cbn [prod_dist]. ring. Qed.
Example ex_select : exists x, seq_select [[[1]]] [[0]; [1]] (9/10) [[1/2]; [1/4]; [2]] = Some x /\ forall L s, In L [[[1]]] -> In s [[0]; [1]] -> 0 < Ldist L s x.
Proof.
  apply (select_new _ _ _ _ [2]); [discriminate|lra| |].
  - apply (select_in [[1/2]; [1/4]; [2]] (unique_mask [[1/2]; [1/4]; [2]]) 2); [apply mask_len|simpl; lia|]. apply (unique_last [[1/2]; [1/4]; [2]]). discriminate.
  - rewrite prod1. destruct (mind_at [[1]] [[0]; [1]] [2]) as [y [Iy ->]]; [discriminate|]. destruct Iy as [<-|[<-|[]]]; rewrite Ld1; rabs; lra.
Qed.
(** Example: on the segment [0,1] with one sample 0, one metric, vertex 1 *)
Example ex_seq_inside : forall x, seq_maximin [[[1]]] [[0]] (9/10) (fun u => u) [0] (fun _ => false) (fun i => [0%nat]) [[[1]]] [[0%nat]] (fun _ cs => match cs with (_, v) :: _ => [v] | [] => [] end) = Some x -> x = [1].
Proof.
  intros x E. unfold seq_maximin in E. cbn [seq_cands next_domain seq_chain vert_of nth app existsb found_of map fst] in E. set (b := (_ && _)%bool) in E. destruct b; cbn [seq_cands next_domain] in E; unfold seq_select in E; cbn [unique_mask select map filter] in E; destruct (Rleb _ _); try discriminate; inversion E; auto.
Qed.
(* ------------------------------------------------------------------ *)
(** * stretch.py *)
Lemma stretch_some : forall Ls V X d, exists l X' d', stretch_cands Ls V X (Some d) = Some (l, X', d') /\ (length l = length Ls)%nat.
Proof.
  induction Ls as [|L Ls IH]; intros V X d; cbn [stretch_cands]; [exists [], X, (Some d); auto|]. destruct (block_candidate L X (V X L)) as [[x dd]|]; cbn [fst snd].
  - destruct (IH V [x] dd) as [l [X' [d' [E EL]]]]. rewrite E. exists (([x], dd, L) :: l), X', d'. split; auto. simpl. auto.
  - destruct (IH V X d) as [l [X' [d' [E EL]]]]. rewrite E. exists ((X, d, L) :: l), X', d'. split; auto. simpl. auto.
Qed.
(** the first metric: the candidate is the vertex farthest from the existing samples *)
Theorem stretch_first : forall L Ls V X v V', V X L = Some (v :: V') ->
  exists x d l X' d', stretch_cands (L :: Ls) V X None = Some (([x], d, L) :: l, X', d') /\ length l = length Ls /\ In x (v :: V') /\ d = mind L X x /\ forall y, In y (v :: V') -> mind L X y <= d.
Proof.
  intros L Ls V X v V' E. cbn [stretch_cands]. rewrite E. cbn [block_candidate fst snd]. set (W := v :: V') in *. set (k := argmax (map (mind L X) W)). destruct (argmax_spec (map (mind L X) W)) as [A1 [A2 _]]; [discriminate|]. fold k in A1, A2. rewrite map_length in A1, A2.
  assert (SP : In (nth k W []) W /\ forall y, In y W -> mind L X y <= mind L X (nth k W [])).
  { split; [apply nth_In; auto|]. intros y Iy. apply (In_nth _ _ []) in Iy. destruct Iy as [j [Hj <-]]. specialize (A2 j Hj). unfold vget in A2. rewrite !(nth_indep _ 0 (mind L X [])) in A2 by (rewrite map_length; auto). rewrite !map_nth in A2. auto. }
  destruct (stretch_some Ls V [nth k W []] (mind L X (nth k W []))) as [l [X' [d' [ES EL]]]]. rewrite ES. exists (nth k W []), (mind L X (nth k W [])), l, X', d'. split; auto. split; auto. split; [apply SP|]. split; auto. apply SP.
Qed.
Example ex_stretch : exists x d l X' d', stretch_cands [[[1]]; [[2]]] (fun _ _ => Some [[1]; [3]]) [[0]] None = Some (([x], d, [[1]]) :: l, X', d') /\ length l = 1%nat /\ In x [[1]; [3]] /\ 3 <= d.
Proof.
  destruct (stretch_first [[1]] [[[2]]] (fun _ _ => Some [[1]; [3]]) [[0]] [1] [[3]] eq_refl) as [x [d [l [X' [d' [E [EL [Ix [_ Hd]]]]]]]]]. exists x, d, l, X', d'. split; auto. split; auto. split; auto. specialize (Hd [3] (or_intror (or_introl eq_refl))). unfold mind, vmin in Hd. cbn [map fold_left] in Hd. rewrite Ld1 in Hd. rewrite Rabs_left in Hd by lra. lra.
Qed.
(** "distance to the existing samples": from the second metric on, the samples have been replaced by the previous candidate *)
Theorem stretch_overwritten_refuted : exists Ls V X l X' d', stretch_cands Ls V X None = Some (l, X', d') /\ length l = 2%nat /\
  (forall Y L, V Y L = Some [[1]]) /\ let '(c, d, L) := nth 1 l ([], 0, []) in c = [[1]] /\ d = 0 /\ mind L X [1] = 1.
Proof.
  exists [[[1]]; [[1]]], (fun _ _ => Some [[1]]), [[0]]. assert (M0 : mind [[1]] [[0]] [1] = 1) by (unfold mind, vmin; cbn [map fold_left]; rewrite Ld1; rabs; lra). assert (M1 : mind [[1]] [[1]] [1] = 0) by (unfold mind, vmin; cbn [map fold_left]; rewrite Ld1; rabs; lra).
  cbn [stretch_cands block_candidate map fst snd]. change (argmax [mind [[1]] [[0]] [1]]) with O. cbn [nth]. change (argmax [mind [[1]] [[1]] [1]]) with O. cbn [nth]. eexists _, _, _. split; [reflexivity|]. split; [reflexivity|]. split; [reflexivity|]. cbn [nth]. auto.
Qed.
(** an exception for the first metric leaves d unbound; a later one repeats the previous candidate for the wrong metric *)
Theorem stretch_unbound_refuted : exists Ls V X, (exists L, In L Ls /\ V X L <> None) /\ stretch_cands Ls V X None = None.
Proof.
  exists [[[1]]; [[2]]], (fun _ L => if Req_EM_T (vget (nth 0 L []) 0) 1 then None else Some [[1]]), [[0]]. split.
  - exists [[2]]. split; [right; left; auto|]. unfold vget. cbn [nth]. destruct (Req_EM_T 2 1); [lra|discriminate].
  - cbn [stretch_cands]. unfold vget. cbn [nth]. destruct (Req_EM_T 1 1); [reflexivity|lra].
Qed.
Theorem stretch_stale_refuted : exists Ls V X l X' d', stretch_cands Ls V X None = Some (l, X', d') /\ V [[1]] (nth 1 Ls []) = None /\
  exists c d, nth 1 l ([], 0, []) = (c, d, nth 1 Ls []) /\ nth 0 l ([], 0, []) = (c, d, nth 0 Ls []) /\ d <> mind (nth 1 Ls []) X (nth 0 c []).
Proof.
  exists [[[1]]; [[2]]], (fun _ L => if Req_EM_T (vget (nth 0 L []) 0) 1 then Some [[1]] else None), [[0]].
  assert (M0 : mind [[1]] [[0]] [1] = 1) by (unfold mind, vmin; cbn [map fold_left]; rewrite Ld1; rabs; lra).
  assert (M1 : mind [[2]] [[0]] [1] = 2). { unfold mind, vmin; cbn [map fold_left]. rewrite Ldist_row. rewrite !dot_cons, !dot_nil_l. rabs; lra. }
  cbn [stretch_cands]. unfold vget. cbn [nth]. destruct (Req_EM_T 1 1) as [_|]; [|lra]. destruct (Req_EM_T 2 1); [lra|]. cbn [block_candidate map fst snd]. change (argmax [mind [[1]] [[0]] [1]]) with O. cbn [nth]. eexists _, _, _. split; [reflexivity|]. split; [reflexivity|]. eexists _, _. split; [reflexivity|]. split; [reflexivity|]. cbn [nth]. rewrite M0, M1. lra.
Qed.
(* ------------------------------------------------------------------ *)
(** * the sampler object *)
Fixpoint draws (next : option (mat -> vec)) (feval : vec -> vec) (ns : list nat) (s : sampler) : option sampler :=
  match ns with [] => Some s | n :: ns' => match sampler_sample next feval n s with None => None | Some s' => draws next feval ns' s' end end.
Definition aligned (feval : vec -> vec) (s : sampler) : Prop := match sp_fX s with Some f => f = map feval (sp_X s) | None => sp_X s = [] end.
Lemma draw_len : forall n next X, length (draw_loop n next X) = n.
Proof. induction n; intros; simpl; auto. Qed.
(** After any history of draws, entry i of fX is the value at entry i of X, earlier samples are kept, and each draw is the next
    maximin point after all the previous ones (for a sampler whose selection routine is bound) *)
Theorem sampler_aligned : forall next feval ns s, aligned feval s ->
  exists s', draws (Some next) feval ns s = Some s' /\ aligned feval s' /\ length (sp_X s') = (length (sp_X s) + fold_right Nat.add 0 ns)%nat /\
    firstn (length (sp_X s)) (sp_X s') = sp_X s /\
    forall i, (length (sp_X s) <= i < length (sp_X s'))%nat -> nth i (sp_X s') [] = next (firstn i (sp_X s')).
Proof.
  intros next feval ns. assert (DL : forall n X i, (i < n)%nat -> nth i (draw_loop n next X) [] = next (X ++ firstn i (draw_loop n next X))).
  { induction n as [|n IH]; intros X i Hi; [lia|]. cbn [draw_loop]. cbv zeta. destruct i as [|i]; cbn [nth firstn]; [rewrite app_nil_r; auto|]. rewrite IH by lia. rewrite <- app_assoc. auto. }
  induction ns as [|n ns IH]; intros s A; cbn [draws fold_right].
  - exists s. split; auto. split; auto. split; [lia|]. split; [apply firstn_all|]. intros i Hi. lia.
  - assert (E1 : exists s1, sampler_sample (Some next) feval n s = Some s1 /\ aligned feval s1 /\ sp_X s1 = sp_X s ++ draw_loop n next (sp_X s)).
    { unfold sampler_sample. destruct n; eexists; (split; [reflexivity|]); split; try reflexivity; unfold aligned in *; cbn [sp_X sp_fX]; destruct (sp_fX s) as [f|]; rewrite map_app; rewrite ?A; auto. }
    destruct E1 as [s1 [E1 [A1 X1]]]. rewrite E1. destruct (IH s1 A1) as [s' [E2 [A2 [L2 [F2 N2]]]]]. exists s'. split; auto. split; auto. assert (L1 : length (sp_X s1) = (length (sp_X s) + n)%nat) by (rewrite X1, app_length, draw_len; auto). split; [lia|].
    assert (FF : forall k, (k <= length (sp_X s1))%nat -> firstn k (sp_X s') = firstn k (sp_X s1)). { intros k Hk. rewrite <- F2. rewrite firstn_firstn. rewrite Nat.min_l by lia. auto. }
    split.
    + rewrite FF by lia. rewrite X1. rewrite firstn_app, firstn_all, Nat.sub_diag, app_nil_r. auto.
    + intros i Hi. destruct (lt_dec i (length (sp_X s1))).
      * rewrite FF by lia. assert (NI : nth i (sp_X s') [] = nth i (sp_X s1) []). { rewrite <- F2. rewrite <- (firstn_skipn (length (sp_X s1)) (sp_X s')) at 1. rewrite app_nth1; auto. rewrite firstn_length. lia. }
        rewrite NI, X1. rewrite app_nth2 by lia. rewrite DL by lia. f_equal. rewrite firstn_app. rewrite (firstn_all2 (sp_X s)) by lia. auto.
      * apply N2. lia.
Qed.
(** the present code: seq_maximin_sample is not imported, so the first draw of one sample or more raises *)
Theorem sampler_unbound_refuted : exists feval s, aligned feval s /\ forall n, draws None feval [S n] s = None.
Proof. exists (fun x => x), (mkSampler [] None). split; [reflexivity|]. intro n. reflexivity. Qed.
(** existing samples given without their values are accepted, and fX is then shorter than X *)
Theorem sampler_missing_refuted : exists m X s next feval s', sampler_init m (Some X) None = Some s /\ draws (Some next) feval [1%nat] s = Some s' /\
  exists f, sp_fX s' = Some f /\ length f <> length (sp_X s') /\ nth 0 f [] <> feval (nth 0 (sp_X s') []).
Proof.
  exists 1%nat, [[0]], (mkSampler [[0]] None), (fun _ => [1]), (fun x => x), (mkSampler [[0]; [1]] (Some [[1]])). split; [reflexivity|]. split; [reflexivity|]. exists [[1]]. split; auto. split; [simpl; lia|]. cbn [nth sp_X]. intro E. inversion E. lra.
Qed.
(** given values are accepted exactly when there is one per sample *)
Theorem sampler_init_spec : forall m X f, (exists s, sampler_init m (Some X) (Some f) = Some s /\ sp_X s = X /\ sp_fX s = Some f) <-> Forall (fun x => length x = m) X /\ length f = length X.
Proof.
  intros m X f. unfold sampler_init. assert (FB : forallb (fun x => Nat.eqb (length x) m) X = true <-> Forall (fun x => length x = m) X). { rewrite forallb_forall, Forall_forall. split; intros H x I; apply Nat.eqb_eq; auto. }
  destruct (forallb _ X) eqn:E; cbn [negb].
  - destruct (Nat.eqb_spec (length f) (length X)) as [EL|NL].
    + split; [intros _; split; auto; apply FB; auto|]. intros _. eexists. split; [reflexivity|]. auto.
    + split; [intros [s [Q _]]; discriminate|]. intros [_ Q]. congruence.
  - split; [intros [s [Q _]]; discriminate|]. intros [Q _]. apply FB in Q. congruence.
Qed.
Example ex_sampler : exists s', draws (Some (fun X => [INR (length X)])) (fun x => vscale 2 x) [1%nat; 2%nat] (mkSampler [] None) = Some s' /\ aligned (fun x => vscale 2 x) s' /\ length (sp_X s') = 3%nat.
Proof. destruct (sampler_aligned (fun X => [INR (length X)]) (fun x => vscale 2 x) [1%nat; 2%nat] (mkSampler [] None) eq_refl) as [s' [E [A [L _]]]]. exists s'. split; auto. Qed.
