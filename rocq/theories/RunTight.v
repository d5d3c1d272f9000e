(** Which candidate domains the sequential maximin sampler visits, when the sweeps of the samplers stop, and small facts on the optimizers. *)
Require Import Reals Lra Lia List Bool Arith ZArith.
From Verif Require Import RVec Num Sums DomModel DomMoreModel SweepProofs LipModel LipProofs MatLib GeoModel SampModel PigeonLib BlockProofs SampMoreModel ProjModel OptModel.
Import ListNotations.
Local Open Scope R_scope.

(* ---------- the domains of seq_maximin_sample ---------- *)
(** the constraint of metric k in the combination i: its vertex number i_k *)
Definition pick (vertices : list mat) (i : list nat) (k : nat) : nat * vec := (k, nth (nth k i O) (nth k vertices []) []).
(** constraints are added in the given order as long as the domain is not empty *)
Definition chain_spec (empty : list (nat * vec) -> bool) (order : list nat -> list nat) (vertices : list mat) (i : list nat) (cs : list (nat * vec)) : Prop :=
  exists j, (j <= length (order i))%nat /\ cs = map (pick vertices i) (firstn j (order i)) /\
    (forall l, (0 < l <= j)%nat -> empty (map (pick vertices i) (firstn l (order i))) = false) /\
    ((j < length (order i))%nat -> empty (map (pick vertices i) (firstn (S j) (order i))) = true).
(** the pairs (metric, number of the vertex) of a domain; two domains are the same if they have the same pairs *)
Definition uses (t : list nat * list (nat * vec)) (q : nat * nat) : Prop := In (fst q) (map fst (snd t)) /\ snd q = nth (fst q) (fst t) O.
Definition same_use (t t' : list nat * list (nat * vec)) : Prop := forall q, uses t q <-> uses t' q.
(** the points drawn in the domains visited, round by round *)
Fixpoint drawn (gen : nat -> list (nat * vec) -> mat) (it : nat) (T : list (list nat * list (nat * vec))) : mat :=
  match T with [] => [] | t :: T' => gen it (snd t) ++ drawn gen (S it) T' end.

Lemma chain_spec_ok : forall empty order vertices i, chain_spec empty order vertices i (seq_chain empty (order i) (vert_of vertices i) []).
Proof.
  intros empty order vertices i. unfold chain_spec. set (P := map (pick vertices i)).
  assert (G : forall o pre, pre ++ o = order i -> (forall l, (0 < l <= length pre)%nat -> empty (P (firstn l (order i))) = false) ->
    exists j, (j <= length (order i))%nat /\ seq_chain empty o (vert_of vertices i) (P pre) = P (firstn j (order i)) /\ (forall l, (0 < l <= j)%nat -> empty (P (firstn l (order i))) = false) /\ ((j < length (order i))%nat -> empty (P (firstn (S j) (order i))) = true)).
  { induction o as [|k o IH]; intros pre E H; cbn [seq_chain].
    - rewrite app_nil_r in E. subst pre. exists (length (order i)). split; [lia|]. split; [rewrite firstn_all; auto|]. split; [exact H|lia].
    - assert (EK : P pre ++ [(k, vert_of vertices i k)] = P (pre ++ [k])) by (unfold P; rewrite map_app; reflexivity). rewrite EK.
      assert (FN : firstn (S (length pre)) (order i) = pre ++ [k]) by (rewrite <- E; replace (S (length pre)) with (length pre + 1)%nat by lia; rewrite firstn_app_2; reflexivity).
      destruct (empty (P (pre ++ [k]))) eqn:EM.
      + exists (length pre). split; [rewrite <- E, app_length; cbn; lia|]. split; [rewrite <- E, firstn_app, firstn_all, Nat.sub_diag; cbn [firstn]; rewrite app_nil_r; auto|]. split; auto. intros _. rewrite FN. exact EM.
      + apply IH; [rewrite <- app_assoc; exact E|]. intros l Hl. rewrite app_length in Hl. cbn in Hl. destruct (Nat.eq_dec l (S (length pre))) as [->|]; [rewrite FN; exact EM|apply H; lia]. }
  destruct (G (order i) [] eq_refl) as (j & A & B & C & D); [cbn; lia|]. exists j. auto.
Qed.
Lemma found_uses : forall cs i q, In q (found_of cs i) <-> uses (i, cs) q.
Proof.
  intros cs i q. unfold found_of, uses. cbn [fst snd]. rewrite !in_map_iff. split.
  - intros [p [<- I]]. cbn [fst snd]. split; auto. exists p. auto.
  - intros [[p [E I]] Q]. exists p. split; auto. destruct q as [a b]. cbn [fst snd] in *. subst. reflexivity.
Qed.
Lemma incl_pairs_ok : forall a b, incl_pairs a b = true <-> (forall q, In q a -> In q b).
Proof.
  intros a b. unfold incl_pairs. rewrite forallb_forall. split; intros H q I; specialize (H q I).
  - apply existsb_exists in H. destruct H as [r [Ir E]]. apply andb_true_iff in E. destruct E as [E1 E2]. apply Nat.eqb_eq in E1, E2. destruct q, r. cbn in *. subst. auto.
  - apply existsb_exists. exists q. split; auto. rewrite !Nat.eqb_refl. reflexivity.
Qed.
Lemma same_found_ok : forall cs i cs' i', same_found (found_of cs i) (found_of cs' i') = true <-> same_use (i, cs) (i', cs').
Proof.
  intros cs i cs' i'. unfold same_found, same_use. rewrite andb_true_iff, !incl_pairs_ok. split.
  - intros [H1 H2] q. rewrite <- !found_uses. split; auto.
  - intros H. split; intros q; rewrite !found_uses; apply H.
Qed.
Definition fo (t : list nat * list (nat * vec)) : list (nat * nat) := found_of (snd t) (fst t).
Lemma next_trace : forall empty order vertices past idx,
  match next_domain empty order vertices (map fo past) idx with
  | None => forall i, In i idx -> exists t cs, In t past /\ chain_spec empty order vertices i cs /\ same_use t (i, cs)
  | Some (cs, f, rest) => exists pre i, idx = pre ++ i :: rest /\ chain_spec empty order vertices i cs /\ f = fo (i, cs) /\ (forall t, In t past -> ~ same_use t (i, cs)) /\
      forall i', In i' pre -> exists t cs', In t past /\ chain_spec empty order vertices i' cs' /\ same_use t (i', cs')
  end.
Proof.
  intros empty order vertices past. induction idx as [|i idx IH]; cbn [next_domain]; [intros i []|]. set (cs := seq_chain empty (order i) (vert_of vertices i) []). pose proof (chain_spec_ok empty order vertices i) as CS. fold cs in CS.
  destruct (existsb (same_found (found_of cs i)) (map fo past)) eqn:EX.
  - assert (U : exists t cs', In t past /\ chain_spec empty order vertices i cs' /\ same_use t (i, cs')).
    { apply existsb_exists in EX. destruct EX as [r [Ir E]]. apply in_map_iff in Ir. destruct Ir as [[j ds] [<- It]]. unfold fo in E. cbn [fst snd] in E. apply same_found_ok in E. exists (j, ds), cs. split; auto. split; auto. intro q. symmetry. apply E. }
    destruct (next_domain empty order vertices (map fo past) idx) as [[[cs1 f1] rest]|].
    + destruct IH as (pre & k & E & C & F & N & P). exists (i :: pre), k. rewrite E. split; auto. split; auto. split; auto. split; auto. intros i' [<-|I]; auto.
    + intros i' [<-|I]; auto.
  - exists [], i. split; auto. split; auto. split; auto. split; [|intros i' []]. intros [j ds] It SU. assert (T : existsb (same_found (found_of cs i)) (map fo past) = true); [|congruence].
    apply existsb_exists. exists (fo (j, ds)). split; [apply in_map; auto|]. apply same_found_ok. intro q. symmetry. apply SU.
Qed.
(** the sampler stops early if the points of the last round, drawn with the constraints of all metrics, all score below [slack] times the best *)
Definition enough (Ls : list mat) (Xhat : mat) (slack : R) (gen : nat -> list (nat * vec) -> mat) (it : nat) (acc : mat) (T : list (list nat * list (nat * vec))) : Prop :=
  exists T1 t, T = T1 ++ [t] /\ length (snd t) = length Ls /\ vmax (map (score_Ls Ls Xhat) (gen (it + length T1)%nat (snd t))) < slack * vmax (map (score_Ls Ls Xhat) (acc ++ drawn gen it T)).
Lemma cands_trace : forall Ls Xhat slack empty order vertices gen n it past idx acc, ForallOrdPairs (fun a b => ~ same_use a b) past ->
  exists T, seq_cands n it Ls Xhat slack empty order vertices gen (map fo past) idx acc = acc ++ drawn gen it T /\ (length T <= n)%nat /\
    (forall t, In t T -> In (fst t) idx /\ chain_spec empty order vertices (fst t) (snd t)) /\ ForallOrdPairs (fun a b => ~ same_use a b) (past ++ T) /\
    (length T = n \/ enough Ls Xhat slack gen it acc T \/ forall i, In i idx -> exists t cs, In t (past ++ T) /\ chain_spec empty order vertices i cs /\ same_use t (i, cs)).
Proof.
  intros Ls Xhat slack empty order vertices gen. induction n as [|n IH]; intros it past idx acc PW; cbn [seq_cands].
  { exists []. cbn. rewrite !app_nil_r. split; auto. split; auto. split; [intros t []|]. split; auto. }
  pose proof (next_trace empty order vertices past idx) as NT. destruct (next_domain empty order vertices (map fo past) idx) as [[[cs f] rest]|].
  2: { exists []. cbn [drawn length app]. rewrite !app_nil_r. split; auto. split; [lia|]. split; [intros t []|]. split; auto. }
  destruct NT as (pre & i & EI & CS & -> & NEW & OLD). cbv zeta.
  assert (PW' : ForallOrdPairs (fun a b => ~ same_use a b) (past ++ [(i, cs)])).
  { clear - PW NEW. induction past as [|t past IH]; cbn [app]; [repeat constructor|]. inversion PW as [|? ? F O]; subst. constructor; [|apply IH; auto; intros; apply NEW; simpl; auto]. apply Forall_app. split; auto. constructor; [|constructor]. apply NEW. simpl. auto. }
  assert (II : In i idx) by (rewrite EI; apply in_or_app; simpl; auto).
  destruct (Rltb _ _ && Nat.eqb (length cs) (length Ls))%bool eqn:ST.
  - exists [(i, cs)]. cbn [drawn length snd]. rewrite app_nil_r. split; auto. split; [lia|]. split; [intros t [<-|[]]; auto|]. split; auto. right. left. exists [], (i, cs). cbn [app length snd drawn]. rewrite app_nil_r, Nat.add_0_r. apply andb_true_iff in ST. destruct ST as [S1 S2]. apply Rltb_true in S1. apply Nat.eqb_eq in S2. auto.
  - destruct (IH (S it) (past ++ [(i, cs)]) rest (acc ++ gen it cs) PW') as (T & E & LT & IN & PT & C). rewrite map_app in E. cbn [map] in E. exists ((i, cs) :: T). cbn [drawn length snd]. split; [rewrite E, <- app_assoc; auto|]. split; [lia|]. split.
    { intros t [<-|I]; auto. destruct (IN t I) as [A B]. split; auto. rewrite EI. apply in_or_app. simpl. auto. }
    rewrite <- app_assoc in PT, C. cbn [app] in PT, C. split; auto. destruct C as [C|[C|C]]; [left; lia|right; left|right; right].
    + destruct C as (T1 & t & -> & LC & SC). exists ((i, cs) :: T1), t. split; auto. split; auto. cbn [length drawn app snd]. replace (it + S (length T1))%nat with (S it + length T1)%nat by lia. rewrite app_assoc. exact SC.
    + intros i' I'. rewrite EI in I'. apply in_app_or in I'. destruct I' as [I'|[<-|I']]; auto.
      * destruct (OLD i' I') as (t & cs' & It & Q). exists t, cs'. split; auto. apply in_or_app. auto.
      * exists (i, cs), cs. split; [apply in_or_app; simpl; auto|]. split; auto. intro; reflexivity.
Qed.
(** the point returned is selected from the points drawn in at most 100 pairwise different domains, each built from one of the combinations with the vertices of the right metrics; unless the sampler stops early, every combination leads to one of them *)
Theorem seq_domains : forall Ls Xhat slack corner u empty order vertices idx gen, Xhat <> [] ->
  exists T, seq_maximin Ls Xhat slack corner u empty order vertices idx gen = seq_select Ls Xhat slack (drawn gen 0 T) /\ (length T <= 100)%nat /\
    (forall t, In t T -> In (fst t) idx /\ chain_spec empty order vertices (fst t) (snd t)) /\ ForallOrdPairs (fun a b => ~ same_use a b) T /\
    (length T = 100%nat \/ enough Ls Xhat slack gen 0 [] T \/ forall i, In i idx -> exists t cs, In t T /\ chain_spec empty order vertices i cs /\ same_use t (i, cs)).
Proof.
  intros Ls Xhat slack corner u empty order vertices idx gen NE. destruct (cands_trace Ls Xhat slack empty order vertices gen 100 0 [] idx []) as (T & E & H); [constructor|]. exists T. split; [|exact H].
  unfold seq_maximin. destruct Xhat as [|x X]; [congruence|]. cbn [map app] in E. rewrite E. reflexivity.
Qed.

(* ---------- loops that stop when a step is short ---------- *)
(** k steps *)
Fixpoint times {A : Type} (k : nat) (g : A -> A) (x : A) : A := match k with O => x | S k' => g (times k' g x) end.
Lemma iter_in : forall (A : Type) (g : A -> A) j x, times j g (g x) = g (times j g x).
Proof. intros A g j x. induction j; cbn; congruence. Qed.
Lemma stop_loop : forall (A : Type) (step : A -> A) (stop : A -> bool) (run : nat -> A -> A), (forall x, run O x = x) -> (forall n x, run (S n) x = if stop x then step x else run n (step x)) ->
  forall n x, exists k, (k <= n)%nat /\ run n x = times k step x /\ ((0 < n)%nat -> (0 < k)%nat) /\ (forall j, (S j < k)%nat -> stop (times j step x) = false) /\ ((k < n)%nat -> stop (times (k - 1) step x) = true).
Proof.
  intros A step stop run R0 RS. induction n as [|n IH]; intro x; [exists O; rewrite R0; repeat split; auto; lia|]. rewrite RS. destruct (stop x) eqn:ST.
  - exists 1%nat. split; [lia|]. split; auto. split; auto. split; [lia|]. intros _. exact ST.
  - destruct (IH (step x)) as (k & K & E & P & B & L). exists (S k). split; [lia|]. split; [rewrite E, iter_in; reflexivity|]. split; [lia|]. split.
    + intros j Hj. destruct j; [exact ST|]. cbn [times]. rewrite <- iter_in. apply B. lia.
    + intro Hk. destruct k; [lia|]. specialize (L ltac:(lia)). replace (S (S k) - 1)%nat with (S k) by lia. replace (S k - 1)%nat with k in L by lia. cbn [times]. rewrite <- iter_in. exact L.
Qed.
Lemma lloyd_dx_lt : forall Y X t, X <> [] -> length Y = length X -> Rltb (lloyd_dx Y X) t = true <-> (forall i, (i < length X)%nat -> edist (nth i Y []) (nth i X []) < t).
Proof.
  intros Y X t NE L. unfold lloyd_dx. assert (LC : length (combine Y X) = length X) by (rewrite combine_length; lia). assert (NC : combine Y X <> []) by (intro Q; rewrite Q in LC; destruct X; [congruence|discriminate]). rewrite Rltb_true. split.
  - intros H i Hi. eapply Rle_lt_trans; [|exact H]. apply (vmax_map_ge _ (fun p => edist (fst p) (snd p)) (combine Y X) (nth i Y [], nth i X [])). rewrite <- (combine_nth Y X i [] [] L). apply nth_In. lia.
  - intro H. destruct (vmax_map_at _ (fun p => edist (fst p) (snd p)) (combine Y X) NC) as [p [I E]]. rewrite E. apply (In_nth _ _ ([], [])) in I. destruct I as [i [Hi <-]]. rewrite combine_nth by auto. cbn [fst snd]. apply H. lia.
Qed.
(** Lloyd's method: steps are taken until one of them moves every point by less than xtol; no step is dropped *)
Theorem lloyd_stops : forall n L verts cc xtol X, X <> [] -> let step := fun X => map (fun k => cc (owned L X (verts X) k)) (seq 0 (length X)) in
  exists k, (k <= n)%nat /\ lloyd n L verts cc xtol X = times k step X /\ ((0 < n)%nat -> (0 < k)%nat) /\
    (forall j, (S j < k)%nat -> exists i, (i < length X)%nat /\ xtol <= edist (nth i (times (S j) step X) []) (nth i (times j step X) [])) /\
    ((k < n)%nat -> forall i, (i < length X)%nat -> edist (nth i (times k step X) []) (nth i (times (k - 1) step X) []) < xtol).
Proof.
  intros n L verts cc xtol X NE step. assert (LS : forall j, length (times j step X) = length X) by (induction j; cbn [times]; auto; unfold step at 1; rewrite map_length, seq_length; auto).
  assert (NJ : forall j, times j step X <> []) by (intros j Q; specialize (LS j); rewrite Q in LS; destruct X; [congruence|discriminate]).
  destruct (stop_loop _ step (fun X => Rltb (lloyd_dx (step X) X) xtol) (fun n => lloyd n L verts cc xtol) ltac:(reflexivity) ltac:(reflexivity) n X) as (k & K & E & P & B & ST). exists k. split; auto. split; auto. split; auto. split.
  - intros j Hj. specialize (B j Hj). destruct (Forall_Exists_dec (fun i => edist (nth i (times (S j) step X) []) (nth i (times j step X) []) < xtol) (fun i => Rlt_dec _ _) (seq 0 (length X))) as [F|Ex].
    + exfalso. assert (T : Rltb (lloyd_dx (step (times j step X)) (times j step X)) xtol = true); [|congruence]. apply lloyd_dx_lt; [apply NJ|exact (eq_trans (LS (S j)) (eq_sym (LS j)))|]. intros i Hi. rewrite LS in Hi. rewrite Forall_forall in F. apply (F i). apply in_seq. lia.
    + apply Exists_exists in Ex. destruct Ex as [i [I Q]]. apply in_seq in I. exists i. split; [lia|lra].
  - intros Hk i Hi. specialize (ST Hk). assert (K0 : (0 < k)%nat) by (apply P; lia). destruct k as [|k]; [lia|]. replace (S k - 1)%nat with k in * by lia. apply (proj1 (lloyd_dx_lt (step (times k step X)) (times k step X) xtol (NJ k) (eq_trans (LS (S k)) (eq_sym (LS k)))) ST). rewrite LS. exact Hi.
Qed.
(** one sweep: the number returned is the largest change of a coordinate *)
Definition change (X Y : mat) (i : nat) : R := vmax (map Rabs (vsub (nth i X []) (nth i Y []))).
Lemma sweep_fold : forall vv l X r, NoDup l -> (forall i, In i l -> (i < length X)%nat) -> let s := fold_left (pf_row vv) l (X, r) in
  length (fst s) = length X /\ r <= snd s /\ (forall i, ~ In i l -> nth i (fst s) [] = nth i X []) /\ (forall i, In i l -> change X (fst s) i <= snd s) /\ (snd s = r \/ exists i, In i l /\ snd s = change X (fst s) i).
Proof.
  intros vv. induction l as [|a l IH]; intros X r ND IN s.
  { unfold s. cbn. split; auto. split; [lra|]. split; auto. split; [intros i []|auto]. }
  inversion ND as [|? ? NA ND']; subst. assert (Ha : (a < length X)%nat) by (apply IN; simpl; auto). set (x := vv a (without a X) (nth a X [])). set (r1 := Rmax r (vmax (map Rabs (vsub (nth a X []) x)))).
  assert (ES : s = fold_left (pf_row vv) l (set_row a x X, r1)) by reflexivity. assert (LR : length (set_row a x X) = length X) by (apply set_row_len; auto).
  destruct (IH (set_row a x X) r1 ND' ltac:(intros i I; rewrite LR; apply IN; simpl; auto)) as (A & B & C & D & F). cbv zeta in A, B, C, D, F. rewrite <- ES in A, B, C, D, F.
  assert (XA : nth a (fst s) [] = x) by (rewrite C by auto; rewrite set_row_nth by auto; rewrite Nat.eqb_refl; reflexivity).
  assert (CA : change X (fst s) a = vmax (map Rabs (vsub (nth a X []) x))) by (unfold change; rewrite XA; reflexivity).
  assert (CO : forall i, In i l -> change X (fst s) i = change (set_row a x X) (fst s) i) by (intros i I; unfold change; rewrite set_row_nth by auto; destruct (Nat.eqb_spec i a); [subst; contradiction|reflexivity]).
  split; [lia|]. split; [apply (Rle_trans _ r1); auto; apply Rmax_l|]. split.
  { intros i NI. rewrite C by (intro; apply NI; simpl; auto). rewrite set_row_nth by auto. destruct (Nat.eqb_spec i a); [subst; exfalso; apply NI; simpl; auto|reflexivity]. }
  split.
  - intros i [<-|I]; [rewrite CA; apply (Rle_trans _ r1); auto; apply Rmax_r|rewrite CO by auto; auto].
  - destruct F as [F|[i [I F]]]; [|right; exists i; split; [simpl; auto|rewrite CO by auto; exact F]]. rewrite F. unfold r1, Rmax. destruct (Rle_dec _ _); [right; exists a; split; [simpl; auto|symmetry; exact CA]|auto].
Qed.
(** the filling sweeps of projection_sample: they go on until one changes no coordinate by a millionth, and the result of the last one is returned *)
Theorem fill_sweeps_stop : forall n vv X, X <> [] -> let N := length X in let sweep := fun X => fst (pf_sweep vv N X) in
  exists k, (k <= n)%nat /\ pf_loop n vv N X = times k sweep X /\ ((0 < n)%nat -> (0 < k)%nat) /\
    (forall j, (S j < k)%nat -> exists i, (i < N)%nat /\ / 1000000 <= change (times j sweep X) (times (S j) sweep X) i) /\
    ((k < n)%nat -> forall i, (i < N)%nat -> change (times (k - 1) sweep X) (times k sweep X) i < / 1000000).
Proof.
  intros n vv X NE N sweep. assert (SW : forall Y, length Y = N -> length (sweep Y) = N /\ (forall i, (i < N)%nat -> change Y (sweep Y) i <= snd (pf_sweep vv N Y)) /\ (snd (pf_sweep vv N Y) = 0 \/ exists i, (i < N)%nat /\ snd (pf_sweep vv N Y) = change Y (sweep Y) i)).
  { intros Y LY. destruct (sweep_fold vv (seq 0 N) Y 0 (seq_NoDup _ _) ltac:(intros i I; apply in_seq in I; lia)) as (A & _ & _ & D & F). cbv zeta in A, D, F. fold (pf_sweep vv N Y) in A, D, F. split; [unfold sweep; lia|]. split; [intros i Hi; apply D; apply in_seq; lia|]. destruct F as [F|[i [I F]]]; [auto|right; exists i; apply in_seq in I; split; [lia|exact F]]. }
  assert (LJ : forall j, length (times j sweep X) = N) by (induction j; cbn [times]; [reflexivity|apply SW; auto]).
  destruct (stop_loop _ sweep (fun X => Rltb (snd (pf_sweep vv N X)) (/ 1000000)) (fun n => pf_loop n vv N) ltac:(reflexivity) ltac:(reflexivity) n X) as (k & K & E & P & B & ST). exists k. split; auto. split; auto. split; auto. split.
  - intros j Hj. specialize (B j Hj). apply Rltb_false in B. destruct (SW _ (LJ j)) as (_ & _ & [Z|[i [Hi Z]]]); [rewrite Z in B; lra|]. exists i. split; auto. cbn [times]. lra.
  - intros Hk i Hi. specialize (ST Hk). apply Rltb_true in ST. assert (K0 : (0 < k)%nat) by (apply P; lia). destruct k as [|k]; [lia|]. replace (S k - 1)%nat with k in * by lia. cbn [times]. destruct (SW _ (LJ k)) as (_ & D & _). specialize (D i Hi). lra.
Qed.

(* ---------- optimizers ---------- *)
(** status 4 is reported exactly when no iteration is allowed; the starting point is then returned *)
Theorem gn_no_iterations : forall n f F gs ls verbose tol0 tolx maxiter x0 x i, gauss_newton n f F gs ls verbose tol0 tolx maxiter x0 = Some (x, i) ->
  (i = Some 4%nat <-> maxiter = O) /\ (maxiter = O -> x = x0).
Proof.
  intros n f F gs ls verbose tol0 tolx maxiter x0 x i H. unfold gauss_newton in H. destruct maxiter as [|k]; [injection H as <- <-; split; [tauto|auto]|]. destruct (gn_loop _ _ _ _ _ _ _ _ _ _) as [[it s]|]; [|discriminate]. split; [|discriminate]. split; [|discriminate]. intro Q. exfalso. subst i. injection H as _ H. unfold gn_info in H.
  destruct (Rleb _ _); [discriminate|]. destruct (Rleb _ _); [discriminate|]. destruct (Nat.eqb _ _); [discriminate|]. destruct (Rleb _ _); discriminate.
Qed.
(** the norm of the sequential programs with norm = inf is the largest absolute value of the residual *)
Theorem linf_is_max : forall x, (forall a, In a x -> Rabs a <= linf x) /\ (x <> [] -> exists a, In a x /\ linf x = Rabs a) /\ (x = [] -> linf x = 0).
Proof.
  induction x as [|a x [IH1 [IH2 IH3]]]; [split; [intros a []|split; [congruence|reflexivity]]|]. change (linf (a :: x)) with (Rmax (Rabs a) (linf x)). split; [intros b [<-|I]; [apply Rmax_l|apply (Rle_trans _ (linf x)); [auto|apply Rmax_r]]|]. split; [|discriminate]. intros _.
  unfold Rmax. destruct (Rle_dec (Rabs a) (linf x)) as [Q|Q]; [|exists a; split; [simpl; auto|reflexivity]]. destruct x as [|b x]; [exists a; split; [simpl; auto|]; specialize (IH3 eq_refl); pose proof (Rabs_pos a); lra|]. destruct (IH2 ltac:(discriminate)) as [c [I E]]. exists c. split; [simpl; auto|exact E].
Qed.
(** two metrics, one vertex of the first and two of the second, no empty domains: the two combinations give different domains *)
Example domains_case : let vertices := [[[1]]; [[2]; [3]]] in let order := fun _ : list nat => [1%nat; O] in
  chain_spec (fun _ => false) order vertices [O; 1%nat] [(1%nat, [3]); (O, [1])] /\ chain_spec (fun _ => false) order vertices [O; O] [(1%nat, [2]); (O, [1])] /\
  ~ same_use ([O; 1%nat], [(1%nat, [3]); (O, [1])]) ([O; O], [(1%nat, [2]); (O, [1])]) /\ [[0]] <> ([] : mat).
Proof.
  cbv zeta. split; [|split; [|split; [|discriminate]]].
  - exists 2%nat. split; [cbn; lia|]. split; [reflexivity|]. split; [auto|cbn; lia].
  - exists 2%nat. split; [cbn; lia|]. split; [reflexivity|]. split; [auto|cbn; lia].
  - intro H. destruct (proj1 (H (1%nat, 1%nat))) as [_ Q]; [split; [simpl; auto|reflexivity]|]. discriminate Q.
Qed.
(** a point that is sent to 0: one long step, then one that does not move *)
Example lloyd_stops_case : [[1]] <> ([] : mat) /\ lloyd 5 [[1]] (fun _ => []) (fun _ => [0]) (1 / 2) [[1]] = [[0]] /\ edist [0] [1] = 1 /\ edist [0] [0] = 0.
Proof.
  assert (D : forall a, edist [0] [a] = Rabs a). { intro a. unfold edist, norm2, norm2sq, vsub. cbn [vmap2]. rewrite !dot_cons, !dot_nil_l. replace ((0 - a) * (0 - a) + 0) with (Rsqr a) by (unfold Rsqr; ring). apply sqrt_Rsqr_abs. }
  split; [discriminate|]. split; [|rewrite !D, Rabs_R1, Rabs_R0; auto]. cbn [lloyd]. unfold lloyd_step, lloyd_dx. cbn [length seq map combine vmax fst snd fold_left]. rewrite !D, Rabs_R1, Rabs_R0.
  assert (A : Rltb 1 (1 / 2) = false) by (apply Rltb_false; lra). assert (B : Rltb 0 (1 / 2) = true) by (apply Rltb_true; lra). rewrite A, B. reflexivity.
Qed.
Example fill_sweeps_case : [[1]] <> ([] : mat) /\ change [[1]] [[0]] 0 = 1 /\ pf_sweep (fun _ _ _ => [0]) 1 [[1]] = ([[0]], 1) /\ / 1000000 <= 1.
Proof.
  assert (C : vmax (map Rabs (vsub [1] [0])) = 1) by (unfold vsub; cbn; rewrite Rminus_0_r; apply Rabs_R1). split; [discriminate|]. split; [exact C|]. split; [|lra]. unfold pf_sweep. cbn [seq fold_left]. unfold pf_row. cbn [fst snd nth]. rewrite C. unfold set_row. cbn [firstn skipn app]. f_equal. unfold Rmax. destruct (Rle_dec 0 1); lra.
Qed.
Example no_iterations_case : gauss_newton 1 (fun x => x) (fun _ => [[1]]) (fun _ y => Some y) (fun _ _ _ => None) true 1 1 0 [3] = Some ([3], Some 4%nat).
Proof. reflexivity. Qed.
Example linf_case : linf [1; -3; 2] = Rabs (-3).
Proof. destruct (linf_is_max [1; -3; 2]) as [U [A _]]. destruct (A ltac:(discriminate)) as [a [I E]]. pose proof (U (-3) ltac:(simpl; auto)) as Q. destruct I as [<-|[<-|[<-|[]]]]; auto; rewrite E in Q; rewrite (Rabs_left (-3)) in Q by lra; rewrite Rabs_pos_eq in Q by lra; lra. Qed.
