(** The search loop of projection_design (sample/projection.py 373-465), and existence of solvers. *)
Require Import Reals Lra Lia List Bool Arith ZArith Permutation.
From Verif Require Import RVec Num DomModel DomMoreModel SampModel LatinProofs ProjSatProofs SampMoreModel ProjModel ProjSearch.
Import ListNotations.
Local Open Scope nat_scope.

Lemma filter_le : forall (A : Type) (f : A -> bool) l, length (filter f l) <= length l.
Proof. induction l as [|a l IH]; simpl; auto. destruct (f a); simpl; lia. Qed.
Lemma filter_all : forall (A : Type) (f : A -> bool) l, length (filter f l) = length l -> filter f l = l /\ forallb f l = true.
Proof.
  induction l as [|a l IH]; intro H; [split; reflexivity|]. simpl in *. destruct (f a) eqn:E; simpl in *.
  - destruct IH as [I1 I2]; [lia|]. split; [f_equal; auto|auto].
  - exfalso. pose proof (filter_le _ f l). lia.
Qed.
Lemma filter_true : forall (A : Type) (f : A -> bool) l, forallb f l = true -> filter f l = l.
Proof. induction l as [|a l IH]; intro H; [reflexivity|]. simpl in *. apply andb_true_iff in H. destruct H as [H1 H2]. rewrite H1. f_equal. auto. Qed.

Section DESIGN.
Variables (K N maxiter : nat) (use : bool) (empty : list nat -> bool) (pt : list nat -> vec) (ord : vec -> list nat) (solve : solver).
Hypothesis HK : 0 < K.
Hypothesis HS : solver_ok K N solve.
Notation score sol := (score_maximin (map pt (combs K N sol))).

Lemma keep_last : exists ns, keep_range N use = ns ++ [0].
Proof. unfold keep_range. destruct use; [|exists []; reflexivity]. destruct (Nat.max (N - 1) 1) as [|n] eqn:E; [lia|]. cbn [seq rev]. eexists. reflexivity. Qed.
Lemma pd_asm0 : forall s, pd_asm K N ord s 0 = [].
Proof. intro s. unfold pd_asm. destruct (dt_dist s), (dt_sol s); reflexivity. Qed.
Lemma pd_try_some : forall s ns calls c sol, pd_try K N ord solve s calls ns = (c, Some sol) -> exists asg, satisfies asg (dt_cnf s) /\ sol = solution_list asg (K * N * N) /\ ~ In sol (dt_seen s).
Proof.
  induction ns as [|n ns IH]; intros calls c sol E; cbn [pd_try] in E; [discriminate|]. destruct (solve calls (dt_cnf s) (dt_seen s) (pd_asm K N ord s n)) as [sol'|] eqn:E1; [|eauto].
  injection E as _ <-. destruct HS as [S1 _]. destruct (S1 _ _ _ _ _ E1) as [asg [A [B [C _]]]]. exists asg. auto.
Qed.
Lemma pd_try_none : forall s ns calls c, pd_try K N ord solve s calls (ns ++ [0]) = (c, None) -> forall asg, satisfies asg (dt_cnf s) -> In (solution_list asg (K * N * N)) (dt_seen s).
Proof.
  induction ns as [|n ns IH]; intros calls c E; cbn [pd_try app] in E.
  - rewrite pd_asm0 in E. destruct (solve calls (dt_cnf s) (dt_seen s) []) eqn:E1; [discriminate|]. destruct HS as [_ S2]. eapply S2; eauto.
  - destruct (solve calls (dt_cnf s) (dt_seen s) (pd_asm K N ord s n)) eqn:E1; [discriminate|]. eauto.
Qed.

Definition pd_inv (s : dstate) (cs : list (list nat)) : Prop :=
  cnf_inv K N empty (dt_cnf s) cs /\
  (forall sol, In sol (dt_seen s) -> exists p, perms_family K N p /\ combs K N sol = cols K N p) /\
  (forall sol, In sol (dt_seen s) -> feasb K N empty sol = true -> tup_gt (score sol) (dt_score s) = false) /\
  match dt_best s with
  | Some X => exists sol, In sol (dt_seen s) /\ feasb K N empty sol = true /\ X = map pt (combs K N sol) /\ dt_score s = score_maximin X
  | None => dt_score s = repeat 0%R N
  end /\ dt_sol s = hd_error (dt_seen s) /\ (dt_seen s = [] -> cs = []).
Lemma pd_init_inv : pd_inv (pd_init K N) [].
Proof. unfold pd_inv, pd_init. cbn. split; [apply cnf_init|]. split; [intros sol []|]. split; [intros sol []|]. auto. Qed.
Definition all_seen (s : dstate) : Prop := forall asg, satisfies asg (dt_cnf s) -> In (solution_list asg (K * N * N)) (dt_seen s).
Lemma id_family : perms_family K N (fun _ o => o).
Proof. split; auto. intros m _. rewrite map_id. apply Permutation_refl. Qed.
Lemma not_exhausted_first : forall s cs, pd_inv s cs -> all_seen s -> dt_seen s <> [].
Proof.
  intros s cs (I1 & _ & _ & _ & _ & I6) A E. rewrite (I6 E) in I1. destruct (family_sat K N empty _ [] _ HK I1 id_family) as [S _]; [intros c []|]. apply A in S. rewrite E in S. destruct S.
Qed.
Lemma comb_len : forall sol, length (combs K N sol) = N.
Proof. intro sol. unfold combs. rewrite map_length, seq_length. auto. Qed.
Lemma full_iff : forall sol, Nat.eqb (length (map pt (filter (fun c => negb (empty c)) (combs K N sol)))) N = feasb K N empty sol.
Proof.
  intro sol. rewrite map_length. unfold feasb. destruct (forallb (fun c => negb (empty c)) (combs K N sol)) eqn:F.
  - rewrite filter_true by auto. rewrite comb_len. apply Nat.eqb_refl.
  - apply Nat.eqb_neq. intro E. rewrite <- (comb_len sol) in E at 2. apply filter_all in E. destruct E. congruence.
Qed.
Lemma full_map : forall sol, feasb K N empty sol = true -> map pt (filter (fun c => negb (empty c)) (combs K N sol)) = map pt (combs K N sol).
Proof. intros sol F. rewrite filter_true; auto. Qed.

(** one iteration: either a fresh solution, or the previous one again *)
Definition pd_use (s : dstate) (calls : nat) (seen : list (list Z)) (sol : list Z) : dstate :=
  let cnf := dt_cnf s ++ new_cnf K N empty sol in
  if feasb K N empty sol then
    let X := map pt (combs K N sol) in
    if tup_gt (score_maximin X) (dt_score s) then DS calls cnf seen (Some sol) (Some X) (score_maximin X) (Some (min_dists X)) (S (dt_it s))
    else DS calls cnf seen (Some sol) (dt_best s) (dt_score s) (dt_dist s) (S (dt_it s))
  else DS calls cnf seen (Some sol) (dt_best s) (dt_score s) (dt_dist s) (dt_it s).
Lemma pd_step_cases : forall s cs, pd_inv s cs -> exists s',
  pd_step K N maxiter use empty pt ord solve s = (if Nat.leb maxiter (dt_it s') then inr (DReturn s') else inl s') /\
  ((exists asg calls, satisfies asg (dt_cnf s) /\ let sol := solution_list asg (K * N * N) in ~ In sol (dt_seen s) /\ s' = pd_use s calls (sol :: dt_seen s) sol) \/
   (all_seen s /\ exists sol rest calls, dt_seen s = sol :: rest /\ s' = pd_use s calls (dt_seen s) sol)).
Proof.
  intros s cs HI. unfold pd_step. destruct keep_last as [ns EK]. rewrite EK. destruct (pd_try K N ord solve s (dt_calls s) (ns ++ [0])) as [c [sol|]] eqn:E; cbn [fst snd].
  - destruct (pd_try_some _ _ _ _ _ E) as [asg [SA [EQ NI]]]. exists (pd_use s c (sol :: dt_seen s) sol). split; [|left; exists asg, c; rewrite <- EQ; auto].
    rewrite full_iff. unfold pd_use. destruct (feasb K N empty sol) eqn:F; [rewrite full_map by auto|]; reflexivity.
  - assert (A : all_seen s) by (intros asg; eapply pd_try_none; eauto). pose proof (not_exhausted_first s cs HI A) as NE. destruct (dt_seen s) as [|sol rest] eqn:ES; [congruence|].
    destruct HI as (_ & _ & _ & _ & I5 & _). rewrite ES in I5. cbn in I5. rewrite I5. exists (pd_use s c (sol :: rest) sol). split; [|right; split; auto; exists sol, rest, c; auto].
    rewrite full_iff. unfold pd_use. destruct (feasb K N empty sol) eqn:F; [rewrite full_map by auto|]; reflexivity.
Qed.
(** the invariant after using a solution that is the first one of the new list *)
Lemma pd_use_inv : forall s cs calls sol rest p, pd_inv s cs -> perms_family K N p -> combs K N sol = cols K N p ->
  (rest = dt_seen s \/ dt_seen s = sol :: rest) -> pd_inv (pd_use s calls (sol :: rest) sol) (cs ++ filter empty (combs K N sol)).
Proof.
  intros s cs calls sol rest p (I1 & I2 & I3 & I4 & I5 & I6) HP EC HR. pose proof (cnf_step K N empty _ cs sol p I1 HP EC) as I1'.
  assert (SUB : forall x, In x (dt_seen s) -> In x (sol :: rest)) by (intros x J; destruct HR as [->|E]; [right; auto|rewrite E in J; auto]).
  assert (SUP : forall x, In x (sol :: rest) -> x = sol \/ In x (dt_seen s)) by (intros x [<-|J]; [auto|right; destruct HR as [->|E]; [auto|rewrite E; right; auto]]).
  assert (SEEN : forall sol', In sol' (sol :: rest) -> exists p, perms_family K N p /\ combs K N sol' = cols K N p) by (intros x J; apply SUP in J; destruct J as [->|J]; [exists p; auto|auto]).
  unfold pd_use. destruct (feasb K N empty sol) eqn:F; [destruct (tup_gt (score sol) (dt_score s)) eqn:G|]; unfold pd_inv; cbn [dt_cnf dt_seen dt_score dt_best dt_sol].
  - split; auto. split; auto. split.
    + intros x J FX. apply SUP in J. destruct J as [->|J]; [apply tup_gt_irrefl|]. destruct (tup_gt (score x) (score sol)) eqn:Q; auto. pose proof (I3 x J FX) as R. rewrite (tup_gt_trans _ _ _ Q G) in R. discriminate.
    + split; [exists sol; split; [left; auto|auto]|]. split; [auto|discriminate].
  - split; auto. split; auto. split; [intros x J FX; apply SUP in J; destruct J as [->|J]; auto|]. split; [|split; [auto|discriminate]]. destruct (dt_best s); auto. destruct I4 as [x [J R]]. exists x. split; auto.
  - split; auto. split; auto. split; [intros x J FX; apply SUP in J; destruct J as [->|J]; [congruence|auto]|]. split; [|split; [auto|discriminate]]. destruct (dt_best s); auto. destruct I4 as [x [J R]]. exists x. split; auto.
Qed.
Lemma pd_use_it : forall s calls seen sol, dt_it (pd_use s calls seen sol) = (if feasb K N empty sol then S (dt_it s) else dt_it s) /\ dt_seen (pd_use s calls seen sol) = seen /\
  dt_cnf (pd_use s calls seen sol) = dt_cnf s ++ new_cnf K N empty sol /\ dt_sol (pd_use s calls seen sol) = Some sol.
Proof. intros. unfold pd_use. destruct (feasb K N empty sol); [destruct (tup_gt _ _)|]; cbn; auto. Qed.
Lemma pd_step_inv : forall s cs, pd_inv s cs -> exists s' cs', pd_step K N maxiter use empty pt ord solve s = (if Nat.leb maxiter (dt_it s') then inr (DReturn s') else inl s') /\ pd_inv s' cs' /\
  (dt_it s' = dt_it s \/ exists sol, In sol (dt_seen s') /\ feasb K N empty sol = true).
Proof.
  intros s cs HI. destruct (pd_step_cases s cs HI) as [s' [E [[asg [calls [SA [NI ES]]]]|[A [sol [rest [calls [EQ ES]]]]]]]]; exists s'.
  - pose proof HI as (I1 & _). destruct (sol_facts K N empty _ cs asg HK I1 SA) as [p [HP [EC _]]]. set (sol := solution_list asg (K * N * N)) in *. exists (cs ++ filter empty (combs K N sol)). split; auto. subst s'. split; [eapply pd_use_inv; eauto|].
    destruct (pd_use_it s calls (sol :: dt_seen s) sol) as [A [B _]]. rewrite A, B. destruct (feasb K N empty sol) eqn:F; auto. right. exists sol. split; auto. left. auto.
  - pose proof HI as (_ & I2 & _). destruct (I2 sol) as [p [HP EC]]; [rewrite EQ; left; auto|]. exists (cs ++ filter empty (combs K N sol)). split; auto. subst s'. rewrite EQ. split; [eapply pd_use_inv; eauto|].
    destruct (pd_use_it s calls (sol :: rest) sol) as [A' [B _]]. rewrite A', B. destruct (feasb K N empty sol) eqn:F; auto. right. exists sol. split; auto. left. auto.
Qed.
Lemma pd_loop_inv : forall fuel s cs, pd_inv s cs -> match pd_loop fuel K N maxiter use empty pt ord solve s with
  | DRunning => True | DUnbound => False | DReturn s' => exists cs', pd_inv s' cs' /\ maxiter <= dt_it s' end.
Proof.
  induction fuel as [|f IH]; intros s cs HI; cbn [pd_loop]; auto. destruct (pd_step_inv s cs HI) as [s' [cs' [E [HI' _]]]]. rewrite E. destruct (Nat.leb_spec maxiter (dt_it s')); [exists cs'; auto|]. eapply IH; eauto.
Qed.
(** once a design is found it stays; a feasible design with a positive score is found when the counter moves *)
Lemma pd_use_best : forall s calls seen sol, dt_best s <> None -> dt_best (pd_use s calls seen sol) <> None.
Proof. intros. unfold pd_use. destruct (feasb K N empty sol); [destruct (tup_gt _ _)|]; cbn; congruence. Qed.
Lemma pd_loop_found : (forall p, perms_family K N p -> feasible empty (cols K N p) -> tup_gt (score_maximin (map pt (cols K N p))) (repeat 0%R N) = true) ->
  forall fuel s cs s', pd_inv s cs -> (dt_it s = 0 \/ dt_best s <> None) -> pd_loop fuel K N maxiter use empty pt ord solve s = DReturn s' -> dt_it s' = 0 \/ dt_best s' <> None.
Proof.
  intros H. induction fuel as [|f IH]; intros s cs sr HI Z ER; cbn [pd_loop] in ER; [discriminate|]. destruct (pd_step_inv s cs HI) as [s' [cs' [E [HI' D]]]].
  assert (Z' : dt_it s' = 0 \/ dt_best s' <> None).
  { destruct D as [Q|[sol [J F]]].
    - destruct Z as [Z|Z]; [left; lia|right]. destruct (pd_step_cases s cs HI) as [s2 [E2 D2]]. assert (s2 = s').
      { rewrite E in E2. destruct (Nat.leb maxiter (dt_it s')), (Nat.leb maxiter (dt_it s2)); try discriminate; congruence. }
      subst s2. destruct D2 as [[asg [calls [_ [_ ->]]]]|[_ [sol [rest [calls [_ ->]]]]]]; apply pd_use_best; auto.
    - right. intro B. destruct HI' as (_ & I2 & I3 & I4 & _). rewrite B in I4. destruct (I2 sol J) as [p [HP EC]]. pose proof (I3 sol J F) as G. rewrite I4, EC in G. rewrite H in G; [discriminate|auto|]. rewrite <- EC. apply feasb_iff. auto. }
  rewrite E in ER. destruct (Nat.leb maxiter (dt_it s')); [injection ER as <-; auto|]. apply (IH s' cs' sr HI' Z' ER).
Qed.
(** nothing feasible: the counter stays at zero *)
Lemma pd_loop_stuck : (forall p, perms_family K N p -> ~ feasible empty (cols K N p)) -> 0 < maxiter -> forall fuel s cs, pd_inv s cs -> dt_it s = 0 -> pd_loop fuel K N maxiter use empty pt ord solve s = DRunning.
Proof.
  intros H M. induction fuel as [|f IH]; intros s cs HI Z; cbn [pd_loop]; auto. destruct (pd_step_inv s cs HI) as [s' [cs' [E [HI' [Q|[sol [J F]]]]]]].
  - rewrite E. destruct (Nat.leb_spec maxiter (dt_it s')); [lia|]. apply (IH s' cs'); auto. lia.
  - exfalso. destruct HI' as (_ & I2 & _). destruct (I2 sol J) as [p [HP EC]]. apply (H p HP). rewrite <- EC. apply feasb_iff. auto.
Qed.
(** exhausted with an infeasible last solution: the counter does not move *)
Lemma pd_loop_exhausted : forall fuel s cs sol rest, pd_inv s cs -> all_seen s -> dt_seen s = sol :: rest -> feasb K N empty sol = false -> dt_it s < maxiter -> pd_loop fuel K N maxiter use empty pt ord solve s = DRunning.
Proof.
  induction fuel as [|f IH]; intros s cs sol rest HI A ES F L; cbn [pd_loop]; auto. pose proof HI as (_ & I2 & _). destruct (I2 sol) as [p [HP EC]]; [rewrite ES; left; auto|].
  destruct (pd_step_cases s cs HI) as [s' [E [[asg [calls [SA [NI _]]]]|[_ [sol' [rest' [calls [EQ ES']]]]]]]]; [exfalso; apply NI, A; auto|].
  rewrite ES in EQ. injection EQ as <- <-. destruct (pd_use_it s calls (dt_seen s) sol) as [B1 [B2 [B3 _]]]. rewrite F in B1. rewrite <- ES' in *. rewrite E. destruct (Nat.leb_spec maxiter (dt_it s')); [lia|].
  apply (IH s' (cs ++ filter empty (combs K N sol)) sol rest); auto; try lia.
  - rewrite ES', ES. eapply pd_use_inv; eauto.
  - intros asg SA. rewrite B2. apply A. intros cl J. apply SA. rewrite B3. apply in_or_app. auto.
  - congruence.
Qed.
(** enough feasible designs: the loop ends *)
Definition pd_count (s : dstate) (cs : list (list nat)) : Prop := pd_inv s cs /\ NoDup cs /\ dt_it s = length (filter (feasb K N empty) (dt_seen s)) /\ (dt_it s < maxiter \/ dt_seen s = []).
Lemma pd_loop_ends : forall Cs, NoDup Cs -> maxiter <= length Cs -> (forall C, In C Cs -> feasible empty C /\ exists p, perms_family K N p /\ C = cols K N p) ->
  forall fuel s cs, pd_count s cs -> pd_loop fuel K N maxiter use empty pt ord solve s = DRunning -> fuel <= (N ^ K - length cs) + (maxiter - dt_it s).
Proof.
  intros Cs ND LC HC. induction fuel as [|f IH]; intros s cs [HI [NDc [CNT LT]]] R; [lia|]. cbn [pd_loop] in R. pose proof HI as (I1 & I2 & _).
  destruct (pd_step_cases s cs HI) as [s' [E [[asg [calls [SA [NI ES]]]]|[A _]]]].
  - destruct (sol_facts K N empty _ cs asg HK I1 SA) as [p [HP [EC HB]]]. set (sol := solution_list asg (K * N * N)) in *. cbn zeta in NI, ES. destruct (pd_use_it s calls (sol :: dt_seen s) sol) as [B1 [B2 _]]. rewrite <- ES in *. rewrite E in R. destruct (Nat.leb_spec maxiter (dt_it s')) as [|LT']; [discriminate|].
    pose proof (pd_use_inv s cs calls sol (dt_seen s) p HI HP EC (or_introl eq_refl)) as HI'. rewrite <- ES in HI'.
    assert (ND' : NoDup (cs ++ filter empty (combs K N sol))).
    { apply NoDup_app_intro; auto; [apply NoDup_filter; rewrite EC; apply cols_nodup; auto|]. intros c Ic J. apply filter_In in J. apply (HB c Ic). rewrite <- EC. apply J. }
    assert (PC : pd_count s' (cs ++ filter empty (combs K N sol))).
    { split; auto. split; auto. split; [|left; auto]. rewrite B1, B2. simpl. destruct (feasb K N empty sol); simpl; congruence. }
    pose proof (IH s' _ PC R) as Q.
    destruct HI' as (J1 & _). pose proof (blocked_count K N empty _ _ J1 ND') as BC. rewrite app_length in Q, BC. destruct (feasb K N empty sol) eqn:F; [lia|].
    assert (filter empty (combs K N sol) <> []). { intro Z. assert (feasb K N empty sol = true); [|congruence]. apply feasb_iff. exact (proj1 (filter_nil_iff _ empty _) Z). }
    destruct (filter empty (combs K N sol)); [congruence|]. simpl in *. lia.
  - exfalso. pose proof (not_exhausted_first s cs HI A) as NE. destruct LT as [LT|]; [|congruence].
    assert (INC : incl Cs (map (combs K N) (filter (feasb K N empty) (dt_seen s)))).
    { intros C IC. destruct (HC C IC) as [FE [p [HP ->]]]. destruct (family_sat K N empty _ cs p HK I1 HP) as [SA EC].
      - intros c Ic J. destruct I1 as [_ I1]. destruct (I1 c Ic) as [_ EM]. rewrite (FE c J) in EM. discriminate.
      - rewrite <- EC. apply in_map. apply filter_In. split; [apply A; auto|]. apply feasb_iff. rewrite EC. auto. }
    pose proof (NoDup_incl_length ND INC) as Q. rewrite map_length in Q. lia.
Qed.
End DESIGN.

(** ** theorems *)
Theorem design_terminates : forall K N maxiter use empty pt ord solve fuel Cs, 0 < K -> solver_ok K N solve -> N ^ K + maxiter < fuel ->
  NoDup Cs -> maxiter <= length Cs -> (forall C, In C Cs -> feasible empty C /\ exists p, perms_family K N p /\ C = cols K N p) ->
  exists s, pd_run fuel K N maxiter use empty pt ord solve = DReturn s.
Proof.
  intros K N maxiter use empty pt ord solve fuel Cs HK HS HF ND LC HC. unfold pd_run. pose proof (pd_loop_inv K N maxiter use empty pt ord solve HK HS fuel _ [] (pd_init_inv K N empty pt)) as P.
  destruct (pd_loop fuel K N maxiter use empty pt ord solve (pd_init K N)) as [| |s] eqn:E; [|destruct P|exists s; auto].
  exfalso. pose proof (pd_loop_ends K N maxiter use empty pt ord solve HK HS Cs ND LC HC fuel (pd_init K N) []) as Q. specialize (Q ltac:(split; [apply pd_init_inv|split; [constructor|split; [reflexivity|right; reflexivity]]]) E). simpl in Q. lia.
Qed.
Theorem design_best : forall K N maxiter use empty pt ord solve fuel s, 0 < K -> solver_ok K N solve -> pd_run fuel K N maxiter use empty pt ord solve = DReturn s ->
  maxiter <= dt_it s /\ forall X, dt_best s = Some X -> exists p, perms_family K N p /\ feasible empty (cols K N p) /\ X = map pt (cols K N p) /\
    forall sol, In sol (dt_seen s) -> feasible empty (combs K N sol) -> tup_gt (score_maximin (map pt (combs K N sol))) (score_maximin X) = false.
Proof.
  intros K N maxiter use empty pt ord solve fuel s HK HS E. unfold pd_run in E. pose proof (pd_loop_inv K N maxiter use empty pt ord solve HK HS fuel _ [] (pd_init_inv K N empty pt)) as P. rewrite E in P. destruct P as [cs [(I1 & I2 & I3 & I4 & _) M]]. split; auto.
  intros X EB. rewrite EB in I4. destruct I4 as [sol [J [F [EX ES]]]]. destruct (I2 sol J) as [p [HP EC]]. exists p. rewrite <- EC. split; auto. split; [apply feasb_iff; auto|]. split; auto. intros sol' J' F'. rewrite <- ES. apply I3; auto. apply feasb_iff. auto.
Qed.
(** a design is returned when no feasible design has two equal points *)
Theorem design_found : forall K N maxiter use empty pt ord solve fuel s, 0 < K -> solver_ok K N solve -> 0 < maxiter ->
  (forall p, perms_family K N p -> feasible empty (cols K N p) -> tup_gt (score_maximin (map pt (cols K N p))) (repeat 0%R N) = true) ->
  pd_run fuel K N maxiter use empty pt ord solve = DReturn s -> exists X, dt_best s = Some X.
Proof.
  intros K N maxiter use empty pt ord solve fuel s HK HS M H E. destruct (design_best K N maxiter use empty pt ord solve fuel s HK HS E) as [LE _]. unfold pd_run in E.
  destruct (pd_loop_found K N maxiter use empty pt ord solve HK HS H fuel _ [] s (pd_init_inv K N empty pt) (or_introl eq_refl) E) as [Q|Q]; [lia|]. destruct (dt_best s) as [X|]; [exists X; auto|congruence].
Qed.
(** [sol] is never unbound *)
Theorem design_bound : forall K N maxiter use empty pt ord solve fuel, 0 < K -> solver_ok K N solve -> pd_run fuel K N maxiter use empty pt ord solve <> DUnbound.
Proof. intros K N maxiter use empty pt ord solve fuel HK HS E. unfold pd_run in E. pose proof (pd_loop_inv K N maxiter use empty pt ord solve HK HS fuel _ [] (pd_init_inv K N empty pt)) as P. rewrite E in P. exact P. Qed.
(** without a feasible design the loop never ends *)
Theorem design_infeasible_hangs : forall K N maxiter use empty pt ord solve, 0 < K -> solver_ok K N solve -> 0 < maxiter ->
  (forall p, perms_family K N p -> ~ feasible empty (cols K N p)) -> forall fuel, pd_run fuel K N maxiter use empty pt ord solve = DRunning.
Proof. intros K N maxiter use empty pt ord solve HK HS M H fuel. unfold pd_run. eapply pd_loop_stuck; eauto. apply pd_init_inv. Qed.
(** only empty combinations are blocked *)
Theorem design_keeps : forall K N maxiter use empty pt ord solve fuel s q, 0 < K -> solver_ok K N solve -> pd_run fuel K N maxiter use empty pt ord solve = DReturn s ->
  perms_family K N q -> feasible empty (cols K N q) -> satisfies (asg_of N q) (dt_cnf s) /\ combs K N (solution_list (asg_of N q) (K * N * N)) = cols K N q.
Proof.
  intros K N maxiter use empty pt ord solve fuel s q HK HS E HQ FQ. unfold pd_run in E. pose proof (pd_loop_inv K N maxiter use empty pt ord solve HK HS fuel _ [] (pd_init_inv K N empty pt)) as P. rewrite E in P.
  destruct P as [cs [(I1 & _) _]]. apply (family_sat K N empty _ cs); auto. intros c J J2. destruct I1 as [_ I1]. destruct (I1 c J) as [_ Z]. rewrite (FQ c J2) in Z. discriminate.
Qed.
