(** The search loop of projection_sample (sample/projection.py 154-269). *)
Require Import Reals Lra Lia List Bool Arith ZArith Permutation.
From Verif Require Import RVec Num DomModel DomMoreModel SampModel LatinProofs ProjSatProofs SampMoreModel ProjModel ProjSearch.
Import ListNotations.
Local Open Scope nat_scope.

Section SAMPLE.
Variables (K N maxiter : nat) (empty : list nat -> bool) (design : list (list nat) -> mat) (ord : vec -> list nat) (solve : solver).
Hypothesis HK : 0 < K.
Hypothesis HS : solver_ok K N solve.
Notation score sol := (score_maximin (design (combs K N sol))).

Definition ps_inv (s : pstate) (cs : list (list nat)) : Prop :=
  cnf_inv K N empty (st_cnf s) cs /\ NoDup cs /\
  (forall sol, In sol (st_seen s) -> exists p, perms_family K N p /\ combs K N sol = cols K N p) /\
  st_it s = length (filter (feasb K N empty) (st_seen s)) /\
  (forall sol, In sol (st_seen s) -> feasb K N empty sol = true -> tup_gt (score sol) (st_score s) = false) /\
  match st_best s with
  | Some X => exists sol, In sol (st_seen s) /\ feasb K N empty sol = true /\ X = design (combs K N sol) /\ st_score s = score_maximin X
  | None => st_score s = repeat 0%R N /\ st_it s = 0
  end /\ (st_asm s = None <-> st_best s = None).
Definition ps_post (s : pstate) (cs : list (list nat)) (s' : pstate) : Prop :=
  exists cs', ps_inv s' cs' /\ ((length cs < length cs' /\ st_it s' = st_it s) \/ (cs' = cs /\ st_it s' = S (st_it s))).
Lemma ps_init_inv : ps_inv (ps_init K N) [].
Proof. unfold ps_inv, ps_init. cbn. split; [apply cnf_init|]. split; [constructor|]. split; [intros sol []|]. split; [auto|]. split; [intros sol []|]. split; [auto|tauto]. Qed.

Lemma ps_body_spec : forall s cs calls asg, ps_inv s cs -> satisfies asg (st_cnf s) ->
  let sol := solution_list asg (K * N * N) in
  match ps_body K N maxiter empty design ord s calls sol with
  | inl s' => ps_post s cs s' /\ st_it s' < maxiter
  | inr (PReturn s') => ps_post s cs s' /\ maxiter <= st_it s'
  | inr (PUnbound s') => exists p, perms_family K N p /\ feasible empty (cols K N p) /\ tup_gt (score_maximin (design (cols K N p))) (repeat 0%R N) = false
  | inr PRunning => False
  end.
Proof.
  intros s cs calls asg (I1 & I2 & I3 & I4 & I5 & I6 & I7) SA sol. destruct (sol_facts K N empty _ cs asg HK I1 SA) as [p [HP [EC HB]]]. fold sol in EC.
  pose proof (cnf_step K N empty _ cs sol p I1 HP EC) as I1'. unfold ps_body. fold (feasb K N empty sol). destruct (feasb K N empty sol) eqn:FE.
  - assert (FN : filter empty (combs K N sol) = []) by (apply filter_nil_iff; apply feasb_iff; auto). assert (IC : cnf_inv K N empty (st_cnf s ++ new_cnf K N empty sol) cs) by (rewrite FN, app_nil_r in I1'; exact I1').
    assert (SEEN : forall sol', In sol' (sol :: st_seen s) -> exists p, perms_family K N p /\ combs K N sol' = cols K N p) by (intros sol' [<-|J]; [exists p; auto|auto]).
    assert (CNT : S (st_it s) = length (filter (feasb K N empty) (sol :: st_seen s))) by (simpl; rewrite FE; simpl; congruence).
    destruct (tup_gt (score sol) (st_score s)) eqn:GT.
    + set (s' := PS _ _ _ _ _ _ _ _). assert (P : ps_post s cs s').
      { exists cs. split; [|right; auto]. unfold ps_inv, s'. cbn [st_cnf st_seen st_it st_score st_best st_asm]. split; auto. split; auto. split; auto. split; auto. split.
        - intros sol' [<-|J] F; [apply tup_gt_irrefl|]. destruct (tup_gt (score sol') (score sol)) eqn:Q; auto.
          pose proof (I5 sol' J F) as R. rewrite (tup_gt_trans _ _ _ Q GT) in R. discriminate.
        - split; [|split; discriminate]. exists sol. split; [left; auto|]. auto. }
      destruct (Nat.leb_spec maxiter (st_it s')); split; auto.
    + destruct (st_asm s) as [a|] eqn:EA.
      * set (s' := PS _ _ _ _ _ _ _ _). assert (P : ps_post s cs s').
        { exists cs. split; [|right; auto]. unfold ps_inv, s'. cbn [st_cnf st_seen st_it st_score st_best st_asm]. split; auto. split; auto. split; auto. split; auto. split.
          - intros sol' [<-|J] F; auto.
          - destruct (st_best s) as [X|]; [|destruct I7 as [_ I7]; specialize (I7 eq_refl); discriminate]. split; [|split; discriminate].
            destruct I6 as [sol' [J R]]. exists sol'. split; [right; auto|auto]. }
        destruct (Nat.leb_spec maxiter (st_it s')); split; auto.
      * exists p. rewrite <- EC. split; auto. split; [apply feasb_iff; auto|]. destruct I7 as [I7 _]. specialize (I7 eq_refl). rewrite I7 in I6. rewrite <- (proj1 I6). auto.
  - set (s' := PS _ _ _ _ _ _ _ _). assert (P : ps_post s cs s').
    { exists (cs ++ filter empty (combs K N sol)). split; [|left; split; auto].
      - unfold ps_inv, s'. cbn [st_cnf st_seen st_it st_score st_best st_asm]. split; auto. split.
        + apply NoDup_app_intro; auto; [apply NoDup_filter; rewrite EC; apply cols_nodup; auto|]. intros c Ic J. apply filter_In in J. apply (HB c Ic). rewrite <- EC. apply J.
        + split; [intros sol' [<-|J]; [exists p; auto|auto]|]. simpl filter. rewrite FE. split; auto. split; [intros sol' [<-|J] F; [congruence|auto]|]. split; auto. destruct (st_best s); auto. destruct I6 as [sol' [J R]]. exists sol'. split; [right; auto|auto].
      - rewrite app_length. assert (filter empty (combs K N sol) <> []). { intro Q. assert (feasb K N empty sol = true); [|congruence]. apply feasb_iff. exact (proj1 (filter_nil_iff _ empty _) Q). }
        destruct (filter empty (combs K N sol)); [congruence|simpl; lia]. }
    destruct (Nat.leb_spec maxiter (st_it s')); split; auto.
Qed.

(** what is known when the loop is left *)
Lemma ps_loop_spec : forall fuel s cs, ps_inv s cs ->
  match ps_loop fuel K N maxiter empty design ord solve s with
  | PRunning => fuel <= (N ^ K - length cs) + (maxiter - st_it s)
  | PUnbound _ => exists p, perms_family K N p /\ feasible empty (cols K N p) /\ tup_gt (score_maximin (design (cols K N p))) (repeat 0%R N) = false
  | PReturn s' => exists cs', ps_inv s' cs' /\ (st_it s' < maxiter ->
      forall p, perms_family K N p -> feasible empty (cols K N p) -> exists sol, In sol (st_seen s') /\ combs K N sol = cols K N p)
  end.
Proof.
  induction fuel as [|f IH]; intros s cs HI; cbn [ps_loop]; [lia|].
  assert (STEP : forall calls asg, satisfies asg (st_cnf s) -> let sol := solution_list asg (K * N * N) in
     match (match ps_body K N maxiter empty design ord s calls sol with inr o => o | inl s' => ps_loop f K N maxiter empty design ord solve s' end) with
     | PRunning => S f <= (N ^ K - length cs) + (maxiter - st_it s)
     | PUnbound _ => exists p, perms_family K N p /\ feasible empty (cols K N p) /\ tup_gt (score_maximin (design (cols K N p))) (repeat 0%R N) = false
     | PReturn s' => exists cs', ps_inv s' cs' /\ (st_it s' < maxiter ->
         forall p, perms_family K N p -> feasible empty (cols K N p) -> exists sol, In sol (st_seen s') /\ combs K N sol = cols K N p)
     end).
  { intros calls asg SA sol. pose proof (ps_body_spec s cs calls asg HI SA) as B. cbn zeta in B. fold sol in B. destruct (ps_body K N maxiter empty design ord s calls sol) as [s'|[|s'|s']].
    - destruct B as [[cs' [HI' M]] LT]. specialize (IH s' cs' HI'). destruct (ps_loop f K N maxiter empty design ord solve s'); auto.
      destruct HI' as (J1 & J2 & _). pose proof (blocked_count K N empty _ cs' J1 J2). destruct M as [[A B]|[-> B]]; lia.
    - destruct B.
    - exact B.
    - destruct B as [[cs' [HI' _]] GE]. exists cs'. split; auto. intro. lia. }
  destruct HS as [S1 S2]. destruct (solve (st_calls s) (st_cnf s) (st_seen s) (st_next s)) as [sol|] eqn:E1.
  - destruct (S1 _ _ _ _ _ E1) as [asg [SA [-> _]]]. apply STEP. auto.
  - destruct (solve (S (st_calls s)) (st_cnf s) (st_seen s) []) as [sol|] eqn:E2.
    + destruct (S1 _ _ _ _ _ E2) as [asg [SA [-> _]]]. apply STEP. auto.
    + exists cs. split; auto. intros _ p HP FE. destruct HI as (J1 & J2 & _). destruct (family_sat K N empty _ cs p HK J1 HP) as [SA EC].
      * intros c Ic J. destruct J1 as [_ J1]. destruct (J1 c Ic) as [_ EM]. rewrite (FE c J) in EM. discriminate.
      * exists (solution_list (asg_of N p) (K * N * N)). split; auto. eapply S2; eauto.
Qed.

End SAMPLE.

(** ** theorems *)
(** the loop ends: each design with an empty cell blocks a new combination *)
Theorem sample_terminates : forall K N maxiter empty design ord solve fuel, 0 < K -> solver_ok K N solve -> N ^ K + maxiter < fuel ->
  ps_run fuel K N maxiter empty design ord solve <> PRunning.
Proof.
  intros K N maxiter empty design ord solve fuel HK HS HF E. unfold ps_run in E. pose proof (ps_loop_spec K N maxiter empty design ord solve HK HS fuel _ [] (ps_init_inv K N empty design)) as P. rewrite E in P. cbn in P. lia.
Qed.
(** a returned design is the best of the visited ones; it is the best of all feasible ones if fewer than maxiter were found *)
Theorem sample_best : forall K N maxiter empty design ord solve fuel s, 0 < K -> solver_ok K N solve -> ps_run fuel K N maxiter empty design ord solve = PReturn s ->
  (forall X, st_best s = Some X -> exists p, perms_family K N p /\ feasible empty (cols K N p) /\ X = design (cols K N p) /\
     (forall sol, In sol (st_seen s) -> feasible empty (combs K N sol) -> tup_gt (score_maximin (design (combs K N sol))) (score_maximin X) = false) /\
     (st_it s < maxiter -> forall q, perms_family K N q -> feasible empty (cols K N q) -> tup_gt (score_maximin (design (cols K N q))) (score_maximin X) = false)) /\
  (st_best s = None -> st_it s = 0 /\ (0 < maxiter -> forall q, perms_family K N q -> ~ feasible empty (cols K N q))).
Proof.
  intros K N maxiter empty design ord solve fuel s HK HS E. unfold ps_run in E. pose proof (ps_loop_spec K N maxiter empty design ord solve HK HS fuel _ [] (ps_init_inv K N empty design)) as P. rewrite E in P.
  destruct P as [cs [(I1 & I2 & I3 & I4 & I5 & I6 & I7) EX]]. split.
  - intros X EB. rewrite EB in I6. destruct I6 as [sol [J [F [EX2 ES]]]]. destruct (I3 sol J) as [p [HP EC]]. exists p. split; auto. rewrite <- EC. split; [apply feasb_iff; auto|]. split; auto. split.
    + intros sol' J' F'. rewrite <- ES. apply I5; auto. apply feasb_iff. auto.
    + intros LT q HQ FQ. destruct (EX LT q HQ FQ) as [sol' [J' EC']]. rewrite <- EC', <- ES. apply I5; auto. apply feasb_iff. rewrite EC'. auto.
  - intro EB. rewrite EB in I6. destruct I6 as [_ IT]. split; auto. intros LT q HQ FQ. destruct (EX ltac:(lia) q HQ FQ) as [sol' [J' EC']].
    assert (Z : In sol' (filter (feasb K N empty) (st_seen s))) by (apply filter_In; split; auto; apply feasb_iff; rewrite EC'; auto). rewrite IT in I4. destruct (filter _ _); [destruct Z|discriminate].
Qed.
(** UnboundLocalError for [assumptions] is only raised when some feasible design does not beat the zero score *)
Theorem sample_no_unbound : forall K N maxiter empty design ord solve fuel s, 0 < K -> solver_ok K N solve ->
  (forall p, perms_family K N p -> feasible empty (cols K N p) -> tup_gt (score_maximin (design (cols K N p))) (repeat 0%R N) = true) ->
  ps_run fuel K N maxiter empty design ord solve <> PUnbound s.
Proof.
  intros K N maxiter empty design ord solve fuel s HK HS H E. unfold ps_run in E. pose proof (ps_loop_spec K N maxiter empty design ord solve HK HS fuel _ [] (ps_init_inv K N empty design)) as P. rewrite E in P.
  destruct P as [p [HP [F G]]]. rewrite H in G; auto. discriminate.
Qed.
(** only empty combinations are blocked: every feasible design satisfies the clauses at the end *)
Theorem sample_keeps : forall K N maxiter empty design ord solve fuel s q, 0 < K -> solver_ok K N solve -> ps_run fuel K N maxiter empty design ord solve = PReturn s ->
  perms_family K N q -> feasible empty (cols K N q) -> satisfies (asg_of N q) (st_cnf s) /\ combs K N (solution_list (asg_of N q) (K * N * N)) = cols K N q.
Proof.
  intros K N maxiter empty design ord solve fuel s q HK HS E HQ FQ. unfold ps_run in E. pose proof (ps_loop_spec K N maxiter empty design ord solve HK HS fuel _ [] (ps_init_inv K N empty design)) as P. rewrite E in P.
  destruct P as [cs [(I1 & _) _]]. apply (family_sat K N empty _ cs); auto. intros c J J2. destruct I1 as [_ I1]. destruct (I1 c J) as [_ Z]. rewrite (FQ c J2) in Z. discriminate.
Qed.
