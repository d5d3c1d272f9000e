(** Solvers exist; projection_design can loop forever although there is a feasible design. *)
Require Import Reals Lra Lia List Bool Arith ZArith Permutation.
From Verif Require Import RVec Num DomModel DomMoreModel SampModel LatinProofs ProjSatProofs SampMoreModel ProjModel ProjSearch ProjSampleLoop ProjDesignLoop.
Import ListNotations.
Local Open Scope nat_scope.

(** ** a solver by exhaustion *)
Definition litb (asg : nat -> bool) (l : Z) : bool := if Z.ltb 0 l then asg (Z.to_nat l) else negb (asg (Z.to_nat (- l))).
Definition satb (asg : nat -> bool) (F : list (list Z)) : bool := forallb (fun c => existsb (litb asg) c) F.
Lemma litb_iff : forall asg l, litb asg l = true <-> lit_true asg l.
Proof. intros. unfold litb, lit_true. destruct (Z.ltb 0 l); [tauto|]. rewrite negb_true_iff. tauto. Qed.
Lemma satb_iff : forall asg F, satb asg F = true <-> satisfies asg F.
Proof.
  intros. unfold satb, satisfies, clause_true. rewrite forallb_forall. split; intros H c I; specialize (H c I).
  - apply existsb_exists in H. destruct H as [l [J T]]. exists l. split; auto. apply litb_iff. auto.
  - apply existsb_exists. destruct H as [l [J T]]. exists l. split; auto. apply litb_iff. auto.
Qed.
Fixpoint bools (n : nat) : list (list bool) := match n with O => [[]] | S k => map (cons true) (bools k) ++ map (cons false) (bools k) end.
Lemma bools_in : forall l, In l (bools (length l)).
Proof. induction l as [|b l IH]; simpl; [auto|]. apply in_or_app. destruct b; [left|right]; apply in_map; auto. Qed.
Definition varmax (F : list (list Z)) : nat := fold_right Nat.max O (map (fun l => Z.to_nat (Z.abs l)) (concat F)).
Lemma varmax_le : forall F c l, In c F -> In l c -> Z.to_nat (Z.abs l) <= varmax F.
Proof.
  intros F c l Ic Il. unfold varmax. assert (I : In (Z.to_nat (Z.abs l)) (map (fun l => Z.to_nat (Z.abs l)) (concat F))) by (apply (in_map (fun l => Z.to_nat (Z.abs l))); apply in_concat; exists c; auto).
  revert I. generalize (map (fun l => Z.to_nat (Z.abs l)) (concat F)). induction l0 as [|a l0 IH]; simpl; [intros []|]. intros [->|I]; [lia|]. specialize (IH I). lia.
Qed.
Definition asg_bl (bl : list bool) (i : nat) : bool := nth i bl false.
Definition inb (x : list Z) (l : list (list Z)) : bool := if in_dec (list_eq_dec Z.eq_dec) x l then true else false.
Definition brute (K N : nat) : solver := fun _ F seen asm =>
  match find (fun bl => satb (asg_bl bl) F && negb (inb (solution_list (asg_bl bl) (K * N * N)) seen) && forallb (litb (asg_bl bl)) asm) (bools (S (Nat.max (K * N * N) (varmax F)))) with
  | Some bl => Some (solution_list (asg_bl bl) (K * N * N))
  | None => None
  end.
Theorem solver_exists : forall K N, solver_ok K N (brute K N).
Proof.
  intros K N. split.
  - intros i F seen asm sol E. unfold brute in E. destruct (find _ _) as [bl|] eqn:E2; [|discriminate]. injection E as <-. apply find_some in E2. destruct E2 as [_ E2]. apply andb_true_iff in E2. destruct E2 as [E2 E3]. apply andb_true_iff in E2. destruct E2 as [E1 E2].
    exists (asg_bl bl). split; [apply satb_iff; auto|]. split; auto. split; [unfold inb in E2; destruct (in_dec _ _ _); [discriminate|auto]|]. rewrite forallb_forall in E3. intros l J. apply litb_iff. auto.
  - intros i F seen E asg SA. unfold brute in E. set (n := Nat.max (K * N * N) (varmax F)) in *. destruct (find _ _) as [bl|] eqn:E2; [discriminate|]. pose (bl := map asg (seq 0 (S n))).
    assert (LB : length bl = S n) by (unfold bl; rewrite map_length, seq_length; auto). assert (IB : In bl (bools (S n))) by (rewrite <- LB; apply bools_in).
    assert (AG : forall i, i <= n -> asg_bl bl i = asg i). { intros j Hj. unfold asg_bl, bl. rewrite nth_indep with (d' := asg O) by (rewrite map_length, seq_length; lia). rewrite map_nth, seq_nth by lia. auto. }
    pose proof (find_none _ _ E2 bl IB) as Q. cbn [forallb] in Q. rewrite andb_true_r in Q.
    assert (SB : satb (asg_bl bl) F = true).
    { apply satb_iff. intros c Ic. destruct (SA c Ic) as [l [Il T]]. exists l. split; auto. pose proof (varmax_le F c l Ic Il) as V. unfold lit_true in *. destruct (Z.ltb_spec 0 l); rewrite AG; auto; unfold n; lia. }
    assert (EL : solution_list (asg_bl bl) (K * N * N) = solution_list asg (K * N * N)).
    { unfold solution_list. apply map_ext_in. intros j J. apply in_seq in J. rewrite AG; auto. unfold n. lia. }
    rewrite SB, EL in Q. simpl in Q. unfold inb in Q. destruct (in_dec _ _ _); [auto|discriminate].
Qed.

(** ** solutions are determined by their combinations *)
Lemma sol_inj : forall K N asg asg', 0 < K -> satisfies asg (geo_cnf K N) -> satisfies asg' (geo_cnf K N) ->
  combs K N (solution_list asg (K * N * N)) = combs K N (solution_list asg' (K * N * N)) -> solution_list asg (K * N * N) = solution_list asg' (K * N * N).
Proof.
  intros K N asg asg' HK S S' E. destruct (cnf_sound asg K N HK S) as [p [HP HC]]. destruct (cnf_sound asg' K N HK S') as [p' [HP' HC']].
  assert (R : forall asg p, perms_family K N p -> (forall m o v, m < K -> o < N -> v < N -> (asg (enc N m o v) = true <-> v = p m o)) -> forall m o, m < K -> o < N -> perm_of N (solution_list asg (K * N * N)) m o = Z.of_nat (p m o)).
  { intros a q [HQ _] HA m o Hm Ho. apply (perm_read a K N q); auto. intros m' o' Hm' Ho'. apply perm_bound; auto. }
  assert (PP : forall m o, m < K -> o < N -> p m o = p' m o).
  { intros m o Hm Ho. assert (Q : nth m (nth o (combs K N (solution_list asg (K * N * N))) []) O = nth m (nth o (combs K N (solution_list asg' (K * N * N))) []) O) by (rewrite E; auto).
    unfold combs in Q. assert (NN : forall a, nth o (map (comb K N (solution_list a (K * N * N))) (seq 0 N)) [] = comb K N (solution_list a (K * N * N)) o). { intro a. rewrite nth_indep with (d' := comb K N (solution_list a (K * N * N)) O) by (rewrite map_length, seq_length; auto). rewrite map_nth, seq_nth by auto. auto. }
    rewrite !NN in Q. unfold comb in Q. rewrite !(col_nth K) in Q by auto. rewrite (R asg p), (R asg' p') in Q by auto. rewrite !Nat2Z.id in Q. auto. }
  unfold solution_list. apply map_ext_in. intros i I. apply in_seq in I. destruct (enc_bijection K N i ltac:(lia)) as [m [o [v [Hm [Ho [Hv [EI _]]]]]]]. subst i.
  assert (Q : asg (enc N m o v) = asg' (enc N m o v)). { apply eq_true_iff_eq. rewrite HC, HC' by auto. rewrite PP by auto. tauto. }
  rewrite Q. auto.
Qed.

(** ** two metrics, two samples: two designs *)
Definition dA2 : list (list nat) := [[0; 0]; [1; 1]].
Definition dB2 : list (list nat) := [[0; 1]; [1; 0]].
Lemma family22 : forall p, perms_family 2 2 p -> cols 2 2 p = dA2 \/ cols 2 2 p = dB2.
Proof.
  intros p [HP H0]. pose proof (H0 0 ltac:(lia)) as Z0. pose proof (H0 1 ltac:(lia)) as Z1. unfold cols. cbn [seq map]. rewrite Z0, Z1. pose proof (HP 1 ltac:(lia)) as P1. pose proof (perm_bound 2 (p 1) P1 0 ltac:(lia)). pose proof (perm_bound 2 (p 1) P1 1 ltac:(lia)).
  pose proof (perm_inj 2 (p 1) P1 0 1 ltac:(lia) ltac:(lia)) as IJ. assert (p 1 0 <> p 1 1) by (intro Q; apply IJ in Q; lia). unfold dA2, dB2. destruct (p 1 0) as [|[|a]], (p 1 1) as [|[|b]]; auto; lia.
Qed.
Lemma famA : perms_family 2 2 (fun _ o => o) /\ cols 2 2 (fun _ o => o) = dA2.
Proof. split; [apply id_family|reflexivity]. Qed.
Lemma famB : perms_family 2 2 (fun m o => match m with O => o | _ => 1 - o end) /\ cols 2 2 (fun m o => match m with O => o | _ => 1 - o end) = dB2.
Proof. split; [|reflexivity]. split; [|auto]. intros [|[|m]] Hm; [apply Permutation_refl|apply perm_swap|lia]. Qed.
Definition only_empty (c0 c : list nat) : bool := if list_eq_dec Nat.eq_dec c0 c then true else false.

(** for every solver there is a pattern of empty cells with a feasible design for which the loop does not end (limit: two designs) *)
Theorem design_hangs : forall solve ord pt use, solver_ok 2 2 solve ->
  exists empty, (exists p, perms_family 2 2 p /\ feasible empty (cols 2 2 p)) /\ forall fuel, pd_run fuel 2 2 2 use empty pt ord solve = DRunning.
Proof.
  intros solve ord pt use HS. destruct (solve 0 (geo_cnf 2 2) [] []) as [sol1|] eqn:E1.
  2:{ exfalso. destruct HS as [_ S2]. apply (S2 _ _ _ E1 (asg_of 2 (fun _ o => o))). apply cnf_complete; [lia|]. apply famA. }
  destruct (proj1 HS _ _ _ _ _ E1) as [asg1 [SA1 [EQ1 _]]]. destruct (sol_facts 2 2 (fun _ => false) _ [] asg1 ltac:(lia) (cnf_init 2 2 (fun _ => false)) SA1) as [p1 [HP1 [EC1 _]]]. rewrite <- EQ1 in EC1.
  assert (OTH : exists other c0, In c0 other /\ In other [dA2; dB2] /\ (forall p, perms_family 2 2 p -> cols 2 2 p = combs 2 2 sol1 \/ cols 2 2 p = other) /\ ~ In c0 (combs 2 2 sol1) /\ (exists q, perms_family 2 2 q /\ cols 2 2 q = other)).
  { rewrite EC1. destruct (family22 p1 HP1) as [Q|Q]; rewrite Q.
    - exists dB2, [0; 1]. split; [left; auto|]. split; [right; left; auto|]. split; [intros p HP; apply family22 in HP; tauto|]. split; [intros [R|[R|[]]]; discriminate|]. eexists. apply famB.
    - exists dA2, [0; 0]. split; [left; auto|]. split; [left; auto|]. split; [intros p HP; apply family22 in HP; tauto|]. split; [intros [R|[R|[]]]; discriminate|]. eexists. apply famA. }
  destruct OTH as [other [c0 [IO [_ [HF [NI [q [HQ EQ]]]]]]]]. exists (only_empty c0). set (empty := only_empty c0). assert (EM : forall c, empty c = true <-> c = c0) by (intro c; unfold empty, only_empty; destruct (list_eq_dec Nat.eq_dec c0 c); split; congruence).
  assert (F1 : feasb 2 2 empty sol1 = true). { apply feasb_iff. intros c J. destruct (empty c) eqn:Q; auto. apply EM in Q. subst c. tauto. }
  assert (FO : forall sol, combs 2 2 sol = other -> feasb 2 2 empty sol = false). { intros sol Q. destruct (feasb 2 2 empty sol) eqn:R; auto. apply feasb_iff in R. rewrite Q in R. specialize (R c0 IO). rewrite (proj2 (EM c0) eq_refl) in R. discriminate. }
  split; [exists p1; split; auto; rewrite <- EC1; apply feasb_iff; auto|]. intro fuel. unfold pd_run. destruct fuel as [|fuel]; [reflexivity|]. cbn [pd_loop].
  pose proof (pd_init_inv 2 2 empty pt) as HI0.
  (* first iteration *)
  assert (ST1 : pd_step 2 2 2 use empty pt ord solve (pd_init 2 2) = inl (pd_use 2 2 empty pt (pd_init 2 2) 1 [sol1] sol1)).
  { unfold pd_step. assert (KR : keep_range 2 use = [0]) by (destruct use; reflexivity). rewrite KR. cbn [pd_try]. rewrite pd_asm0. cbn [dt_calls dt_cnf dt_seen pd_init]. rewrite E1. cbn [fst snd]. rewrite full_iff, full_map by auto. rewrite F1. unfold pd_use. rewrite F1. destruct (tup_gt _ _); reflexivity. }
  rewrite ST1. set (s1 := pd_use 2 2 empty pt (pd_init 2 2) 1 [sol1] sol1). assert (HI1 : pd_inv 2 2 empty pt s1 ([] ++ filter empty (combs 2 2 sol1))) by (apply (pd_use_inv 2 2 empty pt (pd_init 2 2) [] 1 sol1 [] p1); auto).
  destruct (pd_use_it 2 2 empty pt (pd_init 2 2) 1 [sol1] sol1) as [IT1 [SE1 [CN1 _]]]. fold s1 in IT1, SE1, CN1. rewrite F1 in IT1. cbn in IT1.
  assert (FN : filter empty (combs 2 2 sol1) = []) by (apply filter_nil_iff; apply feasb_iff; auto). assert (G1 : dt_cnf s1 = geo_cnf 2 2) by (rewrite CN1; unfold new_cnf; rewrite FN; cbn [flat_map]; rewrite app_nil_r; reflexivity).
  destruct fuel as [|fuel]; [reflexivity|]. cbn [pd_loop]. destruct (pd_step_cases 2 2 2 use empty pt ord solve ltac:(lia) HS s1 _ HI1) as [s2 [E2 [[asg2 [calls [SA2 [NI2 ES2]]]]|[A _]]]].
  - rewrite G1 in SA2. set (sol2 := solution_list asg2 (2 * 2 * 2)) in *. destruct (sol_facts 2 2 empty _ [] asg2 ltac:(lia) (cnf_init 2 2 empty) SA2) as [p2 [HP2 [EC2 _]]]. fold sol2 in EC2.
    assert (C2 : combs 2 2 sol2 = other). { destruct (HF p2 HP2) as [Q|Q]; [|congruence]. exfalso. apply NI2. rewrite SE1. left. rewrite EQ1. symmetry. apply sol_inj; auto; try lia. fold sol2. rewrite <- EQ1. congruence. }
    destruct (pd_use_it 2 2 empty pt s1 calls (sol2 :: dt_seen s1) sol2) as [IT2 [SE2 [CN2 _]]]. rewrite <- ES2 in IT2, SE2, CN2. rewrite (FO sol2 C2) in IT2.
    assert (HI2 := pd_use_inv 2 2 empty pt s1 _ calls sol2 (dt_seen s1) p2 HI1 HP2 EC2 (or_introl eq_refl)). rewrite <- ES2 in HI2.
    rewrite E2, IT2, IT1. cbn [Nat.leb]. apply (pd_loop_exhausted 2 2 2 use empty pt ord solve ltac:(lia) HS fuel s2 _ sol2 (dt_seen s1) HI2); auto; [|rewrite IT2, IT1; lia].
    intros asg SA. rewrite SE2, SE1. assert (SG : satisfies asg (geo_cnf 2 2)) by (intros cl J; apply SA; rewrite CN2, G1; apply in_or_app; auto).
    destruct (sol_facts 2 2 empty _ [] asg ltac:(lia) (cnf_init 2 2 empty) SG) as [p3 [HP3 [EC3 _]]]. destruct (HF p3 HP3) as [Q|Q].
    + right. left. rewrite EQ1. apply sol_inj; auto; try lia. rewrite <- EQ1. congruence.
    + left. unfold sol2. apply sol_inj; auto; try lia. fold sol2. congruence.
  - exfalso. assert (S0 : satisfies (asg_of 2 q) (geo_cnf 2 2)) by (apply cnf_complete; [lia|auto]). assert (J := A (asg_of 2 q)). rewrite G1, SE1 in J. specialize (J S0). destruct J as [J|[]].
    destruct (family_sat 2 2 empty _ [] q ltac:(lia) (cnf_init 2 2 empty) HQ ltac:(intros c [])) as [_ EC]. cbn [Nat.mul Nat.add] in J, EC. rewrite <- J in EC. apply NI. rewrite EC, EQ. auto.
Qed.
