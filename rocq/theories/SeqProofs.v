(** minimax and sequential_lp (C51, C52). *)
Require Import Reals Lra Lia List Bool Arith Sorted.
From Verif Require Import RVec Num Sums DomModel DomSpec DomProofs DomExamples DomMoreModel DomMoreExamples SweepProofs HullProofs HullIneqProofs VecTac OptModel OptProofs.
Import ListNotations.
Local Open Scope R_scope.

(* ---------------- minimax ---------------- *)
Lemma mm_bt_spec : forall f traj carm tdx tdf x px t pt k alpha xn fxn tn al last,
  mm_bt f traj carm tdx tdf x px t pt k alpha = (BtAccept xn fxn tn al, last) ->
  exists j, (j < k)%nat /\ al = alpha * (1/2) ^ j /\ xn = traj x px al /\ fxn = f xn /\ tn = vmax (f xn) /\ tn <= t + carm * al * pt.
Proof.
  intros f traj carm tdx tdf x px t pt. induction k as [|k IH]; intros alpha xn fxn tn al last E; cbn [mm_bt] in E; [discriminate|].
  cbv zeta in E. destruct (Rltb (linf _) tdx); [discriminate|].
  destruct (Rleb (vmax (f (traj x px alpha))) (t + carm * alpha * pt)) eqn:A.
  - injection E as <- <- <- <- _. apply Rleb_true in A. exists O. simpl. rewrite Rmult_1_r. repeat split; auto; lia.
  - destruct (Rltb (Rabs _) tdf); [discriminate|]. apply IH in E. destruct E as [j [J1 [J2 J]]]. exists (S j).
    split; [lia|]. split; [rewrite J2; simpl; ring|]. exact J.
Qed.

(** the iterates, newest first: the maximum never increases, and every step is accepted by the
    Armijo condition *)
Lemma mm_loop_spec : forall f traj solve carm tdx tdf btmax (P : vec -> Prop), 0 <= carm ->
  (forall x fx t D px pt a, P x -> solve x fx t D = QStep px pt -> 0 <= a <= 1 -> P (traj x px a)) ->
  forall left x t Delta hist r, mm_loop f traj solve carm tdx tdf btmax left x (f x) t Delta (x :: hist) = Some r ->
  t = vmax (f x) -> Forall P (x :: hist) -> StronglySorted (fun a b => vmax (f a) <= vmax (f b)) (x :: hist) ->
  exists new, r = new ++ (x :: hist) /\ (length new <= left)%nat /\ Forall P r /\ StronglySorted (fun a b => vmax (f a) <= vmax (f b)) r.
Proof.
  intros f traj solve carm tdx tdf btmax P Hc HP. 
  assert (STOP : forall (left : nat) x hist r, Some (x :: hist) = Some r -> Forall P (x :: hist) -> StronglySorted (fun a b => vmax (f a) <= vmax (f b)) (x :: hist) ->
     exists new, r = new ++ (x :: hist) /\ (length new <= left)%nat /\ Forall P r /\ StronglySorted (fun a b => vmax (f a) <= vmax (f b)) r).
  { intros l x hist r E F S. injection E as <-. exists []. simpl. repeat split; auto. lia. }
  induction left as [|l IH]; intros x t Delta hist r E Ht FP SS; cbn [mm_loop] in E; [apply STOP; auto|].
  destruct (solve x (f x) t Delta) as [| |px pt] eqn:S; [apply STOP; auto|discriminate|].
  destruct (Rltb 0 pt) eqn:N; [apply STOP; auto|]. apply Rltb_false in N.
  destruct (mm_bt _ _ _ _ _ _ _ _ _ _ _) as [[xn fxn tn al| |] last] eqn:B; [|apply STOP; auto|apply STOP; auto].
  apply mm_bt_spec in B. destruct B as [j [J1 [J2 [J3 [J4 [J5 J6]]]]]].
  assert (A01 : 0 <= al <= 1).
  { rewrite J2, Rmult_1_l. split; [apply pow_le; lra|]. pose proof (pow_incr (1/2) 1 j ltac:(lra)) as Q. rewrite pow1 in Q. exact Q. }
  assert (P1 : Forall P (xn :: x :: hist)). { constructor; auto. rewrite J3. inversion FP; subst. eapply HP; eauto. }
  assert (T1 : vmax (f xn) <= vmax (f x)). { rewrite <- J5, <- Ht. assert (0 <= carm * al) by (apply Rmult_le_pos; lra). assert (carm * al * pt <= 0) by nra. lra. }
  assert (S1 : StronglySorted (fun a b => vmax (f a) <= vmax (f b)) (xn :: x :: hist)).
  { constructor; auto. constructor; auto. apply StronglySorted_inv in SS. destruct SS as [_ SS]. rewrite Forall_forall in *.
    intros y Hy. specialize (SS y Hy). simpl in SS. lra. }
  destruct last.
  - injection E as <-. exists [xn]. repeat split; auto. simpl; lia.
  - subst fxn. apply IH in E; auto. destruct E as [new [E1 [E2 [E3 E4]]]]. exists (new ++ [xn]). repeat split; auto.
    + rewrite E1, <- app_assoc. reflexivity.
    + rewrite app_length. simpl. lia.
Qed.

Theorem minimax_monotone : forall f traj solve carm tdx tdf btmax maxiter x0 r, 0 <= carm ->
  minimax f traj solve carm tdx tdf btmax maxiter x0 = Some r ->
  StronglySorted (fun a b => vmax (f a) <= vmax (f b)) r /\ (exists new, r = new ++ [x0] /\ (length new <= maxiter)%nat) /\
  vmax (f (hd x0 r)) <= vmax (f x0).
Proof.
  intros f traj solve carm tdx tdf btmax maxiter x0 r Hc E. unfold minimax in E.
  apply (mm_loop_spec f traj solve carm tdx tdf btmax (fun _ => True)) in E; auto.
  - destruct E as [new [E1 [E2 [_ E4]]]]. split; auto. split; [eauto|]. subst r. destruct new as [|y new]; simpl; [lra|].
    simpl in E4. apply StronglySorted_inv in E4. destruct E4 as [_ E4]. rewrite Forall_app in E4. destruct E4 as [_ E4]. inversion E4; auto.
  - repeat constructor.
Qed.

Theorem minimax_feasible : forall f d solve carm tdx tdf btmax maxiter x0 r, 0 <= carm -> dom_wf d -> member d x0 ->
  (forall x fx t D px pt, member d x -> solve x fx t D = QStep px pt -> length px = length x /\ member d (vadd x px)) ->
  minimax f trajectory_linear solve carm tdx tdf btmax maxiter x0 = Some r -> Forall (member d) r.
Proof.
  intros f d solve carm tdx tdf btmax maxiter x0 r Hc W M HS E. unfold minimax in E.
  apply (mm_loop_spec f trajectory_linear solve carm tdx tdf btmax (member d)) in E; auto.
  - destruct E as [new [E1 [E2 [E3 _]]]]. exact E3.
  - intros x fx t D px pt a Mx S A. destruct (HS _ _ _ _ _ _ Mx S) as [L MP].
    assert (EQ : trajectory_linear x px a = seg x (vadd x px) a). { unfold trajectory_linear, seg. vring. }
    rewrite EQ. apply member_convex; auto.
  - repeat constructor.
Qed.

(* ---------------- sequential_lp ---------------- *)
(** the bounds on f hold entrywise up to [eps] *)
Definition near_bounds (lb ub : option vec) (eps : R) (y : vec) : Prop :=
  (forall l i, lb = Some l -> (i < length l)%nat -> (i < length y)%nat -> vget l i - eps <= vget y i) /\
  (forall u i, ub = Some u -> (i < length u)%nat -> (i < length y)%nat -> vget y i <= vget u i + eps).
Lemma zsum_ge : forall (g : R -> R -> R) l y, (forall a b, 0 <= g a b) ->
  0 <= vsum (zipw g l y) /\ forall i, (i < length l)%nat -> (i < length y)%nat -> g (vget l i) (vget y i) <= vsum (zipw g l y).
Proof.
  intros g l. induction l as [|a l IH]; intros y G; [simpl; split; [lra|intros; lia]|]. destruct y as [|b y]; [simpl; split; [lra|intros; lia]|].
  destruct (IH y G) as [I1 I2]. pose proof (G a b). simpl zipw. rewrite vsum_cons. split; [lra|]. intros [|i] H1 H2; unfold vget; simpl nth; [lra|].
  simpl in H1, H2. specialize (I2 i ltac:(lia) ltac:(lia)). unfold vget in I2. lra.
Qed.
Lemma viol_near : forall lb ub y eps, Rabs (viol lb ub y) <= eps -> near_bounds lb ub eps y.
Proof.
  intros lb ub y eps H. unfold viol in H.
  set (A := match lb with None => 0 | Some l => vsum (zipw (fun a b => if Rleb a b then 0 else Rabs (b - a)) l y) end) in *.
  set (B := match ub with None => 0 | Some u => vsum (zipw (fun a b => if Rleb b a then 0 else Rabs (b - a)) u y) end) in *.
  assert (GA : forall a b : R, 0 <= (if Rleb a b then 0 else Rabs (b - a))) by (intros a b; destruct (Rleb a b); [lra|apply Rabs_pos]).
  assert (GB : forall a b : R, 0 <= (if Rleb b a then 0 else Rabs (b - a))) by (intros a b; destruct (Rleb b a); [lra|apply Rabs_pos]).
  assert (A0 : 0 <= A) by (unfold A; destruct lb; [apply zsum_ge; auto|lra]). assert (B0 : 0 <= B) by (unfold B; destruct ub; [apply zsum_ge; auto|lra]).
  rewrite Rabs_pos_eq in H by lra. split.
  - intros l i -> H1 H2. destruct (zsum_ge _ l y GA) as [_ S]. specialize (S i H1 H2). fold A in S. cbv beta in S. destruct (Rleb (vget l i) (vget y i)) eqn:C; [apply Rleb_true in C; lra|].
    pose proof (Rle_abs (- (vget y i - vget l i))) as P. rewrite Rabs_Ropp in P. lra.
  - intros u i -> H1 H2. destruct (zsum_ge _ u y GB) as [_ S]. specialize (S i H1 H2). fold B in S. cbv beta in S. destruct (Rleb (vget y i) (vget u i)) eqn:C; [apply Rleb_true in C; lra|].
    pose proof (Rle_abs (vget y i - vget u i)) as P. lra.
Qed.

Section SLP.
  Variable f : vec -> vec.
  Variable nm : lp_norm.
  Variable traj : vec -> vec -> R -> vec.
  Variable solve : vec -> vec -> option R -> lp.
  Variables lb ub : option vec.
  Variables tol_dx tol_obj : R.
  Variable P : vec -> Prop.
  (** contract of the LP solver and of the trajectory: the full step stays in P *)
  Hypothesis HP : forall x fx D p, P x -> solve x fx D = LOpt p -> P (traj x p 1).
  Variable x0 : vec.

  Definition better (a b : vec) : Prop := objfun nm (f a) < objfun nm (f b).
  (** an accepted iterate satisfies the bounds on f *)
  Definition bounds_ok (x : vec) : Prop := near_bounds lb ub (/ 10000000000) (f x).

  Definition sl_inv (s : slst) : Prop :=
    l_f s = f (l_x s) /\ l_obj s = objfun nm (f (l_x s)) /\
    exists new, l_hist s = new ++ [x0] /\ l_x s = hd x0 (l_hist s) /\ Forall P (l_hist s) /\ StronglySorted better (l_hist s) /\ Forall bounds_ok new.

  Lemma sl_in_inv : forall k first s s' last, sl_in f nm traj solve lb ub tol_dx tol_obj k first s = (s', last) -> sl_inv s ->
    sl_inv s' /\ (length (l_hist s') <= 1 + length (l_hist s))%nat.
  Proof.
    induction k as [|k IH]; intros first s s' last E I; cbn [sl_in] in E; [injection E as <- _; auto|].
    cbv zeta in E. destruct (solve (l_x s) (l_f s) _) as [|p|] eqn:S.
    - destruct first; (apply IH in E; [exact E|exact I]).
    - destruct (all_same tol_dx (l_x s) _); [injection E as <- _; split; [exact I|simpl; lia]|].
      destruct (_ && _)%bool eqn:A.
      + injection E as <- _. apply andb_true_iff in A. destruct A as [A1 A2]. apply Rltb_true in A1. apply Rleb_true in A2. apply viol_near in A2.
        destruct I as [I1 [I2 [new [N1 [N2 [N3 [N4 N5]]]]]]]. rewrite I2 in A1. split; [|simpl; lia]. split; [reflexivity|]. split; [reflexivity|].
        cbn [l_x l_f l_obj l_hist]. exists (traj (l_x s) p 1 :: new).
        assert (PX : P (l_x s)). { rewrite N2. rewrite N1 in N3 |- *. destruct new; simpl; rewrite Forall_forall in N3; apply N3; simpl; auto. }
        repeat split; auto.
        * rewrite N1. reflexivity.
        * constructor; auto. eapply HP; eauto.
        * constructor; auto. rewrite Forall_forall. intros y Hy. red. rewrite N2 in A1 |- *.
          destruct (l_hist s) as [|h hs]; [destruct Hy|]. simpl in A1 |- *. apply StronglySorted_inv in N4. destruct N4 as [_ N4].
          rewrite Forall_forall in N4. destruct Hy as [<-|Hy]; [exact A1|]. specialize (N4 y Hy). red in N4. lra.
      + eapply IH in E; [exact E|exact I].
    - eapply IH in E; [exact E|exact I].
  Qed.

  Lemma sl_loop_inv : forall verbose btmax left s s', sl_loop f nm traj solve lb ub tol_dx tol_obj verbose btmax left s = Some s' -> sl_inv s ->
    sl_inv s' /\ (length (l_hist s') <= left + length (l_hist s))%nat.
  Proof.
    intros verbose btmax. induction left as [|l IH]; intros s s' E I; cbn [sl_loop] in E; [injection E as <-; auto|].
    destruct (sl_in _ _ _ _ _ _ _ _ _ _ _) as [s1 last] eqn:IN. apply sl_in_inv in IN; [|exact I]. destruct IN as [I1 I2].
    destruct (verbose && _)%bool; [discriminate|]. cbn [l_hist] in I2. destruct (_ || _)%bool; [injection E as <-; split; auto; lia|].
    apply IH in E; auto. destruct E as [E1 E2]. split; auto. lia.
  Qed.
End SLP.

(** monotone, feasible for every convex-domain style contract, bounds on f satisfied by every accepted
    iterate, at most maxiter accepted steps *)
Theorem seqlp_correct : forall f nm traj solve lb ub tdx tobj verbose btmax maxiter x0 s (P : vec -> Prop), P x0 ->
  (forall x fx D p, P x -> solve x fx D = LOpt p -> P (traj x p 1)) ->
  sequential_lp f nm traj solve lb ub tdx tobj verbose btmax maxiter x0 = Some s ->
  objfun nm (f (l_x s)) <= objfun nm (f x0) /\ P (l_x s) /\
  (l_x s = x0 \/ objfun nm (f (l_x s)) < objfun nm (f x0) /\ near_bounds lb ub (/ 10000000000) (f (l_x s))) /\
  exists new, l_hist s = new ++ [x0] /\ (length new <= maxiter)%nat /\ l_x s = hd x0 (l_hist s) /\ Forall P (l_hist s) /\
    StronglySorted (fun a b => objfun nm (f a) < objfun nm (f b)) (l_hist s) /\ Forall (fun y => near_bounds lb ub (/ 10000000000) (f y)) new.
Proof.
  intros f nm traj solve lb ub tdx tobj verbose btmax maxiter x0 s P P0 HP E. unfold sequential_lp in E.
  eapply (sl_loop_inv f nm traj solve lb ub tdx tobj P HP x0) in E.
  - destruct E as [[I1 [I2 [new [N1 [N2 [N3 [N4 N5]]]]]]] L]. cbn [l_hist length] in L. rewrite N1 in L. rewrite app_length in L. simpl in L.
    assert (C : l_x s = x0 \/ objfun nm (f (l_x s)) < objfun nm (f x0) /\ near_bounds lb ub (/ 10000000000) (f (l_x s))).
    { rewrite N2, N1. destruct new as [|y new]; [left; reflexivity|]. right. simpl. inversion N5; subst. split; auto.
      rewrite N1 in N4. simpl in N4. apply StronglySorted_inv in N4. destruct N4 as [_ N4]. rewrite Forall_app in N4. destruct N4 as [_ N4]. inversion N4; auto. }
    split; [destruct C as [C|[C _]]; [rewrite C; lra|lra]|]. split; [|split; auto].
    + rewrite N2, N1. rewrite N1 in N3. rewrite Forall_forall in N3. destruct new; simpl; auto. apply N3. simpl; auto.
    + exists new. repeat split; auto. lia.
  - split; [reflexivity|]. split; [reflexivity|]. exists []. repeat split; auto; repeat constructor; auto.
Qed.

(** the domain version *)
Theorem seqlp_feasible : forall f nm d solve lb ub tdx tobj verbose btmax maxiter x0 s, member d x0 ->
  (forall x fx D p, member d x -> solve x fx D = LOpt p -> length p = length x /\ member d (vadd x p)) ->
  sequential_lp f nm trajectory_linear solve lb ub tdx tobj verbose btmax maxiter x0 = Some s -> Forall (member d) (l_hist s) /\ member d (l_x s).
Proof.
  intros f nm d solve lb ub tdx tobj verbose btmax maxiter x0 s M HS E.
  assert (HP : forall x fx D p, member d x -> solve x fx D = LOpt p -> member d (trajectory_linear x p 1)).
  { intros x fx D p Mx S. destruct (HS _ _ _ _ Mx S) as [L Mp].
    assert (EQ : trajectory_linear x p 1 = vadd x p). { unfold trajectory_linear. vring. }
    rewrite EQ. exact Mp. }
  pose proof (seqlp_correct f nm trajectory_linear solve lb ub tdx tobj verbose btmax maxiter x0 s (member d) M HP E) as C.
  destruct C as [_ [E1 [_ [new [_ [_ [_ [E2 _]]]]]]]]. auto.
Qed.

(** an infeasible start whose objective no feasible point improves is returned unchanged *)
Lemma sl_in_stuck : forall f nm traj solve lb ub tdx tobj x0,
  (forall y, near_bounds lb ub (/ 10000000000) (f y) -> objfun nm (f x0) <= objfun nm (f y)) ->
  forall k first s s' last, sl_in f nm traj solve lb ub tdx tobj k first s = (s', last) -> l_x s = x0 -> l_obj s = objfun nm (f x0) ->
  l_x s' = x0 /\ l_obj s' = objfun nm (f x0).
Proof.
  intros f nm traj solve lb ub tdx tobj x0 H. induction k as [|k IH]; intros first s s' last E X O; cbn [sl_in] in E; [injection E as <- _; auto|].
  cbv zeta in E. destruct (solve (l_x s) (l_f s) _) as [|p|].
  - destruct first; (apply IH in E; [exact E|auto|auto]).
  - destruct (all_same _ _ _); [injection E as <- _; auto|]. destruct (_ && _)%bool eqn:A.
    + apply andb_true_iff in A. destruct A as [A1 A2]. apply Rltb_true in A1. apply Rleb_true in A2. apply viol_near in A2. apply H in A2. rewrite O in A1. lra.
    + apply IH in E; [exact E|auto|auto].
  - apply IH in E; [exact E|auto|auto].
Qed.

Theorem seqlp_stuck : forall f nm traj solve lb ub tdx tobj btmax maxiter x0,
  (forall y, near_bounds lb ub (/ 10000000000) (f y) -> objfun nm (f x0) <= objfun nm (f y)) ->
  exists s, sequential_lp f nm traj solve lb ub tdx tobj false btmax maxiter x0 = Some s /\ l_x s = x0.
Proof.
  intros f nm traj solve lb ub tdx tobj btmax maxiter x0 H. unfold sequential_lp.
  set (s0 := mkSl x0 (f x0) (objfun nm (f x0)) 1 false false false [x0]).
  assert (X : l_x s0 = x0) by reflexivity. assert (O : l_obj s0 = objfun nm (f x0)) by reflexivity. clearbody s0. revert s0 X O.
  induction maxiter as [|l IH]; intros s X O; cbn [sl_loop]; [eauto|].
  destruct (sl_in _ _ _ _ _ _ _ _ _ _ _) as [s1 last] eqn:IN. eapply sl_in_stuck in IN; eauto. destruct IN as [I1 I2].
  cbn [andb]. destruct (l_stop s1 || last)%bool; eauto.
Qed.

(** finding: the bounds on f are not enforced on the result *)
Theorem seqlp_bounds_refuted : forall solve tdx tobj btmax maxiter, exists s,
  sequential_lp (fun x => x) N2 trajectory_linear solve (Some [1]) None tdx tobj false btmax maxiter [0] = Some s /\
  l_x s = [0] /\ ~ near_bounds (Some [1]) None (/ 2) (l_x s) /\ near_bounds (Some [1]) None 0 [1].
Proof.
  intros solve tdx tobj btmax maxiter.
  destruct (seqlp_stuck (fun x => x) N2 trajectory_linear solve (Some [1]) None tdx tobj btmax maxiter [0]) as [s [S1 S2]].
  - intros y _. simpl. rewrite norm2_one, Rabs_R0. apply norm2_nonneg.
  - exists s. repeat split; auto.
    + rewrite S2. intros [A _]. specialize (A [1] O eq_refl ltac:(simpl; lia) ltac:(simpl; lia)). unfold vget in A. simpl in A. lra.
    + intros l i E H1 H2. injection E as <-. simpl in H1. assert (i = O) by lia. subst. unfold vget. simpl. lra.
    + intros l i E. discriminate.
Qed.

(** finding: nonlinear constraints are only linearised and never checked.  Minimise -x subject to
    x^2 <= 4, from x = 1, with an exact solver of the linearised problem. *)
Definition nl_lin (a p : R) : Prop := a * a + 2 * a * p <= 4.
Definition nl_ok (tr : option R) (p : R) : Prop := match tr with None => True | Some D => Rabs p <= D end.
Definition nl_solve (x fx : vec) (tr : option R) : lp :=
  let a := vget x 0 in let p := (4 - a * a) / (2 * a) in
  match tr with
  | None => LOpt [p]
  | Some D => if Rltb D (- p) then LBad else if Rltb D 0 then LBad else LOpt [Rmin p D]
  end.
(** nl_solve is exact *)
Lemma nl_solve_exact : forall a fx tr, 0 < a ->
  match nl_solve [a] fx tr with
  | LOpt [p] => nl_lin a p /\ nl_ok tr p /\ forall q, nl_lin a q -> nl_ok tr q -> - a - p <= - a - q
  | LBad => forall q, nl_lin a q -> nl_ok tr q -> False
  | _ => False
  end.
Proof.
  intros a fx tr Ha. unfold nl_solve. cbv zeta. replace (vget [a] 0) with a by reflexivity. set (p := (4 - a * a) / (2 * a)).
  assert (PA : a * a + 2 * a * p = 4) by (unfold p; field; lra). clearbody p.
  assert (Q : forall q, nl_lin a q -> q <= p). { intros q Hq. red in Hq. apply Rmult_le_reg_l with a; nra. }
  destruct tr as [D|]; cbn [nl_ok].
  - destruct (Rltb D (- p)) eqn:A; [|destruct (Rltb D 0) eqn:B].
    + apply Rltb_true in A. intros q Hq Hd. apply Q in Hq. 
      unfold Rabs in Hd. destruct (Rcase_abs q); lra.
    + apply Rltb_true in B. intros q Hq Hd. pose proof (Rabs_pos q). lra.
    + apply Rltb_false in A. apply Rltb_false in B. pose proof (Rmin_l p D). pose proof (Rmin_r p D).
      split; [red; nra|]. split.
      * apply Rabs_le. split; auto. apply Rmin_glb; lra.
      * intros q Hq Hd. apply Q in Hq. pose proof (Rle_abs q). assert (q <= Rmin p D) by (apply Rmin_glb; lra). lra.
  - split; [red; lra|]. split; auto. intros q Hq _. apply Q in Hq. lra.
Qed.

Lemma nl_solve_half : forall fx tr, nl_solve [5/2] fx tr = LBad \/ nl_solve [5/2] fx tr = LOpt [-9/20] .
Proof.
  intros fx tr. unfold nl_solve. cbv zeta. replace (vget [5/2] 0) with (5/2) by reflexivity.
  replace ((4 - 5 / 2 * (5 / 2)) / (2 * (5 / 2))) with (-9/20) by lra. destruct tr as [D|]; auto.
  destruct (Rltb D _) eqn:A; auto. destruct (Rltb D 0) eqn:B; auto. apply Rltb_false in B. right. rewrite Rmin_left by lra. reflexivity.
Qed.

Lemma nl_stuck : forall tdx tobj k first s s' last, sl_in (vscale (-1)) NNone trajectory_linear nl_solve None None tdx tobj k first s = (s', last) ->
  l_x s = [5/2] -> l_obj s = -5/2 -> l_x s' = [5/2] /\ l_obj s' = -5/2.
Proof.
  intros tdx tobj. induction k as [|k IH]; intros first s s' last E X O; cbn [sl_in] in E; [injection E as <- _; auto|].
  cbv zeta in E. rewrite X in E. destruct (nl_solve_half (l_f s) (if first then None else Some (l_Delta s))) as [S|S]; rewrite S in E.
  - apply IH in E; [exact E|auto|auto].
  - destruct (all_same _ _ _); [injection E as <- _; auto|]. destruct (_ && _)%bool eqn:A.
    + apply andb_true_iff in A. destruct A as [A1 _]. apply Rltb_true in A1. rewrite O in A1. unfold trajectory_linear, vadd, vscale, objfun, vget in A1. simpl in A1. lra.
    + apply IH in E; [exact E|auto|auto].
Qed.

Theorem seqlp_constraint_refuted : forall tdx tobj btmax maxiter, 0 <= tdx -> tdx < 3/5 -> (1 <= btmax)%nat -> (1 <= maxiter)%nat -> exists s,
  sequential_lp (vscale (-1)) NNone trajectory_linear nl_solve None None tdx tobj false btmax maxiter [1] = Some s /\ l_x s = [5/2] /\
  1 * 1 <= 4 /\ 4 < 5/2 * (5/2).
Proof.
  intros tdx tobj btmax maxiter T0 T1 Hb Hm. unfold sequential_lp. destruct maxiter as [|m]; [lia|]. destruct btmax as [|b]; [lia|]. cbn [sl_loop].
  assert (IN : forall s, l_x s = [1] -> l_obj s = -1 -> l_stop s = false -> exists s' last, sl_in (vscale (-1)) NNone trajectory_linear nl_solve None None tdx tobj (S b) true s = (s', last) /\ l_x s' = [5/2] /\ l_obj s' = -5/2).
  { intros s X O ST. cbn [sl_in]. cbv zeta. rewrite X. unfold nl_solve at 1. replace (vget [1] 0) with 1 by reflexivity.
    replace ((4 - 1 * 1) / (2 * 1)) with (3/2) by lra.
    replace (trajectory_linear [1] [3/2] 1) with [5/2] by (unfold trajectory_linear, vadd, vscale; simpl; apply (f_equal (fun t => [t])); lra).
    assert (SM : all_same tdx [1] [5/2] = false).
    { unfold all_same. simpl. rewrite andb_true_r. destruct (Rleb _ _) eqn:A; auto. apply Rleb_true in A. rewrite Rabs_left, Rabs_right in A by lra. lra. }
    rewrite SM. replace (objfun NNone (vscale (-1) [5/2])) with (-5/2) by (unfold objfun, vscale, vget; simpl; lra). rewrite O.
    destruct (_ && _)%bool eqn:A.
    - eexists; eexists. split; [reflexivity|]. split; auto.
    - exfalso. apply andb_false_iff in A. destruct A as [A|A]; [apply Rltb_false in A; lra|apply Rleb_false in A].
      unfold viol in A. rewrite Rplus_0_r, Rabs_R0 in A. lra. }
  match goal with |- context [sl_in _ _ _ _ _ _ _ _ _ _ ?s0] => destruct (IN s0) as [s1 [last [E1 [E2 E3]]]]; [reflexivity| |reflexivity|] end.
  { cbn [l_obj]. unfold objfun, vscale, vget. simpl. lra. }
  rewrite E1. cbn [andb]. clear IN E1.
  assert (R : forall m s, l_x s = [5/2] -> l_obj s = -5/2 -> exists s', sl_loop (vscale (-1)) NNone trajectory_linear nl_solve None None tdx tobj false (S b) m s = Some s' /\ l_x s' = [5/2]).
  { clear. induction m as [|m IH]; intros s X O; cbn [sl_loop]; [eauto|]. destruct (sl_in _ _ _ _ _ _ _ _ _ _ _) as [s1 last] eqn:IN.
    apply nl_stuck in IN; auto. destruct IN as [I1 I2]. cbn [andb]. destruct (_ || _)%bool; [eauto|]. apply IH; auto. }
  destruct (l_stop s1 || last)%bool.
  - exists s1. repeat split; auto; lra.
  - destruct (R m s1 E2 E3) as [s' [R1 R2]]. exists s'. repeat split; auto; lra.
Qed.

(** finding: with printing on, an infeasible first subproblem raises (constraint_violation is unbound);
    without printing the start is returned *)
Theorem seqlp_verbose_refuted : forall f nm traj lb ub tdx tobj btmax maxiter x0, (1 <= btmax)%nat -> (1 <= maxiter)%nat ->
  sequential_lp f nm traj (fun _ _ _ => LBad) lb ub tdx tobj true btmax maxiter x0 = None /\
  exists s, sequential_lp f nm traj (fun _ _ _ => LBad) lb ub tdx tobj false btmax maxiter x0 = Some s /\ l_x s = x0.
Proof.
  intros f nm traj lb ub tdx tobj btmax maxiter x0 Hb Hm.
  assert (IN : forall k first s s' last, sl_in f nm traj (fun _ _ _ => LBad) lb ub tdx tobj k first s = (s', last) -> l_cv s' = l_cv s /\ l_x s' = l_x s).
  { induction k as [|k IH]; intros first s s' last E; cbn [sl_in] in E; [injection E as <- _; auto|]. apply IH in E. exact E. }
  unfold sequential_lp. set (s0 := mkSl x0 (f x0) (objfun nm (f x0)) 1 false false false [x0]). split.
  - destruct maxiter as [|m]; [lia|]. cbn [sl_loop]. destruct (sl_in _ _ _ _ _ _ _ _ _ _ _) as [s1 last] eqn:E. apply IN in E. destruct E as [E _].
    cbn [l_cv s0] in E. rewrite E, andb_false_r. reflexivity.
  - assert (X : l_x s0 = x0) by reflexivity. clearbody s0. revert s0 X. clear Hm. induction maxiter as [|m IH]; intros s X; cbn [sl_loop]; [eauto|].
    destruct (sl_in _ _ _ _ _ _ _ _ _ _ _) as [s1 last] eqn:E. apply IN in E. destruct E as [_ E]. cbn [andb]. cbn [l_x] in E.
    destruct (_ || _)%bool; [exists s1; split; auto; congruence|]. apply IH. congruence.
Qed.

(* ---------------- cases meeting the hypotheses ---------------- *)
Example ex_minimax_case : exists r, minimax (fun x => x) trajectory_linear (fun x fx t D => QStep [-1] (-1)) (1/10) (/100) (/100) 3 1 [2] = Some r /\ r = [[1]; [2]].
Proof.
  unfold minimax. cbn [mm_loop]. destruct (Rltb 0 (-1)) eqn:A; [apply Rltb_true in A; lra|]. cbn [mm_bt]. cbv zeta.
  replace (trajectory_linear [2] [-1] 1) with [1] by (unfold trajectory_linear, vadd, vscale; simpl; apply (f_equal (fun t => [t])); lra).
  assert (B : Rltb (linf (vsub [1] [2])) (/ 100) = false).
  { clear A. destruct (Rltb _ _) eqn:B; auto. apply Rltb_true in B. change (linf (vsub [1] [2])) with (Rmax (Rabs (1 - 2)) 0) in B. rewrite Rabs_left in B by lra. pose proof (Rmax_l (-(1-2)) 0). lra. }
  rewrite B. assert (C : Rleb (vmax [1]) (vmax [2] + 1 / 10 * 1 * -1) = true) by (apply Rleb_true; simpl; lra). rewrite C. simpl. eexists; split; reflexivity.
Qed.

Example ex_affine_case : Forall (fun r => length r = 1%nat) [[2]; [1]] /\ dot (mv [[2]; [1]] [-1]) (vadd (mv [[2]; [1]] [-1]) (affine [[2]; [1]] [0; 3] [3/5 + 1])) = 0 /\
  mv [[2]; [1]] [-1] <> vzero 2 /\ norm2 (affine [[2]; [1]] [0; 3] [3/5 + 1]) < 1 / (2 * / 10000).
Proof.
  split; [repeat constructor|]. unfold affine, vadd, vsub, mv. simpl. rewrite !dot_cons, !dot_nil_l. split; [lra|]. split.
  - intro H. unfold vzero in H. simpl in H. injection H as H1 H2. lra.
  - apply Rle_lt_trans with 100; [|lra]. apply norm2_le_iff; [lra|]. unfold norm2sq. rewrite !dot_cons, dot_nil_l. lra.
Qed.

(** the step contract of minimax_feasible and seqlp_feasible holds on a half infinite box *)
Example ex_step_contract : member ex_half [1; 2] /\ dom_wf ex_half /\ forall x, member ex_half x -> length [1; 1] = length x /\ member ex_half (vadd x [1; 1]).
Proof.
  split; [memb|]. split; [apply ex_half_wf|]. intros x [L [B _]]. cbn [dim ex_half] in L. destruct x as [|a [|b [|c x]]]; simpl in L; try discriminate.
  split; [reflexivity|]. pose proof (proj1 (B 0%nat) 0 eq_refl) as B0. pose proof (proj1 (B 1%nat) 1 eq_refl) as B1. unfold vget in B0, B1. simpl in B0, B1.
  unfold member. cbn [dim ex_half lb ub dA db dAeq dbeq quads]. split; [reflexivity|]. split; [|split; [|split]].
  - intro i. split; intros v Hv; destruct i as [|[|[|i]]]; simpl in Hv; try discriminate; injection Hv as <-; unfold vget, vadd; simpl; lra.
  - intros k r c Hk. destruct k; discriminate.
  - intros k r c Hk. destruct k; discriminate.
  - intros q [].
Qed.

Example ex_gn_case : gauss_newton 1 ex_f ex_F ex_solver (default_ls ex_f) true (/ 10000000000) (/ 1000000000000) 1 [1] = Some ([0], Some O).
Proof.
  unfold gauss_newton. cbv zeta.
  assert (G : g_ng (gn_start 1 ex_f ex_F [1]) = 1) by (unfold gn_start, ex_F, ex_f; rewrite ex_tmv; simpl; rewrite norm2_one; apply Rabs_R1).
  rewrite G, ex_tol, ex_gn_step by lra. unfold gn_info. cbn [g_x g_ng].
  destruct (Rleb 0 (/ 10000000000)) eqn:A; [reflexivity|apply Rleb_false in A; lra].
Qed.

Example ex_silent_case : / 10000000000 < 1 /\ / 100000000000000 < norm2 (tmv 1 (ex_F [1]) (ex_f [1])) /\
  exists x i, gauss_newton 1 ex_f ex_F ex_solver (default_ls ex_f) false (/ 10000000000) (/ 1000000000000) 1 [1] = Some (x, i).
Proof.
  split; [lra|]. split; [unfold ex_F, ex_f; rewrite ex_tmv, norm2_one, Rabs_R1; lra|].
  unfold gauss_newton. cbv zeta. 
  assert (G : g_ng (gn_start 1 ex_f ex_F [1]) = 1) by (unfold gn_start, ex_F, ex_f; rewrite ex_tmv; simpl; rewrite norm2_one; apply Rabs_R1).
  rewrite G, ex_tol, ex_gn_step by lra. eauto.
Qed.

(** a start no feasible point improves on *)
Example ex_stuck_case : forall y, near_bounds (Some [1]) None (/ 10000000000) y -> objfun N2 [0] <= objfun N2 y.
Proof. intros y _. simpl. rewrite norm2_one, Rabs_R0. apply norm2_nonneg. Qed.

(** the objective is the norm it is named after *)
Theorem objfun_spec : forall fx,
  objfun N1 fx = rsum (length fx) (fun i => Rabs (vget fx i)) /\
  objfun N2 fx = sqrt (rsum (length fx) (fun i => vget fx i * vget fx i)) /\
  ((forall i, (i < length fx)%nat -> Rabs (vget fx i) <= objfun NInf_ fx) /\ (fx <> [] -> exists i, (i < length fx)%nat /\ objfun NInf_ fx = Rabs (vget fx i))) /\
  objfun NHinge fx = rsum (length fx) (fun i => if Rlt_dec 0 (vget fx i) then vget fx i else 0) /\
  objfun NNone fx = vget fx 0.
Proof.
  intro fx. split; [|split; [|split; [|split]]]; simpl.
  - rewrite vsum_rsum, map_length. apply rsum_ext. intros i Hi. unfold vget. rewrite <- (map_nth Rabs). apply nth_indep. rewrite map_length; auto.
  - unfold norm2, norm2sq. rewrite dot_rsum by auto. reflexivity.
  - induction fx as [|a fx [I1 I2]]; [split; [intros i Hi; simpl in Hi; lia|intro H; contradiction]|]. split.
    + intros [|i] Hi; unfold vget; simpl; [apply Rmax_l|]. eapply Rle_trans; [apply (I1 i); simpl in Hi; lia|apply Rmax_r].
    + intros _. simpl. destruct (Rle_dec (Rabs a) (linf fx)) as [H|H].
      * rewrite Rmax_right by auto. destruct fx as [|b fx]; [exists O; simpl in *; split; [lia|unfold vget; simpl; pose proof (Rabs_pos a); lra]|].
        destruct I2 as [i [Hi Ei]]; [discriminate|]. exists (S i). split; [simpl in *; lia|]. exact Ei.
      * rewrite Rmax_left by lra. exists O. split; [simpl; lia|reflexivity].
  - rewrite vsum_rsum, map_length. apply rsum_ext. intros i Hi. transitivity (Rmax (vget fx i) 0).
    + unfold vget. rewrite nth_indep with (d' := (fun a => Rmax a 0) 0) by (rewrite map_length; auto). rewrite (map_nth (fun a => Rmax a 0)). reflexivity.
    + destruct (Rlt_dec 0 (vget fx i)); [apply Rmax_left|apply Rmax_right]; lra.
  - reflexivity.
Qed.
Example ex_objfun : objfun NHinge [2; -3; 1] = 3 /\ objfun N1 [2; -3] = 5.
Proof. split; simpl; [rewrite Rmax_left, Rmax_right, Rmax_left by lra; lra|]. rewrite Rabs_pos_eq, Rabs_left by lra. lra. Qed.
