(** Concrete cases for the Voronoi vertices and the vertex walk. *)
Require Import Reals Lra Lia List Bool Arith ZArith.
From Verif Require Import RVec Num Sums DomModel DomSpec DomProofs DomMoreModel SweepProofs HullProofs HullIneqProofs LipModel LipProofs MatLib SampModel PigeonLib PoissonProofs PoissonCases DesignProofs CoffeeProofs GeoModel GeoProofs VoronoiProofs WalkProofs.
Import ListNotations.
Local Open Scope R_scope.

(** the box [0,2] x [0,1] with sites (1/2,1/2) and (3/2,1/2): cells [0,1]^2 and [1,2] x [0,1] *)
Definition vA : mat := [[1;0]; [-1;0]; [0;1]; [0;-1]].
Definition vb : vec := [2; 0; 1; 0].
Definition vI : mat := [[1;0]; [0;1]].
Definition vX : mat := [[1/2;1/2]; [3/2;1/2]].
Definition vrect (a : R) : mat := [[a;0]; [a+1;0]; [a;1]; [a+1;1]].
Definition vhsi (rows : list (vec * R)) : mat := if Rltb 0 (vget (fst (last rows ([],0))) 0) then vrect 0 else vrect 1.

Lemma dot2 : forall a c x y : R, dot [a;c] [x;y] = a * x + c * y.
Proof. intros. rewrite !dot_cons, dot_nil_l. ring. Qed.
Lemma pair2 : forall a c x y : R, a = x -> c = y -> [a;c] = [x;y].
Proof. intros; subst; auto. Qed.
Lemma cons2 : forall (A : Type) (a b : A) (l l' : list A), a = b -> l = l' -> a :: l = b :: l'.
Proof. intros; subst; auto. Qed.
Lemma prod2 : forall (A B : Type) (a b : A) (c d : B), a = b -> c = d -> (a, c) = (b, d).
Proof. intros; subst; auto. Qed.
Ltac leq := repeat first [apply cons2 | apply prod2 | reflexivity]; try lra; try ring.
Lemma vrows : forall a : R, (a = 0 \/ a = 1) -> exists p c, hs_rows 2 vA vb vI vI vX (if Rleb a 0 then 0 else 1) = combine (map (fun a => row_times 2 a vI) vA) vb ++ [([p;0], c)] /\ ((a = 0 /\ p = 1 /\ c = 1) \/ (a = 1 /\ p = -1 /\ c = -1)).
Proof.
  assert (R1 : Rltb 0 (norm2sq [0;0]) = false) by (unfold norm2sq; rewrite dot2; destruct (Rltb _ _) eqn:Q; auto; apply Rltb_true in Q; lra).
  assert (R2 : forall p, p = 1 \/ p = -1 -> Rltb 0 (norm2sq [p;0]) = true) by (intros p Hp; apply Rltb_true; unfold norm2sq; rewrite dot2; destruct Hp; subst; lra).
  assert (EY : map (mv vI) vX = vX) by (unfold vX, vI, mv; cbn [map]; rewrite !dot2; leq).
  intros a [-> | ->].
  - destruct (Rleb 0 0) eqn:Q; [|apply Rleb_false in Q; lra]. exists 1, 1. split; [|left; auto].
    unfold hs_rows. unfold vX at 1. f_equal. rewrite EY. unfold cell_rows, vX. cbn [nth map filter fst snd vsub vmap2 vadd vscale].
    replace (1/2 - 1/2) with 0 by lra. replace (3/2 - 1/2) with 1 by lra. rewrite R1, R2 by auto. rewrite dot2. leq.
  - destruct (Rleb 1 0) eqn:Q; [apply Rleb_true in Q; lra|]. exists (-1), (-1). split; [|right; auto].
    unfold hs_rows. unfold vX at 1. f_equal. rewrite EY. unfold cell_rows, vX. cbn [nth map filter fst snd vsub vmap2 vadd vscale].
    replace (1/2 - 1/2) with 0 by lra. replace (3/2 - 3/2) with 0 by lra. replace (1/2 - 3/2) with (-1) by lra. rewrite R1, R2 by auto. rewrite dot2. leq.
Qed.
Lemma vA_rows : combine (map (fun a => row_times 2 a vI) vA) vb = combine vA vb.
Proof. unfold vA, vb, vI, row_times. cbn [map combine lincomb vadd vmap2 vscale vzero repeat]. leq. Qed.
Lemma vrect_ok : forall a rows, (forall y, length y = 2%nat -> (sat rows y <-> a <= vget y 0 <= a + 1 /\ 0 <= vget y 1 <= 1)) -> hsi_ok 2 rows (vrect a).
Proof.
  intros a rows H. split.
  - unfold vrect. repeat (apply Forall_cons; [split; [auto|apply H; [auto|cbn; lra]]|]). apply Forall_nil.
  - intros y Ly Sy. apply H in Sy; auto. destruct y as [|y0 [|y1 [|]]]; try discriminate. cbn [vget nth] in Sy. set (s := y0 - a).
    exists [(1-s)*(1-y1); s*(1-y1); (1-s)*y1; s*y1]. unfold vrect. cbn [length]. split; auto. split.
    + repeat (apply Forall_cons; [apply Rmult_le_pos; unfold s; lra|]). apply Forall_nil.
    + split; [unfold vsum; simpl; ring|]. cbn [lincomb vadd vmap2 vscale map vzero repeat]. unfold s. leq.
Qed.
Lemma v_inv : inverse_of 2 vI vI.
Proof.
  assert (E : forall x, length x = 2%nat -> mv vI (mv vI x) = x). { intros x Lx. destruct x as [|x0 [|x1 [|]]]; try discriminate. unfold vI, mv. cbn [map]. rewrite !dot2. leq. }
  unfold inverse_of. split; [split; [auto|repeat constructor]|]. split; [split; [auto|repeat constructor]|]. intros x Lx. split; apply E; auto.
Qed.
(** hypotheses of [fill_exact] *)
Example ex_voronoi : inverse_of 2 vI vI /\ Forall (inP 2 vA vb) vX /\
  forall k, (k < length vX)%nat -> hsi_ok 2 (hs_rows 2 vA vb vI vI vX k) (vhsi (hs_rows 2 vA vb vI vI vX k)).
Proof.
  split; [apply v_inv|]. split.
  - unfold vX. repeat (apply Forall_cons; [split; [auto|]|]); [| |apply Forall_nil]; unfold vA, vb; intros a c I; cbn [combine] in I; repeat (destruct I as [E|I]; [injection E as <- <-; rewrite dot2; lra|]); destruct I.
  - assert (G : forall a : R, a = 0 \/ a = 1 -> let rows := hs_rows 2 vA vb vI vI vX (if Rleb a 0 then 0 else 1) in hsi_ok 2 rows (vhsi rows)).
    { intros a Ha. destruct (vrows a Ha) as [p [c [E K]]]. cbv zeta. rewrite E. unfold vhsi. rewrite last_last. cbn [fst vget nth].
      assert (EV : (if Rltb 0 p then vrect 0 else vrect 1) = vrect a). { destruct K as [[-> [-> _]]|[-> [-> _]]]; destruct (Rltb _ _) eqn:Q; auto; [apply Rltb_false in Q|apply Rltb_true in Q]; lra. }
      rewrite EV. apply vrect_ok. intros y Ly. destruct y as [|y0 [|y1 [|]]]; try discriminate. cbn [vget nth]. rewrite sat_app, vA_rows. split.
      - intros [S1 S2]. unfold vA, vb in S1. pose proof (S1 [1;0] 2 ltac:(simpl; auto)) as T1. pose proof (S1 [-1;0] 0 ltac:(simpl; auto)) as T2. pose proof (S1 [0;1] 1 ltac:(simpl; auto)) as T3. pose proof (S1 [0;-1] 0 ltac:(simpl; auto 6)) as T4. pose proof (S2 [p;0] c ltac:(left; auto)) as T5.
        rewrite !dot2 in *. destruct K as [[-> [-> ->]]|[-> [-> ->]]]; lra.
      - intros B. split.
        + unfold vA, vb. intros a' c' I. cbn [combine] in I. destruct K as [[-> _]|[-> _]]; repeat (destruct I as [E'|I]; [injection E' as <- <-; rewrite dot2; lra|]); destruct I.
        + intros a' c' [E'|[]]. injection E' as <- <-. rewrite dot2. destruct K as [[-> [-> ->]]|[-> [-> ->]]]; lra. }
    intros k Hk. destruct k as [|[|k]]; [| |simpl in Hk; lia].
    + pose proof (G 0 ltac:(auto)) as G0. destruct (Rleb 0 0) eqn:Q; [auto|apply Rleb_false in Q; lra].
    + pose proof (G 1 ltac:(auto)) as G1. destruct (Rleb 1 0) eqn:Q; [apply Rleb_true in Q; lra|auto].
Qed.

(** a clean walk: domain [0,10], sites 0 and 10, start 1: one step to the Voronoi vertex 5 *)
Definition wb : vec := [10; 0].
Definition wX : mat := [[0]; [10]].
Definition word (x : vec) : list nat := if Rleb (Rabs (vget x 0)) (Rabs (vget x 0 - 10)) then [0; 1]%nat else [1; 0]%nat.
Lemma w_dir : step_h 1 [[1]] tA wb [] wX tqr false [0;1]%nat [1] 0 [1] = [1].
Proof.
  unfold step_h, vv_dir. assert (NN : vv_null 1 [[1]] tA wb [] wX [0;1]%nat 0 [1] = []).
  { unfold vv_null, tA, wb. cbn [app combine map fst snd filter length Nat.min Nat.add Nat.sub seq]. rewrite !dot_cons, !dot_nil_l.
    assert (C1 : np_close (1 * 1 + 0) 10 = false). { unfold np_close. destruct (Rleb _ _) eqn:Q; auto. apply Rleb_true in Q. rewrite (Rabs_left (1 * 1 + 0 - 10)) in Q by lra. rewrite (Rabs_right 10) in Q by lra. unfold atol, rtol in Q. lra. }
    assert (C2 : np_close (-1 * 1 + 0) 0 = false). { apply np_close0_no. rewrite Rabs_left by lra. unfold atol. lra. }
    cbn [filter fst snd]. rewrite C1, C2. cbn. reflexivity. }
  rewrite NN. unfold ltl, site, wX, mv. cbn. rewrite !dot_cons, !dot_nil_l. f_equal. ring.
Qed.
Lemma w_ord : word [1] = [0;1]%nat.
Proof. unfold word. cbn [vget nth]. destruct (Rleb _ _) eqn:Q; auto. apply Rleb_false in Q. rewrite (Rabs_right 1) in Q by lra. rewrite (Rabs_left (1 - 10)) in Q by lra. lra. Qed.
Example ex_walk : walk_pre 1 [[1]] tA wb [] wX tqr word (fun _ => [1]) /\ inP 1 tA wb [1] /\
  (forall i, (i < 1)%nat -> clean_step 1 [[1]] tA wb [] wX tqr false word (fun _ => [1]) i (vv_walk i 0 1 [[1]] tA wb [] wX tqr false word (fun _ => [1]) [1])) /\
  vv_walk 1 0 1 [[1]] tA wb [] wX tqr false word (fun _ => [1]) [1] = [5].
Proof.
  split; [|split; [|split]].
  - pose proof t_pre as [_ [_ [_ [_ [_ [_ [_ T]]]]]]]. unfold walk_pre, tA, wX. do 6 (split; [repeat constructor; try discriminate|]). split; [|exact T].
    intros x [Lx _]. destruct x as [|x [|]]; try discriminate. unfold first_nearest, word, site. cbn [vget nth length]. destruct (Rleb (Rabs x) (Rabs (x - 10))) eqn:E; cbn [nth].
    + apply Rleb_true in E. split; [intros [|[|j]] Hj; simpl; lia|]. intros z [<-|[<-|[]]]; rewrite !Ldist1, Rminus_0_r; lra.
    + apply Rleb_false in E. split; [intros [|[|j]] Hj; simpl; lia|]. intros z [<-|[<-|[]]]; rewrite !Ldist1, ?Rminus_0_r; lra.
  - split; [auto|]. unfold tA, wb. intros a c [E|[E|[]]]; injection E as <- <-; rewrite dot_cons, dot_nil_l; lra.
  - intros i Hi. assert (i = O) by lia. subst i. cbn [vv_walk]. unfold clean_step. rewrite w_ord, w_dir. intros xhat [<-|[<-|[]]]; unfold site, wX, mv; cbn; rewrite !dot_cons, !dot_nil_l; [left; lra|right; unfold atol; lra].
  - cbn [vv_walk]. rewrite w_ord, vv_step_eq. unfold step_al. rewrite w_dir. unfold al, vv_alpha.
    assert (SD : small_dir [1] = false). { unfold small_dir, vmax. cbn. destruct (Rltb _ _) eqn:Q; auto. apply Rltb_true in Q. rewrite Rabs_right in Q by lra. lra. }
    assert (S1 : site_alpha [[1]] [1] (site wX [0;1]%nat 0) [1] [0] = None). { unfold site_alpha, site, wX, mv. cbn. rewrite !dot_cons, !dot_nil_l. assert (Q : np_close (Rabs ((1 * (0 - 0) + 0) * (1 * 1 + 0) + 0)) 0 = true). { unfold np_close. apply Rleb_true. replace ((1 * (0 - 0) + 0) * (1 * 1 + 0) + 0) with 0 by ring. rewrite !Rabs_R0, Rminus_0_r, Rabs_R0. unfold atol. lra. } rewrite Q. auto. }
    assert (S2 : site_alpha [[1]] [1] (site wX [0;1]%nat 0) [1] [10] = Some 4).
    { unfold site_alpha, site, wX, mv. cbn. rewrite !dot_cons, !dot_nil_l. assert (Q : np_close (Rabs ((1 * (10 - 0) + 0) * (1 * 1 + 0) + 0)) 0 = false). { apply np_close0_no. rewrite Rabs_Rabsolu, Rabs_right by lra. unfold atol. lra. } rewrite Q.
      replace (- ((1 * 1 + 0 - 1 / 2 * (1 * (10 + 0) + 0)) * (1 * (10 - 0) + 0) + 0) / ((1 * (10 - 0) + 0) * (1 * 1 + 0) + 0)) with 4 by lra. destruct (Rltb 4 0) eqn:R; auto. apply Rltb_true in R. lra. }
    assert (F1 : face_alpha [1] [1] ([1], 10) = Some 9). { unfold face_alpha. cbn [fst snd]. rewrite !dot_cons, !dot_nil_l. destruct (Reqb _ 0) eqn:Q; [apply Reqb_true in Q; lra|]. replace ((10 - (1 * 1 + 0)) / (1 * 1 + 0)) with 9 by lra. destruct (Rleb _ 0) eqn:R; [apply Rleb_true in R; lra|auto]. }
    assert (F2 : face_alpha [1] [1] ([-1], 0) = None). { unfold face_alpha. cbn [fst snd]. rewrite !dot_cons, !dot_nil_l. destruct (Reqb _ 0) eqn:Q; auto. destruct (Rleb _ 0) eqn:R; auto. apply Rleb_false in R. replace ((0 - (-1 * 1 + 0)) / (-1 * 1 + 0)) with (-1) in R by lra. lra. }
    assert (EM : map (site_alpha [[1]] [1] (site wX [0;1]%nat 0) [1]) wX = [None; Some 4]).
    { change (map (site_alpha [[1]] [1] (site wX [0;1]%nat 0) [1]) wX) with [site_alpha [[1]] [1] (site wX [0;1]%nat 0) [1] [0]; site_alpha [[1]] [1] (site wX [0;1]%nat 0) [1] [10]]. rewrite S1, S2. auto. }
    rewrite SD, EM. unfold tA, wb. cbn [map combine]. rewrite F1, F2. cbn. rewrite Rmin_left by lra. f_equal. lra.
Qed.
