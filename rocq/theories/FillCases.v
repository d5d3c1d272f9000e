(** Concrete cases for C133. *)
Require Import Reals Lra Lia List Bool Arith ZArith.
From Verif Require Import RVec Num Sums DomModel DomSpec DomProofs DomMoreModel SweepProofs HullProofs HullIneqProofs LipModel LipProofs MatLib GrassLib SampModel PigeonLib LatinProofs PoissonProofs PoissonCases DesignProofs CoffeeProofs GeoModel GeoProofs VoronoiProofs WalkProofs VoronoiCases FillModel FillProofs.
Import ListNotations.
Local Open Scope R_scope.

(** without randomization the random directions do not matter *)
Lemma walk_gs : forall m L A b Aeq Xhat qr ords gs gs' n k x, vv_walk n k m L A b Aeq Xhat qr false ords gs x = vv_walk n k m L A b Aeq Xhat qr false ords gs' x.
Proof.
  intros m L A b Aeq Xhat qr ords gs gs'. induction n as [|n IH]; intros k x; [reflexivity|]. cbn [vv_walk]. rewrite (IH (S k)). f_equal. unfold vv_step, vv_dir. rewrite !andb_false_r. reflexivity.
Qed.
Lemma pre_gs : forall m L A b Aeq Xhat qr ords gs gs', (forall k, length (gs' k) = m) -> walk_pre m L A b Aeq Xhat qr ords gs -> walk_pre m L A b Aeq Xhat qr ords gs'.
Proof. intros m L A b Aeq Xhat qr ords gs gs' H (P1 & P2 & P3 & P4 & P5 & _ & P7 & P8). unfold walk_pre. do 5 (split; [assumption|]). auto. Qed.
Lemma clean_gs : forall m L A b Aeq Xhat qr ords gs gs' i x, clean_step m L A b Aeq Xhat qr false ords gs i x -> clean_step m L A b Aeq Xhat qr false ords gs' i x.
Proof. intros m L A b Aeq Xhat qr ords gs gs' i x H. unfold clean_step, step_h, vv_dir in *. rewrite !andb_false_r in *. exact H. Qed.
(** vertices of the cells of wX: [0,5] and [5,10] *)
Definition whsi (rows : list (vec * R)) : mat := if Rltb 0 (vget (fst (last rows ([],0))) 0) then [[0]; [5]] else [[5]; [10]].
Lemma dot1 : forall a x : R, dot [a] [x] = a * x.
Proof. intros. rewrite !dot_cons, dot_nil_l. ring. Qed.
Lemma w_rows : forall k, (k < 2)%nat -> hs_rows 1 tA wb [[1]] [[1]] wX k = [([1], 10); ([-1], 0); (if Nat.eqb k 0 then ([10], 50) else ([-10], -50))].
Proof.
  assert (R1 : Rltb 0 (norm2sq [0]) = false) by (unfold norm2sq; rewrite dot1; destruct (Rltb _ _) eqn:Q; auto; apply Rltb_true in Q; lra).
  assert (R2 : forall p, p = 10 \/ p = -10 -> Rltb 0 (norm2sq [p]) = true) by (intros p Hp; apply Rltb_true; unfold norm2sq; rewrite dot1; destruct Hp; subst; lra).
  assert (EY : map (mv [[1]]) wX = wX) by (unfold wX, mv; cbn [map]; rewrite !dot1; leq).
  intros k Hk. unfold hs_rows. unfold wX at 1. rewrite EY. assert (E1 : combine (map (fun a => row_times 1 a [[1]]) tA) wb = [([1], 10); ([-1], 0)]) by (unfold tA, wb, row_times; cbn [map combine lincomb vadd vmap2 vscale vzero repeat]; leq).
  rewrite E1. unfold cell_rows, wX. destruct k as [|[|k]]; [| |lia]; cbn [nth map filter fst snd vsub vmap2 vadd vscale Nat.eqb app].
  - replace (0 - 0) with 0 by lra. replace (10 - 0) with 10 by lra. rewrite R1, R2 by auto. rewrite dot1. leq.
  - replace (10 - 10) with 0 by lra. replace (0 - 10) with (-10) by lra. rewrite R1, R2 by auto. rewrite dot1. leq.
Qed.
Lemma w_cell : forall k, (k < length wX)%nat -> hsi_ok 1 (hs_rows 1 tA wb [[1]] [[1]] wX k) (whsi (hs_rows 1 tA wb [[1]] [[1]] wX k)).
Proof.
  intros k Hk. rewrite w_rows by auto. unfold whsi. destruct k as [|[|k]]; [| |cbn in Hk; lia]; cbn [Nat.eqb last fst vget nth].
  - destruct (Rltb 0 10) eqn:Q; [|apply Rltb_false in Q; lra]. split.
    + repeat (apply Forall_cons; [split; [reflexivity|]; intros a c I; repeat (destruct I as [E|I]; [injection E as <- <-; rewrite dot1; lra|]); destruct I|]). apply Forall_nil.
    + intros [|y [|]] Ly S; try discriminate. pose proof (S [10] 50 ltac:(simpl; auto)) as S1. pose proof (S [-1] 0 ltac:(simpl; auto)) as S2. rewrite dot1 in S1, S2. exists [1 - y / 5; y / 5]. split; [auto|]. split; [repeat (apply Forall_cons; [lra|]); apply Forall_nil|]. split; [unfold vsum; simpl; field|]. cbn [lincomb vadd vmap2 vscale map vzero repeat]. leq; field.
  - destruct (Rltb 0 (-10)) eqn:Q; [apply Rltb_true in Q; lra|]. split.
    + repeat (apply Forall_cons; [split; [reflexivity|]; intros a c I; repeat (destruct I as [E|I]; [injection E as <- <-; rewrite dot1; lra|]); destruct I|]). apply Forall_nil.
    + intros [|y [|]] Ly S; try discriminate. pose proof (S [-10] (-50) ltac:(simpl; auto)) as S1. pose proof (S [1] 10 ltac:(simpl; auto)) as S2. rewrite dot1 in S1, S2. exists [2 - y / 5; y / 5 - 1]. split; [auto|]. split; [repeat (apply Forall_cons; [lra|]); apply Forall_nil|]. split; [unfold vsum; simpl; field|]. cbn [lincomb vadd vmap2 vscale map vzero repeat]. leq; field.
Qed.
Lemma w_pre : walk_pre 1 [[1]] tA wb [] wX tqr word (fun _ => vzero 1).
Proof. apply (pre_gs 1 [[1]] tA wb [] wX tqr word (fun _ => [1])); [intro; reflexivity|]. apply ex_walk. Qed.
Lemma w_in : Forall (inP 1 tA wb) [[1]].
Proof. apply Forall_cons; [apply ex_walk|apply Forall_nil]. Qed.
(** sites 0 and 10 in [0, 10], one starting point 1: the estimate is 5, the fill distance *)
Example fill_est_case : walk_pre 1 [[1]] tA wb [] wX tqr word (fun _ => vzero 1) /\ Forall (inP 1 tA wb) [[1]] /\ fill_estimate 1 1 [[1]] tA wb [] wX tqr word [[1]] = Some 5.
Proof.
  split; [apply w_pre|]. split; [apply w_in|]. rewrite est_eq by discriminate. cbn [map fe_steps Nat.min Nat.sub length]. rewrite (walk_gs _ _ _ _ _ _ _ _ _ (fun _ => [1])). destruct ex_walk as (_ & _ & _ & E). rewrite E. f_equal. unfold vmax. cbn. unfold mind, vmin, wX. cbn [map fold_left]. rewrite !Ldist1. rewrite Rabs_left by lra. rewrite Rabs_right by lra. rewrite Rmin_left; lra.
Qed.
Example fill_est_le_case : inverse_of 1 [[1]] [[1]] /\ Forall (inP 1 tA wb) wX /\ (forall k, (k < length wX)%nat -> hsi_ok 1 (hs_rows 1 tA wb [[1]] [[1]] wX k) (whsi (hs_rows 1 tA wb [[1]] [[1]] wX k))).
Proof.
  split.
  - split; [split; [auto|repeat constructor]|]. split; [split; [auto|repeat constructor]|]. intros [|x [|]] Lx; try discriminate. unfold mv. cbn [map]. rewrite !dot1. split; leq.
  - split; [|apply w_cell]. unfold wX, tA, wb. repeat (apply Forall_cons; [split; [reflexivity|]; intros a c I; repeat (destruct I as [E|I]; [injection E as <- <-; rewrite dot1; lra|]); destruct I|]). apply Forall_nil.
Qed.
Example fill_est_starts_case : (forall x y, inP 1 tA wb x -> inP 1 tA wb y -> edist x y <= 10) /\
  (forall x0 i, In x0 [[1]] -> (i < fe_steps 1 1 [])%nat -> clean_step 1 [[1]] tA wb [] wX tqr false word (fun _ => vzero 1) i (vv_walk i 0 1 [[1]] tA wb [] wX tqr false word (fun _ => vzero 1) x0)).
Proof.
  split.
  - intros [|x [|]] [|y [|]] [Lx Sx] [Ly Sy]; try discriminate. pose proof (Sx [1] 10 ltac:(simpl; auto)). pose proof (Sx [-1] 0 ltac:(simpl; auto)). pose proof (Sy [1] 10 ltac:(simpl; auto)). pose proof (Sy [-1] 0 ltac:(simpl; auto)). rewrite dot1 in *. rewrite edist1. apply Rabs_le. lra.
  - intros x0 i [<-|[]] Hi. apply (clean_gs _ _ _ _ _ _ _ _ (fun _ => [1])). rewrite (walk_gs _ _ _ _ _ _ _ _ _ (fun _ => [1])). apply ex_walk. exact Hi.
Qed.
(** a starting point at positive distance, estimate zero: the plane between the sites is hidden by np.isclose and the walk ends on the other site *)
Theorem est_starts_refuted : exists m lrank L A b Aeq Xhat qr ords X0 x0, walk_pre m L A b Aeq Xhat qr ords (fun _ => vzero m) /\ Forall (inP m A b) X0 /\ In x0 X0 /\
  0 < vmin (map (fun xh => Ldist L x0 xh) Xhat) /\ fill_estimate m lrank L A b Aeq Xhat qr ords X0 = Some 0.
Proof.
  exists 1%nat, 1%nat, [[1]], tA, tb, [], tX, tqr, tord, [[/25000]], [/25000].
  split; [apply (pre_gs 1 [[1]] tA tb [] tX tqr tord (fun _ => [1])); [intro; reflexivity|apply t_pre]|].
  split; [apply Forall_cons; [split; [reflexivity|]; unfold tA, tb; intros a c [E|[E|[]]]; injection E as <- <-; rewrite dot1; lra|apply Forall_nil]|]. split; [left; auto|]. split.
  - unfold tX, vmin. cbn [map fold_left]. rewrite !Ldist1. apply Rmin_glb_lt; apply Rabs_pos_lt; lra.
  - rewrite est_eq by discriminate. cbn [map fe_steps Nat.min Nat.sub length]. rewrite (walk_gs _ _ _ _ _ _ _ _ _ (fun _ => [1])). rewrite t_walk. f_equal. unfold vmax. cbn. unfold mind, vmin, tX. cbn [map fold_left]. rewrite !Ldist1. replace (/10000 - /10000) with 0 by ring. rewrite Rabs_R0. apply Rmin_right. apply Rabs_pos.
Qed.
