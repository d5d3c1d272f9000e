(** sample/projection.py: what the assumptions handed to the solver say, the sweeps that fill in, the least squares target. *)
Require Import Reals Lra Lia List Bool Arith ZArith Permutation.
From Verif Require Import RVec Num Sums DomModel DomSpec DomProofs DomOpsProofs DomMoreModel SweepProofs HullProofs PartialProofs MatLib LipModel LipProofs GeoModel GeoProofs SampModel LatinProofs BlockProofs ProjSatProofs SampMoreModel ProjModel ProjCellProofs ProjLineProofs ProjLhsProofs ProjSearch ProjSampleLoop ProjDesignLoop ProjCases ProjGeo ProjEx SolveFit SolveMore.
Import ListNotations.
Local Open Scope R_scope.

(* ---------- assumptions ---------- *)
(** the assumptions hold for a solution exactly if it has the same combinations at the kept places *)
Theorem asm_exact : forall K N asg0 asg keep, (0 < K)%nat -> satisfies asg0 (geo_cnf K N) -> satisfies asg (geo_cnf K N) -> Forall (fun k => (k < N)%nat) keep ->
  ((forall l, In l (asm_of K N (solution_list asg0 (K * N * N)) keep) -> lit_true asg l) <->
   forall k, In k keep -> comb K N (solution_list asg (K * N * N)) k = comb K N (solution_list asg0 (K * N * N)) k).
Proof.
  intros K N asg0 asg keep HK S0 S1 FK. rewrite Forall_forall in FK. destruct (solution_is_permutations asg0 K N HK S0) as [p0 [P0 R0]]. destruct (cnf_sound asg K N HK S1) as [p [P C]].
  assert (B0 : forall m o, (m < K)%nat -> (o < N)%nat -> (p0 m o < N)%nat) by (intros; destruct P0 as [Q _]; apply perm_bound; auto). assert (B : forall m o, (m < K)%nat -> (o < N)%nat -> (p m o < N)%nat) by (intros; destruct P as [Q _]; apply perm_bound; auto).
  assert (R : forall m o, (m < K)%nat -> (o < N)%nat -> perm_of N (solution_list asg (K * N * N)) m o = Z.of_nat (p m o)) by (intros; apply (perm_read asg K N p); auto).
  assert (E0 : forall k, (k < N)%nat -> comb K N (solution_list asg0 (K * N * N)) k = map (fun m => p0 m k) (seq 0 K)) by (intros k Hk; unfold comb; apply map_ext_in; intros m Im; apply in_seq in Im; rewrite R0 by lia; apply Nat2Z.id).
  assert (E : forall k, (k < N)%nat -> comb K N (solution_list asg (K * N * N)) k = map (fun m => p m k) (seq 0 K)) by (intros k Hk; unfold comb; apply map_ext_in; intros m Im; apply in_seq in Im; rewrite R by lia; apply Nat2Z.id).
  split.
  - intros H k Ik. pose proof (FK k Ik) as Hk. rewrite E, E0 by auto. apply map_ext_in. intros m Im. apply in_seq in Im. symmetry. apply C; [lia|auto|apply B0; [lia|auto]|]. apply lit_pos; [apply enc_pos|]. apply H. unfold asm_of. apply in_flat_map. exists k. split; auto. apply in_map_iff. exists m. split; [|apply in_seq; lia]. rewrite E0 by auto. rewrite (col_nth K (fun m => p0 m k)) by lia. auto.
  - intros H l I. unfold asm_of in I. apply in_flat_map in I. destruct I as [k [Ik I]]. apply in_map_iff in I. destruct I as [m [<- Im]]. apply in_seq in Im. pose proof (FK k Ik) as Hk. apply lit_pos; [apply enc_pos|]. rewrite <- (H k Ik), E by auto. rewrite (col_nth K (fun m => p m k)) by lia. apply C; auto; [lia|apply B; [lia|auto]].
Qed.
(** so a call with assumptions keeps the combinations of the kept samples *)
Theorem asm_keeps : forall K N solve i F seen asg0 keep sol', (0 < K)%nat -> solver_ok K N solve -> (forall c, In c (geo_cnf K N) -> In c F) -> satisfies asg0 (geo_cnf K N) -> Forall (fun k => (k < N)%nat) keep ->
  solve i F seen (asm_of K N (solution_list asg0 (K * N * N)) keep) = Some sol' -> forall k, In k keep -> comb K N sol' k = comb K N (solution_list asg0 (K * N * N)) k.
Proof.
  intros K N solve i F seen asg0 keep sol' HK [H _] IF S0 FK E k Ik. destruct (H _ _ _ _ _ E) as [asg [S [-> [_ A]]]]. assert (S1 : satisfies asg (geo_cnf K N)) by (intros c I; apply S, IF; auto). apply (proj1 (asm_exact K N asg0 asg keep HK S0 S1 FK)); auto.
Qed.
Definition swap22 (m o : nat) : nat := match m with O => o | _ => (1 - o)%nat end.
Lemma swap22_family : perms_family 2 2 swap22.
Proof. split; [|intros; reflexivity]. intros m Hm. destruct m as [|[|m]]; [apply Permutation_refl|cbn; apply perm_swap|lia]. Qed.
Example asm_case : satisfies (asg_of 2 swap22) (geo_cnf 2 2) /\ comb 2 2 (solution_list (asg_of 2 swap22) 8) 0 = [0; 1]%nat /\ Forall (fun k => (k < 2)%nat) [0%nat] /\
  exists sol, brute 2 2 0 (geo_cnf 2 2) [] (asm_of 2 2 (solution_list (asg_of 2 swap22) 8) [0%nat]) = Some sol /\ combs 2 2 sol = [[0; 1]; [1; 0]]%nat.
Proof.
  split; [apply cnf_complete; [lia|apply swap22_family]|]. split; [vm_compute; reflexivity|]. split; [constructor; auto|]. exists (solution_list (asg_of 2 swap22) 8). split; vm_compute; reflexivity.
Qed.

(* ---------- the sweep ---------- *)
Lemma sk_nth : forall (A : Type) n (l : list A) k d, nth k (skipn n l) d = nth (n + k) l d.
Proof. induction n as [|n IH]; intros [|a l] k d; try reflexivity; [destruct k; reflexivity|]. cbn [skipn Nat.add nth]. apply IH. Qed.
Lemma sk_sk : forall (A : Type) n (l : list A), skipn 1 (skipn n l) = skipn (S n) l.
Proof. induction n as [|n IH]; intros [|a l]; try reflexivity. cbn [skipn] in *. apply (IH l). Qed.
Lemma fn_S : forall (A : Type) n (l : list A) d, (n < length l)%nat -> firstn (S n) l = firstn n l ++ [nth n l d].
Proof. induction n as [|n IH]; intros [|a l] d H; cbn [length] in H; try lia; [reflexivity|]. cbn [firstn nth app]. f_equal. apply IH. lia. Qed.
(** after a sweep row i is the new point for the rows before it already replaced and the rows behind it not yet *)
Lemma sweep_prefix : forall vv N X n, length X = N -> (n <= N)%nat -> let r := fold_left (pf_row vv) (seq 0 n) (X, 0) in
  length (fst r) = N /\ skipn n (fst r) = skipn n X /\
  (forall i, (i < n)%nat -> nth i (fst r) [] = vv i (without i (firstn i (fst r) ++ skipn i X)) (nth i X [])) /\
  (forall i, (i < n)%nat -> vmax (map Rabs (vsub (nth i X []) (nth i (fst r) []))) <= snd r) /\ 0 <= snd r /\
  (snd r = 0 \/ exists i, (i < n)%nat /\ snd r = vmax (map Rabs (vsub (nth i X []) (nth i (fst r) [])))).
Proof.
  intros vv N X n LX. induction n as [|n IH]; intro Hn; cbn zeta.
  - cbn [seq fold_left fst snd]. repeat split; auto; try (intros; lia). lra.
  - rewrite seq_S, fold_left_app. cbn [fold_left]. destruct (IH ltac:(lia)) as [L [SK [RW [MV [NN AT]]]]]. clear IH. set (r := fold_left (pf_row vv) (seq 0 n) (X, 0)) in *. cbn [Nat.add]. unfold pf_row. cbn zeta. cbn [fst snd].
    assert (XN : nth n (fst r) [] = nth n X []) by (pose proof (f_equal (fun l => nth 0 l []) SK) as Q; cbn beta in Q; rewrite !sk_nth, !Nat.add_0_r in Q; auto).
    assert (DEC : fst r = firstn n (fst r) ++ skipn n X) by (rewrite <- SK; symmetry; apply firstn_skipn).
    set (x := vv n (without n (fst r)) (nth n (fst r) [])). assert (FN : forall i, (i <= n)%nat -> firstn i (set_row n x (fst r)) = firstn i (fst r)).
    { intros i Hi. unfold set_row. rewrite firstn_app, firstn_firstn, Nat.min_l by lia. rewrite firstn_length, Nat.min_l by lia. replace (i - n)%nat with O by lia. rewrite firstn_O, app_nil_r. auto. }
    assert (NE : forall i, (i < n)%nat -> nth i (set_row n x (fst r)) [] = nth i (fst r) []) by (intros i Hi; rewrite set_row_nth by lia; destruct (Nat.eqb_spec i n); [lia|auto]).
    assert (NX : nth n (set_row n x (fst r)) [] = x) by (rewrite set_row_nth by lia; rewrite Nat.eqb_refl; auto).
    split; [rewrite set_row_len; lia|]. split.
    { unfold set_row. rewrite skipn_app, firstn_length, Nat.min_l by lia. replace (S n - n)%nat with 1%nat by lia. rewrite skipn_all2 by (rewrite firstn_length; lia). cbn [app]. change (skipn 1 (x :: skipn (S n) (fst r))) with (skipn (S n) (fst r)). rewrite <- (sk_sk _ n (fst r)), SK. apply sk_sk. }
    split; [|split; [|split]].
    + intros i Hi. destruct (Nat.eq_dec i n) as [->|]; [|rewrite NE, FN by lia; apply RW; lia]. rewrite NX, FN by lia. unfold x. rewrite XN, <- DEC. auto.
    + intros i Hi. destruct (Nat.eq_dec i n) as [->|]; [rewrite NX, <- XN; apply Rmax_r|]. rewrite NE by lia. eapply Rle_trans; [apply MV; lia|apply Rmax_l].
    + eapply Rle_trans; [exact NN|apply Rmax_l].
    + destruct (Rle_dec (snd r) (vmax (map Rabs (vsub (nth n (fst r) []) x)))) as [Q|Q]; [rewrite Rmax_right by auto; right; exists n; split; [lia|rewrite NX, XN; auto]|]. rewrite Rmax_left by lra. destruct AT as [AT|[i [Hi AT]]]; [auto|]. right. exists i. split; [lia|]. rewrite NE by auto. auto.
Qed.
Theorem sweep_rows : forall vv N X, length X = N -> let Y := fst (pf_sweep vv N X) in let move := snd (pf_sweep vv N X) in
  length Y = N /\ (forall i, (i < N)%nat -> nth i Y [] = vv i (firstn i Y ++ skipn (S i) X) (nth i X [])) /\
  (forall i j, (i < N)%nat -> (j < length (nth i X []))%nat -> length (nth i Y []) = length (nth i X []) -> Rabs (vget (nth i X []) j - vget (nth i Y []) j) <= move).
Proof.
  intros vv N X L. cbn zeta. unfold pf_sweep. destruct (sweep_prefix vv N X N L ltac:(lia)) as [A [_ [B [C _]]]]. set (r := fold_left _ _ _) in *. split; auto. split.
  - intros i Hi. rewrite (B i Hi) at 1. f_equal. unfold without. rewrite firstn_app, firstn_firstn, Nat.min_id, firstn_length, Nat.min_l by lia. rewrite Nat.sub_diag, firstn_O, app_nil_r. f_equal. rewrite skipn_app, firstn_length, Nat.min_l by lia. rewrite skipn_all2 by (rewrite firstn_length; lia). replace (S i - i)%nat with 1%nat by lia. cbn [app]. apply sk_sk.
  - intros i j Hi Hj E. specialize (C i Hi). rewrite vmax_abs in C. eapply Rle_trans; [|exact C]. rewrite <- vsub_get by auto. apply cmax_ge. rewrite vsub_length; auto.
Qed.
(** a sweep that moves nothing: every row is its own new point *)
Theorem sweep_stationary : forall vv N X, length X = N -> (forall i Xt x, (i < N)%nat -> length (vv i Xt x) = length x) -> snd (pf_sweep vv N X) = 0 ->
  fst (pf_sweep vv N X) = X /\ forall i, (i < N)%nat -> vv i (without i X) (nth i X []) = nth i X [].
Proof.
  intros vv N X L HV Z. destruct (sweep_rows vv N X L) as [A [B C]]. cbn zeta in *. set (Y := fst (pf_sweep vv N X)) in *. rewrite Z in C. assert (E : Y = X).
  { apply (nth_ext _ _ [] []); [lia|]. intros i Hi. assert (Hi' : (i < N)%nat) by lia. assert (LL : length (nth i Y []) = length (nth i X [])) by (rewrite B by auto; apply HV; auto). apply vec_ext; auto. intros j Hj. rewrite LL in Hj. specialize (C i j Hi' Hj LL). pose proof (Rabs_pos (vget (nth i X []) j - vget (nth i Y []) j)).
    symmetry. apply Rminus_diag_uniq. destruct (Req_dec (vget (nth i X []) j - vget (nth i Y []) j) 0) as [|NZ]; auto. apply Rabs_pos_lt in NZ. lra. }
  split; auto. intros i Hi. specialize (B i Hi). rewrite E in B. symmetry. exact B.
Qed.
(** a sampler that moves every point onto the mean of its own position and its predecessor *)
Example sweep_case : let vv := fun (i : nat) (Xt : mat) (x : vec) => [(vget x 0 + vget (nth 0 Xt []) 0) / 2] in
  fst (pf_sweep vv 2 [[0]; [8]]) = [[4]; [6]] /\ snd (pf_sweep vv 2 [[0]; [8]]) = 4 /\ fst (pf_sweep vv 2 [[3]; [3]]) = [[3]; [3]] /\ snd (pf_sweep vv 2 [[3]; [3]]) = 0.
Proof.
  assert (M1 : forall a, vmax (map Rabs [a]) = Rabs a) by (intro; reflexivity).
  cbn zeta. unfold pf_sweep. cbn [seq fold_left]. unfold pf_row, without, set_row, vget, vsub. cbn [firstn skipn app nth fst snd vmap2]. rewrite !M1.
  replace (0 - (0 + 8) / 2) with (- (4)) by field. replace ((8 + (0 + 8) / 2) / 2) with 6 by field. replace (8 - 6) with 2 by ring. replace ((0 + 8) / 2) with 4 by field. replace ((3 + 3) / 2) with 3 by field. replace ((3 + 3) / 2) with 3 by field. replace (3 - 3) with 0 by ring.
  rewrite Rabs_Ropp, !Rabs_pos_eq by lra. split; [reflexivity|]. split; [rewrite (Rmax_right 0 4) by lra; apply Rmax_left; lra|]. split; [reflexivity|]. rewrite (Rmax_left 0 0) by lra. apply Rmax_left. lra.
Qed.

(* ---------- the least squares target ---------- *)
(** the objective of the design is the sum over the metrics of the squared distances to the chosen points *)
Theorem target_sum : forall m M Ls Ys c x, vc_shapes m M Ls Ys c ->
  edist (mv (concat Ls) x) (vc_target Ys c) * edist (mv (concat Ls) x) (vc_target Ys c) = rsum (length Ls) (fun i => norm2sq (vsub (mv (nth i Ls []) x) (nth (nth i c O) (nth i Ys []) []))).
Proof.
  intros m M Ls Ys c x [LY [LC H]]. unfold edist. rewrite norm2_sq. unfold vc_target. rewrite LC.
  assert (LT : forall i, (i < length Ls)%nat -> length (nth (nth i c O) (nth i Ys []) []) = length (nth i Ls [])). { intros i Hi. destruct (H i Hi) as [_ [A [B C]]]. rewrite Forall_forall in B. apply B, nth_In. lia. }
  clear H. set (T := fun i => nth (nth i c O) (nth i Ys []) []) in *. change (forall i, (i < length Ls)%nat -> length (T i) = length (nth i Ls [])) in LT. change (norm2sq (vsub (mv (concat Ls) x) (concat (map T (seq 0 (length Ls))))) = rsum (length Ls) (fun i => norm2sq (vsub (mv (nth i Ls []) x) (T i)))).
  clearbody T. clear LY LC Ys c. induction Ls as [|L Ls IH] using rev_ind; [reflexivity|]. rewrite app_length, Nat.add_1_r, seq_S, map_app, !concat_app. cbn [concat map Nat.add]. rewrite !app_nil_r. unfold mv. rewrite map_app. rewrite app_length, Nat.add_1_r in LT.
  assert (LC : length (map (fun row => dot row x) (concat Ls)) = length (concat (map T (seq 0 (length Ls))))).
  { rewrite map_length. assert (G : forall n, (n <= length Ls)%nat -> length (concat (firstn n Ls)) = length (concat (map T (seq 0 n)))).
    - induction n as [|n IN]; intro Hn; [reflexivity|]. rewrite (fn_S _ n Ls []) by lia. rewrite seq_S, map_app, !concat_app, !app_length, IN by lia. cbn [map concat Nat.add]. rewrite !app_nil_r. f_equal. symmetry. rewrite LT by lia. rewrite app_nth1 by lia. auto.
    - rewrite <- (G (length Ls)) by lia. rewrite firstn_all. auto. }
  rewrite vsub_app by exact LC. rewrite SolveMore.norm2sq_app. cbn [rsum]. f_equal.
  - rewrite <- (rsum_ext _ (fun i => norm2sq (vsub (mv (nth i Ls []) x) (T i)))) by (intros i Hi; rewrite app_nth1 by auto; auto). apply IH. intros i Hi. rewrite LT by lia. rewrite app_nth1 by auto. auto.
  - rewrite app_nth2, Nat.sub_diag by lia. reflexivity.
Qed.
Theorem target_best : forall d M Ls Ys K empty pt c, vc_shapes (dim d) M Ls Ys c -> cell_oracles d Ls Ys K M empty pt -> tuple_ok K M c -> empty c = false ->
  forall z, cell_of d Ls Ys c z -> rsum (length Ls) (fun i => norm2sq (vsub (mv (nth i Ls []) (pt c)) (nth (nth i c O) (nth i Ys []) []))) <= rsum (length Ls) (fun i => norm2sq (vsub (mv (nth i Ls []) z) (nth (nth i c O) (nth i Ys []) []))).
Proof.
  intros d M Ls Ys K empty pt c S OR T E z Z. rewrite <- !(target_sum (dim d) M Ls Ys c) by auto. destruct (OR c T) as [_ Q]. destruct (Q E) as [_ Q2]. specialize (Q2 z Z). apply Rmult_le_compat; auto; apply norm2_nonneg.
Qed.
