(** low_rank_L, block coordinate descent for maximin designs, initial_sample. *)
Require Import Reals Lra Lia List Bool Arith ZArith.
From Verif Require Import RVec Num Sums DomModel DomSpec DomProofs DomMoreModel SweepProofs HullProofs HullIneqProofs ArnoldiMoreProofs LipModel LipProofs MatLib SpecProofs GrassLib SampModel PigeonLib LatinProofs PoissonProofs PoissonCases DesignProofs CoffeeProofs GeoModel GeoProofs VoronoiProofs WalkProofs SampMoreModel.
Import ListNotations.
Local Open Scope R_scope.

(* ------------------------------------------------------------------ *)
(** * low_rank_L *)
(** contract of scipy.linalg.svd (full matrices): L x = sum_i s_i (v_i.x) u_i, singular values nonnegative and decreasing *)
Definition svd_full (p m : nat) (L : mat) (us : list vec) (s : vec) (VT : mat) : Prop :=
  length us = length s /\ Forall (fun u => length u = p) us /\ orthonormal us /\ onb m VT /\ (length s <= m)%nat /\
  (forall i j, (i <= j < length s)%nat -> 0 <= vget s j <= vget s i) /\
  length L = p /\ Forall (fun r => length r = m) L /\
  forall x, length x = m -> mv L x = lincomb p us (map (fun i => vget s i * dot (nth i VT []) x) (seq 0 (length s))).

Lemma norm2sq_cons : forall a x, norm2sq (a :: x) = a * a + norm2sq x.
Proof. intros. unfold norm2sq. apply dot_cons. Qed.
Lemma norm2sq_split : forall (f : nat -> R) (p : nat -> bool) l, norm2sq (map f l) = norm2sq (map f (filter p l)) + norm2sq (map f (filter (fun i => negb (p i)) l)).
Proof.
  intros f p. induction l as [|a l IH]; [unfold norm2sq; rewrite !dot_nil_l; ring|]. cbn [map filter]. rewrite norm2sq_cons, IH. destruct (p a); cbn [negb map]; rewrite norm2sq_cons; ring.
Qed.
Lemma norm2sq_rsum : forall (f : nat -> R) n, norm2sq (map f (seq 0 n)) = rsum n (fun k => f k * f k).
Proof.
  intros f n. unfold norm2sq. rewrite (dot_rs n) by (rewrite map_length, seq_length; auto). apply rsum_ext. intros k Hk. rewrite vget_map_seq by auto. auto.
Qed.
Lemma norm2sq_app : forall x y : vec, norm2sq (x ++ y) = norm2sq x + norm2sq y.
Proof. induction x as [|a x IH]; intros y; [unfold norm2sq at 2; rewrite dot_nil_l; simpl; ring|]. cbn [app]. rewrite !norm2sq_cons, IH. ring. Qed.
Lemma sq_nonneg : forall x, 0 <= norm2sq x. Proof. intro x. rewrite <- norm2_sq. pose proof (norm2_nonneg x). nra. Qed.

Lemma svd_norm : forall p m L us s VT x, svd_full p m L us s VT -> length x = m -> norm2sq (mv L x) = norm2sq (map (fun i => vget s i * dot (nth i VT []) x) (seq 0 (length s))).
Proof.
  intros p m L us s VT x [H1 [H2 [H3 [_ [_ [_ [_ [_ H9]]]]]]]] Lx. rewrite (H9 x Lx). unfold norm2sq at 1. rewrite (dot_lincomb2 p) by (auto; rewrite map_length, seq_length; auto). reflexivity.
Qed.
Lemma low_rank_mv : forall (s : vec) (VT : mat) x I, mv (map (fun i => vscale (vget s i) (nth i VT [])) I) x = map (fun i => vget s i * dot (nth i VT []) x) I.
Proof. intros. unfold mv. rewrite map_map. apply map_ext. intro i. apply dot_vscale_l. Qed.
(** The low-rank matrix defines the same metric, up to the singular values that count as zero. *)
Theorem low_rank_metric : forall p m L us s VT, svd_full p m L us s VT -> forall x, length x = m ->
  norm2sq (mv (low_rank L s VT) x) <= norm2sq (mv L x) <= norm2sq (mv (low_rank L s VT) x) + atol * atol * norm2sq x.
Proof.
  intros p m L us s VT SV x Lx. pose proof (sq_nonneg x) as X0. pose proof atol_pos as A0. assert (0 <= atol * atol * norm2sq x) by (apply Rmult_le_pos; nra). unfold low_rank. destruct (forallb (fun i => negb (Nat.eqb i 0)) (sv_idx s)); [lra|].
  rewrite low_rank_mv, (svd_norm p m L us s VT) by auto. unfold sv_idx. set (q := fun i => negb (np_close (vget s i) 0)). set (f := fun i => vget s i * dot (nth i VT []) x). rewrite (norm2sq_split f q (seq 0 (length s))).
  pose proof (sq_nonneg (map f (filter (fun i => negb (q i)) (seq 0 (length s))))). split; [lra|]. apply Rplus_le_compat_l. destruct SV as [_ [_ [_ [OB [LS _]]]]]. set (g := fun i => dot (nth i VT []) x).
  apply Rle_trans with (atol * atol * norm2sq (map g (filter (fun i => negb (q i)) (seq 0 (length s))))).
  - clear -A0. induction (seq 0 (length s)) as [|i l IH]; [unfold norm2sq; simpl; rewrite !dot_nil_l; lra|]. cbn [filter]. destruct (q i) eqn:Q; cbn [negb]; auto. cbn [map]. rewrite !norm2sq_cons. unfold q in Q. apply negb_false_iff in Q. apply np_close0 in Q.
    assert (f i * f i <= atol * atol * (g i * g i)); [|lra]. unfold f, g. set (d := dot (nth i VT []) x). replace (vget s i * d * (vget s i * d)) with ((vget s i * vget s i) * (d * d)) by ring. apply Rmult_le_compat_r; [apply Rle_0_sqr|].
    assert (vget s i * vget s i = Rabs (vget s i) * Rabs (vget s i)) as -> by (rewrite <- Rabs_mult, Rabs_right; [auto|apply Rle_ge, Rle_0_sqr]). apply Rmult_le_compat; auto; apply Rabs_pos.
  - apply Rmult_le_compat_l; [nra|]. assert (EP : norm2sq x = norm2sq (map g (seq 0 m))) by (rewrite (norm2sq_rsum g m); apply (parseval m VT x OB Lx)). rewrite EP. replace m with (length s + (m - length s))%nat by lia. rewrite seq_app, map_app, norm2sq_app. rewrite (norm2sq_split g q (seq 0 (length s))).
    pose proof (sq_nonneg (map g (filter q (seq 0 (length s))))). pose proof (sq_nonneg (map g (seq (0 + length s) (m - length s)))). lra.
Qed.
Lemma sv_idx_spec : forall s i, In i (sv_idx s) <-> (i < length s)%nat /\ atol < Rabs (vget s i).
Proof. intros s i. unfold sv_idx. rewrite filter_In, in_seq, negb_true_iff, np_close0_f. intuition lia. Qed.
(** for every matrix with a singular value above the tolerance the factorization is carried out, and the rows are independent *)
Theorem low_rank_full_partial : forall p m L us s VT, svd_full p m L us s VT -> (0 < length s)%nat -> atol < vget s 0 -> let J := low_rank L s VT in
  length J = length (filter (fun i => Rltb atol (vget s i)) (seq 0 (length s))) /\ forall c, length c = length J -> lincomb m J c = vzero m -> c = vzero (length J).
Proof.
  intros p m L us s VT SV Ls S0 J. pose proof SV as [_ [_ [_ [OB [LS [DE _]]]]]]. pose proof OB as [LV [FV OV]].
  assert (B : forallb (fun i => negb (Nat.eqb i 0)) (sv_idx s) = false).
  { destruct (forallb (fun i => negb (Nat.eqb i 0)) (sv_idx s)) eqn:E; auto. rewrite forallb_forall in E. assert (I0 : In 0%nat (sv_idx s)) by (apply sv_idx_spec; split; auto; pose proof (Rle_abs (vget s 0)); lra). apply E in I0. discriminate. }
  assert (EJ : J = map (fun i => vscale (vget s i) (nth i VT [])) (sv_idx s)) by (unfold J, low_rank; rewrite B; auto).
  assert (EI : sv_idx s = filter (fun i => Rltb atol (vget s i)) (seq 0 (length s))).
  { unfold sv_idx. apply filter_ext_in. intros i Hi. apply in_seq in Hi. pose proof (DE 0%nat i ltac:(lia)) as D. destruct (Rltb atol (vget s i)) eqn:Q; [apply Rltb_true in Q; apply negb_true_iff, np_close0_f|apply Rltb_false in Q; apply negb_false_iff, np_close0]; rewrite Rabs_right; lra. }
  split; [rewrite EJ, map_length, EI; auto|]. intros c Lc EZ. apply vec_ext; [unfold vzero; rewrite repeat_length; auto|]. intros k Hk. rewrite vzero_get.
  assert (FJ : Forall (fun r => length r = m) J).
  { rewrite EJ. apply Forall_forall. intros r Ir. apply in_map_iff in Ir. destruct Ir as [i [<- Ii]]. apply sv_idx_spec in Ii. rewrite vscale_length. rewrite Forall_forall in FV. apply FV, nth_In. lia. }
  assert (ND : NoDup (sv_idx s)) by (unfold sv_idx; apply NoDup_filter, seq_NoDup).
  set (ik := nth k (sv_idx s) O). assert (LJ : length J = length (sv_idx s)) by (rewrite EJ, map_length; auto).
  assert (GJ : forall j, (j < length J)%nat -> nth j J [] = vscale (vget s (nth j (sv_idx s) O)) (nth (nth j (sv_idx s) O) VT [])).
  { intros j Hj. rewrite EJ. rewrite nth_indep with (d' := (fun i => vscale (vget s i) (nth i VT [])) O) by (rewrite map_length; lia). rewrite (map_nth (fun i => vscale (vget s i) (nth i VT []))). auto. }
  assert (Iik : In ik (sv_idx s)) by (apply nth_In; lia). apply sv_idx_spec in Iik. destruct Iik as [K1 K2].
  assert (Z : dot (nth ik VT []) (lincomb m J c) = 0) by (rewrite EZ; apply dot_zero_r). rewrite (dot_lincomb_r m) in Z by auto. rewrite (rsum_single _ k) in Z; [|lia|].
  - rewrite GJ in Z by lia. fold ik in Z. rewrite dot_vscale_r in Z. rewrite OV in Z by lia. rewrite Nat.eqb_refl in Z. assert (vget s ik <> 0) by (intro E; rewrite E, Rabs_R0 in K2; pose proof atol_pos; lra). apply Rmult_integral in Z. destruct Z as [|Z]; [auto|]. lra.
  - intros j Hj NE. rewrite GJ by lia. rewrite dot_vscale_r. assert (IJ : In (nth j (sv_idx s) O) (sv_idx s)) by (apply nth_In; lia). apply sv_idx_spec in IJ. rewrite OV by lia.
    destruct (Nat.eqb_spec ik (nth j (sv_idx s) O)) as [E|]; [|ring]. exfalso. apply NE. unfold ik in E. rewrite (NoDup_nth (sv_idx s) O) in ND. symmetry. apply ND; auto; lia.
Qed.
(** "Version of L with full row rank": the zero matrix is returned unchanged *)
Theorem low_rank_zero_refuted : exists p m L us s VT c, svd_full p m L us s VT /\ length c = length (low_rank L s VT) /\ lincomb m (low_rank L s VT) c = vzero m /\ c <> vzero (length c).
Proof.
  exists 1%nat, 1%nat, [[0]], [[1]], [0], [[1]], [1].
  assert (E : low_rank [[0]] [0] [[1]] = [[0]]).
  { unfold low_rank, sv_idx. cbn [length seq filter]. assert (C : np_close (vget [0] 0) 0 = true) by (apply np_close_refl). rewrite C. reflexivity. }
  assert (ON : orthonormal [[1]]). { intros a b Ha Hb. simpl in Ha, Hb. assert (a = 0%nat) by lia. assert (b = 0%nat) by lia. subst. simpl. rewrite dot_cons, dot_nil_l. ring. }
  rewrite E. split; [|split; [reflexivity|split; [cbn; f_equal; ring|intro H; inversion H; lra]]].
  assert (FO : forall (l : list vec) n, forallb (fun u => Nat.eqb (length u) n) l = true -> Forall (fun u => length u = n) l) by (intros l n H; rewrite forallb_forall in H; apply Forall_forall; intros u Iu; apply Nat.eqb_eq; auto).
  split; [reflexivity|]. split; [apply FO; reflexivity|]. split; [exact ON|]. split; [split; [reflexivity|split; [apply FO; reflexivity|exact ON]]|]. split; [simpl; lia|]. split; [|split; [reflexivity|split; [apply FO; reflexivity|]]].
  - intros i j Hij. simpl in Hij. destruct i, j; try lia. unfold vget; simpl; lra.
  - intros x Hx. destruct x as [|a [|]]; try discriminate. unfold mv. cbn [map]. rewrite !dot_cons, !dot_nil_l. cbn. f_equal. ring.
Qed.
(** Example: a 2 x 2 matrix of rank one *)
Definition exL : mat := [[1; 0]; [0; 0]].
Lemma exL_svd : svd_full 2 2 exL [[1; 0]; [0; 1]] [1; 0] [[1; 0]; [0; 1]].
Proof.
  assert (ON : orthonormal [[1; 0]; [0; 1]]). { intros a b Ha Hb. simpl in Ha, Hb. destruct a as [|[|a]], b as [|[|b]]; try lia; simpl; rewrite !dot_cons, dot_nil_l; ring. }
  assert (FO : forall (l : list vec) n, forallb (fun u => Nat.eqb (length u) n) l = true -> Forall (fun u => length u = n) l) by (intros l n H; rewrite forallb_forall in H; apply Forall_forall; intros u Iu; apply Nat.eqb_eq; auto).
  split; [reflexivity|]. split; [apply FO; reflexivity|]. split; [exact ON|]. split; [split; [reflexivity|split; [apply FO; reflexivity|exact ON]]|]. split; [simpl; lia|]. split; [|split; [reflexivity|split; [apply FO; reflexivity|]]].
  - intros i j Hij. simpl in Hij. destruct i as [|[|i]], j as [|[|j]]; try lia; unfold vget; simpl; lra.
  - intros x Hx. destruct x as [|a [|b [|]]]; try discriminate. unfold mv, exL. cbn [map]. rewrite !dot_cons, !dot_nil_l. cbn. rewrite ?dot_cons, ?dot_nil_l. f_equal; [ring|]. f_equal. ring.
Qed.
Example ex_low_rank : length (low_rank exL [1; 0] [[1; 0]; [0; 1]]) = 1%nat /\ norm2sq (mv (low_rank exL [1; 0] [[1; 0]; [0; 1]]) [3; 4]) <= norm2sq (mv exL [3; 4]).
Proof.
  split.
  - destruct (low_rank_full_partial 2 2 exL _ [1; 0] [[1; 0]; [0; 1]] exL_svd) as [E _]; [simpl; lia|unfold vget, atol; simpl; lra|]. rewrite E. cbn [length seq filter].
    assert (E1 : Rltb atol (vget [1; 0] 0) = true) by (apply Rltb_true; unfold vget, atol; simpl; lra). assert (E2 : Rltb atol (vget [1; 0] 1) = false) by (apply Rltb_false; unfold vget, atol; simpl; lra). rewrite E1, E2. reflexivity.
  - apply (low_rank_metric 2 2 exL _ [1; 0] [[1; 0]; [0; 1]] exL_svd [3; 4] eq_refl).
Qed.

(* ------------------------------------------------------------------ *)
(** * maximin_block *)
Lemma set_row_len : forall i x X, (i < length X)%nat -> length (set_row i x X) = length X.
Proof. intros i x X H. unfold set_row. rewrite app_length. cbn [length]; rewrite firstn_length, skipn_length. lia. Qed.
Lemma set_row_nth : forall i x X j, (i < length X)%nat -> nth j (set_row i x X) [] = if Nat.eqb j i then x else nth j X [].
Proof.
  intros i x X j H. unfold set_row. assert (LF : length (firstn i X) = i) by (rewrite firstn_length; lia). destruct (Nat.eqb_spec j i) as [->|NE].
  - rewrite app_nth2 by lia. rewrite LF, Nat.sub_diag. auto.
  - destruct (lt_dec j i).
    + rewrite app_nth1 by lia. rewrite <- (firstn_skipn i X) at 2. rewrite app_nth1 by lia. auto.
    + rewrite app_nth2 by lia. rewrite LF. destruct (j - i)%nat as [|q] eqn:E; [lia|]. cbn [nth]. rewrite <- (firstn_skipn (S i) X) at 2. rewrite app_nth2 by (rewrite firstn_length; lia). rewrite firstn_length. f_equal. lia.
Qed.
Lemma without_in : forall (X : mat) i y, (i < length X)%nat -> (In y (without i X) <-> exists j, (j < length X)%nat /\ j <> i /\ nth j X [] = y).
Proof.
  intros X i y H. unfold without. rewrite in_app_iff. assert (LF : length (firstn i X) = i) by (rewrite firstn_length; lia). split.
  - intros [I|I]; apply (In_nth _ _ []) in I; destruct I as [k [Hk E]].
    + exists k. rewrite LF in Hk. split; [lia|]. split; [lia|]. rewrite <- E. rewrite <- (firstn_skipn i X) at 1. rewrite app_nth1 by lia. auto.
    + rewrite skipn_length in Hk. exists (S i + k)%nat. split; [lia|]. split; [lia|]. rewrite <- E. rewrite <- (firstn_skipn (S i) X) at 1. rewrite app_nth2 by (rewrite firstn_length; lia). rewrite firstn_length. f_equal. lia.
  - intros [j [Hj [NE E]]]. destruct (lt_dec j i).
    + left. rewrite <- E. rewrite <- (firstn_skipn i X) at 1. rewrite app_nth1 by lia. apply nth_In. lia.
    + right. rewrite <- E. rewrite <- (firstn_skipn (S i) X) at 1. rewrite app_nth2 by (rewrite firstn_length; lia). apply nth_In. rewrite firstn_length, skipn_length. lia.
Qed.
(** all pairs at least d apart *)
Definition apart (L : mat) (d : R) (X : mat) : Prop := forall i j, (i < length X)%nat -> (j < length X)%nat -> i <> j -> d <= Ldist L (nth i X []) (nth j X []).

Section Block.
Variables (P : vec -> Prop) (L : mat) (vv : mat -> vec -> vec) (N : nat) (xtol : R).
(** the calls of voronoi_vertex_sample made by a sweep, and by the whole iteration *)
Fixpoint sweep_calls (is : list nat) (X : mat) : list (mat * vec) :=
  match is with [] => [] | i :: is' => (without i X, nth i X []) :: sweep_calls is' (set_row i (vv (without i X) (nth i X [])) X) end.
Fixpoint block_calls (n : nat) (X : mat) : list (mat * vec) :=
  match n with
  | O => []
  | S n' => sweep_calls (seq 0 N) X ++ (let s := mb_sweep L vv N X in if Rltb (snd s) xtol then [] else block_calls n' (fst s))
  end.
(** a call ends in the domain and does not come closer to the other points *)
Definition good_call (c : mat * vec) : Prop := P (snd c) -> Forall P (fst c) -> P (vv (fst c) (snd c)) /\ mind L (fst c) (snd c) <= mind L (fst c) (vv (fst c) (snd c)).
Hypothesis HN : (2 <= N)%nat.
Definition inv (d : R) (X : mat) : Prop := length X = N /\ Forall P X /\ apart L d X.
Lemma row_inv : forall d X i, inv d X -> (i < N)%nat -> good_call (without i X, nth i X []) -> inv d (set_row i (vv (without i X) (nth i X [])) X).
Proof.
  intros d X i [HL [FX HA]] Hi GC. rewrite Forall_forall in FX. assert (Hi' : (i < length X)%nat) by lia. destruct GC as [G1 G2]; cbn [fst snd] in *.
  - apply FX, nth_In. auto.
  - apply Forall_forall. intros y Iy. apply without_in in Iy; auto. destruct Iy as [j [Hj [_ <-]]]. apply FX, nth_In. auto.
  - set (x := vv (without i X) (nth i X [])) in *.
    assert (NE : without i X <> []).
    { assert (EX : exists j, (j < length X)%nat /\ j <> i) by (destruct i; [exists 1%nat|exists 0%nat]; lia). destruct EX as [j [Hj NJ]]. intro E. assert (I : In (nth j X []) (without i X)) by (apply without_in; auto; exists j; auto). rewrite E in I. destruct I. }
    assert (MD : d <= mind L (without i X) (nth i X [])).
    { destruct (mind_at L (without i X) (nth i X []) NE) as [y [Iy ->]]. apply without_in in Iy; auto. destruct Iy as [j [Hj [NJ <-]]]. apply HA; auto. }
    assert (XD : forall j, (j < length X)%nat -> j <> i -> d <= Ldist L (nth j X []) x).
    { intros j Hj NJ. assert (mind L (without i X) x <= Ldist L (nth j X []) x); [|lra]. apply mind_le. apply without_in; auto. exists j. auto. }
    split; [rewrite set_row_len; auto|]. split.
    + apply Forall_forall. intros y Iy. apply (In_nth _ _ []) in Iy. destruct Iy as [j [Hj <-]]. rewrite set_row_len in Hj by auto. rewrite set_row_nth by auto. destruct (Nat.eqb_spec j i); auto. apply FX, nth_In. auto.
    + intros a b Ha Hb NAB. rewrite set_row_len in Ha, Hb by auto. rewrite !set_row_nth by auto. destruct (Nat.eqb_spec a i), (Nat.eqb_spec b i); try lia; auto. rewrite Ldist_sym. auto.
Qed.
Lemma sweep_inv : forall is d X mv0, inv d X -> (forall i, In i is -> (i < N)%nat) -> Forall good_call (sweep_calls is X) -> inv d (fst (fold_left (mb_row L vv) is (X, mv0))).
Proof.
  induction is as [|i is IH]; intros d X mv0 IV HI GC; [exact IV|]. cbn [sweep_calls] in GC. inversion GC; subst. cbn [fold_left]. unfold mb_row at 2. cbn [fst snd]. apply IH; [|intros j Ij; apply HI; right; auto|auto]. apply row_inv; auto. apply HI. left. auto.
Qed.
Lemma loop_inv : forall n d X, inv d X -> Forall good_call (block_calls n X) -> inv d (mb_loop n L vv N xtol X).
Proof.
  induction n as [|n IH]; intros d X IV GC; [exact IV|]. cbn [mb_loop block_calls] in *. apply Forall_app in GC. destruct GC as [G1 G2]. assert (I1 : inv d (fst (mb_sweep L vv N X))) by (unfold mb_sweep; apply sweep_inv; auto; intros i Ii; apply in_seq in Ii; lia).
  destruct (Rltb (snd (mb_sweep L vv N X)) xtol); auto.
Qed.
End Block.
(** Block coordinate descent returns N points of the domain and never decreases the smallest distance between two points
    (as long as each call of voronoi_vertex_sample does not come closer to the other points) *)
Theorem block_apart_partial : forall P L vv N xtol maxiter c1 c2 X0 d, (2 <= N)%nat -> length L <> 1%nat -> length X0 = N -> Forall P X0 ->
  Forall (good_call P L vv) (block_calls L vv N xtol maxiter X0) -> apart L d X0 ->
  let D := maximin_block maxiter L c1 c2 vv N xtol X0 in length D = N /\ Forall P D /\ apart L d D.
Proof.
  intros P L vv N xtol maxiter c1 c2 X0 d HN H1 HL FX GC HA D. unfold D, maximin_block. destruct (Nat.eqb_spec (length L) 1); [congruence|]. apply (loop_inv P L vv N xtol HN maxiter d X0); auto. split; auto.
Qed.
(** the calls are good for the walk of voronoi_vertex_sample, wherever its plane test does not skip a site *)
Theorem block_walk_call : forall m L A b Aeq qr ords gs n Dm Xt x, walk_pre m L A b Aeq Xt qr (ords Xt) gs -> (forall x y, inP m A b x -> inP m A b y -> edist x y <= Dm) ->
  (forall i, (i < n)%nat -> clean_step m L A b Aeq Xt qr false (ords Xt) gs i (vv_walk i 0 m L A b Aeq Xt qr false (ords Xt) gs x)) ->
  good_call (inP m A b) L (fun Xt x => vv_walk n 0 m L A b Aeq Xt qr false (ords Xt) gs x) (Xt, x).
Proof.
  intros m L A b Aeq qr ords gs n Dm Xt x WP HD CL Px _. cbn [fst snd] in *. split; [apply walk_inside; auto|].
  pose proof (walk_far_partial m L A b Aeq Xt qr false (ords Xt) gs n x Dm WP Px HD CL) as W. cbv zeta in W. set (y := vv_walk n 0 m L A b Aeq Xt qr false (ords Xt) gs x) in *.
  assert (NE : Xt <> []) by (destruct WP as [_ [_ [_ [NE _]]]]; auto). assert (0 <= mind L Xt x) by (destruct (mind_at L Xt x NE) as [c [_ ->]]; apply Ldist_nonneg). assert (0 <= mind L Xt y) by (destruct (mind_at L Xt y NE) as [c [_ ->]]; apply Ldist_nonneg).
  apply Rnot_lt_le. intro. nra.
Qed.
(** for a metric with one row the closed form is optimal *)
Theorem block_row_optimal : forall (P : vec -> Prop) a c1 c2 vv N xtol maxiter X0, (2 <= N)%nat -> convexP P -> P c1 -> P c2 -> length c1 = length c2 -> (forall x, P x -> dot a c2 <= dot a x <= dot a c1) ->
  let w := dot a c1 - dot a c2 in let X := maximin_block maxiter [a] c1 c2 vv N xtol X0 in
  length X = N /\ Forall P X /\ (forall i j, (i < j < N)%nat -> w / INR (N - 1) <= Ldist [a] (nth i X []) (nth j X [])) /\
  forall Y : mat, length Y = N -> Forall P Y -> exists i j, (i < j < N)%nat /\ Ldist [a] (nth i Y []) (nth j Y []) <= w / INR (N - 1).
Proof.
  intros P a c1 c2 vv N xtol maxiter X0 HN HC P1 P2 HL HB w X.
  assert (EX : X = maximin_1d c2 c1 N).
  { unfold X, maximin_block, maximin_1d. cbn [length Nat.eqb]. apply map_ext. intro t. apply vec_ext; [rewrite !vadd_length by (rewrite !vscale_length; auto); rewrite !vscale_length; auto|]. intros i Hi. rewrite !vadd_get by (rewrite !vscale_length; auto). ring. }
  assert (CO : corners P (vscale (-1) a) c2 c1). { split; auto. split; auto. split; auto. intros x Px. rewrite !dot_vscale_l. pose proof (HB x Px). lra. }
  destruct (maximin_1d_optimal P (vscale (-1) a) c2 c1 N HN HC CO) as [Q1 [Q2 [Q3 Q4]]]. rewrite EX.
  assert (LD : forall x y, Ldist [vscale (-1) a] x y = Ldist [a] x y). { intros x y. rewrite !Ldist_row. rewrite !dot_vscale_l. rewrite <- Rabs_Ropp. f_equal. ring. }
  assert (EW : dot (vscale (-1) a) c2 - dot (vscale (-1) a) c1 = w) by (unfold w; rewrite !dot_vscale_l; ring). rewrite EW in Q3, Q4. split; auto. split; auto. split.
  - intros i j Hij. rewrite <- LD. apply Q3. auto.
  - intros Y HY FY. destruct (Q4 Y HY FY) as [i [j [Hij Q]]]. exists i, j. split; auto. rewrite <- LD. auto.
Qed.
(** Example: two points of the unit square, each call moving the point to the opposite corner *)
Definition sqP (x : vec) : Prop := length x = 2%nat /\ 0 <= vget x 0 <= 1 /\ 0 <= vget x 1 <= 1.
Definition opp1 (t : R) : R := if Rleb t (1/2) then 1 else 0.
Definition exvv (Xt : mat) (x : vec) : vec := match Xt with [y] => [opp1 (vget y 0); opp1 (vget y 1)] | _ => x end.
Lemma exvv_good : forall c, length (fst c) = 1%nat -> good_call sqP [[1; 0]; [0; 1]] exvv c.
Proof.
  intros [Xt x] H Px FX. cbn [fst snd] in *. destruct Xt as [|y [|]]; try discriminate. inversion FX as [|? ? [Ly [Y0 Y1]] _]; subst. destruct Px as [Lx [X0 X1]]. unfold exvv.
  assert (O : forall t, 0 <= opp1 t <= 1 /\ (0 <= t <= 1 -> forall u, 0 <= u <= 1 -> (t - u) * (t - u) <= (t - opp1 t) * (t - opp1 t))).
  { intro t. unfold opp1. destruct (Rleb t (1/2)) eqn:E; [apply Rleb_true in E|apply Rleb_false in E]; split; try lra; intros Ht u Hu; nra. }
  split; [split; [reflexivity|]; unfold vget; simpl; split; apply O|].
  unfold mind. cbn [map]. unfold vmin. cbn [fold_left]. unfold Ldist, norm2. apply sqrt_le_1_alt.
  destruct y as [|a [|b [|]]]; try discriminate. destruct x as [|p [|q [|]]]; try discriminate. unfold vget in *. cbn [nth] in *. unfold mv. cbn [map]. rewrite !dot_cons, !dot_nil_l. unfold norm2sq. cbn [vsub vmap2]. rewrite !dot_cons, !dot_nil_l.
  destruct (O a) as [_ A], (O b) as [_ B]. specialize (A Y0 p X0). specialize (B Y1 q X1). lra.
Qed.
Example ex_block : let D := maximin_block 3 [[1; 0]; [0; 1]] [] [] exvv 2 (/ 1000000) [[0; 0]; [1/2; 0]] in length D = 2%nat /\ Forall sqP D /\ apart [[1; 0]; [0; 1]] (1/2) D.
Proof.
  apply block_apart_partial; try lia; [simpl; lia|reflexivity| | |].
  - repeat (apply Forall_cons; [split; [reflexivity|unfold vget; simpl; lra]|]); apply Forall_nil.
  - apply Forall_forall. intros c Ic. apply exvv_good. assert (G : forall is X c, length X = 2%nat -> (forall i, In i is -> (i < 2)%nat) -> In c (sweep_calls exvv is X) -> length (fst c) = 1%nat).
    { induction is as [|i is IH]; intros X c0 HL HI I0; [destruct I0|]. cbn [sweep_calls] in I0. assert (Hi : (i < 2)%nat) by (apply HI; left; auto). destruct I0 as [<-|I0].
      - cbn [fst]. unfold without. rewrite app_length, firstn_length, skipn_length. lia.
      - apply (IH _ c0) in I0; auto; [rewrite set_row_len; lia|intros j Ij; apply HI; right; auto]. }
    assert (SW : forall is s, length (fst s) = 2%nat -> (forall i, In i is -> (i < 2)%nat) -> length (fst (fold_left (mb_row [[1; 0]; [0; 1]] exvv) is s)) = 2%nat).
    { induction is as [|i is IH]; intros s HL HI; auto. cbn [fold_left]. apply IH; [|intros j Ij; apply HI; right; auto]. unfold mb_row. cbn [fst]. assert (i < 2)%nat by (apply HI; left; auto). rewrite set_row_len; lia. }
    revert Ic. generalize 3%nat as n. assert (L0 : length [[0; 0]; [1/2; 0]] = 2%nat) by reflexivity. revert L0. generalize [[0; 0]; [1/2; 0]] as X. intros X L0 n. revert X L0. induction n as [|n IH]; intros X L0 Ic; [destruct Ic|]. cbn [block_calls] in Ic. apply in_app_or in Ic. destruct Ic as [Ic|Ic].
    + eapply G; [exact L0| |exact Ic]. intros i Ii. apply in_seq in Ii. lia.
    + cbv zeta in Ic. destruct (Rltb _ _); [destruct Ic|]. eapply IH; [|exact Ic]. unfold mb_sweep. apply SW; auto. intros i Ii. apply in_seq in Ii. lia.
  - intros i j Hi Hj NE. simpl in Hi, Hj. assert (H2 : Ldist [[1; 0]; [0; 1]] [0; 0] [1/2; 0] = 1/2).
    { unfold Ldist, mv. cbn [map]. rewrite !dot_cons, !dot_nil_l. unfold norm2. replace (norm2sq _) with ((1/2) * (1/2)) by (unfold norm2sq; cbn [vsub vmap2]; rewrite !dot_cons, !dot_nil_l; field). apply sqrt_square. lra. }
    destruct i as [|[|i]], j as [|[|j]]; try lia; cbn [nth]; [|rewrite Ldist_sym]; lra.
Qed.

(* ------------------------------------------------------------------ *)
(** * initial_sample *)
Lemma vsum_nn : forall al, Forall (fun a => 0 <= a) al -> 0 <= vsum al.
Proof. intros al F. induction F as [|a al A0 F IH]; unfold vsum in *; simpl; [lra|]. fold (vsum al) in *. unfold vsum in *. lra. Qed.
Lemma comb_scaled : forall (P : vec -> Prop) m, convexP P -> forall V al, Forall P V -> Forall (fun v => length v = m) V -> length al = length V -> Forall (fun a => 0 <= a) al -> 0 < vsum al ->
  P (vscale (/ vsum al) (lincomb m V al)).
Proof.
  intros P m HC V. induction V as [|v V IH]; intros al FP FV HL FA HS; [destruct al; [unfold vsum in HS; simpl in HS; lra|discriminate]|].
  destruct al as [|a al]; [discriminate|]. inversion FP as [|? ? Pv FP']; inversion FV as [|? ? Lv FV']; inversion FA as [|? ? A0 FA']; subst. simpl in HL. assert (SE : vsum (a :: al) = a + vsum al) by reflexivity.
  assert (S0 : 0 <= vsum al) by (apply vsum_nn; auto). rewrite SE in *. cbn [lincomb].
  assert (LL : length (lincomb (length v) V al) = length v) by (apply lincomb_length; auto).
  destruct (Req_dec (vsum al) 0) as [Z|NZ].
  - assert (EZ : lincomb (length v) V al = vzero (length v)).
    { apply vec_ext; [unfold vzero; rewrite repeat_length; auto|]. intros i Hi. rewrite vzero_get, HullProofs.lincomb_get by auto. clear - FA' Z. revert V. induction FA' as [|b al B0 FA' IH]; intros V; [apply dot_nil_l|]. assert (0 <= vsum al) by (apply vsum_nn; auto). unfold vsum in *. simpl in Z. fold (vsum al) in *. destruct V as [|w V]; [apply dot_nil_r|]. cbn [map]. rewrite dot_cons, IH by (unfold vsum in *; lra). assert (b = 0) by (unfold vsum in *; lra). subst. ring. }
    rewrite EZ, Z. replace (vscale _ _) with v; auto. apply vec_ext; [rewrite vscale_length, vadd_length; rewrite vscale_length; auto; unfold vzero; rewrite repeat_length; auto|]. intros i Hi. rewrite vscale_get, vadd_get, vscale_get, vzero_get by (rewrite vscale_length; unfold vzero; rewrite repeat_length; auto). field. lra.
  - assert (S1 : 0 < vsum al) by lra. specialize (IH al FP' FV' ltac:(lia) FA' S1). assert (Ht : 0 <= vsum al / (a + vsum al) <= 1).
    { split; [apply Rmult_le_pos; [lra|left; apply Rinv_0_lt_compat; lra]|]. apply Rmult_le_reg_r with (a + vsum al); [lra|]. unfold Rdiv. rewrite Rmult_assoc, Rinv_l by lra. lra. }
    pose proof (HC v _ (vsum al / (a + vsum al)) Pv IH Ht) as Q. replace (vscale (/ (a + vsum al)) _) with (seg v (vscale (/ vsum al) (lincomb (length v) V al)) (vsum al / (a + vsum al))); auto.
    unfold seg. apply vec_ext; [rewrite vscale_length, !vadd_length; rewrite !vscale_length; auto|]. intros i Hi. rewrite vadd_get by (rewrite !vscale_length; auto). rewrite !vscale_get, vadd_get by (rewrite vscale_length; auto). rewrite vscale_get. field. lra.
Qed.
Lemma comb_in : forall (P : vec -> Prop) m V x, convexP P -> Forall P V -> Forall (fun v => length v = m) V -> convex_comb V m x -> P x.
Proof.
  intros P m V x HC FP FV [al [LA [FA [SA ->]]]]. pose proof (comb_scaled P m HC V al FP FV LA FA ltac:(lra)) as Q. rewrite SA in Q. replace (lincomb m V al) with (vscale (/ 1) (lincomb m V al)); auto. apply vec_ext; [apply vscale_length|]. intros i Hi. rewrite vscale_get. field.
Qed.
Lemma select_map : forall (f : vec -> vec) mask (X : mat), select mask (map f X) = map f (select mask X).
Proof. intros f mask. induction mask as [|b mask IH]; intros [|x X]; auto. cbn [map select]. destruct b; cbn [map]; rewrite IH; auto. Qed.
Lemma select_all : forall (X : mat), select (repeat true (length X)) X = X.
Proof. induction X; simpl; [auto|f_equal; auto]. Qed.
Lemma mask_select : forall X : mat, unique_mask (select (unique_mask X) X) = repeat true (length (select (unique_mask X) X)).
Proof.
  induction X as [|x X IH]; auto. set (b := match X with [] => true | _ => negb (np_close (vmin (map (edist x) X)) 0) end). change (unique_mask (x :: X)) with (b :: unique_mask X). cbn [select]. destruct b eqn:E; [|exact IH].
  set (Z := select (unique_mask X) X) in *. cbn [length repeat]. assert (HH : nth 0 (unique_mask (x :: Z)) false = true).
  { apply mask_head. intros y Iy. apply select_incl in Iy. revert y Iy. apply (mask_head x X). exact E. }
  cbn [unique_mask] in HH |- *. cbn [nth] in HH. rewrite HH, IH. auto.
Qed.
(** the points ConvexHullDomain keeps are those initial_sample keeps *)
Lemma hull_pts_same : forall Llow cs, hull_pts (snd (init_pts Llow cs)) = map (mv Llow) (fst (init_pts Llow cs)).
Proof. intros Llow cs. unfold init_pts, hull_pts. cbn [fst snd]. rewrite mask_select, select_all. apply select_map. Qed.
(** Every returned point lies in the (convex) domain, and is mapped by the low rank metric on the sample of the projected domain *)
Theorem initial_inside : forall (P : vec -> Prop) m L Llow sample cs hs coef, convexP P -> Forall P cs -> Forall (fun c => length c = m) cs -> Forall P sample -> is_scaled_id m L = false ->
  (forall y, In y (hs (map (mv Llow) (fst (init_pts Llow cs)))) ->
     let al := coef (map (mv Llow) (fst (init_pts Llow cs))) y in
     length al = length (fst (init_pts Llow cs)) /\ Forall (fun a => 0 <= a) al /\ vsum al = 1 /\ lincomb (length Llow) (map (mv Llow) (fst (init_pts Llow cs))) al = y) ->
  let D := initial_sample m L Llow sample cs hs coef in
  Forall P D /\ map (mv Llow) D = hs (map (mv Llow) (fst (init_pts Llow cs))).
Proof.
  intros P m L Llow sample cs hs coef HC FC FL FS HL HCo D. unfold D, initial_sample. rewrite HL. pose proof (hull_pts_same Llow cs) as EH. destruct (init_pts Llow cs) as [cs' Lcs'] eqn:EI. cbn [fst snd] in *. rewrite EH.
  assert (IC : forall c, In c cs' -> In c cs) by (intros c Ic; unfold init_pts in EI; inversion EI; subst; apply select_incl in Ic; auto).
  assert (FP : Forall P cs') by (apply Forall_forall; intros c Ic; rewrite Forall_forall in FC; auto). assert (FM : Forall (fun c => length c = m) cs') by (apply Forall_forall; intros c Ic; rewrite Forall_forall in FL; auto). split.
  - apply Forall_forall. intros x Ix. apply in_map_iff in Ix. destruct Ix as [y [<- Iy]]. destruct (HCo y Iy) as [C1 [C2 [C3 C4]]]. apply (comb_in P m cs'); auto. exists (coef (map (mv Llow) cs') y). auto.
  - rewrite map_map. rewrite <- (map_id (hs _)) at 2. apply map_ext_in. intros y Iy. destruct (HCo y Iy) as [C1 [C2 [C3 C4]]]. rewrite mv_lincomb by auto. auto.
Qed.
(** for a multiple of the identity, the sample of the domain itself *)
Theorem initial_identity : forall m c Llow sample cs hs coef, initial_sample m (map (fun i => map (fun j => if Nat.eqb i j then c else 0) (seq 0 m)) (seq 0 m)) Llow sample cs hs coef = sample.
Proof.
  intros m c Llow sample cs hs coef. unfold initial_sample. set (L := map _ (seq 0 m)). assert (IS : is_scaled_id m L = true); [|rewrite IS; auto].
  unfold is_scaled_id. assert (LL : length L = m) by (unfold L; rewrite map_length, seq_length; auto). rewrite LL, Nat.eqb_refl. replace (norm2 _) with 0; [apply np_close_refl|]. symmetry. unfold norm2. replace (norm2sq _) with 0; [apply sqrt_0|]. symmetry.
  assert (G : forall v, Forall (fun t => t = 0) v -> norm2sq v = 0). { intros v F. induction F as [|t v -> F IH]; unfold norm2sq in *; [apply dot_nil_l|rewrite dot_cons, IH; ring]. }
  apply G. apply Forall_concat. apply Forall_forall. intros r Ir. apply in_map_iff in Ir. destruct Ir as [i [<- Ii]]. apply Forall_forall. intros t It. apply in_map_iff in It. destruct It as [j [<- Ij]]. apply in_seq in Ii. apply in_seq in Ij.
  assert (GL : forall i j, (i < m)%nat -> (j < m)%nat -> vget (nth i L []) j = if Nat.eqb i j then c else 0). { intros a e Ha He. unfold L. rewrite nth_map_seq by auto. rewrite vget_map_seq by auto. auto. }
  rewrite !GL by lia. rewrite Nat.eqb_refl. destruct (Nat.eqb i j); ring.
Qed.
(** "all projections distinct up to tolerance": not when the projected domain is a single point, which is returned Nsamp times *)
Theorem initial_distinct_refuted : exists P m L Llow sample cs hs coef, convexP P /\ Forall P cs /\ Forall (fun c => length c = m) cs /\ is_scaled_id m L = false /\
  (forall pt, hs [pt] = [pt; pt]) /\
  (forall y, In y (hs (map (mv Llow) (fst (init_pts Llow cs)))) ->
     let al := coef (map (mv Llow) (fst (init_pts Llow cs))) y in
     length al = length (fst (init_pts Llow cs)) /\ Forall (fun a => 0 <= a) al /\ vsum al = 1 /\ lincomb (length Llow) (map (mv Llow) (fst (init_pts Llow cs))) al = y) /\
  let D := initial_sample m L Llow sample cs hs coef in length D = 2%nat /\ mv Llow (nth 0 D []) = mv Llow (nth 1 D []).
Proof.
  exists (fun x => length x = 2%nat /\ vget x 0 = 0), 2%nat, [[1; 0]], [[1; 0]], [], [[0; 0]; [0; 1]], (fun pts => match pts with [p] => [p; p] | _ => [] end), (fun _ _ => [1]).
  assert (EI : init_pts [[1; 0]] [[0; 0]; [0; 1]] = ([[0; 1]], [mv [[1; 0]] [0; 1]])).
  { unfold init_pts. cbn [map]. assert (E0 : mv [[1; 0]] [0; 0] = mv [[1; 0]] [0; 1]) by (unfold mv; cbn [map]; rewrite !dot_cons, !dot_nil_l; apply f_equal2; [ring|auto]). rewrite E0. cbn [unique_mask]. unfold vmin. cbn [map fold_left].
    assert (ED : forall v, edist v v = 0). { intro v. unfold edist, norm2. rewrite vsub_self. replace (norm2sq _) with 0; [apply sqrt_0|]. symmetry. unfold norm2sq. apply dot_zero_l. }
    rewrite ED, np_close_refl. reflexivity. }
  split. { intros x y t [L1 X1] [L2 X2] Ht. unfold seg. split; [rewrite vadd_length; rewrite !vscale_length; congruence|]. rewrite vadd_get by (rewrite !vscale_length; congruence). rewrite !vscale_get, X1, X2. ring. }
  split. { repeat (apply Forall_cons; [split; reflexivity|]). apply Forall_nil. }
  split. { repeat (apply Forall_cons; [reflexivity|]). apply Forall_nil. }
  split; [reflexivity|]. split; [reflexivity|]. rewrite EI. cbn [fst]. split.
  - cbn [map]. intros y Iy. cbv zeta. assert (Ey : y = mv [[1; 0]] [0; 1]) by (destruct Iy as [<-|[<-|[]]]; auto). subst y. split; auto. split; [constructor; [lra|constructor]|]. split; [unfold vsum; simpl; ring|]. unfold mv. cbn [map length lincomb]. rewrite !dot_cons, !dot_nil_l. cbn [vscale vadd vmap2 map vzero repeat]. apply f_equal2; [ring|auto].
  - unfold initial_sample. change (is_scaled_id 2 [[1; 0]]) with false. cbv iota. rewrite EI. assert (EH : hull_pts [mv [[1; 0]] [0; 1]] = [mv [[1; 0]] [0; 1]]) by reflexivity. rewrite EH. split; reflexivity.
Qed.
(** Example: the unit square with metric (1 1): corners (0,0) and (1,1), three samples of the segment [0,2] *)
Example ex_initial : let hs := fun _ : mat => [[0]; [1]; [2]] in let coef := fun (_ : mat) (y : vec) => [1 - vget y 0 / 2; vget y 0 / 2] in
  let D := initial_sample 2 [[1; 1]] [[1; 1]] [] [[0; 0]; [1; 1]] hs coef in Forall sqP D /\ map (mv [[1; 1]]) D = [[0]; [1]; [2]].
Proof.
  intros hs coef D. assert (M0 : mv [[1; 1]] [0; 0] = [0]) by (unfold mv; cbn [map]; rewrite !dot_cons, !dot_nil_l; apply f_equal2; [ring|auto]). assert (M2 : mv [[1; 1]] [1; 1] = [2]) by (unfold mv; cbn [map]; rewrite !dot_cons, !dot_nil_l; apply f_equal2; [ring|auto]).
  assert (EI : fst (init_pts [[1; 1]] [[0; 0]; [1; 1]]) = [[0; 0]; [1; 1]]).
  { unfold init_pts. cbn [fst map]. rewrite M0, M2. cbn [unique_mask map]. unfold vmin. cbn [fold_left]. assert (C : np_close (edist [0] [2]) 0 = false). { apply np_close0_f. rewrite edist1. pose proof atol_pos. unfold atol in *. rewrite Rabs_Rabsolu. rewrite Rabs_left by lra. lra. } rewrite C. reflexivity. }
  unfold D. replace [[0]; [1]; [2]] with (hs (map (mv [[1; 1]]) (fst (init_pts [[1; 1]] [[0; 0]; [1; 1]])))) by reflexivity. apply initial_inside; auto.
  - intros x y t [L1 [X1 Y1]] [L2 [X2 Y2]] Ht. unfold seg. split; [rewrite vadd_length; rewrite !vscale_length; congruence|]. rewrite !vadd_get by (rewrite !vscale_length; congruence). rewrite !vscale_get. split; nra.
  - repeat (apply Forall_cons; [split; [reflexivity|unfold vget; simpl; lra]|]). apply Forall_nil.
  - rewrite EI. cbn [map]. rewrite M0, M2. intros y Iy. assert (Y : exists t, y = [t] /\ 0 <= t <= 2) by (destruct Iy as [<-|[<-|[<-|[]]]]; eexists; split; try reflexivity; lra). destruct Y as [t [-> Ht]]. cbv zeta. unfold coef. replace (vget [t] 0) with t by reflexivity. split; auto. split; [repeat (constructor; [lra|]); constructor|]. split; [unfold vsum; simpl; field|]. cbn [lincomb length vscale vadd vmap2 map vzero repeat]. apply f_equal2; [field|auto].
Qed.
