(** project_evals and dist_eval_constraints (C30, C73). *)
Require Import Reals Lra Lia List Bool Arith.
From Verif Require Import RVec Num Sums DomMoreModel HullIneqProofs VecTac ArnoldiMoreProofs MatLib LipModel LipProofs LipConstProofs.
Import ListNotations.
Local Open Scope R_scope.

Lemma nth_map_any : forall A B (f : A -> B) l k da db, (k < length l)%nat -> nth k (map f l) db = f (nth k l da).
Proof. induction l as [|a l IH]; intros [|k] da db H; simpl in *; try lia; auto. apply IH. lia. Qed.
(** ** argmax *)
Lemma nltb_false_nleb : forall a b, a <> NaN -> b <> NaN -> nltb a b = false -> nleb b a = true.
Proof.
  intros [x| | |] [y| | |] Ha Hb H; try congruence; try discriminate; auto. cbn in *. apply Rltb_false in H. apply Rleb_true. lra.
Qed.
Lemma nltb_nleb : forall a b, nltb a b = true -> nleb a b = true.
Proof. intros [x| | |] [y| | |] H; try discriminate; auto. cbn in *. apply Rltb_true in H. apply Rleb_true. lra. Qed.
Lemma nleb_trans : forall a b c, nleb a b = true -> nleb b c = true -> nleb a c = true.
Proof. intros [x| | |] [y| | |] [z| | |] H1 H2; try discriminate; auto. cbn in *. apply Rleb_true in H1, H2. apply Rleb_true. lra. Qed.
Lemma nleb_refl : forall a, a <> NaN -> nleb a a = true.
Proof. intros [x| | |] H; try congruence; auto. cbn. apply Rleb_true. lra. Qed.
Definition is_argmax (l : list num) (k : nat) : Prop :=
  (k < length l)%nat /\ (nth k l NaN = NaN \/ forall i, (i < length l)%nat -> nth i l NaN <> NaN /\ nleb (nth i l NaN) (nth k l NaN) = true).
Lemma argmax_from_spec : forall l pre best, (best < length pre)%nat -> is_argmax pre best ->
  is_argmax (pre ++ l) (argmax_from (length pre) best (nth best pre NaN) l).
Proof.
  induction l as [|a l IH]; intros pre best Hb SA; [rewrite app_nil_r; auto|]. cbn [argmax_from].
  assert (EQ : pre ++ a :: l = (pre ++ [a]) ++ l) by (rewrite <- app_assoc; auto).
  assert (L1 : length (pre ++ [a]) = S (length pre)) by (rewrite app_length; simpl; lia).
  assert (NP : forall i, (i < length pre)%nat -> nth i (pre ++ [a]) NaN = nth i pre NaN) by (intros; apply app_nth1; auto).
  assert (NL : nth (length pre) (pre ++ [a]) NaN = a) by (rewrite app_nth2, Nat.sub_diag by lia; auto).
  destruct SA as [S0 SA]. assert (DN : forall z : num, z = NaN \/ z <> NaN) by (intros [z| | |]; [right|right|right|left]; congruence).
  destruct (DN (nth best pre NaN)) as [EB|EB].
  { rewrite EB. split; [rewrite app_length; lia|]. left. rewrite app_nth1 by auto. auto. }
  destruct SA as [SA|SA]; [congruence|]. destruct (DN a) as [->|NA].
  { replace (match nth best pre NaN with NaN => best | _ => length pre end) with (length pre) by (destruct (nth best pre NaN); congruence).
    split; [rewrite app_length; simpl; lia|]. left. rewrite app_nth2, Nat.sub_diag by lia. reflexivity. }
  replace (match nth best pre NaN with NaN => _ | _ => _ end) with
    (if nltb (nth best pre NaN) a then argmax_from (S (length pre)) (length pre) a l else argmax_from (S (length pre)) best (nth best pre NaN) l)
    by (destruct (nth best pre NaN); try congruence; destruct a; congruence).
  rewrite EQ. destruct (nltb (nth best pre NaN) a) eqn:LT.
  - pose proof (IH (pre ++ [a]) (length pre)) as G. rewrite NL, L1 in G. apply G; [lia|]. split; [rewrite L1; lia|]. right. intros i Hi. rewrite L1 in Hi. rewrite NL. destruct (Nat.eq_dec i (length pre)) as [->|NE].
    + rewrite NL. split; [auto|apply nleb_refl; auto].
    + rewrite NP by lia. split; [apply SA; lia|]. apply nleb_trans with (nth best pre NaN); [apply SA; lia|apply nltb_nleb; auto].
  - pose proof (IH (pre ++ [a]) best) as G. rewrite NP, L1 in G by auto. apply G; [lia|]. split; [rewrite L1; lia|]. right. intros i Hi. rewrite L1 in Hi. rewrite (NP best) by auto. destruct (Nat.eq_dec i (length pre)) as [->|NE].
    + rewrite NL. split; [auto|apply nltb_false_nleb; auto].
    + rewrite NP by lia. apply SA; lia.
Qed.
Lemma argmax_spec : forall l, l <> [] -> exists k, argmax l = Some k /\ is_argmax l k.
Proof.
  intros [|a l] H; [congruence|]. exists (argmax_from 1 0 a l). split; auto. apply (argmax_from_spec l [a] 0); [simpl; lia|].
  split; [simpl; lia|]. destruct a as [x| | |]; [right|right|right|left; auto]; intros [|i] Hi; simpl in *; try lia; split; try congruence; auto. apply Rleb_true. lra.
Qed.
(** ** counting violated constraints *)
Lemma filter_le : forall A (f g : A -> bool) l, (forall x, In x l -> f x = true -> g x = true) -> (length (filter f l) <= length (filter g l))%nat.
Proof.
  induction l as [|a l IH]; intro H; auto. simpl. assert (H' : forall x, In x l -> f x = true -> g x = true) by (intros; apply H; auto; right; auto). specialize (IH H').
  destruct (f a) eqn:F; [rewrite (H a) by (auto; left; auto); simpl; lia|]. destruct (g a); simpl; lia.
Qed.
Lemma filter_lt : forall A (f g : A -> bool) l y, (forall x, In x l -> f x = true -> g x = true) -> In y l -> f y = false -> g y = true -> (length (filter f l) < length (filter g l))%nat.
Proof.
  induction l as [|a l IH]; intros y H I F G; [contradiction|]. simpl. assert (H' : forall x, In x l -> f x = true -> g x = true) by (intros; apply H; auto; right; auto).
  destruct I as [->|I].
  - rewrite F, G. simpl. pose proof (filter_le _ f g l H'). lia.
  - specialize (IH y H' I F G). destruct (f a) eqn:FA; [rewrite (H a) by (auto; left; auto); simpl; lia|]. destruct (g a); simpl; lia.
Qed.
Lemma filter_length_le : forall A (f : A -> bool) l, (length (filter f l) <= length l)%nat.
Proof. induction l; simpl; auto. destruct (f a); simpl; lia. Qed.
Lemma pairs_split : forall n k, (k <= n)%nat -> (2 * length (flat_map (fun i => map (fun j => (i, j)) (seq (S i) (n - S i))) (seq (n - k) k)) = k * (k - 1))%nat.
Proof.
  intros n. induction k as [|k IH]; intro Hk; [simpl; auto|]. replace (seq (n - S k) (S k)) with ((n - S k)%nat :: seq (n - k) k) by (simpl; f_equal; f_equal; lia).
  cbn [flat_map]. rewrite app_length, map_length, seq_length. specialize (IH ltac:(lia)). destruct k; simpl in *; nia.
Qed.
Lemma pairs_length : forall n, (2 * length (pairs n) = n * (n - 1))%nat.
Proof. intro n. pose proof (pairs_split n n (le_n n)) as H. rewrite Nat.sub_diag in H. exact H. Qed.

(** ** specification *)
Definition pair_p (X : mat) (i j : nat) : vec := vsub (nth i X []) (nth j X []).
Definition pair_df2 (fX : vec) (i j : nat) : R := (vget fX i - vget fX j) * (vget fX i - vget fX j).
(** H explains the differences of the values up to [tol] times the fourth power of the distance *)
Definition eval_ok (X : mat) (fX : vec) (tol : R) (H : mat) : Prop :=
  forall i j, (i < j < length X)%nat -> pair_df2 fX i j - tol * (dot (pair_p X i j) (pair_p X i j) * dot (pair_p X i j) (pair_p X i j)) <= quad H (pair_p X i j).

Section PE.
Context (m : nat) (X : mat) (fX : vec).
Hypothesis HX : Forall (dimP m) X.
Hypothesis HA : apart X.
Hypothesis HN : (2 <= length X)%nat.
Lemma pp_len : forall i j, (i < j < length X)%nat -> length (pair_p X i j) = m.
Proof using HX.
  clear HA HN. intros i j H. rewrite Forall_forall in HX. unfold pair_p. assert (A1 : length (nth i X []) = m) by (apply HX, nth_In; lia). assert (A2 : length (nth j X []) = m) by (apply HX, nth_In; lia).
  rewrite vsub_length; congruence.
Qed.
Lemma pp_pos : forall i j, (i < j < length X)%nat -> 0 < dot (pair_p X i j) (pair_p X i j).
Proof using HA. clear HX HN. intros i j H. specialize (HA i j H). pose proof (norm2_sq (pair_p X i j)) as E. unfold norm2sq in E. rewrite <- E. unfold pair_p. apply Rmult_lt_0_compat; auto. Qed.
Definition upd (H : mat) (ij : nat * nat) : R :=
  let p := pair_p X (fst ij) (snd ij) in (pair_df2 fX (fst ij) (snd ij) - quad H p) / (dot p p * dot p p).
Lemma pe_updates_fin : forall H, pe_updates H X fX = map (fun ij => Fin (upd H ij)) (pairs (length X)).
Proof.
  intro H. unfold pe_updates. apply map_ext_in. intros [i j] I. apply in_pairs in I. cbn [fst snd]. unfold upd. cbn [fst snd]. pose proof (pp_pos i j I) as P. unfold pair_p, pair_df2 in *. cbn [ndivr].
  destruct (Req_EM_T _ 0); [nra|]. reflexivity.
Qed.
Lemma pe_step_spec : forall H,
  (pe_step X fX H = Ret H /\ eval_ok X fX pe_tol H) \/
  exists i j, (i < j < length X)%nat /\ pe_tol < upd H (i, j) /\ pe_step X fX H = Running (madd H (mscale (upd H (i, j)) (outer (pair_p X i j) (pair_p X i j)))).
Proof.
  intro H. unfold pe_step. rewrite pe_updates_fin. set (u := map _ (pairs (length X))).
  assert (NE : u <> []) by (intro Z; apply map_eq_nil in Z; exact (pairs_ne _ HN Z)). destruct (argmax_spec u NE) as [k [-> [Hk SA]]].
  assert (LU : length u = length (pairs (length X))) by (unfold u; apply map_length).
  assert (NU : forall i, (i < length u)%nat -> nth i u NaN = Fin (upd H (nth i (pairs (length X)) (0, 0)%nat))).
  { intros i Hi. unfold u. rewrite (nth_indep _ NaN (Fin (upd H (0, 0)%nat))) by auto. apply (map_nth (fun ij => Fin (upd H ij))). }
  destruct SA as [SA|SA]; [rewrite (NU k Hk) in SA; discriminate|]. rewrite (NU k Hk) in *. cbn [nltb]. set (ij := nth k (pairs (length X)) (0, 0)%nat) in *.
  destruct (Rltb pe_tol (upd H ij)) eqn:LT.
  - right. apply Rltb_true in LT. exists (fst ij), (snd ij). assert (I : In ij (pairs (length X))) by (apply nth_In; lia). destruct ij as [i j]. cbn [fst snd]. split; [apply in_pairs; auto|]. split; auto.
  - left. split; auto. apply Rltb_false in LT. intros i j Hij. assert (I : In (i, j) (pairs (length X))) by (apply in_pairs; auto).
    apply (In_nth _ _ (0, 0)%nat) in I. destruct I as [q [Hq Eq]]. specialize (SA q ltac:(lia)). destruct SA as [_ SA]. rewrite (NU q ltac:(lia)), Eq in SA. cbn [nleb] in SA. apply Rleb_true in SA.
    pose proof (pp_pos i j Hij) as P. assert (B : upd H (i, j) <= pe_tol) by lra. unfold upd in B. cbn [fst snd] in B. set (d := dot (pair_p X i j) (pair_p X i j)) in *.
    assert (0 < d * d) by nra. apply Rmult_le_compat_r with (r := d * d) in B; [|lra]. unfold Rdiv in B. rewrite Rmult_assoc, Rinv_l, Rmult_1_r in B by lra. lra.
Qed.
(** violated pairs *)
Definition viol (H : mat) : nat := length (filter (fun ij => Rltb (quad H (pair_p X (fst ij) (snd ij))) (pair_df2 fX (fst ij) (snd ij))) (pairs (length X))).
Lemma step_viol : forall H i j, sq m H -> (i < j < length X)%nat -> 0 < upd H (i, j) ->
  let H' := madd H (mscale (upd H (i, j)) (outer (pair_p X i j) (pair_p X i j))) in sq m H' /\ loewner m H H' /\ (viol H' < viol H)%nat.
Proof.
  intros H i j SH Hij UP H'. pose proof (pp_len i j Hij) as LP. assert (SO : sq m (mscale (upd H (i, j)) (outer (pair_p X i j) (pair_p X i j)))) by (apply mscale_sq, outer_sq; auto).
  assert (Q : forall x, quad H' x = quad H x + upd H (i, j) * (dot (pair_p X i j) x * dot (pair_p X i j) x)).
  { intro x. unfold H'. rewrite (quad_madd m) by auto. rewrite quad_mscale, quad_outer. auto. }
  assert (LO : forall x, quad H x <= quad H' x) by (intro x; rewrite Q; assert (0 <= upd H (i, j) * (dot (pair_p X i j) x * dot (pair_p X i j) x)) by (apply Rmult_le_pos; [lra|nra]); lra).
  split; [apply madd_sq; auto|]. split; [intros x _; auto|]. unfold viol. apply filter_lt with (i, j).
  - intros [a b] _ F. cbn [fst snd] in *. apply Rltb_true in F. apply Rltb_true. pose proof (LO (pair_p X a b)). lra.
  - apply in_pairs. auto.
  - cbn [fst snd]. apply Rltb_false. rewrite Q. unfold upd. cbn [fst snd]. pose proof (pp_pos i j Hij). set (d := dot (pair_p X i j) (pair_p X i j)) in *. right. field. lra.
  - cbn [fst snd]. apply Rltb_true. unfold upd in UP. cbn [fst snd] in UP. pose proof (pp_pos i j Hij). set (d := dot (pair_p X i j) (pair_p X i j)) in *.
    assert (D : 0 < d * d) by nra. apply Rmult_lt_compat_r with (r := d * d) in UP; [|lra]. unfold Rdiv in UP. rewrite Rmult_0_l, Rmult_assoc, Rinv_l, Rmult_1_r in UP by lra. lra.
Qed.
Lemma pe_tol_pos : 0 < pe_tol. Proof. unfold pe_tol. apply Rinv_0_lt_compat, pow_lt. lra. Qed.
Lemma pe_loop_spec : forall n fuel H, sq m H -> (viol H <= n)%nat -> (n < fuel)%nat -> exists H', pe_loop fuel X fX H = Ret H' /\ sq m H' /\ loewner m H H' /\ eval_ok X fX pe_tol H'.
Proof.
  induction n as [|n IH]; intros [|fuel] H SH V FU; try lia; cbn [pe_loop]; (destruct (pe_step_spec H) as [[-> OK]|[i [j [Hij [UP ->]]]]]; [exists H; split; auto; split; auto; split; auto; apply loewner_refl|]).
  - exfalso. pose proof pe_tol_pos. destruct (step_viol H i j SH Hij ltac:(lra)) as [_ [_ V']]. lia.
  - pose proof pe_tol_pos. destruct (step_viol H i j SH Hij ltac:(lra)) as [S' [L' V']]. destruct (IH fuel _ S' ltac:(lia) ltac:(lia)) as [H' [E [S2 [L2 OK]]]]. exists H'. split; auto. split; auto. split; auto. apply loewner_trans with (2 := L2). auto.
Qed.
End PE.
(** for pairwise different points the loop stops after at most M(M-1)/2 updates; the matrix grows in the Loewner order
    (so nothing that held is lost) and all the constraints hold up to 1e-13 |p|^4 *)
Theorem project_evals_correct : forall m H X fX fuel, sq m H -> Forall (dimP m) X -> apart X -> (2 <= length X)%nat -> (length X * (length X - 1) / 2 < fuel)%nat ->
  exists H', project_evals fuel H X fX = Ret H' /\ sq m H' /\ loewner m H H' /\ eval_ok X fX pe_tol H'.
Proof.
  intros m H X fX fuel SH HX HA HN FU. unfold project_evals. destruct X as [|x0 X'] eqn:EX; [simpl in HN; lia|]. rewrite <- EX in *.
  apply (pe_loop_spec m X fX HX HA HN (length (pairs (length X)))); auto; [apply filter_length_le|]. pose proof (pairs_length (length X)) as P. rewrite <- P in FU. rewrite (Nat.mul_comm 2), Nat.div_mul in FU by lia. auto.
Qed.
(** constraints that held before still hold, and values at a satisfied pair are never lost *)
Theorem project_evals_keeps : forall m H X fX fuel H', sq m H -> Forall (dimP m) X -> apart X -> (2 <= length X)%nat -> (length X * (length X - 1) / 2 < fuel)%nat ->
  project_evals fuel H X fX = Ret H' -> forall x, length x = m -> quad H x <= quad H' x.
Proof. intros m H X fX fuel H' SH HX HA HN FU E. destruct (project_evals_correct m H X fX fuel SH HX HA HN FU) as [H2 [E2 [_ [LO _]]]]. rewrite E in E2. injection E2 as ->. exact LO. Qed.

Lemma quad1 : forall h a, quad [[h]] [a] = h * (a * a).
Proof. intros. unfold quad. cbn [mv map]. rewrite !dot_cons. change (dot [] []) with 0. ring. Qed.
Lemma dot1 : forall a b, dot [a] [b] = a * b.
Proof. intros. rewrite dot_cons. change (dot [] []) with 0. ring. Qed.
Lemma sq1 : forall h, sq 1 [[h]]. Proof. intro. split; auto. Qed.
(** a case: values 0, 2 at 0, 1 starting from H = 1; one update gives H = 4 *)
Example ex_project : sq 1 [[1]] /\ Forall (dimP 1) [[0]; [1]] /\ apart [[0]; [1]] /\ project_evals 3 [[1]] [[0]; [1]] [0; 2] = Ret [[4]].
Proof.
  split; [apply sq1|]. split; [repeat constructor|]. split; [apply ex_apart|]. pose proof pe_tol_pos as TP. assert (TU : pe_tol < 1) by (unfold pe_tol; rewrite <- Rinv_1; apply Rinv_lt_contravar; [rewrite Rmult_1_l; apply pow_lt; lra|apply Rlt_pow_R1; [lra|lia]]).
  unfold project_evals. cbn [pe_loop]. unfold pe_step at 1, pe_updates. change (pairs (length [[0]; [1]])) with [(0, 1)%nat]. cbn [map fst snd nth length argmax argmax_from]. rewrite vget2_0, vget2_1. cbn [vsub vmap2]. rewrite quad1, dot1. cbn [ndivr].
  destruct (Req_EM_T _ 0) as [Z|Z]; [lra|]. cbn [nltb]. destruct (Rltb _ _) eqn:LT; [|apply Rltb_false in LT; lra]. clear LT Z.
  replace (madd [[1]] _) with [[4]] by (unfold madd, mscale, outer; cbn [map vscale zipw vadd vmap2]; do 2 f_equal; field).
  unfold pe_step, pe_updates. change (pairs (length [[0]; [1]])) with [(0, 1)%nat]. cbn [map fst snd nth length argmax argmax_from]. rewrite vget2_0, vget2_1. cbn [vsub vmap2]. rewrite quad1, dot1. cbn [ndivr].
  destruct (Req_EM_T _ 0) as [Z|Z]; [lra|]. cbn [nltb]. destruct (Rltb _ _) eqn:LT; [apply Rltb_true in LT; lra|]. reflexivity.
Qed.

(** finding: exact feasibility fails, violations below the tolerance are left *)
Theorem project_evals_exact_refuted : exists H X fX, sq 1 H /\ apart X /\ (length X = 2)%nat /\ (forall n, project_evals (S n) H X fX = Ret H) /\ ~ eval_ok X fX 0 H.
Proof.
  pose proof pe_tol_pos as TP. exists [[0]], [[0]; [1]], [0; sqrt pe_tol]. split; [apply sq1|]. split; [apply ex_apart|]. split; auto. split.
  - intro n. unfold project_evals. cbn [pe_loop]. unfold pe_step, pe_updates. change (pairs (length [[0]; [1]])) with [(0, 1)%nat]. cbn [map fst snd nth length argmax argmax_from]. rewrite vget2_0, vget2_1. cbn [vsub vmap2]. rewrite quad1, dot1. cbn [ndivr].
    destruct (Req_EM_T _ 0) as [Z|Z]; [lra|]. cbn [nltb]. destruct (Rltb _ _) eqn:LT; auto. exfalso. apply Rltb_true in LT. replace ((0 - sqrt pe_tol) * (0 - sqrt pe_tol)) with pe_tol in LT; [lra|]. rewrite <- (sqrt_sqrt pe_tol) at 1 by lra. ring.
  - intro OK. specialize (OK 0%nat 1%nat ltac:(simpl; lia)). unfold pair_df2, pair_p in OK. rewrite vget2_0, vget2_1 in OK. cbn [nth vsub vmap2] in OK. rewrite quad1, dot1 in OK.
    pose proof (sqrt_sqrt pe_tol ltac:(lra)). nra.
Qed.
(** finding: a repeated sample point with the same value makes the loop stop at once (argmax picks the NaN) *)
Theorem project_evals_dup_refuted : exists H X fX, sq 1 H /\ (forall n, project_evals (S n) H X fX = Ret H) /\ ~ eval_ok X fX (/ 2) H.
Proof.
  exists [[0]], [[0]; [0]; [1]], [0; 0; 1]. split; [apply sq1|]. split.
  - intro n. unfold project_evals. cbn [pe_loop]. unfold pe_step, pe_updates. change (pairs (length [[0]; [0]; [1]])) with [(0, 1); (0, 2); (1, 2)]%nat. cbn [map fst snd nth length]. cbn [vsub vmap2]. rewrite !quad1, !dot1. unfold vget. cbn [nth ndivr].
    destruct (Req_EM_T ((0 - 0) * (0 - 0) * ((0 - 0) * (0 - 0))) 0) as [Z|Z]; [|exfalso; apply Z; ring]. destruct (Req_EM_T ((0 - 0) * (0 - 0) - 0 * ((0 - 0) * (0 - 0))) 0) as [Z'|Z']; [|exfalso; apply Z'; ring].
    cbn [argmax argmax_from nth nltb]. reflexivity.
  - intro OK. specialize (OK 0%nat 2%nat ltac:(simpl; lia)). unfold pair_df2, pair_p, vget in OK. cbn [nth vsub vmap2] in OK. rewrite quad1, dot1 in OK. lra.
Qed.
(** finding: a repeated point with different values turns H into NaN; a single sample raises *)
Theorem project_evals_nan_refuted : exists H X fX, sq 1 H /\ forall n, project_evals (S n) H X fX = AllNaN.
Proof.
  exists [[0]], [[0]; [0]], [0; 1]. split; [apply sq1|]. intro n. unfold project_evals. cbn [pe_loop]. unfold pe_step, pe_updates. change (pairs (length [[0]; [0]])) with [(0, 1)%nat]. cbn [map fst snd nth length]. cbn [vsub vmap2]. rewrite !quad1, !dot1. unfold vget. cbn [nth ndivr].
  destruct (Req_EM_T ((0 - 0) * (0 - 0) * ((0 - 0) * (0 - 0))) 0) as [Z|Z]; [|exfalso; apply Z; ring]. destruct (Req_EM_T _ 0) as [Z'|Z']; [exfalso; lra|].
  assert (LT : Rltb 0 ((0 - 1) * (0 - 1) - 0 * ((0 - 0) * (0 - 0))) = true) by (apply Rltb_true; lra). rewrite LT. cbn [ninf argmax argmax_from nth nltb]. reflexivity.
Qed.
Theorem project_evals_single_refuted : exists X fX, length X = 1%nat /\ forall n H, project_evals (S n) H X fX = Raised.
Proof. exists [[0]], [0]. split; auto. Qed.

(** ** dist_eval_constraints: the signed size of the smallest symmetric perturbation making a constraint active *)
Definition frob (E : mat) : R := sqrt (vsum (map norm2sq E)).
Lemma norm2sq_mv : forall m E x, sq m E -> length x = m -> norm2sq (mv E x) <= vsum (map norm2sq E) * norm2sq x.
Proof.
  intros m E x [_ F] Hx. induction E as [|r E IH]; cbn [mv map]; [change (vsum []) with 0; unfold norm2sq; change (dot [] []) with 0; lra|]. inversion F; subst.
  rewrite vsum_cons. unfold norm2sq at 1. rewrite dot_cons. specialize (IH H2). unfold mv in IH. unfold norm2sq at 1 in IH. pose proof (cauchy_schwarz_sq r x ltac:(lia)). unfold norm2sq in *. nra.
Qed.
Lemma cs_abs : forall x y, length x = length y -> Rabs (dot x y) <= norm2 x * norm2 y.
Proof.
  intros x y L. pose proof (cauchy_schwarz x y L) as A. pose proof (cauchy_schwarz x (vscale (-1) y) ltac:(rewrite vscale_length; auto)) as B.
  rewrite dot_vscale_r, norm2_vscale, (Rabs_left (-1)) in B by lra. unfold Rabs. destruct (Rcase_abs _); lra.
Qed.
Lemma quad_frob : forall m E x, sq m E -> length x = m -> Rabs (quad E x) <= frob E * norm2sq x.
Proof.
  intros m E x SE Hx. unfold quad. assert (L : length (mv E x) = length x) by (rewrite mv_length; destruct SE; lia).
  pose proof (cs_abs x (mv E x) (eq_sym L)) as C. eapply Rle_trans; [exact C|].
  assert (B : norm2 (mv E x) <= frob E * norm2 x).
  { apply norm2_le_iff; [apply Rmult_le_pos; [apply sqrt_pos|apply norm2_nonneg]|]. pose proof (norm2sq_mv m E x SE Hx) as N. unfold frob.
    assert (P : 0 <= vsum (map norm2sq E)) by (clear; induction E as [|r E IH]; cbn [map]; [change (vsum []) with 0; lra|rewrite vsum_cons; pose proof (norm2sq_nonneg r); lra]).
    replace (sqrt (vsum (map norm2sq E)) * norm2 x * (sqrt (vsum (map norm2sq E)) * norm2 x)) with (vsum (map norm2sq E) * norm2sq x); auto. rewrite <- (norm2_sq x). rewrite <- (sqrt_sqrt (vsum (map norm2sq E))) at 1 by auto. ring. }
  rewrite <- (norm2_sq x). pose proof (norm2_nonneg x). nra.
Qed.
Lemma frob_outer : forall c p, frob (mscale c (outer p p)) = Rabs c * norm2sq p.
Proof.
  intros c p. unfold frob. assert (G : forall q, vsum (map norm2sq (mscale c (outer q p))) = c * c * (norm2sq q * norm2sq p)).
  { induction q as [|a q IH]; [cbn; unfold norm2sq; change (dot [] []) with 0; ring|]. unfold mscale, outer in *. cbn [map]. rewrite vsum_cons, IH. unfold norm2sq. rewrite !dot_vscale_l, !dot_vscale_r, dot_cons. ring. }
  rewrite G. replace (c * c * (norm2sq p * norm2sq p)) with ((Rabs c * norm2sq p) * (Rabs c * norm2sq p)).
  - apply sqrt_square. apply Rmult_le_pos; [apply Rabs_pos|apply norm2sq_nonneg].
  - assert (Rabs c * Rabs c = c * c) by (rewrite <- Rabs_mult; apply Rabs_right; nra). rewrite <- H. ring.
Qed.
(** entry for the pair (i,j): a finite number d; nonnegative iff the constraint holds; every perturbation E making it active has
    Frobenius norm at least |d|, and one of rank one attains it *)
Theorem dist_eval_correct : forall m H X fX k, sq m H -> Forall (dimP m) X -> apart X -> (k < length (pairs (length X)))%nat ->
  exists d, nth k (dist_eval H X fX) NaN = Fin d /\
  let p := pair_p X (fst (nth k (pairs (length X)) (0, 0)%nat)) (snd (nth k (pairs (length X)) (0, 0)%nat)) in
  let df2 := pair_df2 fX (fst (nth k (pairs (length X)) (0, 0)%nat)) (snd (nth k (pairs (length X)) (0, 0)%nat)) in
  (0 <= d <-> df2 <= quad H p) /\
  (forall E, sq m E -> quad (madd H E) p = df2 -> Rabs d <= frob E) /\
  (exists E, sq m E /\ msym m E /\ quad (madd H E) p = df2 /\ frob E = Rabs d).
Proof.
  intros m H X fX k SH HX HA Hk. set (ij := nth k (pairs (length X)) (0, 0)%nat). set (p := pair_p X (fst ij) (snd ij)). set (df2 := pair_df2 fX (fst ij) (snd ij)).
  assert (Hij : (fst ij < snd ij < length X)%nat) by (apply in_pairs; destruct ij as [i j] eqn:E; unfold ij in E; cbn [fst snd]; rewrite <- E; apply nth_In; auto).
  pose proof (pp_len m X HX _ _ Hij) as LP. pose proof (pp_pos X HA _ _ Hij) as PP. fold p in LP, PP.
  exists ((quad H p - df2) / dot p p). split.
  - unfold dist_eval. rewrite (nth_map_any _ _ _ (pairs (length X)) k (0, 0)%nat) by auto. fold ij. cbv zeta. cbn [ndivr]. change (vsub (nth (fst ij) X []) (nth (snd ij) X [])) with p. destruct (Req_EM_T _ 0); [lra|]. reflexivity.
  - cbv zeta. split; [|split].
    + split; intro D.
      * apply Rmult_le_compat_r with (r := dot p p) in D; [|lra]. unfold Rdiv in D. rewrite Rmult_0_l, Rmult_assoc, Rinv_l, Rmult_1_r in D by lra. lra.
      * unfold Rdiv. apply Rmult_le_pos; [lra|]. apply Rlt_le, Rinv_0_lt_compat. auto.
    + intros E SE A. rewrite (quad_madd m) in A by auto. pose proof (quad_frob m E p SE LP) as B. unfold norm2sq in B. replace ((quad H p - df2) / dot p p) with (- quad E p / dot p p) by (f_equal; lra).
      unfold Rdiv. rewrite Rabs_mult, Rabs_Ropp, (Rabs_right (/ dot p p)) by (apply Rle_ge, Rlt_le, Rinv_0_lt_compat; auto). apply Rmult_le_reg_r with (dot p p); auto. rewrite Rmult_assoc, Rinv_l, Rmult_1_r by lra. auto.
    + exists (mscale (- (quad H p - df2) / (dot p p * dot p p)) (outer p p)). assert (SO : sq m (outer p p)) by (apply outer_sq; auto). split; [apply mscale_sq; auto|]. split; [apply mscale_sym; rewrite <- LP; apply outer_sym|]. split.
      * rewrite (quad_madd m) by (auto; apply mscale_sq; auto). rewrite quad_mscale, quad_outer. field. lra.
      * rewrite frob_outer. unfold norm2sq. unfold Rdiv. rewrite !Rabs_mult, Rabs_Ropp. rewrite (Rabs_right (/ (dot p p * dot p p))) by (apply Rle_ge, Rlt_le, Rinv_0_lt_compat; nra).
        rewrite (Rabs_right (/ dot p p)) by (apply Rle_ge, Rlt_le, Rinv_0_lt_compat; auto). field. lra.
Qed.
