(** unique_points, sample_simplex, sample_sphere, one-dimensional fill distance. *)
Require Import Reals Lra Lia List Bool Arith ZArith Permutation Sorted.
From Verif Require Import RVec Num Sums DomModel DomSpec DomProofs DomMoreModel SweepProofs HullIneqProofs LipModel LipProofs SampModel PigeonLib LatinProofs PoissonProofs PoissonCases DesignProofs CoffeeProofs GeoModel.
Import ListNotations.
Local Open Scope R_scope.

Lemma np_close0 : forall a, np_close a 0 = true <-> Rabs a <= atol.
Proof. intros. unfold np_close. rewrite Rminus_0_r, Rabs_R0, Rmult_0_r, Rplus_0_r. apply Rleb_true. Qed.
Lemma np_close0_f : forall a, np_close a 0 = false <-> atol < Rabs a.
Proof. intros. unfold np_close. rewrite Rminus_0_r, Rabs_R0, Rmult_0_r, Rplus_0_r. apply Rleb_false. Qed.
Lemma atol_pos : 0 < atol.
Proof. unfold atol. lra. Qed.
Lemma np_close_refl : forall a, np_close a a = true.
Proof. intros a. unfold np_close. rewrite Rminus_diag_eq, Rabs_R0 by auto. apply Rleb_true. pose proof atol_pos. pose proof (Rabs_pos a). unfold rtol. lra. Qed.

(* ------------------------------------------------------------------ *)
(** * unique_points *)
Lemma mask_len : forall X, length (unique_mask X) = length X.
Proof. induction X as [|x X IH]; simpl; auto. Qed.
Lemma edist_nonneg : forall x y, 0 <= edist x y. Proof. intros. apply norm2_nonneg. Qed.
Lemma mask_head : forall x X, nth 0 (unique_mask (x :: X)) false = true <-> forall y, In y X -> atol < edist x y.
Proof.
  intros x X. cbn [unique_mask nth]. destruct X as [|y0 X'] eqn:E; [split; auto; intros _ y []|]. rewrite <- E. assert (NE : X <> []) by (subst; discriminate). rewrite negb_true_iff, np_close0_f.
  assert (0 <= vmin (map (edist x) X)) by (destruct (vmin_map_at vec (edist x) X NE) as [a [_ ->]]; apply edist_nonneg).
  rewrite Rabs_right by lra. apply vmin_map_gt. auto.
Qed.
Lemma mask_nth : forall X i, (i < length X)%nat -> (nth i (unique_mask X) false = true <-> forall j, (i < j < length X)%nat -> atol < edist (nth i X []) (nth j X [])).
Proof.
  induction X as [|x X IH]; intros i Hi; [simpl in Hi; lia|]. destruct i as [|i].
  - rewrite mask_head. split.
    + intros H j Hj. destruct j as [|j]; [lia|]. simpl. apply H, nth_In. simpl in Hj. lia.
    + intros H y Hy. destruct (In_nth _ _ [] Hy) as [j [Hj <-]]. apply (H (S j)). simpl. lia.
  - cbn [unique_mask nth]. simpl in Hi. rewrite IH by lia. split.
    + intros H j Hj. destruct j as [|j]; [lia|]. simpl. apply H. simpl in Hj. lia.
    + intros H j Hj. apply (H (S j)). simpl. lia.
Qed.
(** Kept points are more than the tolerance apart; a dropped point is within the tolerance of a later point. *)
Theorem unique_kept_apart : forall X i j, (i < j < length X)%nat -> nth i (unique_mask X) false = true -> atol < edist (nth i X []) (nth j X []).
Proof. intros X i j H K. apply (mask_nth X i); auto. lia. Qed.
Theorem unique_dropped : forall X i, (i < length X)%nat -> nth i (unique_mask X) false = false -> exists j, (i < j < length X)%nat /\ edist (nth i X []) (nth j X []) <= atol.
Proof.
  intros X i Hi HD. destruct (skipn (S i) X) as [|y0 T] eqn:ES.
  - exfalso. assert (length (skipn (S i) X) = 0)%nat by (rewrite ES; auto). rewrite skipn_length in H.
    assert (K : nth i (unique_mask X) false = true) by (apply mask_nth; auto; intros j Hj; lia). congruence.
  - set (l := skipn (S i) X) in *. assert (NE : l <> []) by (rewrite ES; discriminate).
    destruct (vmin_map_at vec (edist (nth i X [])) l NE) as [a [Ia Ea]]. destruct (In_nth _ _ [] Ia) as [k [Hk Ek]].
    assert (LK : (S i + k < length X)%nat) by (unfold l in Hk; rewrite skipn_length in Hk; lia).
    assert (NK : nth (S i + k) X [] = a) by (rewrite <- Ek; unfold l; rewrite <- (firstn_skipn (S i) X) at 1; rewrite app_nth2; rewrite firstn_length; [f_equal; lia|lia]).
    exists (S i + k)%nat. split; [lia|]. rewrite NK. destruct (Rle_or_lt (edist (nth i X []) a) atol) as [|Hlt]; auto. exfalso.
    assert (K : nth i (unique_mask X) false = true); [|congruence]. apply mask_nth; auto. intros j Hj.
    assert (I : In (nth j X []) l). { unfold l. replace (nth j X []) with (nth (j - S i) (skipn (S i) X) []); [apply nth_In; rewrite skipn_length; lia|]. rewrite <- (firstn_skipn (S i) X) at 2. rewrite app_nth2; rewrite firstn_length; [f_equal; lia|lia]. }
    pose proof (vmin_map_le vec (edist (nth i X [])) l _ I). lra.
Qed.
Lemma edist_triangle : forall x y z, length x = length y -> length y = length z -> edist x z <= edist x y + edist y z.
Proof.
  intros x y z H1 H2. unfold edist. replace (vsub x z) with (vadd (vsub x y) (vsub y z)); [apply norm2_triangle; rewrite !vsub_length; congruence|].
  apply vec_ext; [rewrite vadd_length, !vsub_length; rewrite ?vsub_length; congruence|]. intros i Hi. rewrite vadd_get, !vsub_get by (rewrite ?vsub_length; congruence). ring.
Qed.
(** following the dropped points one reaches a kept one: within n tolerances *)
Theorem unique_near_partial : forall m X i, Forall (fun x => length x = m) X -> (i < length X)%nat ->
  exists j, (i <= j < length X)%nat /\ nth j (unique_mask X) false = true /\ edist (nth i X []) (nth j X []) <= INR (j - i) * atol.
Proof.
  intros m X i F. remember (length X - i)%nat as n eqn:En. revert i En. induction n as [n IH] using lt_wf_ind. intros i En Hi.
  destruct (nth i (unique_mask X) false) eqn:E.
  - exists i. split; [lia|]. split; auto. rewrite Nat.sub_diag. unfold edist. rewrite self_dist. simpl. lra.
  - destruct (unique_dropped X i Hi E) as [k [Hk Dk]]. destruct (IH (length X - k)%nat ltac:(lia) k eq_refl ltac:(lia)) as [j [Hj [Kj Dj]]].
    exists j. split; [lia|]. split; auto. rewrite Forall_forall in F. assert (LF : forall a, (a < length X)%nat -> length (nth a X []) = m) by (intros; apply F, nth_In; auto).
    pose proof (edist_triangle (nth i X []) (nth k X []) (nth j X [])) as T. rewrite !LF in T by lia. specialize (T eq_refl eq_refl).
    replace (j - i)%nat with ((j - k) + (k - i))%nat by lia. rewrite plus_INR. assert (1 <= INR (k - i)) by (change 1 with (INR 1); apply le_INR; lia). pose proof atol_pos. nra.
Qed.
(** but no kept point need be within one tolerance *)
Lemma edist1 : forall a b, edist [a] [b] = Rabs (a - b).
Proof. intros. unfold edist, vsub. cbn [vmap2]. apply norm2_1. Qed.
Theorem unique_chain_refuted : exists X i, (i < length X)%nat /\ nth i (unique_mask X) false = false /\
  forall j, (j < length X)%nat -> nth j (unique_mask X) false = true -> atol < edist (nth i X []) (nth j X []).
Proof.
  exists [[0]; [(9/10) * atol]; [(18/10) * atol]], O. pose proof atol_pos as A. split; [simpl; lia|].
  assert (D1 : edist [0] [(9/10) * atol] <= atol) by (rewrite edist1, Rabs_left; lra).
  assert (D2 : edist [(9/10) * atol] [(18/10) * atol] <= atol) by (rewrite edist1, Rabs_left; lra).
  assert (K0 : nth 0 (unique_mask [[0]; [(9/10) * atol]; [(18/10) * atol]]) false = false).
  { destruct (nth 0 _ false) eqn:E; auto. exfalso. rewrite mask_nth in E by (simpl; lia). pose proof (E 1%nat ltac:(simpl; lia)) as C. cbn [nth] in C. lra. }
  assert (K1 : nth 1 (unique_mask [[0]; [(9/10) * atol]; [(18/10) * atol]]) false = false).
  { destruct (nth 1 _ false) eqn:E; auto. exfalso. rewrite mask_nth in E by (simpl; lia). pose proof (E 2%nat ltac:(simpl; lia)) as C. cbn [nth] in C. lra. }
  split; auto. intros j Hj Hk. destruct j as [|[|[|j]]]; [congruence|congruence| |simpl in Hj; lia]. cbn [nth]. rewrite edist1, Rabs_left; lra.
Qed.
(** the last point is always kept *)
Theorem unique_last : forall X, X <> [] -> nth (length X - 1) (unique_mask X) false = true.
Proof. intros X H. assert (0 < length X)%nat by (destruct X; [congruence|simpl; lia]). apply mask_nth; [lia|]. intros j Hj. lia. Qed.

(* ------------------------------------------------------------------ *)
(** * sample_simplex *)
Lemma diffs_sum : forall r, r <> [] -> vsum (diffs r) = last r 0 - hd 0 r.
Proof.
  induction r as [|a r IH]; intro H; [congruence|]. destruct r as [|b r]; [unfold vsum; simpl; lra|]. change (diffs (a :: b :: r)) with ((b - a) :: diffs (b :: r)).
  rewrite vsum_cons, IH by discriminate. change (last (a :: b :: r) 0) with (last (b :: r) 0). simpl hd. ring.
Qed.
Lemma diffs_nonneg : forall r, StronglySorted Rle r -> Forall (fun a => 0 <= a) (diffs r).
Proof.
  induction r as [|a r IH]; intro H; [constructor|]. inversion H; subst. destruct r as [|b r]; [constructor|]. change (diffs (a :: b :: r)) with ((b - a) :: diffs (b :: r)).
  constructor; [inversion H3; subst; lra|auto].
Qed.
Lemma diffs_len : forall r, length (diffs r) = (length r - 1)%nat.
Proof. induction r as [|a [|b r] IH]; auto. change (diffs (a :: b :: r)) with ((b - a) :: diffs (b :: r)). cbn [length] in *. rewrite IH. lia. Qed.
Lemma sorted_last : forall r d x, StronglySorted Rle r -> In x r -> x <= last r d.
Proof.
  induction r as [|a r IH]; intros d x H I; [destruct I|]. inversion H; subst. destruct r as [|b r]; [destruct I as [->|[]]; simpl; lra|]. change (last (a :: b :: r) d) with (last (b :: r) d).
  destruct I as [->|I]; [|auto]. rewrite Forall_forall in H3. pose proof (H3 b ltac:(left; auto)). pose proof (IH d b H2 ltac:(left; auto)). lra.
Qed.
Lemma last_In : forall (r : list R) d, r <> [] -> In (last r d) r.
Proof. intros r d H. destruct (exists_last H) as [l [a ->]]. rewrite last_last. apply in_or_app. right. left. auto. Qed.
Lemma sorted_hd : forall r d x, StronglySorted Rle r -> In x r -> hd d r <= x.
Proof. intros [|a r] d x H I; [destruct I|]. inversion H; subst. destruct I as [->|I]; [simpl; lra|]. rewrite Forall_forall in H3. simpl. auto. Qed.
(** Barycentric weights: nonnegative, summing to one, for every uniform draw of dim + 1 >= 2 numbers of [0,1]. *)
Theorem simplex_weights : forall r, (2 <= length r)%nat -> Forall (fun u => 0 <= u <= 1) r ->
  length (simplex_row r) = (length r - 1)%nat /\ Forall (fun a => 0 <= a) (simplex_row r) /\ vsum (simplex_row r) = 1.
Proof.
  intros [|a [|b r]] HL HU; simpl in HL; try lia. unfold simplex_row. cbn [simplex_ends]. set (e := 0 :: removelast (b :: r) ++ [1]).
  assert (LE : length e = length (a :: b :: r)).
  { unfold e. cbn [length]. rewrite app_length. simpl length at 2. f_equal. change (S (length r)) with (length (b :: r)). rewrite (app_removelast_last (l := b :: r) 0) at 2 by discriminate. rewrite app_length. auto. }
  assert (EB : forall x, In x e -> 0 <= x <= 1).
  { intros x [<-|I]; [lra|]. apply in_app_or in I. destruct I as [I|[<-|[]]]; [|lra]. rewrite Forall_forall in HU. apply HU. right.
    rewrite (app_removelast_last (l := b :: r) 0) by discriminate. apply in_or_app. auto. }
  pose proof (rsort_sorted e) as SS. pose proof (rsort_perm e) as SP. assert (NE : rsort e <> []) by (intro Z; rewrite Z in SP; apply Permutation_length in SP; simpl in *; lia).
  split; [rewrite diffs_len, rsort_len, LE; auto|]. split; [apply diffs_nonneg; auto|]. rewrite diffs_sum by auto.
  assert (IL : In (last (rsort e) 0) e) by (apply (Permutation_in _ SP), last_In; auto).
  assert (IH : In (hd 0 (rsort e)) e) by (apply (Permutation_in _ SP); destruct (rsort e); [congruence|left; auto]).
  assert (I0 : In 0 (rsort e)) by (apply (Permutation_in _ (Permutation_sym SP)); left; auto).
  assert (I1 : In 1 (rsort e)) by (apply (Permutation_in _ (Permutation_sym SP)); right; apply in_or_app; right; left; auto).
  pose proof (sorted_last _ 0 _ SS I1). pose proof (sorted_hd _ 0 _ SS I0). pose proof (EB _ IL). pose proof (EB _ IH). lra.
Qed.
(** dim = 0: no weights at all, sum 0 *)
Theorem simplex_zero_refuted : exists r, length r = 1%nat /\ Forall (fun u => 0 <= u <= 1) r /\ vsum (simplex_row r) <> 1.
Proof. exists [1/2]. split; auto. split; [constructor; [lra|constructor]|]. unfold simplex_row, simplex_ends, rsort, diffs, vsum. simpl. lra. Qed.
Example ex_simplex : simplex_row [1/5; 7/10; 3/10; 1/2] = [3/10; 7/10 - 3/10; 1 - 7/10].
Proof.
  unfold simplex_row, simplex_ends. cbn [removelast app]. unfold rsort. cbn [fold_right]. unfold rins. repeat match goal with |- context [Rleb ?a ?b] => first [replace (Rleb a b) with true by (symmetry; apply Rleb_true; lra) | replace (Rleb a b) with false by (symmetry; apply Rleb_false; lra)] end.
  cbn [diffs]. f_equal. lra.
Qed.

(* ------------------------------------------------------------------ *)
(** * sample_sphere *)
Lemma normalize_unit : forall x y, normalize_vec x = Some y -> norm2 y = 1 /\ length y = length x.
Proof.
  intros x y H. unfold normalize_vec in H. destruct (Reqb (norm2 x) 0) eqn:E; [discriminate|]. injection H as <-. apply Reqb_false in E. rewrite vscale_length. split; auto. rewrite norm2_vscale.
  pose proof (norm2_nonneg x). rewrite Rabs_right; [field; auto|]. left. apply Rinv_0_lt_compat. lra.
Qed.
Lemma all_some_spec : forall (A : Type) (l : list (option A)) r, all_some l = Some r -> l = map Some r.
Proof. intros A. induction l as [|[a|] l IH]; intros r H; simpl in H; try discriminate; [injection H as <-; auto|]. destruct (all_some l) as [r'|] eqn:E; [|discriminate]. injection H as <-. simpl. f_equal. auto. Qed.
(** the point added in each iteration is a unit vector, a normalized candidate, and of all candidates the one whose
    largest inner product with the earlier points is smallest *)
Definition best_candidate (X : mat) (C : mat) (v : vec) : Prop :=
  norm2 v = 1 /\ (exists c, In c C /\ normalize_vec c = Some v) /\ forall c w, In c C -> normalize_vec c = Some w -> vmin (map (fun x => 1 - dot x w) X) <= vmin (map (fun x => 1 - dot x v) X).
Lemma sphere_loop_spec : forall cands X Y, Forall (fun x => norm2 x = 1) X -> sphere_loop cands X = Some Y ->
  exists T, Y = X ++ T /\ length T = length cands /\ Forall (fun x => norm2 x = 1) Y /\ forall i, (i < length cands)%nat -> best_candidate (firstn (length X + i) Y) (nth i cands []) (nth (length X + i) Y []).
Proof.
  induction cands as [|C cs IH]; intros X Y HX H; cbn [sphere_loop] in H.
  - injection H as <-. exists []. rewrite app_nil_r. split; auto. split; auto. split; auto. simpl. intros; lia.
  - destruct (all_some (map normalize_vec C)) as [[|c Cn]|] eqn:E; try discriminate. apply all_some_spec in E. set (V := c :: Cn) in *. set (v := nth (argmax (map (fun y => vmin (map (fun x => 1 - dot x y) X)) V)) V []) in *.
    assert (NE : map (fun y => vmin (map (fun x => 1 - dot x y) X)) V <> []) by discriminate. destruct (argmax_spec _ NE) as [A [B _]]. rewrite map_length in A, B.
    set (sc := fun y => vmin (map (fun x => 1 - dot x y) X)) in *.
    assert (G : forall k, (k < length V)%nat -> vget (map sc V) k = sc (nth k V [])) by (intros k Hk; unfold vget; rewrite nth_indep with (d' := sc []) by (rewrite map_length; auto); apply map_nth).
    assert (IV : In v V) by (apply nth_In; auto).
    assert (EV : forall w, In w V <-> exists c, In c C /\ normalize_vec c = Some w).
    { intros w. split; intro Hw.
      - assert (I : In (Some w) (map Some V)) by (apply in_map; auto). rewrite <- E in I. apply in_map_iff in I. destruct I as [c0 [E0 I0]]. eauto.
      - destruct Hw as [c0 [I0 E0]]. assert (I : In (normalize_vec c0) (map normalize_vec C)) by (apply in_map; auto). rewrite E, E0 in I. apply in_map_iff in I. destruct I as [w' [Ew Iw]]. injection Ew as ->. auto. }
    assert (BC : best_candidate X C v).
    { split; [|split].
      - apply EV in IV. destruct IV as [c0 [_ E0]]. eapply normalize_unit; eauto.
      - apply EV. auto.
      - intros c0 w I0 E0. assert (Iw : In w V) by (apply EV; eauto). destruct (In_nth _ _ [] Iw) as [k [Hk <-]]. pose proof (B k Hk) as Q. rewrite !G in Q by auto. exact Q. }
    destruct (IH (X ++ [v]) Y) as [T [ET [LT [FT HT]]]]; auto; [apply Forall_app; split; auto; constructor; [apply BC|auto]|].
    exists (v :: T). rewrite <- app_assoc in ET. simpl in ET. split; auto. split; [simpl; auto|]. split; auto. intros [|i] Hi.
    + rewrite Nat.add_0_r. cbn [nth]. rewrite ET. rewrite firstn_app, firstn_all, Nat.sub_diag, firstn_O, app_nil_r, app_nth2, Nat.sub_diag by lia. exact BC.
    + cbn [nth]. pose proof (HT i ltac:(simpl in Hi; lia)) as Q. rewrite app_length in Q. simpl in Q. replace (length X + S i)%nat with (length X + 1 + i)%nat by lia. exact Q.
Qed.
Theorem sphere_correct : forall x0 cands Y, sample_sphere x0 cands = Some Y ->
  length Y = S (length cands) /\ Forall (fun x => norm2 x = 1) Y /\ forall i, (i < length cands)%nat -> best_candidate (firstn (S i) Y) (nth i cands []) (nth (S i) Y []).
Proof.
  intros x0 cands Y H. unfold sample_sphere in H. destruct (normalize_vec x0) as [x|] eqn:E; [|discriminate]. apply normalize_unit in E. destruct E as [E _].
  destruct (sphere_loop_spec cands [x] Y) as [T [-> [LT [F HT]]]]; auto. split; [simpl; lia|]. split; auto.
Qed.
(** it fails only for a zero draw or without candidates *)
Theorem sphere_defined : forall x0 cands, norm2 x0 <> 0 -> Forall (fun C => C <> [] /\ Forall (fun c => norm2 c <> 0) C) cands -> exists Y, sample_sphere x0 cands = Some Y.
Proof.
  intros x0 cands H0 HC. unfold sample_sphere, normalize_vec at 1. replace (Reqb (norm2 x0) 0) with false by (symmetry; apply Reqb_false; auto).
  generalize [vscale (/ norm2 x0) x0]. induction HC as [|C cs [NC FC] HC IH]; intros X; cbn [sphere_loop]; [eauto|].
  assert (E : all_some (map normalize_vec C) = Some (map (fun c => vscale (/ norm2 c) c) C)).
  { clear NC. induction FC as [|c C Hc FC IHC]; simpl; auto. unfold normalize_vec at 1. replace (Reqb (norm2 c) 0) with false by (symmetry; apply Reqb_false; auto). rewrite IHC. auto. }
  rewrite E. destruct C as [|c C]; [congruence|]. cbn [map]. apply IH.
Qed.
Example ex_sphere : norm2 [3; 4] <> 0 /\ Forall (fun C => C <> [] /\ Forall (fun c => norm2 c <> 0) C) [[[1; 0]; [0; 2]]].
Proof.
  assert (N : forall a b, a * a + b * b <> 0 -> norm2 [a; b] <> 0). { intros a b H E. apply H. assert (S : norm2 [a; b] * norm2 [a; b] = norm2sq [a; b]) by apply norm2_sq. rewrite E in S. unfold norm2sq in S. rewrite !dot_cons in S. change (dot [] []) with 0 in S. lra. }
  split; [apply N; lra|]. constructor; [|constructor]. split; [discriminate|]. constructor; [apply N; lra|]. constructor; [apply N; lra|constructor].
Qed.

(* ------------------------------------------------------------------ *)
(** * One-dimensional Voronoi vertices and fill distance *)

(** a point between the ends of a sorted list is in the list or in a gap whose midpoint is in mids *)
Lemma sorted_gap : forall r x d, StronglySorted Rle r -> r <> [] -> hd d r <= x <= last r d ->
  In x r \/ exists p q, p < x < q /\ In p r /\ In q r /\ In ((1/2) * (q + p)) (mids r) /\ forall s, In s r -> s <= p \/ q <= s.
Proof.
  induction r as [|a r IH]; intros x d SS NE H; [congruence|]. inversion SS as [|? ? S1 S2]; subst. rewrite Forall_forall in S2. destruct r as [|b r]; [simpl in H; left; left; lra|].
  change (last (a :: b :: r) d) with (last (b :: r) d) in H. simpl hd in H.
  destruct (Req_dec a x) as [->|Na]; [left; left; auto|]. destruct (Rlt_or_le x b) as [Hb|Hb].
  - right. exists a, b. split; [lra|]. split; [left; auto|]. split; [right; left; auto|]. split; [left; auto|]. intros s [<-|Is]; [left; lra|]. right. pose proof (sorted_hd (b :: r) d s S1 Is) as Q. simpl in Q. auto.
  - destruct (IH x d S1 ltac:(discriminate)) as [I|[p [q [Hpq [Ip [Iq [Im Hs]]]]]]]; [simpl hd; lra|left; right; auto|]. right. exists p, q. split; auto. split; [right; auto|]. split; [right; auto|]. split; [right; auto|].
    intros s [<-|Is]; [left|auto]. apply S2. auto.
Qed.
Definition d1 (sites : vec) (x : R) : R := vmin (map (fun s => Rabs (s - x)) sites).
Lemma d1_le : forall sites x s, In s sites -> d1 sites x <= Rabs (s - x).
Proof. intros. apply (vmin_map_le R (fun s => Rabs (s - x))); auto. Qed.
Lemma d1_at : forall sites x, sites <> [] -> exists s, In s sites /\ d1 sites x = Rabs (s - x).
Proof. intros. apply (vmin_map_at R (fun s => Rabs (s - x))); auto. Qed.
Lemma mids_range : forall r v lo hi, (forall s, In s r -> lo <= s <= hi) -> In v (mids r) -> lo <= v <= hi.
Proof.
  induction r as [|a [|b r] IH]; intros v lo hi H I; try destruct I.
  - subst v. pose proof (H a ltac:(left; auto)). pose proof (H b ltac:(right; left; auto)). lra.
  - apply (IH v lo hi); auto. intros s Hs. apply H. right. auto.
Qed.
Lemma vor1d_far : forall lb ub sites x, sites <> [] -> (forall s, In s sites -> lb <= s <= ub) -> lb <= x <= ub ->
  exists v, In v (vor1d lb ub sites) /\ d1 sites x <= d1 sites v.
Proof.
  intros lb ub sites x NE HS Hx. set (r := rsort (sites ++ [ub; lb])). pose proof (rsort_sorted (sites ++ [ub; lb])) as SS. pose proof (rsort_perm (sites ++ [ub; lb])) as SP. fold r in SS, SP.
  assert (IR : forall s, In s r <-> In s sites \/ s = ub \/ s = lb).
  { intro s. split; intro I; [apply (Permutation_in _ SP) in I; apply in_app_or in I; simpl in I; intuition|]. apply (Permutation_in _ (Permutation_sym SP)), in_or_app. simpl. intuition. }
  assert (RB : forall s, In s r -> lb <= s <= ub) by (intros s I; apply IR in I; destruct I as [I|[->| ->]]; [auto|lra|lra]).
  assert (NR : r <> []) by (intro E; assert (I : In lb r) by (apply IR; auto); rewrite E in I; destruct I).
  assert (D0 : forall y, 0 <= d1 sites y) by (intro y; destruct (d1_at sites y NE) as [s [_ ->]]; apply Rabs_pos).
  assert (VL : In lb (vor1d lb ub sites)) by (left; auto).
  assert (VU : In ub (vor1d lb ub sites)) by (right; apply in_or_app; right; left; auto).
  destruct (sorted_gap r x 0 SS NR) as [I|[p [q [Hpq [Ip [Iq [Im Hs]]]]]]].
  - assert (Il : In lb r) by (apply IR; auto). assert (Iu : In ub r) by (apply IR; auto). pose proof (sorted_hd r 0 lb SS Il). pose proof (sorted_last r 0 ub SS Iu). lra.
  - apply IR in I. destruct I as [I|[->| ->]]; [|exists ub; split; [auto|lra]|exists lb; split; [auto|lra]].
    exists lb. split; auto. pose proof (d1_le sites x x I). rewrite Rminus_diag_eq, Rabs_R0 in H by auto. pose proof (D0 lb). lra.
  - (* gap p < x < q *)
    destruct (in_dec Req_EM_T p sites) as [Sp|Sp].
    + destruct (in_dec Req_EM_T q sites) as [Sq|Sq].
      * exists ((1/2) * (q + p)). split; [right; apply in_or_app; left; auto|]. destruct (d1_at sites ((1/2) * (q + p)) NE) as [s [Is Es]]. rewrite Es.
        pose proof (d1_le sites x p Sp) as Dp. pose proof (d1_le sites x q Sq) as Dq. rewrite Rabs_left in Dp by lra. rewrite Rabs_right in Dq by lra.
        assert (G : (q - p) / 2 <= Rabs (s - (1/2) * (q + p))). { destruct (Hs s ltac:(apply IR; auto)); [rewrite Rabs_left by lra; lra|rewrite Rabs_right by lra; lra]. }
        lra.
      * (* all sites left of p *)
        apply IR in Iq. destruct Iq as [Iq|[->| ->]]; [contradiction| |lra]. exists ub. split; auto. destruct (d1_at sites ub NE) as [s [Is Es]]. rewrite Es. pose proof (d1_le sites x s Is) as Dx.
        assert (L : s <= p). { destruct (Hs s ltac:(apply IR; auto)); auto. exfalso. pose proof (HS s Is). assert (s = ub) by lra. subst. contradiction. }
        rewrite Rabs_left in Dx by lra. pose proof (HS s Is). rewrite Rabs_minus_sym, Rabs_right by lra. lra.
    + apply IR in Ip. destruct Ip as [Ip|[->| ->]]; [contradiction|lra|]. exists lb. split; auto. destruct (d1_at sites lb NE) as [s [Is Es]]. rewrite Es. pose proof (d1_le sites x s Is) as Dx.
      assert (L : q <= s). { destruct (Hs s ltac:(apply IR; auto)); auto. exfalso. pose proof (HS s Is). assert (s = lb) by lra. subst. contradiction. }
      rewrite Rabs_right in Dx by lra. pose proof (HS s Is). rewrite Rabs_right by lra. lra.
Qed.
Lemma vor1d_in : forall lb ub sites v, lb <= ub -> (forall s, In s sites -> lb <= s <= ub) -> In v (vor1d lb ub sites) -> lb <= v <= ub.
Proof.
  intros lb ub sites v B HS I. destruct I as [<-|I]; [lra|]. apply in_app_or in I. destruct I as [I|[<-|[]]]; [|lra]. apply (mids_range _ v lb ub) in I; auto.
  intros s Is. apply (Permutation_in _ (rsort_perm _)) in Is. apply in_app_or in Is. destruct Is as [Is|[<-|[<-|[]]]]; [auto|lra|lra].
Qed.

(** one column metrics: the distance is a multiple of |x - y| *)
Lemma Ldist_col : forall L x y, Ldist L [x] [y] = norm2 (mv L [1]) * Rabs (x - y).
Proof.
  intros L x y. unfold Ldist. assert (E : vsub (mv L [x]) (mv L [y]) = vscale (x - y) (mv L [1])).
  { unfold mv, vscale, vsub. rewrite map_map. induction L as [|a L IH]; cbn [map vmap2]; auto. f_equal; auto. destruct a as [|c a]; [rewrite !dot_nil_l; ring|]. rewrite !dot_cons. rewrite !dot_nil_r. ring. }
  rewrite E, norm2_vscale. ring.
Qed.
Lemma mind_col : forall L Xhat x, Xhat <> [] -> Forall (fun s => length s = 1%nat) Xhat -> mind L Xhat [x] = norm2 (mv L [1]) * d1 (map (fun s => vget s 0) Xhat) x.
Proof.
  intros L Xhat x NE F. set (c := norm2 (mv L [1])). assert (C0 : 0 <= c) by apply norm2_nonneg.
  assert (E : forall s, In s Xhat -> Ldist L s [x] = c * Rabs (vget s 0 - x)).
  { intros s Is. rewrite Forall_forall in F. specialize (F s Is). destruct s as [|a [|? ?]]; try discriminate. rewrite Ldist_col. reflexivity. }
  assert (NE' : map (fun s => vget s 0) Xhat <> []) by (destruct Xhat; [congruence|discriminate]).
  apply Rle_antisym.
  - destruct (d1_at (map (fun s => vget s 0) Xhat) x NE') as [t [It ->]]. apply in_map_iff in It. destruct It as [s [<- Is]]. rewrite <- E by auto. apply mind_le. auto.
  - destruct (mind_at L Xhat [x] NE) as [s [Is ->]]. rewrite E by auto. apply Rmult_le_compat_l; auto. apply d1_le. apply (in_map (fun s => vget s 0)). auto.
Qed.
Definition interval (lb ub : R) (x : vec) : Prop := exists t, x = [t] /\ lb <= t <= ub.
(** The candidates of voronoi_vertex_1d contain a farthest point of the interval: the contract used by coffeehouse. *)
Theorem vor1d_farthest : forall lb ub L, lb <= ub -> farthest (interval lb ub) L 0 (vverts1 lb ub).
Proof.
  intros lb ub L B Xhat NE F. set (sites := map (fun x => vget x 0) Xhat).
  assert (F1 : Forall (fun s => length s = 1%nat) Xhat) by (eapply Forall_impl; [|exact F]; intros a [t [-> _]]; auto).
  assert (HS : forall s, In s sites -> lb <= s <= ub). { intros s Is. apply in_map_iff in Is. destruct Is as [x [<- Ix]]. rewrite Forall_forall in F. destruct (F x Ix) as [t [-> Ht]]. auto. }
  assert (NS : sites <> []) by (unfold sites; destruct Xhat; [congruence|discriminate]).
  split.
  - apply Forall_forall. intros v Iv. unfold vverts1 in Iv. apply in_map_iff in Iv. destruct Iv as [t [<- It]]. exists t. split; auto. apply (vor1d_in lb ub sites); auto.
  - (* the best candidate *)
    set (V := vor1d lb ub sites). assert (NV : V <> []) by discriminate.
    assert (BEST : exists v, In v V /\ forall x, lb <= x <= ub -> d1 sites x <= d1 sites v).
    { assert (NM : map (d1 sites) V <> []) by discriminate. destruct (vmax_spec (map (d1 sites) V) NM) as [M1 M2]. apply in_map_iff in M2. destruct M2 as [v [Ev Iv]]. exists v. split; auto.
      intros x Hx. destruct (vor1d_far lb ub sites x NS HS Hx) as [w [Iw Hw]]. pose proof (M1 (d1 sites w) (in_map _ _ _ Iw)). lra. }
    destruct BEST as [v [Iv Hv]]. exists [v]. split; [apply (in_map (fun v => [v])); auto|]. intros x [t [-> Ht]]. rewrite !mind_col by auto. fold sites. rewrite Rplus_0_r. apply Rmult_le_compat_l; [apply norm2_nonneg|auto].
Qed.
(** fill_distance in one dimension is exactly the supremum: attained in the interval and an upper bound. *)
Theorem fill_1d_exact : forall lb ub L Xhat, lb <= ub -> Xhat <> [] -> Forall (interval lb ub) Xhat ->
  let d := fill_dist L Xhat (vverts1 lb ub Xhat) in
  (forall x, interval lb ub x -> mind L Xhat x <= d) /\ exists x, interval lb ub x /\ mind L Xhat x = d.
Proof.
  intros lb ub L Xhat B NE F d. destruct (vor1d_farthest lb ub L B Xhat NE F) as [FV [v [Iv Hv]]].
  assert (NV : vverts1 lb ub Xhat <> []) by (intro E; rewrite E in Iv; destruct Iv). split.
  - intros x Hx. pose proof (Hv x Hx). assert (mind L Xhat v <= d) by (apply (vmax_map_ge vec (mind L Xhat)); auto). lra.
  - destruct (vmax_map_at vec (mind L Xhat) _ NV) as [w [Iw Ew]]. exists w. split; [rewrite Forall_forall in FV; auto|]. symmetry. exact Ew.
Qed.
(** a site outside the interval spoils it *)
Theorem fill_1d_outside_refuted : exists lb ub L Xhat, lb <= ub /\ Xhat <> [] /\ Forall (fun x => length x = 1%nat) Xhat /\
  forall x, interval lb ub x -> mind L Xhat x < fill_dist L Xhat (vverts1 lb ub Xhat).
Proof.
  exists 0, 1, [[1]], [[1/2]; [3]]. split; [lra|]. split; [discriminate|]. split; [repeat constructor|].
  assert (E : In [2] (vverts1 0 1 [[1/2]; [3]])).
  { unfold vverts1. apply in_map_iff. exists 2. split; auto. unfold vor1d, vget. cbn [map nth app]. right. apply in_or_app. left. unfold rsort. cbn [fold_right]. unfold rins.
    repeat match goal with |- context [Rleb ?a ?b] => first [replace (Rleb a b) with true by (symmetry; apply Rleb_true; lra) | replace (Rleb a b) with false by (symmetry; apply Rleb_false; lra)] end.
    cbn [mids In]. right. right. left. lra. }
  assert (D : 1 <= fill_dist [[1]] [[1/2]; [3]] (vverts1 0 1 [[1/2]; [3]])).
  { eapply Rle_trans; [|apply (vmax_map_ge vec (mind [[1]] [[1/2]; [3]]) _ [2]); auto]. unfold mind. apply (vmin_map_lb vec (fun xh => Ldist [[1]] xh [2])); [discriminate|].
    intros a [<-|[<-|[]]]; rewrite Ld1; [rewrite Rabs_left|rewrite Rabs_right]; lra. }
  intros x [t [-> Ht]]. pose proof (mind_le [[1]] [[1/2]; [3]] [t] [1/2] ltac:(left; auto)) as M. rewrite Ld1 in M. assert (Rabs (1/2 - t) < 1) by (apply abs_lt; lra). lra.
Qed.
Example ex_fill : interval 0 1 [1/4] /\ interval 0 1 [1] /\ fill_dist [[1]] [[1/4]; [1]] (vverts1 0 1 [[1/4]; [1]]) = 3/8.
Proof.
  assert (I1 : interval 0 1 [1/4]) by (exists (1/4); split; [auto|lra]). assert (I2 : interval 0 1 [1]) by (exists 1; split; [auto|lra]). split; auto. split; auto.
  destruct (fill_1d_exact 0 1 [[1]] [[1/4]; [1]]) as [U [x [Hx Ex]]]; [lra|discriminate|repeat constructor; auto|].
  apply Rle_antisym.
  - rewrite <- Ex. destruct Hx as [t [-> Ht]]. pose proof (mind_le [[1]] [[1/4]; [1]] [t] [1/4] ltac:(left; auto)) as M1. pose proof (mind_le [[1]] [[1/4]; [1]] [t] [1] ltac:(right; left; auto)) as M2. rewrite Ld1 in M1, M2.
    destruct (Rle_or_lt t (5/8)).
    + eapply Rle_trans; [exact M1|]. apply Rabs_le. lra.
    + eapply Rle_trans; [exact M2|]. apply Rabs_le. lra.
  - eapply Rle_trans; [|apply (U [5/8])]; [|exists (5/8); split; [auto|lra]]. unfold mind. apply (vmin_map_lb vec (fun xh => Ldist [[1]] xh [5/8])); [discriminate|].
    intros a [<-|[<-|[]]]; rewrite Ld1; [rewrite Rabs_left|rewrite Rabs_right]; lra.
Qed.
(** coffeehouse in one dimension, with its own Voronoi vertices: at least half of the optimal separation *)
Theorem coffeehouse_1d : forall lb ub L x0 N, (1 <= N)%nat -> lb <= ub -> interval lb ub x0 ->
  exists Y, coffeehouse N L (vverts1 lb ub) x0 = Some Y /\ length Y = N /\ Forall (interval lb ub) Y /\
    forall Z : mat, length Z = N -> Forall (interval lb ub) Z -> (2 <= N)%nat ->
      exists i j, (i < j < N)%nat /\ forall p q, (p < q < N)%nat -> Ldist L (nth i Z []) (nth j Z []) <= 2 * Ldist L (nth p Y []) (nth q Y []).
Proof.
  intros lb ub L x0 N HN B I0. destruct (coffeehouse_2opt (interval lb ub) L 0 (vverts1 lb ub) x0 N HN ltac:(lra) I0 (vor1d_farthest lb ub L B)) as [Y [E [LY [FY [_ H]]]]].
  exists Y. split; auto. split; auto. split; auto. intros Z LZ FZ N2. destruct (H Z LZ FZ N2) as [i [j [Hij HD]]]. exists i, j. split; auto. intros p q Hpq. pose proof (HD p q Hpq). lra.
Qed.
