(** Vandermonde with Arnoldi: orthogonality, re-evaluation, span, derivative (C24). *)
Require Import Reals Lra Lia List Bool Arith ZArith Sorted.
From Verif Require Import RVec Num Sums NormProofs DomMoreModel HullProofs ChebProofs VecTac Deriv BasisModel IndexProofs PolyProofs.
Import ListNotations.
Local Open Scope R_scope.

(* ---------------- choice of the column to multiply ---------------- *)
(** the multi-index with one more in position i *)
Fixpoint bump (a : list nat) (i : nat) : list nat :=
  match a, i with
  | [], _ => []
  | x :: a', O => S x :: a'
  | x :: a', S i' => x :: bump a' i'
  end.
Lemma bump_length : forall a i, length (bump a i) = length a.
Proof. induction a; destruct i; simpl; auto. Qed.
Lemma nsum_cons : forall x a, nsum (x :: a) = (x + nsum a)%nat.
Proof. reflexivity. Qed.
Lemma bump_nsum : forall a i, (i < length a)%nat -> nsum (bump a i) = S (nsum a).
Proof. induction a as [|x a IH]; intros i H; simpl in H; [lia|]. destruct i; simpl bump; rewrite !nsum_cons; [lia|]. rewrite IH by lia. lia. Qed.

Lemma zdiff_cons : forall x a y b, zdiff (x :: a) (y :: b) = (Z.of_nat x - Z.of_nat y)%Z :: zdiff a b.
Proof. reflexivity. Qed.
Definition zsumabs (d : list Z) : Z := fold_right Z.add 0%Z (map Z.abs d).
Lemma zsumabs_nonneg : forall d, (0 <= zsumabs d)%Z.
Proof. induction d; unfold zsumabs in *; simpl; lia. Qed.
Lemma zsumabs_zero : forall a b, length a = length b -> zsumabs (zdiff a b) = 0%Z -> a = b.
Proof.
  induction a as [|x a IH]; intros [|y b] L H; try discriminate; auto. rewrite zdiff_cons in H. unfold zsumabs in *. simpl in H.
  pose proof (zsumabs_nonneg (zdiff a b)) as N. unfold zsumabs in N. f_equal; [lia|]. apply IH; [simpl in L; lia|]. lia.
Qed.
Lemma zmin_spec : forall d z, fold_left Z.min d z = (-1)%Z -> (z = -1 \/ In (-1) d)%Z.
Proof.
  induction d as [|y d IH]; simpl; intros z H; auto. apply IH in H. destruct H as [H|H]; auto.
  destruct (Z.min_spec z y) as [[_ E]|[_ E]]; rewrite E in H; auto.
Qed.
Lemma zmin_le : forall d z, (fold_left Z.min d z <= z)%Z /\ forall y, In y d -> (fold_left Z.min d z <= y)%Z.
Proof.
  induction d as [|y d IH]; simpl; intro z; [split; [lia|tauto]|]. destruct (IH (Z.min z y)) as [A B]. split; [lia|]. intros u [<-|Hu]; [lia|auto].
Qed.
Lemma in_zdiff_abs : forall d z, In z d -> (Z.abs z <= zsumabs d)%Z.
Proof.
  induction d as [|y d IH]; simpl; [tauto|]. intros z [<-|H]; unfold zsumabs in *; simpl.
  - pose proof (zsumabs_nonneg d) as N. unfold zsumabs in N. lia.
  - specialize (IH z H). lia.
Qed.
Lemma diff_m1_pos : forall a b, length a = length b -> (zsumabs (zdiff a b) <= 1)%Z -> In (-1)%Z (zdiff a b) ->
  (pos_m1 (zdiff a b) 0 < length a)%nat /\ bump a (pos_m1 (zdiff a b) 0) = b.
Proof.
  assert (SH : forall d i, pos_m1 d (S i) = S (pos_m1 d i)) by (induction d as [|z d IH]; intro i; simpl; auto; destruct (Z.eqb z (-1)); auto).
  induction a as [|x a IH]; intros [|y b] L S H; try discriminate; [inversion H|]. rewrite zdiff_cons in *. unfold zsumabs in S. simpl in S. fold (zsumabs (zdiff a b)) in S.
  pose proof (zsumabs_nonneg (zdiff a b)) as N. simpl pos_m1. destruct (Z.eqb_spec (Z.of_nat x - Z.of_nat y) (-1)) as [E|NE].
  - simpl. split; [lia|]. f_equal; [lia|]. apply zsumabs_zero; [simpl in L; lia|lia].
  - destruct H as [H|H]; [lia|]. rewrite SH. pose proof (in_zdiff_abs _ _ H) as AB. change (Z.abs (-1)) with 1%Z in AB.
    destruct (IH b ltac:(simpl in L; lia) ltac:(lia) H) as [P B]. simpl. split; [lia|]. rewrite B. f_equal. lia.
Qed.
Lemma one_off_spec : forall a b, length a = length b -> one_off a b = true -> (pos_m1 (zdiff a b) 0 < length a)%nat /\ bump a (pos_m1 (zdiff a b) 0) = b.
Proof.
  intros a b L H. unfold one_off in H. apply andb_true_iff in H. destruct H as [H1 H2]. apply Z.leb_le in H1. apply diff_m1_pos; auto.
  destruct (zdiff a b) as [|z d]; [discriminate|]. apply Z.eqb_eq in H2. apply zmin_spec in H2. destruct H2 as [->|H2]; simpl; auto.
Qed.
Lemma one_off_bump : forall a i, (i < length a)%nat -> one_off a (bump a i) = true.
Proof.
  intros a i H. assert (D : zsumabs (zdiff a (bump a i)) = 1%Z /\ In (-1)%Z (zdiff a (bump a i)) /\ forall z, In z (zdiff a (bump a i)) -> (-1 <= z)%Z).
  { revert i H. induction a as [|x a IH]; intros i H; simpl in H; [lia|]. destruct i as [|i]; simpl bump; rewrite zdiff_cons.
    - assert (Z0 : zsumabs (zdiff a a) = 0%Z /\ forall z, In z (zdiff a a) -> z = 0%Z).
      { clear. induction a as [|y a [I1 I2]]; [split; [reflexivity|intros z []]|]. rewrite zdiff_cons. unfold zsumabs in *. simpl. split; [lia|]. intros z [<-|Hz]; [lia|auto]. }
      destruct Z0 as [Z0 Z1]. unfold zsumabs in *. split; [|split].
      + cbn [map fold_right]. rewrite Z0. lia.
      + left. lia.
      + intros z [<-|Hz]; [lia|]. apply Z1 in Hz. lia.
    - destruct (IH i ltac:(lia)) as [I1 [I2 I3]]. unfold zsumabs in *. split; [|split].
      + cbn [map fold_right]. rewrite I1. lia.
      + right. auto.
      + intros z [<-|Hz]; [lia|auto]. }
  destruct D as [D1 [D2 D3]]. unfold one_off. fold (zsumabs (zdiff a (bump a i))). rewrite D1. cbn [Z.leb Z.compare andb].
  change (Z.leb 1 1) with true. simpl. destruct (zdiff a (bump a i)) as [|z d]; [inversion D2|]. apply Z.eqb_eq.
  destruct (zmin_le d z) as [M1 M2].
  assert (LE : (fold_left Z.min d z <= -1)%Z) by (destruct D2 as [->|D2]; auto).
  assert (GE : forall d z, (-1 <= z)%Z -> (forall y, In y d -> (-1 <= y)%Z) -> (-1 <= fold_left Z.min d z)%Z).
  { clear. induction d as [|y d IH]; simpl; intros z Hz Hd; auto. apply IH; auto. specialize (Hd y (or_introl eq_refl)). lia. }
  specialize (GE d z (D3 z (or_introl eq_refl)) (fun y Hy => D3 y (or_intror Hy))). lia.
Qed.

Lemma last_off_spec : forall idx ids j0 f, match last_off idx ids j0 f with
  | Some j => f = Some j /\ (forall a, In a idx -> one_off a ids = false) \/ (j0 <= j < j0 + length idx)%nat /\ one_off (nth (j - j0) idx []) ids = true
  | None => f = None /\ forall a, In a idx -> one_off a ids = false end.
Proof.
  induction idx as [|a idx IH]; intros ids j0 f; simpl.
  - destruct f; [left|]; (split; [reflexivity|intros a []]).
  - specialize (IH ids (S j0) (if one_off a ids then Some j0 else f)). destruct (last_off idx ids (S j0) _) as [j|].
    + destruct IH as [[E F]|[H1 H2]].
      * destruct (one_off a ids) eqn:O.
        -- injection E as ->. right. split; [lia|]. rewrite Nat.sub_diag. auto.
        -- left. split; auto. intros b [<-|Hb]; auto.
      * right. split; [lia|]. replace (j - j0)%nat with (S (j - S j0)) by lia. auto.
    + destruct IH as [E F]. destruct (one_off a ids) eqn:O; [discriminate|]. split; auto. intros b [<-|Hb]; auto.
Qed.
Lemma update_vec_spec : forall idx ids m, Forall (fun a => length a = m) idx -> length ids = m -> (exists a i, In a idx /\ (i < m)%nat /\ bump a i = ids) ->
  exists i j, update_vec idx ids = Some (i, j) /\ (i < m)%nat /\ (j < length idx)%nat /\ bump (nth j idx []) i = ids.
Proof.
  intros idx ids m HL HI [a [i [Ha [Hi B]]]]. unfold update_vec. pose proof (last_off_spec idx ids 0 None) as S. rewrite Forall_forall in HL.
  assert (OA : one_off a ids = true) by (rewrite <- B; apply one_off_bump; rewrite HL; auto).
  destruct (last_off idx ids 0 None) as [j|].
  - destruct S as [[E _]|[H1 H2]]; [discriminate|]. rewrite Nat.sub_0_r in H2. simpl in H1.
    assert (Lj : length (nth j idx []) = m) by (apply HL, nth_In; lia).
    destruct (one_off_spec _ _ (eq_trans Lj (eq_sym HI)) H2) as [P Q]. exists (pos_m1 (zdiff (nth j idx []) ids) 0), j. rewrite Lj in P. repeat split; auto. lia.
  - destruct S as [_ S]. rewrite (S a Ha) in OA. discriminate.
Qed.

(** order and bump *)
Lemma rev_bump : forall a i, (i < length a)%nat -> rev (bump a i) = bump (rev a) (length a - S i).
Proof.
  induction a as [|x a IH]; intros i H; simpl in H; [lia|].
  assert (BA : forall u v k, (k < length u)%nat -> bump (u ++ v) k = bump u k ++ v) by (induction u as [|y u IHu]; intros v k Hk; simpl in Hk; [lia|]; destruct k; simpl; auto; rewrite IHu by lia; auto).
  assert (BL : forall u y, bump (u ++ [y]) (length u) = u ++ [S y]) by (induction u as [|z u IHu]; intro y; simpl; auto; rewrite IHu; auto).
  destruct i as [|i]; simpl.
  - replace (length a - 0)%nat with (length (rev a)) by (rewrite rev_length; lia). symmetry. apply BL.
  - rewrite IH by lia. rewrite BA by (rewrite rev_length; lia). auto.
Qed.
Lemma lexlt_bump : forall a b i, length a = length b -> (i < length a)%nat -> lexlt a b -> lexlt (bump a i) (bump b i).
Proof.
  induction a as [|x a IH]; intros [|y b] i L H K; simpl in *; try tauto; try lia. destruct i as [|i]; simpl.
  - destruct K as [K|[-> K]]; [left; lia|right; auto].
  - destruct K as [K|[-> K]]; [left; auto|right; split; auto]. apply IH; auto; lia.
Qed.
Lemma glt_bump : forall a b i, length a = length b -> (i < length a)%nat -> glt a b -> glt (bump a i) (bump b i).
Proof.
  intros a b i L H K. unfold glt in *. rewrite !bump_nsum by lia. destruct K as [K|[K1 K2]]; [left; lia|right]. split; [lia|].
  rewrite !rev_bump by lia. rewrite <- L. apply lexlt_bump; rewrite ?rev_length; auto. lia.
Qed.
Lemma glt_bump_self : forall a i, (i < length a)%nat -> glt a (bump a i).
Proof. intros. left. rewrite bump_nsum by auto. lia. Qed.

Section IDX.
Variables p m : nat.
Hypothesis Hm : (1 <= m)%nat.
Let idx := index_set p m.
Let N := length idx.

Lemma idx_len : Forall (fun a => length a = m) idx.
Proof. apply Forall_forall. intros a Ha. apply index_set_in in Ha; tauto. Qed.
Lemma idx_nth_len : forall k, (k < N)%nat -> length (nth k idx []) = m.
Proof. intros k Hk. pose proof idx_len as H. rewrite Forall_forall in H. apply H, nth_In. auto. Qed.
Lemma idx_pos_lt : forall k l, (k < N)%nat -> (l < N)%nat -> glt (nth k idx []) (nth l idx []) -> (k < l)%nat.
Proof.
  intros k l Hk Hl G. destruct (lt_eq_lt_dec k l) as [[H|H]|H]; auto; exfalso.
  - subst. apply (glt_irrefl _ G).
  - pose proof (ss_nth _ glt idx [] l k (index_set_sorted p m Hm) ltac:(lia)) as G'. apply (glt_irrefl _ (glt_trans _ _ _ G G')).
Qed.
Lemma idx_find : forall a, length a = m -> (nsum a <= p)%nat -> exists k, (k < N)%nat /\ nth k idx [] = a.
Proof. intros a L S. assert (I : In a idx) by (apply index_set_in; auto). apply In_nth with (d := []) in I. destruct I as [k [Hk E]]. exists k. auto. Qed.
Lemma idx_0 : nth 0 idx [] = repeat O m.
Proof.
  unfold idx, index_set. cbn [map nth]. clear. induction m as [|n IH]; simpl; auto. rewrite IH. clear. induction n; simpl; auto. f_equal. auto.
Qed.
Lemma idx_N : (1 <= N)%nat.
Proof. unfold N, idx, index_set. rewrite map_length. simpl. lia. Qed.
Lemma idx_pred : forall k, (1 <= k < N)%nat -> exists a i, (i < m)%nat /\ bump a i = nth k idx [] /\ In a (firstn k idx).
Proof.
  intros k Hk. set (b := nth k idx []). assert (Lb : length b = m) by (apply idx_nth_len; lia).
  assert (NZ : (0 < nsum b)%nat).
  { destruct (Nat.eq_dec (nsum b) 0) as [Z|]; [|lia]. apply nsum_zero_inv in Z. rewrite Lb in Z. exfalso.
    pose proof (ss_nth _ glt idx [] 0 k (index_set_sorted p m Hm) ltac:(fold N; lia)) as G. fold b in G. rewrite idx_0, Z in G. apply (glt_irrefl _ G). }
  assert (EX : exists a i, (i < length b)%nat /\ bump a i = b /\ length a = length b).
  { clear - NZ. induction b as [|x b IH]; [unfold nsum in NZ; simpl in NZ; lia|]. destruct x as [|x].
    - destruct IH as [a [i [H1 [H2 H3]]]]; [exact NZ|]. exists (O :: a), (S i). simpl. rewrite H2. split; [lia|split; auto].
    - exists (x :: b), O. simpl. split; [lia|split; auto]. }
  destruct EX as [a [i [H1 [H2 H3]]]]. exists a, i. rewrite <- Lb. split; auto. split; auto.
  assert (Sb : (nsum b <= p)%nat) by (assert (I : In b idx) by (apply nth_In; fold N; lia); apply index_set_in in I; tauto).
  assert (Sa : S (nsum a) = nsum b) by (rewrite <- H2; symmetry; apply bump_nsum; lia).
  destruct (idx_find a ltac:(lia) ltac:(lia)) as [l [Hl E]].
  assert (LT : (l < k)%nat).
  { apply idx_pos_lt; auto; [lia|]. fold b. rewrite E, <- H2. apply glt_bump_self. lia. }
  rewrite <- E. rewrite <- (firstn_skipn k idx) at 1. rewrite app_nth1 by (rewrite firstn_length; fold N; lia).
  apply nth_In. rewrite firstn_length. fold N. lia.
Qed.

(** both search ranges work: all rows (basis.py) and the rows before k (vandermonde.py) *)
Definition look_ok (lookup : nat -> list (list nat)) : Prop :=
  forall k, (1 <= k < N)%nat -> exists i j, update_vec (lookup k) (nth k idx []) = Some (i, j) /\ (i < m)%nat /\ (j < k)%nat /\ bump (nth j idx []) i = nth k idx [].
Lemma look_all : look_ok (fun _ => idx).
Proof.
  intros k Hk. destruct (idx_pred k Hk) as [a [i [Hi [B Ha]]]].
  assert (Ia : In a idx) by (rewrite <- (firstn_skipn k idx); apply in_or_app; auto).
  destruct (update_vec_spec idx (nth k idx []) m idx_len ltac:(apply idx_nth_len; lia)) as [i' [j' [E [H1 [H2 H3]]]]]; [exists a, i; auto|].
  exists i', j'. repeat split; auto. apply idx_pos_lt; auto; [lia|]. rewrite <- H3. apply glt_bump_self. rewrite idx_nth_len; auto.
Qed.
Lemma look_prefix : look_ok (fun k => firstn k idx).
Proof.
  intros k Hk. destruct (idx_pred k Hk) as [a [i [Hi [B Ha]]]].
  destruct (update_vec_spec (firstn k idx) (nth k idx []) m) as [i' [j' [E [H1 [H2 H3]]]]].
  - apply Forall_forall. intros b Hb. pose proof idx_len as F. rewrite Forall_forall in F. apply F. rewrite <- (firstn_skipn k idx). apply in_or_app. auto.
  - apply idx_nth_len. lia.
  - exists a, i. auto.
  - rewrite firstn_length in H2. exists i', j'. repeat split; auto; [lia|]. rewrite <- H3. f_equal.
    rewrite <- (firstn_skipn k idx) at 1. rewrite app_nth1 by (rewrite firstn_length; lia). auto.
Qed.

(* ---------------- re-evaluation ---------------- *)
Variable lookup : nat -> list (list nat).
Hypothesis LOOK : look_ok lookup.
Definition pick (k : nat) : nat * nat := match update_vec (lookup k) (nth k idx []) with Some ij => ij | None => (O, O) end.
Lemma pick_ok : forall k, (1 <= k < N)%nat -> update_vec (lookup k) (nth k idx []) = Some (pick k) /\ (fst (pick k) < m)%nat /\ (snd (pick k) < k)%nat
  /\ bump (nth (snd (pick k)) idx []) (fst (pick k)) = nth k idx [].
Proof. intros k Hk. unfold pick. destruct (LOOK k Hk) as [i [j [E [H1 [H2 H3]]]]]. rewrite E. simpl. auto. Qed.

Definition wfR (Rs : list (vec * R)) : Prop := length Rs = N /\ forall k, (k < N)%nat -> length (fst (nth k Rs ([], 0))) = k.
Definition rcoef (Rs : list (vec * R)) (k s : nat) : R := vget (fst (nth k Rs ([], 0))) s.
Definition rdiag (Rs : list (vec * R)) (k : nat) : R := snd (nth k Rs ([], 0)).
(** the recurrence of the basis functions *)
Definition recurrence (Rs : list (vec * R)) (x : vec) (g : nat -> R) : Prop :=
  g O = 1 / rdiag Rs 0 /\ forall k, (1 <= k < N)%nat ->
  g k = (vget x (fst (pick k)) * g (snd (pick k)) - rsum k (fun s => rcoef Rs k s * g s)) / rdiag Rs k.
Lemma recurrence_unique : forall Rs x g h, recurrence Rs x g -> recurrence Rs x h -> forall k, (k < N)%nat -> g k = h k.
Proof.
  intros Rs x g h [G0 G] [H0 H]. induction k as [k IH] using (well_founded_induction lt_wf). intro Hk. destruct k as [|k]; [congruence|].
  destruct (pick_ok (S k) ltac:(lia)) as [_ [_ [P _]]]. rewrite G, H by lia. rewrite (IH (snd (pick (S k)))) by lia. do 2 f_equal. apply rsum_ext. intros s Hs. rewrite IH by lia. auto.
Qed.
Lemma dot_short : forall a W k, length a = k -> (k <= length W)%nat -> dot a W = rsum k (fun s => vget a s * vget W s).
Proof.
  induction a as [|x a IH]; intros W k L H; simpl in L; subst; [reflexivity|]. destruct W as [|y W]; simpl in H; [lia|]. rewrite dot_cons, rsum_S_first. f_equal. apply IH; auto. lia.
Qed.
Lemma arnoldi_X_loop_spec : forall Rs x, wfR Rs -> forall n W, (1 <= length W <= N)%nat -> (N - length W = n)%nat ->
  exists W', arnoldi_X_loop lookup x (skipn (length W) idx) (skipn (length W) Rs) W = Some (W ++ W') /\ length (W ++ W') = N /\
  forall k, (length W <= k < N)%nat -> vget (W ++ W') k = (vget x (fst (pick k)) * vget (W ++ W') (snd (pick k)) - rsum k (fun s => rcoef Rs k s * vget (W ++ W') s)) / rdiag Rs k.
Proof.
  intros Rs x [WL WF]. induction n as [|n IH]; intros W HW E.
  - exists []. rewrite app_nil_r. rewrite !skipn_all2 by (rewrite ?WL; fold N; lia). simpl. split; auto. split; [lia|]. intros; lia.
  - assert (Hk : (1 <= length W < N)%nat) by lia.
    assert (SI : skipn (length W) idx = nth (length W) idx [] :: skipn (S (length W)) idx).
    { clear - Hk. revert Hk. unfold N. generalize (length W). intros k [_ Hk]. clear - Hk. revert k Hk. induction idx as [|a l IH]; intros k Hk; simpl in Hk; [lia|]. destruct k; simpl; auto. apply IH. lia. }
    assert (SR : skipn (length W) Rs = nth (length W) Rs ([], 0) :: skipn (S (length W)) Rs).
    { assert (HR : (length W < length Rs)%nat) by lia. clear - HR. revert HR. generalize (length W). induction Rs as [|a l IH]; intros k Hk; simpl in Hk; [lia|]. destruct k; simpl; auto. apply IH. lia. }
    rewrite SI, SR. cbn [arnoldi_X_loop]. destruct (pick_ok (length W) Hk) as [U [P1 [P2 P3]]]. rewrite U. destruct (pick (length W)) as [i j] eqn:PK. cbn [fst snd] in *.
    pose proof (WF (length W) ltac:(lia)) as RL. destruct (nth (length W) Rs ([], 0)) as [rs r] eqn:NR. cbn [fst] in RL.
    set (w := (vget x i * vget W j - dot rs W) / r). destruct (IH (W ++ [w])) as [W' [I1 [I2 I3]]]; [rewrite app_length; cbn [length]; lia|rewrite app_length; cbn [length]; lia|].
    exists (w :: W'). replace (W ++ w :: W') with ((W ++ [w]) ++ W') by (rewrite <- app_assoc; reflexivity). rewrite app_length in *. cbn [length] in *. rewrite Nat.add_1_r in *.
    split; [exact I1|]. split; [exact I2|]. intros k Hk2. destruct (Nat.eq_dec k (length W)) as [->|NE]; [|apply I3; lia].
    rewrite PK. cbn [fst snd]. unfold rdiag, rcoef. rewrite NR. cbn [fst snd].
    assert (G : forall s, (s < length W)%nat -> vget ((W ++ [w]) ++ W') s = vget W s) by (intros s Hs; unfold vget; rewrite <- app_assoc; apply app_nth1; auto).
    rewrite (G j) by auto. rewrite (rsum_ext (length W) (fun s => vget rs s * vget ((W ++ [w]) ++ W') s) (fun s => vget rs s * vget W s)) by (intros s Hs; rewrite G by auto; auto).
    rewrite <- (dot_short rs W) by (auto; lia). fold w. unfold vget at 1. rewrite <- app_assoc. rewrite app_nth2 by lia. rewrite Nat.sub_diag. reflexivity.
Qed.
Lemma arnoldi_X_spec : forall Rs x, wfR Rs -> exists W, arnoldi_X lookup idx Rs x = Some W /\ length W = N /\ recurrence Rs x (vget W).
Proof.
  intros Rs x WF. pose proof idx_N as HN. destruct (arnoldi_X_loop_spec Rs x WF (N - 1) [1 / rdiag Rs 0]) as [W' [E [L RC]]]; [cbn [length]; lia|cbn [length]; lia|].
  destruct WF as [WL _]. unfold arnoldi_X. destruct Rs as [|[r0s r0] Rs']; [simpl in WL; lia|]. cbn [length skipn] in E. unfold rdiag in E. cbn [nth snd] in E.
  exists ([1 / r0] ++ W'). split; [|split].
  - rewrite <- E. reflexivity.
  - exact L.
  - split; [reflexivity|]. intros k Hk. apply RC. simpl. lia.
Qed.
(** the values of the basis functions at a point *)
Definition wval (Rs : list (vec * R)) (x : vec) (k : nat) : R := match arnoldi_X lookup idx Rs x with Some W => vget W k | None => 0 end.
Lemma wval_rec : forall Rs x, wfR Rs -> recurrence Rs x (wval Rs x).
Proof. intros Rs x WF. destruct (arnoldi_X_spec Rs x WF) as [W [E [_ RC]]]. unfold wval. rewrite E. exact RC. Qed.

(* ---------------- span ---------------- *)
Fixpoint mono (a : list nat) (x : vec) : R :=
  match a, x with
  | e :: a', t :: x' => t ^ e * mono a' x'
  | _, _ => 1
  end.
Lemma mono_bump : forall a x i, length a = length x -> (i < length a)%nat -> mono (bump a i) x = vget x i * mono a x.
Proof.
  induction a as [|e a IH]; intros [|t x] i L H; simpl in L, H; try lia. destruct i as [|i]; simpl bump; cbn [mono].
  - unfold vget. simpl. ring.
  - rewrite IH by lia. unfold vget. simpl. ring.
Qed.
Lemma mono_zero : forall n x, mono (repeat O n) x = 1.
Proof. induction n; intros [|t x]; simpl; auto. rewrite IHn. ring. Qed.

Definition M (k : nat) (x : vec) : R := mono (nth k idx []) x.
(** value k is a nonzero multiple of monomial k plus earlier monomials *)
Lemma leading : forall Rs, wfR Rs -> (forall k, (k < N)%nat -> rdiag Rs k <> 0) -> forall k, (k < N)%nat ->
  exists c, c k <> 0 /\ forall x, length x = m -> wval Rs x k = rsum (S k) (fun l => c l * M l x).
Proof.
  intros Rs WF NZ. induction k as [k IH] using (well_founded_induction lt_wf). intro Hk. destruct k as [|k].
  - exists (fun _ => 1 / rdiag Rs 0). split; [unfold Rdiv; rewrite Rmult_1_l; apply Rinv_neq_0_compat, NZ; auto|]. intros x Lx. destruct (wval_rec Rs x WF) as [W0 _]. rewrite W0.
    simpl. unfold M. rewrite idx_0, mono_zero. ring.
  - destruct (pick_ok (S k) ltac:(lia)) as [_ [P1 [P2 P3]]]. destruct (pick (S k)) as [i j] eqn:PK. cbn [fst snd] in *.
    (* earlier values as combinations of the monomials before S k *)
    assert (EARLY : forall n (f : nat -> R), (n <= S k)%nat -> exists c, forall x, length x = m -> rsum n (fun s => f s * wval Rs x s) = rsum (S k) (fun l => c l * M l x)).
    { induction n as [|n IHn]; intros f Hn.
      - exists (fun _ => 0). intros x Lx. simpl rsum at 1. rewrite rsum_zero; auto. intros. ring.
      - destruct (IHn f ltac:(lia)) as [c1 C1]. destruct (IH n ltac:(lia) ltac:(lia)) as [c2 [_ C2]].
        exists (fun l => c1 l + f n * (if Nat.leb l n then c2 l else 0)). intros x Lx.
        change (rsum (S n) (fun s => f s * wval Rs x s)) with (rsum n (fun s => f s * wval Rs x s) + f n * wval Rs x n). rewrite C1, C2 by auto.
        rewrite (rsum_ext (S k) (fun l => (c1 l + f n * _) * M l x) (fun l => c1 l * M l x + f n * ((if Nat.leb l n then c2 l else 0) * M l x))) by (intros; ring).
        rewrite rsum_plus, rsum_scal_l. do 2 f_equal. symmetry. rewrite (rsum_trunc (S n) (S k)).
        + apply rsum_ext. intros l Hl. destruct (Nat.leb_spec l n); [auto|lia].
        + lia.
        + intros l Hl. destruct (Nat.leb_spec l n); [lia|ring]. }
    (* multiplying the earlier monomials of value j by x_i stays before S k *)
    assert (SHIFT : forall n, (n <= j)%nat -> forall f : nat -> R, exists c, forall x, length x = m -> rsum n (fun l => f l * (vget x i * M l x)) = rsum (S k) (fun l => c l * M l x)).
    { induction n as [|n IHn]; intros Hn f.
      - exists (fun _ => 0). intros x Lx. simpl rsum at 1. rewrite rsum_zero; auto. intros. ring.
      - destruct (IHn ltac:(lia) f) as [c1 C1].
        assert (Gn : glt (nth n idx []) (nth j idx [])) by (apply ss_nth; [apply index_set_sorted; auto|fold idx; fold N; lia]).
        assert (LN : length (nth n idx []) = m) by (apply idx_nth_len; lia). assert (LJ : length (nth j idx []) = m) by (apply idx_nth_len; lia).
        pose proof (glt_bump (nth n idx []) (nth j idx []) i ltac:(lia) ltac:(lia) Gn) as GB. rewrite P3 in GB.
        assert (SB : (nsum (bump (nth n idx []) i) <= p)%nat).
        { assert (In (nth (S k) idx []) idx) as I1 by (apply nth_In; auto). apply index_set_in in I1; auto. destruct GB as [GB|[GB _]]; lia. }
        destruct (idx_find (bump (nth n idx []) i)) as [q [Hq EQ]]; [rewrite bump_length, idx_nth_len; auto; lia|auto|].
        assert (QK : (q < S k)%nat) by (apply idx_pos_lt; auto; rewrite EQ; auto).
        exists (fun l => c1 l + (if Nat.eqb l q then f n else 0)). intros x Lx.
        change (rsum (S n) (fun l => f l * (vget x i * M l x))) with (rsum n (fun l => f l * (vget x i * M l x)) + f n * (vget x i * M n x)). rewrite C1 by auto.
        assert (T : f n * (vget x i * M n x) = rsum (S k) (fun l => (if Nat.eqb l q then f n else 0) * M l x)).
        { rewrite (rsum_single (S k) q); [|auto|intros l Hl NE; destruct (Nat.eqb_spec l q); [lia|ring]]. rewrite Nat.eqb_refl. unfold M. rewrite EQ.
          rewrite mono_bump by (rewrite idx_nth_len; auto; lia). ring. }
        rewrite T. rewrite <- rsum_plus. apply rsum_ext. intros. ring. }
    destruct (EARLY (S k) (rcoef Rs (S k)) ltac:(lia)) as [c1 C1]. destruct (IH j ltac:(lia) ltac:(lia)) as [cj [CJ0 CJ]].
    destruct (SHIFT j ltac:(lia) cj) as [c2 C2].
    exists (fun l => if Nat.eqb l (S k) then cj j / rdiag Rs (S k) else (c2 l - c1 l) / rdiag Rs (S k)). split.
    + rewrite Nat.eqb_refl. unfold Rdiv. apply Rmult_integral_contrapositive. split; auto. apply Rinv_neq_0_compat, NZ. auto.
    + intros x Lx. destruct (wval_rec Rs x WF) as [_ WR]. rewrite (WR (S k)) by lia. rewrite PK. cbn [fst snd]. rewrite C1 by auto. rewrite CJ by auto.
      change (rsum (S j) (fun l => cj l * M l x)) with (rsum j (fun l => cj l * M l x) + cj j * M j x).
      change (rsum (S (S k)) ?f) with (rsum (S k) f + f (S k)). cbv beta. rewrite Nat.eqb_refl.
      assert (MK : M (S k) x = vget x i * M j x) by (unfold M; rewrite <- P3; apply mono_bump; rewrite idx_nth_len; auto; lia). rewrite MK.
      rewrite (rsum_ext (S k) (fun l => (if Nat.eqb l (S k) then _ else _) * M l x) (fun l => / rdiag Rs (S k) * (c2 l * M l x - c1 l * M l x))).
      2:{ intros l Hl. destruct (Nat.eqb_spec l (S k)); [lia|]. unfold Rdiv. ring. }
      rewrite rsum_scal_l, rsum_minus, <- C2 by auto.
      rewrite (rsum_ext j (fun l => cj l * (vget x i * M l x)) (fun l => vget x i * (cj l * M l x))) by (intros; ring). rewrite rsum_scal_l. unfold Rdiv. ring.
Qed.
(** conversely monomial k is a combination of the values up to k *)
Lemma spans_back : forall Rs, wfR Rs -> (forall k, (k < N)%nat -> rdiag Rs k <> 0) -> forall k, (k < N)%nat ->
  exists d, forall x, length x = m -> M k x = rsum (S k) (fun l => d l * wval Rs x l).
Proof.
  intros Rs WF NZ. induction k as [k IH] using (well_founded_induction lt_wf). intro Hk. destruct (leading Rs WF NZ k Hk) as [c [C0 C]].
  assert (EARLY : forall n, (n <= k)%nat -> exists d, forall x, length x = m -> rsum n (fun l => c l * M l x) = rsum k (fun l => d l * wval Rs x l)).
  { induction n as [|n IHn]; intro Hn.
    - exists (fun _ => 0). intros x Lx. simpl rsum at 1. rewrite rsum_zero; auto. intros. ring.
    - destruct (IHn ltac:(lia)) as [d1 D1]. destruct (IH n ltac:(lia) ltac:(lia)) as [d2 D2].
      exists (fun l => d1 l + c n * (if Nat.leb l n then d2 l else 0)). intros x Lx. cbn [rsum]. rewrite D1, D2 by auto.
      rewrite (rsum_ext k (fun l => (d1 l + c n * _) * wval Rs x l) (fun l => d1 l * wval Rs x l + c n * ((if Nat.leb l n then d2 l else 0) * wval Rs x l))) by (intros; ring).
      rewrite rsum_plus, rsum_scal_l. do 2 f_equal. symmetry. rewrite (rsum_trunc (S n) k).
      + apply rsum_ext. intros l Hl. destruct (Nat.leb_spec l n); [auto|lia].
      + lia.
      + intros l Hl. destruct (Nat.leb_spec l n); [lia|ring]. }
  destruct (EARLY k ltac:(lia)) as [d D]. exists (fun l => if Nat.eqb l k then / c k else - (d l / c k)). intros x Lx. cbn [rsum]. rewrite Nat.eqb_refl.
  rewrite (rsum_ext k _ (fun l => - / c k * (d l * wval Rs x l))) by (intros l Hl; destruct (Nat.eqb_spec l k); [lia|unfold Rdiv; ring]).
  rewrite rsum_scal_l, <- D by auto. rewrite C by auto. cbn [rsum]. field. auto.
Qed.
End IDX.
