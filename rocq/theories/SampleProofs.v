(** Samples lie in the domain (C08). *)
Require Import Reals Lra Lia List Bool Arith ZArith.
From Verif Require Import RVec Num DomModel DomSpec DomProofs NormProofs DomOpsProofs DomExamples DomMoreModel SweepProofs CvxProofs HullProofs BoxPredProofs TensorModel TensorProofs.
Require Import Permutation.
Import ListNotations.
Local Open Scope R_scope.

Theorem sample_nonpositive : forall draw samp, (draw <= 0)%Z -> sample draw samp = Some [].
Proof. intros draw samp H. unfold sample. destruct (Z.leb_spec draw 0); auto. lia. Qed.

(** every sampler that returns n points of S for every n does so through the wrapper *)
Theorem sample_wrapper : forall (S : vec -> Prop) samp,
  (forall n X, samp n = Some X -> length X = n /\ Forall S X) ->
  forall draw X, sample draw samp = Some X -> length X = Z.to_nat draw /\ Forall S X.
Proof.
  intros S samp H draw X E. unfold sample in E. destruct (Z.leb_spec draw 0) as [L|L].
  - injection E as <-. split; [|constructor]. simpl. destruct draw; simpl; auto; lia.
  - apply H; auto.
Qed.

(* ---------------- box ---------------- *)
Definition unit_row (m : nat) (r : vec) : Prop := length r = m /\ Forall (fun t => 0 <= t < 1) r.

Lemma any_gt_R : forall l u, length l = length u ->
  (existsb (fun b => b) (zipw (fun a b => Rltb b a) l u) = false <-> forall i, (i < length l)%nat -> vget l i <= vget u i).
Proof.
  induction l as [|a l IH]; intros u E; destruct u as [|b u]; simpl in E; try lia; simpl.
  - split; auto. intros _ i Hi; lia.
  - rewrite orb_false_iff, IH by lia. rewrite Rltb_false. split.
    + intros [H1 H2] i Hi. destruct i as [|i]; [exact H1|]. apply (H2 i); lia.
    + intro H. split; [apply (H O); lia|]. intros i Hi. apply (H (S i)); lia.
Qed.

Theorem box_sample_inside : forall l u rows, length l = length u -> Forall (unit_row (length l)) rows ->
  match box_sample_ l u rows with
  | None => exists i, (i < length l)%nat /\ vget u i < vget l i
  | Some X => length X = length rows /\ Forall (member (box_of l u)) X
  end.
Proof.
  intros l u rows E F. unfold box_sample_. destruct (existsb _ _) eqn:G.
  - destruct (Exists_dec (fun i => vget u i < vget l i) (seq 0 (length l))) as [D|D].
    { intro i. destruct (Rlt_dec (vget u i) (vget l i)); auto. }
    + apply Exists_exists in D. destruct D as [i [I1 I2]]. apply in_seq in I1. exists i. split; auto. lia.
    + exfalso. assert (A : existsb (fun b => b) (zipw (fun a b => Rltb b a) l u) = false); [|congruence].
      apply any_gt_R; auto. intros i Hi. apply Rnot_lt_le. intro B. apply D. apply Exists_exists. exists i. split; auto. apply in_seq; lia.
  - pose proof (proj1 (any_gt_R l u E) G) as G2. clear G. rename G2 into G. split; [apply map_length|]. apply Forall_forall. intros x Hx. apply in_map_iff in Hx.
    destruct Hx as [r [Er Hr]]. subst x. rewrite Forall_forall in F. destruct (F r Hr) as [Lr Fr].
    assert (Lm : length (vmul (vsub u l) r) = length l) by (rewrite vmul_length; rewrite vsub_length; congruence).
    apply box_member; auto. split; [unfold box_row; rewrite vadd_length; congruence|]. intros i Hi. unfold box_row.
    rewrite vadd_get, vmul_get, vsub_get by (rewrite ?vsub_length; congruence). specialize (G i Hi).
    assert (0 <= vget r i < 1). { rewrite Forall_forall in Fr. apply Fr. unfold vget. apply nth_In. lia. }
    nra.
Qed.

(* ---------------- point ---------------- *)
Theorem point_sample_inside : forall d x n tol, dcls d = Point -> dim d = length x -> lb d = map Fin x ->
  length (point_sample x n) = n /\ Forall (fun y => inside1 d y tol = true) (point_sample x n).
Proof.
  intros d x n tol H1 H2 H3. split; [apply repeat_length|]. apply Forall_forall. intros y Hy. apply repeat_spec in Hy. subst y.
  apply (point_inside d x x tol); auto.
Qed.

(* ---------------- truncated normal ---------------- *)
Lemma mapi_length : forall (A B : Type) (f : nat -> A -> B) l i, length (mapi f i l) = length l.
Proof. intros A B f. induction l; intro i; simpl; auto. Qed.
Lemma mapi_forall : forall (A B : Type) (P : B -> Prop) (f : nat -> A -> B) l i, (forall j a, In a l -> P (f j a)) -> Forall P (mapi f i l).
Proof. intros A B P f. induction l; intros i H; simpl; constructor; [apply H; simpl; auto|]. apply IHl. intros; apply H; simpl; auto. Qed.

Lemma reject_loop_spec : forall m fuel k clip rng X Y, (forall k i, length (rng k i) = m) -> Forall (fun x => length x = m) X ->
  reject_loop fuel k clip rng X = Some Y -> length Y = length X /\ Forall (fun y => length y = m /\ norm2sq y <= clip) Y.
Proof.
  intros m. induction fuel as [|f IH]; intros k clip rng X Y HR HX E; cbn [reject_loop] in E;
    destruct (forallb (fun x => negb (bad_row clip x)) X) eqn:G; try discriminate.
  - injection E as <-. split; auto. apply Forall_forall. intros y Hy. rewrite forallb_forall in G. specialize (G y Hy).
    rewrite Forall_forall in HX. split; auto. unfold bad_row in G. apply negb_true_iff in G. apply Rltb_false in G. auto.
  - injection E as <-. split; auto. apply Forall_forall. intros y Hy. rewrite forallb_forall in G. specialize (G y Hy).
    rewrite Forall_forall in HX. split; auto. unfold bad_row in G. apply negb_true_iff in G. apply Rltb_false in G. auto.
  - apply IH in E; auto.
    + rewrite mapi_length in E. auto.
    + apply mapi_forall. intros j a Ha. rewrite Forall_forall in HX. destruct (bad_row clip a); auto.
Qed.

Theorem normal_sample_inside : forall mean L Linv clip fuel rng0 rng draw X,
  let m := length mean in
  length L = m -> Forall (fun r => length r = m) L -> 
  (forall v, length v = m -> mv Linv (mv L v) = v) ->
  (forall c, clip = Some c -> 0 < c) -> (forall i, length (rng0 i) = m) -> (forall k i, length (rng k i) = m) ->
  normal_sample mean L clip fuel rng0 rng draw = Some X ->
  length X = draw /\ Forall (member (normal_dom mean Linv clip)) X.
Proof.
  intros mean L Linv clip fuel rng0 rng draw X m HL FL HI HC H0 HR E. unfold normal_sample in E.
  set (X0 := map rng0 (seq 0 draw)) in *.
  assert (L0 : length X0 = draw) by (unfold X0; rewrite map_length, seq_length; auto).
  assert (F0 : Forall (fun x => length x = m) X0).
  { apply Forall_forall. intros x Hx. apply in_map_iff in Hx. destruct Hx as [i [Ei _]]. subst x. auto. }
  assert (NB : forall x, sat_bounds (repeat NInf m) (repeat PInf m) 0 x).
  { intros x i. split; intros v Hv; apply nth_error_In in Hv; apply repeat_spec in Hv; discriminate. }
  assert (MM : forall y, length y = m -> (forall c, clip = Some c -> norm2sq y <= c) -> member (normal_dom mean Linv clip) (vadd mean (mv L y))).
  { intros y Ly Hy. unfold normal_dom. fold m. split; [simpl; rewrite vadd_length; auto; rewrite mv_length; auto|].
    split; [apply NB|]. split; [intros k a c H; destruct k; discriminate|]. split; [intros k a c H; destruct k; discriminate|].
    intros q Hq. simpl in Hq. destruct clip as [c|]; [|contradiction]. destruct Hq as [Eq|[]]. subst q. cbn [qL qy qrho].
    replace (vsub (vadd mean (mv L y)) mean) with (mv L y).
    - rewrite HI by auto. unfold norm2. rewrite Rplus_0_r. apply sqrt_le_1_alt. apply Hy; auto.
    - rewrite vadd_comm. symmetry. apply vadd_vsub. rewrite mv_length; auto. }
  assert (FM : forall Y, length Y = draw -> Forall (fun y => length y = m /\ (forall c, clip = Some c -> norm2sq y <= c)) Y ->
     length (map (fun x => vadd mean (mv L x)) Y) = draw /\ Forall (member (normal_dom mean Linv clip)) (map (fun x => vadd mean (mv L x)) Y)).
  { intros Y LY FY. split; [rewrite map_length; auto|]. apply Forall_forall. intros x Hx. apply in_map_iff in Hx.
    destruct Hx as [y [Ey Hy]]. subst x. rewrite Forall_forall in FY. destruct (FY y Hy). apply MM; auto. }
  destruct clip as [c|].
  - destruct (reject_loop fuel 0 c rng X0) as [Y|] eqn:RL; [|discriminate]. injection E as <-.
    apply (reject_loop_spec m) in RL; auto. destruct RL as [LY FY]. apply FM; [congruence|].
    apply Forall_impl with (2 := FY). intros y [A B]. split; auto. intros c' Ec. congruence.
  - injection E as <-. apply FM; auto. apply Forall_impl with (2 := F0). intros y A. split; auto. discriminate.
Qed.

(* ---------------- hit and run ---------------- *)
Section HR.
  Variable S : vec -> Prop.
  Variable start : option vec.
  Variable is_pt : bool.
  Variable closest : vec -> option vec.
  Variable ext : vec -> vec -> option num.
  Variable dirs : nat -> vec.
  Variable us : nat -> R.
  Variable mdim : nat.
  Hypothesis start_in : forall x, start = Some x -> S x.
  Hypothesis closest_in : forall x y, closest x = Some y -> S y.

  Lemma hr_loop_in : forall it k x0 x1 k', hr_loop closest ext dirs us it k x0 = (Some (Some x1), k') -> S x1.
  Proof.
    induction it as [|it IH]; intros k x0 x1 k' E; simpl in E; [discriminate|].
    destruct (ext x0 (vscale (-1) (dirs k))) as [[a| | |]|]; try discriminate.
    destruct (ext x0 (dirs k)) as [[b| | |]|]; try discriminate.
    destruct (Rltb _ _).
    - destruct (closest _) as [y|] eqn:C; [|discriminate]. injection E as <- <-. eapply closest_in; eauto.
    - eapply IH; eauto.
  Qed.

  Lemma hit_and_run_in : forall r k st o st' k', (forall x, st = Some x -> S x) ->
    hit_and_run start is_pt closest ext dirs us mdim r k st = (o, st', k') ->
    (forall x, o = Some x -> S x) /\ (forall x, st' = Some x -> S x).
  Proof.
    induction r as [|r IH]; intros k st o st' k' H E; cbn [hit_and_run] in E.
    - injection E as <- <- <-. split; [discriminate|auto].
    - destruct (match st with Some x => Some x | None => start end) as [x0|] eqn:E0.
      + assert (S0 : S x0) by (destruct st; [injection E0 as <-; auto|auto]).
        destruct is_pt.
        * injection E as <- <- <-. split; intros x Hx; injection Hx as <-; auto.
        * destruct (hr_loop closest ext dirs us mdim k x0) as [[[x1|]|] k1] eqn:HL.
          -- injection E as <- <- <-. apply hr_loop_in in HL. split; intros x Hx; injection Hx as <-; auto.
          -- apply (IH k1 None o st' k'); [intros y Hy; discriminate Hy|exact E].
          -- injection E as <- <- <-. split; [discriminate|]. intros x Hx; injection Hx as <-; auto.
      + injection E as <- <- <-. split; [discriminate|auto].
  Qed.

  Lemma hr_many_in : forall n k st X st' k', (forall x, st = Some x -> S x) ->
    hr_many start is_pt closest ext dirs us mdim n k st = (Some X, st', k') -> length X = n /\ Forall S X.
  Proof.
    induction n as [|n IH]; intros k st X st' k' H E; cbn [hr_many] in E.
    - injection E as <- <- <-. split; auto.
    - destruct (hit_and_run start is_pt closest ext dirs us mdim 3 k st) as [[[x|] st1] k1] eqn:HR; [|discriminate].
      destruct (hit_and_run_in _ _ _ _ _ _ H HR) as [H1 H2].
      destruct (hr_many start is_pt closest ext dirs us mdim n k1 st1) as [[[Y|] st2] k2] eqn:HM; [|discriminate].
      injection E as <- <- <-. destruct (IH _ _ _ _ _ H2 HM) as [A B]. split; [simpl; auto|]. constructor; auto.
  Qed.

  Theorem euclid_sample_in : forall cen perm st draw X, S cen -> Permutation perm (seq 0 (3 * draw)) ->
    (forall x, st = Some x -> S x) ->
    euclid_sample start is_pt closest ext dirs us mdim cen perm st draw = Some X -> length X = draw /\ Forall S X.
  Proof.
    intros cen perm st draw X HC HP HS E. unfold euclid_sample in E. destruct is_pt eqn:IP.
    - injection E as <-. split; [apply repeat_length|]. apply Forall_forall. intros y Hy. apply repeat_spec in Hy. subst; auto.
    - rewrite <- IP in E.
      destruct (hr_many start is_pt closest ext dirs us mdim (3 * draw) 0 st) as [[[Y|] st2] k2] eqn:HM; [|discriminate].
      injection E as <-. apply hr_many_in in HM; auto. destruct HM as [LY FY].
      assert (LP : length perm = (3 * draw)%nat) by (rewrite (Permutation_length HP), seq_length; auto).
      split.
      + rewrite map_length, firstn_length. lia.
      + apply Forall_forall. intros y Hy. apply in_map_iff in Hy. destruct Hy as [i [Ei Hi]]. subst y.
        rewrite Forall_forall in FY. apply FY, nth_In. rewrite LY.
        assert (In i perm) by (rewrite <- (firstn_skipn draw perm); apply in_app_iff; auto).
        apply (Permutation_in _ HP) in H. apply in_seq in H. lia.
  Qed.
End HR.

(** hit and run on a constraint-defined domain with an exact closest point solver *)
Theorem linquad_sample_in : forall d nlb nub tol L start is_pt closest ext dirs us mdim cen perm st draw X,
  norm_ok nlb nub d -> dcls d <> Point -> 0 < tol -> Forall (fun r => length r = dim d) L ->
  (forall x0 x, closest x0 = Some x -> length x0 = dim d /\ closest_returns nlb nub d tol L x0 x) ->
  (forall x, start = Some x -> relaxed d tol x) -> relaxed d tol cen -> Permutation perm (seq 0 (3 * draw)) ->
  (forall x, st = Some x -> relaxed d tol x) ->
  euclid_sample start is_pt closest ext dirs us mdim cen perm st draw = Some X ->
  length X = draw /\ Forall (fun x => inside1 d x tol = true) X.
Proof.
  intros d nlb nub tol L start is_pt closest ext dirs us mdim cen perm st draw X OK NP Ht FL HC HS Hc HP Hst E.
  assert (W : dom_wf d) by apply OK.
  assert (HC2 : forall x y, closest x = Some y -> relaxed d tol y).
  { intros x y H. destruct (HC x y H) as [Lx R]. destruct (closest_correct nlb nub d tol L x y OK NP ltac:(lra) FL Lx R) as [[R1 R2]|[R1 _]].
    - subst; auto.
    - apply member_relaxed1; auto. }
  destruct (euclid_sample_in (relaxed d tol) start is_pt closest ext dirs us mdim HS HC2 cen perm st draw X Hc HP Hst E) as [A B].
  split; auto. apply Forall_impl with (2 := B). intros x Hx. apply inside1_spec; auto.
Qed.

(* ---------------- tensor products ---------------- *)
Theorem tensor_rows_in : forall fs Xs draw tol,
  Forall2 (fun f X => length X = draw /\ Forall (fun x => inside1 (ldom f) x tol = true) X) fs Xs ->
  length (tensor_rows Xs draw) = draw /\ Forall (fun x => einside (Tensor fs) x tol = true) (tensor_rows Xs draw).
Proof.
  intros fs Xs draw tol F. unfold tensor_rows. split; [rewrite map_length, seq_length; auto|].
  apply Forall_forall. intros x Hx. apply in_map_iff in Hx. destruct Hx as [i [Ei Hi]]. subst x. apply in_seq in Hi.
  apply tensor_inside. induction F as [|f X fs Xs [L FX] F IH]; simpl; auto.
  exists (nth i X []), (concat (map (fun X => nth i X []) Xs)). split; auto. split; auto.
  rewrite Forall_forall in FX. apply FX, nth_In. lia.
Qed.

(* ---------------- hulls ---------------- *)
Theorem hull_two_in : forall x0 x1 us, length x0 = length x1 -> Forall (fun a => 0 <= a < 1) us ->
  length (hull_two_sample x0 x1 us) = length us /\ Forall (convex_comb [x0; x1] (length x0)) (hull_two_sample x0 x1 us).
Proof.
  intros x0 x1 us E F. unfold hull_two_sample. split; [apply map_length|]. apply Forall_forall. intros x Hx.
  apply in_map_iff in Hx. destruct Hx as [a [Ea Ha]]. subst x. rewrite Forall_forall in F. specialize (F a Ha).
  exists [a; 1 - a]. split; [reflexivity|]. split; [apply Forall_cons; [lra|apply Forall_cons; [lra|constructor]]|].
  split; [unfold vsum; simpl; lra|]. simpl. f_equal. apply vec_ext.
  - rewrite vadd_length; rewrite !vscale_length; auto. unfold vzero. rewrite repeat_length. auto.
  - intros i _. rewrite vadd_get by (rewrite vscale_length; unfold vzero; rewrite repeat_length; auto). rewrite vzero_get. ring.
Qed.

(* ---------------- one step of hit and run: the whole chord is reached, uniformly ---------------- *)
(** With exact extents a (backwards) and b (forwards) and a projection that fixes the points of the set, one step from the state x0 returns
    (and stores) the point of the chord at the fraction u of its length, u the uniform random number *)
Theorem hit_run_chord : forall (P : vec -> Prop) start closest ext dirs us mdim recurse k x0 a b,
  (0 < mdim)%nat -> (0 < recurse)%nat -> ext x0 (vscale (-1) (dirs k)) = Some (Fin a) -> ext x0 (dirs k) = Some (Fin b) ->
  1/10000000 < a + b -> 0 <= us k <= 1 -> (forall t, - a <= t <= b -> P (vadd x0 (vscale t (dirs k)))) -> (forall x, P x -> closest x = Some x) ->
  exists t, - a <= t <= b /\ t - - a = us k * (b - - a) /\
    let x1 := vadd x0 (vscale t (dirs k)) in P x1 /\ hit_and_run start false closest ext dirs us mdim recurse k (Some x0) = (Some x1, Some x1, S k).
Proof.
  intros P start closest ext dirs us mdim recurse k x0 a b HM HR EA EB HL HU HP HC. exists (- a + (b - - a) * us k).
  assert (RG : - a <= - a + (b - - a) * us k <= b) by nra. split; auto. split; [ring|]. cbv zeta. split; [apply HP; auto|].
  destruct recurse as [|r]; [lia|]. destruct mdim as [|m]; [lia|]. cbn [hit_and_run hr_loop]. rewrite EA, EB.
  assert (E : Rltb (1/10000000) (b - - a) = true) by (apply Rltb_true; lra). rewrite E. rewrite HC by (apply HP; auto). auto.
Qed.
Lemma ex_hit_run_chord : exists t, - (1/4) <= t <= 3/4 /\ t - - (1/4) = (1/2) * (3/4 - - (1/4)) /\
  let x1 := vadd [1/4] (vscale t [1]) in (length x1 = 1%nat /\ 0 <= vget x1 0 <= 1) /\
  hit_and_run None false (fun x => Some x) (fun x p => Some (Fin (if Rltb (vget p 0) 0 then vget x 0 else 1 - vget x 0))) (fun _ => [1]) (fun _ => 1/2) 1 3 0 (Some [1/4]) = (Some x1, Some x1, 1%nat).
Proof.
  apply (hit_run_chord (fun x => length x = 1%nat /\ 0 <= vget x 0 <= 1) None (fun x => Some x) (fun x p => Some (Fin (if Rltb (vget p 0) 0 then vget x 0 else 1 - vget x 0))) (fun _ => [1]) (fun _ => 1/2) 1 3 0 [1/4] (1/4) (3/4)); try lia; try lra; auto.
  - unfold vget. cbn. assert (E : Rltb (-1 * 1) 0 = true) by (apply Rltb_true; lra). rewrite E. auto.
  - unfold vget. cbn. assert (E : Rltb 1 0 = false) by (apply Rltb_false; lra). rewrite E. do 2 f_equal. lra.
  - intros t Ht. unfold vget. cbn. split; auto. lra.
Qed.
(* ---------------- rejection sampling keeps accepted rows ---------------- *)
Lemma mapi_nth : forall (f : nat -> vec -> vec) (l : mat) i j, (j < length l)%nat -> nth j (mapi f i l) [] = f (i + j)%nat (nth j l []).
Proof. intros f l. induction l as [|x l IH]; intros i j H; simpl in H; [lia|]. destruct j as [|j]; cbn [mapi nth]; [f_equal; lia|]. rewrite IH by lia. f_equal. lia. Qed.
(** each row is the first acceptable one of its own draws *)
Theorem reject_first : forall fuel k clip rng X Y, reject_loop fuel k clip rng X = Some Y -> length Y = length X /\
  forall i, (i < length X)%nat -> norm2sq (nth i Y []) <= clip /\
    (norm2sq (nth i X []) <= clip -> nth i Y [] = nth i X []) /\
    (clip < norm2sq (nth i X []) -> exists j, (k <= j)%nat /\ nth i Y [] = rng j i /\ forall j', (k <= j' < j)%nat -> clip < norm2sq (rng j' i)).
Proof.
  assert (BT : forall c x, bad_row c x = true <-> c < norm2sq x) by (intros; unfold bad_row; apply Rltb_true).
  assert (BF : forall c x, bad_row c x = false <-> norm2sq x <= c) by (intros; unfold bad_row; apply Rltb_false).
  assert (ALL : forall clip X, forallb (fun x => negb (bad_row clip x)) X = true -> forall i, (i < length X)%nat -> norm2sq (nth i X []) <= clip).
  { intros clip X H i Hi. rewrite forallb_forall in H. specialize (H _ (nth_In X [] Hi)). apply negb_true_iff in H. apply BF. auto. }
  induction fuel as [|fuel IH]; intros k clip rng X Y E; cbn [reject_loop] in E; destruct (forallb _ X) eqn:F; try discriminate.
  - inversion E; subst. split; auto. intros i Hi. pose proof (ALL _ _ F i Hi). split; auto. split; auto. intros; lra.
  - inversion E; subst. split; auto. intros i Hi. pose proof (ALL _ _ F i Hi). split; auto. split; auto. intros; lra.
  - apply IH in E. rewrite mapi_length in E. destruct E as [EL E]. split; auto. intros i Hi. destruct (E i Hi) as [E1 [E2 E3]]. rewrite mapi_nth in E2, E3 by auto. cbn [Nat.add] in E2, E3. split; auto. split.
    + intro H. apply BF in H. rewrite H in E2. apply E2. apply BF. auto.
    + intro H. apply BT in H. rewrite H in E2, E3. destruct (Rle_lt_dec (norm2sq (rng k i)) clip) as [Q|Q].
      * exists k. split; [lia|]. split; auto. intros j' Hj. lia.
      * destruct (E3 Q) as [j [J1 [J2 J3]]]. exists j. split; [lia|]. split; auto. intros j' Hj. destruct (Nat.eq_dec j' k) as [->|]; auto. apply J3. lia.
Qed.
Lemma ex_reject : exists Y, reject_loop 2 0 4 (fun k i => [INR k]) [[1]; [3]] = Some Y /\ nth 0 Y [] = [1] /\ nth 1 Y [] = [INR 0].
Proof.
  assert (N : forall t, norm2sq [t] = t * t) by (intro; unfold norm2sq; rewrite dot_cons, dot_nil_l; ring).
  assert (B1 : bad_row 4 [1] = false) by (unfold bad_row; rewrite N; apply Rltb_false; lra). assert (B3 : bad_row 4 [3] = true) by (unfold bad_row; rewrite N; apply Rltb_true; lra). assert (B0 : bad_row 4 [INR 0] = false) by (unfold bad_row; rewrite N; simpl; apply Rltb_false; lra).
  exists [[1]; [INR 0]]. split; auto. cbn [reject_loop forallb mapi]. rewrite B1, B3. cbn [negb andb]. cbn [mapi forallb]. rewrite B0, B1. auto.
Qed.
