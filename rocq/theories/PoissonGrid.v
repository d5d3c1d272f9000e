(** Grid variant of Poisson disk sampling (poisson.py 61-149): refinement of the plain sampler and where it fails. *)
Require Import Reals Lra Lia List Bool Arith ZArith.
From Verif Require Import RVec Num Sums DomModel DomSpec DomProofs DomMoreModel SweepProofs HullIneqProofs LipModel LipProofs SampModel PigeonLib LatinProofs PoissonProofs.
Import ListNotations.
Local Open Scope R_scope.

Lemma int_part_uniq : forall t z, IZR z <= t < IZR z + 1 -> Int_part t = z.
Proof. intros t z H. destruct (int_part_bounds t). assert (IZR (Int_part t) < IZR (z + 1)) by (rewrite plus_IZR; lra). assert (IZR z < IZR (Int_part t + 1)) by (rewrite plus_IZR; lra). apply lt_IZR in H2, H3. lia. Qed.
Lemma zceil_ub : forall t, t <= IZR (zceil t) < t + 1.
Proof. intros t. unfold zceil. rewrite opp_IZR. destruct (int_part_bounds (- t)). lra. Qed.

Lemma zrange_in : forall a n z, In z (zrange a n) <-> (a <= z < a + Z.of_nat n)%Z.
Proof.
  intros a n z. unfold zrange. rewrite in_map_iff. split.
  - intros [k [<- Hk]]. apply in_seq in Hk. lia.
  - intros H. exists (Z.to_nat (z - a)). split; [lia|apply in_seq; lia].
Qed.
Lemma cells_in : forall rad idx c, length c = length idx -> (forall i, (i < length idx)%nat -> (Z.abs (nth i c 0 - nth i idx 0) <= Z.of_nat rad)%Z) -> In c (cells rad idx).
Proof.
  intros rad. induction idx as [|j idx IH]; intros [|a c] HL H; simpl in *; try discriminate; auto.
  apply in_flat_map. exists a. split.
  - apply zrange_in. pose proof (H O ltac:(lia)) as B. simpl in B. lia.
  - apply in_map, IH; auto. intros i Hi. apply (H (S i)). lia.
Qed.
Lemma grid_coord_len : forall L st h x, length (grid_coord L st h x) = length L.
Proof. intros. unfold grid_coord. rewrite map_length, seq_length. auto. Qed.
Lemma grid_coord_nth : forall L st h x i, (i < length L)%nat -> nth i (grid_coord L st h x) 0%Z = Int_part ((vget (mv L x) i - vget st i) / h).
Proof. intros. unfold grid_coord. rewrite nth_map_seq by auto. auto. Qed.

(** coordinate differences are bounded by the distance *)
Lemma Ldist_coord : forall L x y i, (i < length L)%nat -> Rabs (vget (mv L x) i - vget (mv L y) i) <= Ldist L x y.
Proof. intros L x y i H. unfold Ldist. rewrite <- vsub_get by (rewrite !mv_length; auto). apply abs_le_norm2. rewrite vsub_length; rewrite !mv_length; auto. Qed.

Section Grid.
Variables (L : mat) (r : R) (dims : list Z) (st : vec).
Hypothesis L0 : (0 < length L)%nat.
Hypothesis r0 : 0 < r.
Let h := grid_h L r.
Let sq := sqrt (INR (length L)).

Lemma sq_pos : 1 <= sq.
Proof. unfold sq. rewrite <- sqrt_1 at 1. apply sqrt_le_1; [lra|apply pos_INR|]. change 1 with (INR 1). apply le_INR. lia. Qed.
Lemma h_pos : 0 < h.
Proof. unfold h, grid_h. fold sq. pose proof sq_pos. apply Rmult_lt_0_compat; [auto|apply Rinv_0_lt_compat; lra]. Qed.
Lemma r_eq : r = sq * h.
Proof. unfold h, grid_h. fold sq. pose proof sq_pos. field. lra. Qed.

(** close points have nearby cells *)
Lemma near_cells : forall x y, Ldist L x y <= r -> In (grid_coord L st h y) (cells (grid_rad (length L)) (grid_coord L st h x)).
Proof.
  intros x y H. apply cells_in; [rewrite !grid_coord_len; auto|]. rewrite grid_coord_len. intros i Hi. rewrite !grid_coord_nth by auto.
  pose proof (Ldist_coord L x y i Hi) as B. set (a := vget (mv L x) i) in *. set (b := vget (mv L y) i) in *. pose proof h_pos as Hh. pose proof r_eq as Er. pose proof sq_pos as Hs.
  assert (Ea : a - vget st i = (a - vget st i) / h * h) by (field; lra). assert (Eb : b - vget st i = (b - vget st i) / h * h) by (field; lra).
  set (p := (a - vget st i) / h) in *. set (q := (b - vget st i) / h) in *.
  assert (Q : Rabs (q - p) <= sq). { assert (E : a - b = (p - q) * h) by lra. rewrite E, Rabs_mult, (Rabs_right h) in B by lra. rewrite Rabs_minus_sym. nra. }
  destruct (int_part_bounds p), (int_part_bounds q). unfold grid_rad. fold sq. destruct (zceil_ub sq) as [C1 C2].
  assert (Zn : (0 <= 2 * zceil sq)%Z) by (assert (0 < IZR (zceil sq)) by lra; apply lt_IZR in H4; lia).
  rewrite Nat2Z.inj_add, Z2Nat.id by auto. assert (Q1 := Rle_abs (q - p)); assert (Q2 := Rle_abs (- (q - p))); rewrite Rabs_Ropp in Q2.
  assert (IZR (Int_part q - Int_part p) < IZR (2 * zceil sq + 1) + 1) by (rewrite minus_IZR, plus_IZR, mult_IZR; lra).
  assert (IZR (Int_part p - Int_part q) < IZR (2 * zceil sq + 1) + 1) by (rewrite minus_IZR, plus_IZR, mult_IZR; lra).
  rewrite <- plus_IZR in H4, H5. apply lt_IZR in H4, H5. lia.
Qed.
(** different separated points are in different cells *)
Lemma cell_diameter : forall x y, grid_coord L st h x = grid_coord L st h y -> Ldist L x y <= r.
Proof.
  intros x y E. unfold Ldist. apply norm2_le_iff; [lra|]. pose proof h_pos as Hh. pose proof r_eq as Er. pose proof sq_pos as Hs.
  assert (LL : length (vsub (mv L x) (mv L y)) = length L) by (rewrite vsub_length; rewrite !mv_length; auto).
  eapply Rle_trans; [apply (norm2sq_coord _ h); [lra|]|].
  - rewrite LL. intros i Hi. rewrite vsub_get by (rewrite !mv_length; auto).
    pose proof (f_equal (fun t => nth i t 0%Z) E) as Ei. simpl in Ei. rewrite !grid_coord_nth in Ei by auto.
    set (a := vget (mv L x) i) in *. set (b := vget (mv L y) i) in *.
    assert (Ea : a - vget st i = (a - vget st i) / h * h) by (field; lra). assert (Eb : b - vget st i = (b - vget st i) / h * h) by (field; lra).
    set (p := (a - vget st i) / h) in *. set (q := (b - vget st i) / h) in *. destruct (int_part_bounds p), (int_part_bounds q). rewrite Ei in *.
    apply Rabs_le. split; nra.
  - rewrite LL, Er. assert (sq * sq = INR (length L)) by (apply sqrt_sqrt, pos_INR). replace (sq * h * (sq * h)) with (sq * sq * (h * h)) by ring. rewrite H. lra.
Qed.

Hypothesis D0 : length dims = length L.
Hypothesis L1 : length L = 1%nat.
Lemma centre1 : forall x, centre (grid_coord L st h x) = grid_coord L st h x.
Proof. intros x. pose proof (grid_coord_len L st h x) as E. rewrite L1 in E. destruct (grid_coord L st h x) as [|a [|b l]]; try discriminate. reflexivity. Qed.

(** the grid records exactly the current points *)
Definition ginv (g : grid) (X : mat) : Prop :=
  (forall n, (n < length X)%nat -> in_range dims (grid_coord L st h (nth n X [])) = true /\ grid_get g (grid_coord L st h (nth n X [])) = S n) /\
  (forall c n, grid_get g c = S n -> (n < length X)%nat).

Lemma grid_accept_iff : forall g X xc, X <> [] -> ginv g X -> grid_accept L r dims st h g X xc = Rltb r (vmin (map (Ldist L xc) X)).
Proof.
  intros g X xc NE [G1 G2]. unfold grid_accept. set (nb := neighbors dims g (grid_rad (length L)) (grid_coord L st h xc)).
  assert (NB : forall n, In n nb -> (n < length X)%nat).
  { intros n Hn. unfold nb, neighbors in Hn. rewrite centre1 in Hn. apply in_flat_map in Hn. destruct Hn as [c [_ Hc]]. destruct (in_range dims c); [|destruct Hc].
    destruct (grid_get g c) as [|k] eqn:E; [destruct Hc|]. destruct Hc as [<-|[]]. eapply G2; eauto. }
  assert (NC : forall n, (n < length X)%nat -> Ldist L xc (nth n X []) <= r -> In n nb).
  { intros n Hn Hd. unfold nb, neighbors. rewrite centre1. apply in_flat_map. exists (grid_coord L st h (nth n X [])). split; [apply near_cells; auto|].
    destruct (G1 n Hn) as [R1 R2]. rewrite R1, R2. left. auto. }
  set (d := match nb with [] => [2 * r] | _ => map (fun n => Ldist L xc (nth n X [])) nb end).
  assert (K : (r < vmin d) <-> (r < vmin (map (Ldist L xc) X))).
  { rewrite vmin_map_gt by auto. split.
    - intros H x Hx. apply In_nth with (d := []) in Hx. destruct Hx as [n [Hn <-]]. destruct (Rle_or_lt (Ldist L xc (nth n X [])) r) as [Hle|]; auto. exfalso.
      pose proof (NC n Hn Hle) as I. unfold d in H. destruct nb as [|b nb'] eqn:Enb; [destruct I|]. rewrite vmin_map_gt in H by discriminate. pose proof (H n I). lra.
    - intros H. unfold d. destruct nb as [|b nb'] eqn:Enb; [unfold vmin; simpl; lra|]. rewrite vmin_map_gt by discriminate. intros n Hn. apply H, nth_In, NB, Hn. }
  destruct (Rltb r (vmin (map (Ldist L xc) X))) eqn:E.
  - apply Rltb_true in E. apply Rltb_true. tauto.
  - apply Rltb_false in E. apply Rltb_false. apply Rnot_lt_le. intro H. apply K in H. lra.
Qed.
Lemma wrap_in_range : forall ds idx, length ds = length idx -> in_range ds idx = true -> wrap ds idx = Some idx.
Proof.
  induction ds as [|d ds IH]; intros [|i idx] HL H; simpl in *; try discriminate; auto. unfold in_range in H. simpl in H. apply andb_true_iff in H. destruct H as [H1 H2].
  unfold wrap1. rewrite H1. rewrite IH; auto.
Qed.
Lemma ginv_snoc : forall g X xc, X <> [] -> ginv g X -> in_range dims (grid_coord L st h xc) = true -> r < vmin (map (Ldist L xc) X) ->
  ginv ((grid_coord L st h xc, (length X + 1)%nat) :: g) (X ++ [xc]).
Proof.
  intros g X xc NE [G1 G2] HR HD. rewrite vmin_map_gt in HD by auto. split.
  - intros n Hn. rewrite app_length in Hn. simpl in Hn. destruct (Nat.eq_dec n (length X)) as [->|Nn].
    + rewrite app_nth2, Nat.sub_diag by lia. simpl nth. split; auto. simpl. unfold zlist_eqb. destruct (list_eq_dec Z.eq_dec _ _); [lia|congruence].
    + assert (Hn' : (n < length X)%nat) by lia. rewrite app_nth1 by auto. destruct (G1 n Hn') as [R1 R2]. split; auto. simpl. unfold zlist_eqb.
      destruct (list_eq_dec Z.eq_dec _ _) as [E|]; auto. exfalso. apply cell_diameter in E. pose proof (HD (nth n X []) (nth_In X [] Hn')). lra.
  - intros c n. rewrite app_length. simpl. unfold zlist_eqb. destruct (list_eq_dec Z.eq_dec _ c); [intro; lia|]. intro E. pose proof (G2 _ _ E). lia.
Qed.

Variables (inside : vec -> bool) (pick : nat -> list nat -> nat) (trials : nat -> vec -> list (vec * R)).
Hypothesis HR : forall x, inside x = true -> in_range dims (grid_coord L st h x) = true.

Lemma first_some_ext : forall (A B : Type) (f g : A -> option B) l, (forall a, f a = g a) -> first_some f l = first_some g l.
Proof. intros A B f g l H. induction l as [|a l IH]; simpl; auto. rewrite H. destruct (g a); auto. Qed.

Lemma grid_loop_refines : forall fuel k g X act, X <> [] -> ginv g X ->
  poisson_grid_loop fuel k L r inside pick trials dims st h g X act = match poisson_loop fuel k L r inside pick trials X act with Some Y => Done Y | None => OutOfFuel end.
Proof.
  induction fuel as [|f IH]; intros k g X act NE G; simpl; auto. destruct (active_idx act) as [|a l] eqn:Ea; auto.
  set (i := pick k (a :: l)). unfold poisson_step.
  assert (E : first_some (poisson_grid_trial L r inside dims st h g X (nth i X [])) (trials k (nth i X [])) = first_some (poisson_trial L r inside X (nth i X [])) (trials k (nth i X []))).
  { apply first_some_ext. intros t. unfold poisson_grid_trial, poisson_trial. destruct (poisson_cand L (nth i X []) t); auto. rewrite grid_accept_iff; auto. }
  rewrite E. destruct (first_some (poisson_trial L r inside X (nth i X [])) (trials k (nth i X []))) as [xc|] eqn:F; simpl.
  - apply first_some_spec in F. destruct F as [t [_ F]]. unfold poisson_trial in F. destruct (poisson_cand L (nth i X []) t) as [y|]; [|discriminate].
    destruct (inside y && Rltb r (vmin (map (Ldist L y) X)))%bool eqn:E2; [|discriminate]. injection F as <-. apply andb_true_iff in E2. destruct E2 as [E2 E3]. apply Rltb_true in E3.
    unfold grid_set. rewrite wrap_in_range by (rewrite ?grid_coord_len; auto). apply IH; [destruct X; discriminate|]. apply ginv_snoc; auto.
  - apply IH; auto.
Qed.
End Grid.

(** In one dimension: if every point of the domain falls on the grid, the grid variant returns exactly what the plain sampler returns
    for the same random choices. *)
Theorem poisson_grid_refines : forall fuel L r inside corner pick trials x0, length L = 1%nat -> 0 < r -> inside x0 = true ->
  (forall x, inside x = true -> in_range (grid_dims corner L r) (grid_coord L (grid_start corner L) (grid_h L r) x) = true) ->
  poisson_grid fuel L r inside corner pick trials x0 = match poisson fuel L r inside pick trials x0 with Some Y => Done Y | None => OutOfFuel end.
Proof.
  intros fuel L r inside corner pick trials x0 L1 r0 H0 HR. assert (L0 : (0 < length L)%nat) by lia. unfold poisson_grid, poisson.
  assert (DL : length (grid_dims corner L r) = length L) by (unfold grid_dims; rewrite map_length; auto).
  unfold grid_set. rewrite wrap_in_range by (try rewrite grid_coord_len; auto). apply grid_loop_refines; auto; [discriminate|].
  split.
  - intros n Hn. simpl in Hn. assert (n = O) by lia. subst n. simpl nth. split; [auto|]. simpl. unfold zlist_eqb. destruct (list_eq_dec Z.eq_dec _ _); [auto|congruence].
  - intros c n E. simpl in *. unfold zlist_eqb in E. destruct (list_eq_dec Z.eq_dec _ c); [lia|discriminate].
Qed.

(** the grid covers the domain if the corners bound it and no row's extent is an exact multiple of the cell size *)
Theorem grid_covers : forall L r corner x, 0 < r -> (0 < length L)%nat ->
  (forall a, In a L -> grid_lo corner a <= dot a x <= grid_hi corner a) ->
  (forall a, In a L -> forall z : Z, (grid_hi corner a - grid_lo corner a) / grid_h L r <> IZR z) ->
  in_range (grid_dims corner L r) (grid_coord L (grid_start corner L) (grid_h L r) x) = true.
Proof.
  intros L r corner x r0 L0 HB HN. unfold in_range. apply forallb_forall. intros [d i] I. simpl.
  assert (Hh : 0 < grid_h L r) by (eapply h_pos; eauto).
  destruct (In_nth _ _ (0%Z, 0%Z) I) as [k [Hk E]]. rewrite combine_length in Hk. unfold grid_dims in Hk at 1. rewrite map_length, grid_coord_len in Hk.
  rewrite combine_nth in E by (unfold grid_dims; rewrite map_length, grid_coord_len; auto). injection E as Ed Ei.
  rewrite grid_coord_nth in Ei by lia. assert (KI : (k < length L)%nat) by lia.
  assert (Es : vget (grid_start corner L) k = grid_lo corner (nth k L [])).
  { unfold vget, grid_start. rewrite nth_indep with (d' := grid_lo corner []) by (rewrite map_length; auto). apply map_nth. }
  assert (Em : vget (mv L x) k = dot (nth k L []) x).
  { unfold vget, mv. rewrite nth_indep with (d' := dot [] x) by (rewrite map_length; auto). apply (map_nth (fun a => dot a x)). }
  assert (Ed' : d = zceil ((grid_hi corner (nth k L []) - grid_lo corner (nth k L [])) / grid_h L r)).
  { rewrite <- Ed. unfold grid_dims. rewrite nth_indep with (d' := (fun a => zceil ((grid_hi corner a - grid_lo corner a) / grid_h L r)) []) by (rewrite map_length; auto).
    apply (map_nth (fun a => zceil ((grid_hi corner a - grid_lo corner a) / grid_h L r))). }
  rewrite Es, Em in Ei. set (a := nth k L []) in *. assert (Ia : In a L) by (apply nth_In; auto). destruct (HB a Ia) as [B1 B2].
  set (t := (dot a x - grid_lo corner a) / grid_h L r) in *. set (w := (grid_hi corner a - grid_lo corner a) / grid_h L r) in *.
  assert (T0 : 0 <= t) by (apply Rmult_le_pos; [lra|left; apply Rinv_0_lt_compat; auto]).
  assert (TW : t <= w) by (apply Rmult_le_compat_r; [left; apply Rinv_0_lt_compat; auto|lra]).
  apply andb_true_iff. split; [apply Z.leb_le; rewrite <- Ei; apply int_part_nonneg; auto|]. apply Z.ltb_lt. rewrite <- Ei, Ed'.
  destruct (zceil_ub w) as [C1 C2]. assert (w < IZR (zceil w)) by (destruct C1 as [C1|C1]; auto; exfalso; apply (HN a Ia (zceil w)); auto).
  apply lt_IZR. destruct (int_part_bounds t). lra.
Qed.

(** any two points within r of each other are in neighbouring cells, whatever the dimension; points of one cell are within r *)
Theorem grid_near : forall L r st x y, (0 < length L)%nat -> 0 < r -> Ldist L x y <= r ->
  In (grid_coord L st (grid_h L r) y) (cells (grid_rad (length L)) (grid_coord L st (grid_h L r) x)).
Proof. intros L r st x y L0 r0 H. apply near_cells; auto. Qed.
Theorem grid_same : forall L r st x y, (0 < length L)%nat -> 0 < r -> grid_coord L st (grid_h L r) x = grid_coord L st (grid_h L r) y -> Ldist L x y <= r.
Proof. intros L r st x y L0 r0 H. apply (cell_diameter L r st L0 r0); auto. Qed.
