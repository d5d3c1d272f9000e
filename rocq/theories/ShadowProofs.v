(** The interpolation matrix of shadow_envelope (subspace.py 130-223). *)
Require Import Reals List Bool Arith ZArith Lia Lra.
From Verif Require Import RVec Num Sums DomMoreModel SweepProofs HullIneqProofs MatLib LipModel SubModel.
Import ListNotations.
Local Open Scope R_scope.

(** the piecewise linear function through (grid_k, v_k) on the interval k *)
Definition on_piece (grid v : vec) (k : nat) (y : R) : R :=
  vget v k + (y - vget grid k) / (vget grid (S k) - vget grid k) * (vget v (S k) - vget v k).

Lemma dot_map_seq_l : forall n f v, length v = n -> dot (map f (seq 0 n)) v = rsum n (fun k => f k * vget v k).
Proof.
  intros n f v L. rewrite dot_rsum by (rewrite map_length, seq_length; auto). rewrite map_length, seq_length.
  apply rsum_ext. intros k Hk. rewrite vget_map_seq by auto. auto.
Qed.
Lemma bin_spec : forall yy0 h y, IZR (se_bin yy0 h y) <= (y - yy0) / h < IZR (se_bin yy0 h y) + 1.
Proof. intros. unfold se_bin. destruct (base_Int_part ((y - yy0) / h)). lra. Qed.
Lemma bin_range : forall yy0 h y n, 0 < h -> (1 <= n)%nat -> yy0 <= y <= yy0 + INR (n - 1) * h -> (0 <= se_bin yy0 h y <= Z.of_nat n - 1)%Z.
Proof.
  intros yy0 h y n Hh Hn [A B]. destruct (bin_spec yy0 h y) as [C D].
  assert (0 <= (y - yy0) / h) by (apply Rmult_le_pos; [lra|left; apply Rinv_0_lt_compat; auto]).
  assert ((y - yy0) / h <= INR (n - 1)). { apply Rmult_le_reg_r with h; auto. unfold Rdiv. rewrite Rmult_assoc, Rinv_l by lra. lra. }
  split.
  - assert (IZR (-1) < IZR (se_bin yy0 h y)) by (simpl IZR; lra). apply lt_IZR in H1. lia.
  - rewrite INR_IZR_INZ in H0. rewrite Nat2Z.inj_sub in H0 by auto. apply le_IZR. simpl Z.of_nat in H0. lra.
Qed.
Lemma row_length : forall yy0 h n y, length (se_row yy0 h n y) = n.
Proof. intros. unfold se_row. rewrite map_length, seq_length. auto. Qed.

(** the product of a row with a vector: two neighbouring entries *)
Lemma row_dot : forall yy0 h n y v j, 0 < h -> se_bin yy0 h y = Z.of_nat j -> (S j < n)%nat -> length v = n ->
  dot (se_row yy0 h n y) v = (yy0 + (INR j + 1) * h - y) / h * vget v j + (y - (yy0 + INR j * h)) / h * vget v (S j).
Proof.
  intros yy0 h n y v j Hh Hj Hn L. unfold se_row. rewrite Hj. rewrite dot_map_seq_l by auto.
  rewrite <- INR_IZR_INZ.
  replace (negb (Z.of_nat j =? Z.of_nat n - 1)%Z) with true by (symmetry; apply negb_true_iff, Z.eqb_neq; lia). simpl andb.
  rewrite (rsum_ext n _ (fun k => (if Nat.eqb k j then (yy0 + (INR j + 1) * h - y) / h * vget v k else 0) + (if Nat.eqb k (S j) then (y - (yy0 + INR j * h)) / h * vget v k else 0))).
  2:{ intros k Hk. replace (Z.of_nat k =? Z.of_nat j)%Z with (Nat.eqb k j) by (destruct (Nat.eqb_spec k j), (Z.eqb_spec (Z.of_nat k) (Z.of_nat j)); auto; lia).
      replace (Z.of_nat k =? Z.of_nat j + 1)%Z with (Nat.eqb k (S j)) by (destruct (Nat.eqb_spec k (S j)), (Z.eqb_spec (Z.of_nat k) (Z.of_nat j + 1)); auto; lia).
      destruct (Nat.eqb k j), (Nat.eqb k (S j)); ring. }
  rewrite rsum_plus. f_equal.
  - rewrite (rsum_single n j); [rewrite Nat.eqb_refl; auto|lia|]. intros i Hi N. destruct (Nat.eqb_spec i j); [lia|auto].
  - rewrite (rsum_single n (S j)); [rewrite Nat.eqb_refl; auto|lia|]. intros i Hi N. destruct (Nat.eqb_spec i (S j)); [lia|auto].
Qed.
Lemma row_dot_last : forall yy0 h n y v, 0 < h -> (1 <= n)%nat -> se_bin yy0 h y = (Z.of_nat n - 1)%Z -> y = yy0 + INR (n - 1) * h -> length v = n ->
  dot (se_row yy0 h n y) v = vget v (n - 1).
Proof.
  intros yy0 h n y v Hh Hn Hj E L. unfold se_row. rewrite Hj. rewrite dot_map_seq_l by auto.
  rewrite (rsum_single n (n - 1)).
  - replace (Z.of_nat (n - 1) =? Z.of_nat n - 1)%Z with true by (symmetry; apply Z.eqb_eq; lia).
    rewrite Z.eqb_refl. simpl. replace (IZR (Z.of_nat n - 1)) with (INR (n - 1)).
    + rewrite E. field. lra.
    + rewrite INR_IZR_INZ. f_equal. lia.
  - lia.
  - intros i Hi N. rewrite Z.eqb_refl. replace (Z.of_nat i =? Z.of_nat n - 1)%Z with false by (symmetry; apply Z.eqb_neq; lia). simpl. ring.
Qed.
(** exact value of the matrix-vector product: the piecewise linear interpolant, on any piece containing the point *)
Lemma row_interp : forall a b n y v k, a < b -> (2 <= n)%nat -> length v = n -> (S k < n)%nat ->
  vget (linspace a b n) k <= y <= vget (linspace a b n) (S k) ->
  dot (se_row a ((b - a) / INR (n - 1)) n y) v = on_piece (linspace a b n) v k y.
Proof.
  intros a b n y v k Hab Hn L Hk H. set (h := (b - a) / INR (n - 1)).
  assert (N1 : 1 <= INR (n - 1)) by (change 1 with (INR 1); apply le_INR; lia).
  assert (Hh : 0 < h) by (unfold h; apply Rmult_lt_0_compat; [lra|apply Rinv_0_lt_compat; lra]).
  rewrite !linspace_get in H by lia. fold h in H. unfold on_piece. rewrite !linspace_get by lia. fold h.
  assert (INR (S k) <= INR (n - 1)) by (apply le_INR; lia). pose proof (pos_INR k) as Pk.
  assert (R0 : (0 <= se_bin a h y <= Z.of_nat n - 1)%Z). { apply bin_range; auto; [lia|]. split; [nra|]. apply Rle_trans with (a + INR (S k) * h); [lra|nra]. }
  destruct (bin_spec a h y) as [B1 B2]. set (t := (y - a) / h) in *.
  assert (Ey : y = a + t * h) by (unfold t; field; lra). 
  assert (T1 : INR k <= t) by (apply Rmult_le_reg_r with h; auto; lra).
  assert (T2 : t <= INR (S k)) by (apply Rmult_le_reg_r with h; auto; lra). rewrite S_INR in *.
  destruct (Rle_lt_or_eq_dec _ _ T2) as [T3|T3].
  - (* bin is k *)
    assert (J : se_bin a h y = Z.of_nat k).
    { assert (IZR (se_bin a h y) < IZR (Z.of_nat k + 1)) as C1. { rewrite plus_IZR, <- INR_IZR_INZ. lra. }
      assert (IZR (Z.of_nat k - 1) < IZR (se_bin a h y)) as C2. { rewrite minus_IZR, <- INR_IZR_INZ. lra. }
      apply lt_IZR in C1. apply lt_IZR in C2. lia. }
    rewrite (row_dot a h n y v k) by auto. rewrite Ey. field. lra.
  - (* y is the grid point k+1 *)
    assert (J : se_bin a h y = Z.of_nat (S k)).
    { assert (IZR (se_bin a h y) < IZR (Z.of_nat (S k) + 1)) as C1. { rewrite plus_IZR, <- INR_IZR_INZ, S_INR. lra. }
      assert (IZR (Z.of_nat (S k) - 1) < IZR (se_bin a h y)) as C2. { rewrite minus_IZR, <- INR_IZR_INZ, S_INR. lra. }
      apply lt_IZR in C1. apply lt_IZR in C2. lia. }
    destruct (Nat.eq_dec (S k) (n - 1)) as [E|E].
    + rewrite row_dot_last; auto; [|lia|rewrite J; lia|rewrite <- E, S_INR; rewrite Ey at 1; rewrite T3; auto]. rewrite <- E. rewrite Ey, T3. field. lra.
    + rewrite (row_dot a h n y v (S k)) by (auto; lia). rewrite S_INR, Ey, T3. field. lra.
Qed.
Lemma row_entries : forall yy0 h n y k, 0 < h -> (1 <= n)%nat -> yy0 <= y <= yy0 + INR (n - 1) * h -> (k < n)%nat -> 0 <= vget (se_row yy0 h n y) k.
Proof.
  intros yy0 h n y k Hh Hn H Hk. unfold se_row. rewrite vget_map_seq by auto. destruct (bin_spec yy0 h y) as [A B]. set (j := IZR (se_bin yy0 h y)) in *. set (t := (y - yy0) / h) in *.
  assert (Ey : y = yy0 + t * h) by (unfold t; field; lra).
  assert (E1 : (yy0 + (j + 1) * h - y) / h = j + 1 - t) by (rewrite Ey; field; lra).
  assert (E2 : (y - (yy0 + j * h)) / h = t - j) by (rewrite Ey; field; lra). rewrite E1, E2.
  destruct (Z.of_nat k =? se_bin yy0 h y)%Z; destruct (negb (se_bin yy0 h y =? Z.of_nat n - 1)%Z && (Z.of_nat k =? se_bin yy0 h y + 1)%Z); lra.
Qed.
Lemma piece_exists : forall a b n y, a < b -> (2 <= n)%nat -> a <= y <= b -> exists k, (S k < n)%nat /\ vget (linspace a b n) k <= y <= vget (linspace a b n) (S k).
Proof.
  intros a b n y Hab Hn Hy. set (h := (b - a) / INR (n - 1)).
  assert (N1 : 1 <= INR (n - 1)) by (change 1 with (INR 1); apply le_INR; lia).
  assert (Hh : 0 < h) by (unfold h; apply Rmult_lt_0_compat; [lra|apply Rinv_0_lt_compat; lra]).
  assert (Hb : b = a + INR (n - 1) * h) by (unfold h; field; lra).
  assert (R0 : (0 <= se_bin a h y <= Z.of_nat n - 1)%Z) by (apply bin_range; auto; [lia|lra]).
  destruct (bin_spec a h y) as [B1 B2]. set (t := (y - a) / h) in *. assert (Ey : y = a + t * h) by (unfold t; field; lra).
  destruct (Z.eq_dec (se_bin a h y) (Z.of_nat n - 1)) as [E|E].
  - exists (n - 2)%nat. split; [lia|]. rewrite !linspace_get by lia. fold h. replace (S (n - 2)) with (n - 1)%nat by lia.
    assert (INR (n - 1) <= t). { rewrite E in B1. replace (INR (n - 1)) with (IZR (Z.of_nat n - 1)); auto. rewrite INR_IZR_INZ. f_equal. lia. }
    assert (INR (n - 2) <= INR (n - 1)) by (apply le_INR; lia). nra.
  - exists (Z.to_nat (se_bin a h y)). split; [lia|]. rewrite !linspace_get by lia. fold h. rewrite S_INR.
    assert (I0 : INR (Z.to_nat (se_bin a h y)) = IZR (se_bin a h y)) by (rewrite INR_IZR_INZ, Z2Nat.id by lia; auto). rewrite I0.
    assert (IZR (se_bin a h y) * h <= t * h) by (apply Rmult_le_compat_r; lra). assert (t * h <= (IZR (se_bin a h y) + 1) * h) by (apply Rmult_le_compat_r; lra). lra.
Qed.
Definition vconst (n : nat) (c : R) : vec := repeat c n.
Lemma vconst_get : forall n c k, (k < n)%nat -> vget (vconst n c) k = c.
Proof. intros n c. unfold vget, vconst. induction n; intros k H; [lia|]. destruct k; simpl; auto. apply IHn. lia. Qed.
Lemma dot_const : forall x n, length x = n -> dot x (vconst n 1) = vsum x.
Proof. intros x n L. rewrite dot_rsum by (unfold vconst; rewrite repeat_length; auto). rewrite vsum_rsum. apply rsum_ext. intros i Hi. rewrite vconst_get by lia. ring. Qed.

(** partition of unity: the rows are non-negative, sum to one and reproduce the abscissa *)
Theorem rows_partition : forall a b n y, a < b -> (2 <= n)%nat -> a <= y <= b ->
  let row := se_row a ((b - a) / INR (n - 1)) n y in
  length row = n /\ Forall (fun c => 0 <= c) row /\ vsum row = 1 /\ dot row (linspace a b n) = y.
Proof.
  intros a b n y Hab Hn Hy row. destruct (piece_exists a b n y Hab Hn Hy) as [k [Hk Hp]].
  assert (N1 : 1 <= INR (n - 1)) by (change 1 with (INR 1); apply le_INR; lia).
  set (h := (b - a) / INR (n - 1)) in *. assert (Hh : 0 < h) by (unfold h; apply Rmult_lt_0_compat; [lra|apply Rinv_0_lt_compat; lra]).
  split; [apply row_length|]. split; [|split].
  - apply Forall_forall. intros c Ic. apply In_nth with (d := 0) in Ic. destruct Ic as [i [Hi E]]. subst row. rewrite row_length in Hi.
    rewrite <- E. apply row_entries; auto; [lia|]. unfold h. split; [lra|]. replace (a + INR (n - 1) * ((b - a) / INR (n - 1))) with b by (field; lra). lra.
  - rewrite <- (dot_const row n) by apply row_length. unfold row, h. rewrite (row_interp a b n y _ k) by (auto; unfold vconst; apply repeat_length).
    unfold on_piece. rewrite !vconst_get by lia. ring.
  - unfold row, h. rewrite (row_interp a b n y _ k) by (auto; apply linspace_length). unfold on_piece. rewrite !linspace_get by lia. fold h. rewrite S_INR.
    replace (a + (INR k + 1) * h - (a + INR k * h)) with h by ring. field. lra.
Qed.

Lemma se_h_eq : forall y n, (2 <= n)%nat -> se_h y n = (vmax y - vmin y) / INR (n - 1) /\ vget (se_grid y n) 0 = vmin y.
Proof. intros y n Hn. unfold se_h, se_grid. rewrite !linspace_get by lia. simpl INR. split; ring. Qed.
Lemma se_h_nz : forall y n, (2 <= n)%nat -> (se_h y n <> 0 <-> vmin y < vmax y) .
Proof.
  intros y n Hn. destruct (se_h_eq y n Hn) as [E _]. assert (N1 : 1 <= INR (n - 1)) by (change 1 with (INR 1); apply le_INR; lia).
  assert (M : vmin y <= vmax y). { destruct y as [|c y]; [unfold vmin, vmax; lra|]. destruct (vmin_spec (c :: y)) as [A B]; [discriminate|]. destruct (vmax_spec (c :: y)) as [C _]; [discriminate|]. auto. }
  rewrite E. split; intros H.
  - destruct (Rle_lt_or_eq_dec _ _ M); auto. exfalso. apply H. rewrite e. field. lra.
  - apply Rgt_not_eq. apply Rmult_lt_0_compat; [lra|apply Rinv_0_lt_compat; lra].
Qed.
Lemma y_range : forall (y : vec) c, In c y -> vmin y <= c <= vmax y.
Proof. intros y c I. assert (y <> []) by (intros ->; inversion I). destruct (vmin_spec y H), (vmax_spec y H). auto. Qed.

(** all bins lie in 0..n-1; only the largest projection falls into the last one *)
Theorem bins_range : forall y n c, (2 <= n)%nat -> vmin y < vmax y -> In c y ->
  let b := se_bin (vget (se_grid y n) 0) (se_h y n) c in (0 <= b <= Z.of_nat n - 1)%Z /\ (b = (Z.of_nat n - 1)%Z <-> c = vmax y).
Proof.
  intros y n c Hn Hy I b. destruct (se_h_eq y n Hn) as [E1 E2]. unfold b. rewrite E1, E2. set (h := (vmax y - vmin y) / INR (n - 1)).
  assert (N1 : 1 <= INR (n - 1)) by (change 1 with (INR 1); apply le_INR; lia).
  assert (Hh : 0 < h) by (unfold h; apply Rmult_lt_0_compat; [lra|apply Rinv_0_lt_compat; lra]).
  assert (Hb : vmax y = vmin y + INR (n - 1) * h) by (unfold h; field; lra). destruct (y_range y c I) as [R1 R2].
  assert (R : (0 <= se_bin (vmin y) h c <= Z.of_nat n - 1)%Z) by (apply bin_range; auto; [lia|lra]). split; auto.
  destruct (bin_spec (vmin y) h c) as [B1 B2]. set (t := (c - vmin y) / h) in *. assert (Ec : c = vmin y + t * h) by (unfold t; field; lra).
  assert (I1 : IZR (Z.of_nat n - 1) = INR (n - 1)) by (rewrite INR_IZR_INZ; f_equal; lia). split; intros H.
  - rewrite H, I1 in B1. apply Rle_antisym; auto. rewrite Hb, Ec. nra.
  - assert (t = INR (n - 1)). { apply Rmult_eq_reg_r with h; lra. } rewrite H0 in *.
    assert (IZR (Z.of_nat n - 1 - 1) < IZR (se_bin (vmin y) h c)) by (rewrite minus_IZR, I1; lra). apply lt_IZR in H1. lia.
Qed.

(** the search of the number of grid points: between 3 and 25, at least five projections in every bin unless it is 3 *)
Lemma search_spec : forall y n, (3 <= n)%nat -> (3 <= se_search y n <= n)%nat /\ ((se_search y n = 3)%nat \/ se_test y (se_search y n) = true).
Proof.
  induction n as [|n IH]; intros H; [lia|]. cbn [se_search]. destruct (Nat.eqb_spec (S n) 3) as [E|E]; [lia|].
  destruct (se_test y (S n)) eqn:T; [split; [lia|auto]|]. destruct IH as [A B]; [lia|]. split; [lia|auto].
Qed.
Lemma filter_le : forall (A : Type) (f : A -> bool) l, (length (filter f l) <= length l)%nat.
Proof. induction l as [|a l IH]; simpl; auto. destruct (f a); simpl; lia. Qed.
Lemma filter_full : forall (A : Type) (f : A -> bool) l, length (filter f l) = length l -> forall x, In x l -> f x = true.
Proof.
  induction l as [|a l IH]; intros H x I; [inversion I|]. simpl in H. pose proof (filter_le A f l) as FL.
  destruct (f a) eqn:E; simpl in H; [|lia]. destruct I as [<-|I]; auto.
Qed.
Lemma filter_all : forall (A : Type) (f : A -> bool) l, (forall x, In x l -> f x = true) -> filter f l = l.
Proof. induction l as [|a l IH]; intros H; auto. simpl. rewrite H by (left; auto). f_equal. apply IH. intros; apply H; right; auto. Qed.
Theorem search_bins : forall y, let n := se_ngrid y None in (3 <= n <= 25)%nat /\
  ((n = 3)%nat \/ ((forall k, (S k < n)%nat -> (5 <= se_count y n k)%nat) /\ (1 <= se_count y n (n - 1))%nat)).
Proof.
  intros y. unfold se_ngrid. generalize (search_spec y 25). generalize (se_search y 25). intros n SP. destruct SP as [A B]; [lia|]. split; auto. destruct B as [B|B]; auto. right.
  unfold se_test in B. apply andb_true_iff in B. destruct B as [B1 B2]. apply Nat.eqb_eq in B2.
  assert (FA : forall k, In k (seq 0 n) -> Nat.ltb 0 (se_count y n k) = true). { apply filter_full. rewrite seq_length. apply B2. }
  assert (EI : se_items y n = seq 0 n) by (apply filter_all; auto).
  unfold se_counts in B1. rewrite EI in B1. split.
  - intros k Hk. rewrite forallb_forall in B1. apply Nat.leb_le. apply B1.
    replace n with (S (n - 1)) by lia. rewrite seq_S, map_app. cbn [map]. rewrite removelast_last. apply in_map_iff. exists k. replace (S (n - 1)) with n by lia. split; auto. apply in_seq. lia.
  - apply Nat.ltb_lt. apply FA. apply in_seq. lia.
Qed.

(** the envelope encloses the data: for every sample, the piecewise linear functions through (yy, lb) and (yy, ub) at its projection *)
Theorem envelope_encloses : forall solve_ub solve_lb X fX u ngrid y lb ub,
  shadow_envelope solve_ub solve_lb X fX u ngrid = Some (y, lb, ub) ->
  let n := se_ngrid y ngrid in (2 <= n)%nat ->
  se_ub_ok n (se_A y n) fX ub -> se_lb_ok n (se_A y n) fX lb ->
  length lb = n /\ length ub = n /\ vmin y < vmax y /\
  forall i k, (i < length X)%nat -> (S k < n)%nat -> let t := dot (nth i X []) u in
    vget (se_grid y n) k <= t <= vget (se_grid y n) (S k) ->
    on_piece (se_grid y n) lb k t <= vget fX i <= on_piece (se_grid y n) ub k t.
Proof.
  intros su sl X fX u ngrid y lb ub E n Hn [L1 [U1 _]] [L2 [U2 _]]. unfold shadow_envelope in E.
  destruct (Nat.eqb_spec (length X) (length fX)) as [EL|]; [|discriminate]. cbn [negb] in E.
  set (y0 := map (fun x => dot x u) X) in *. destruct (Reqb (se_h y0 (se_ngrid y0 ngrid)) 0) eqn:Z; [discriminate|]. apply Reqb_false in Z.
  injection E as <- _ _. fold n in Z. assert (Hv : vmin y0 < vmax y0) by (apply (se_h_nz y0 n); auto).
  split; auto. split; auto. split; auto. intros i k Hi Hk t Ht.
  destruct (se_h_eq y0 n Hn) as [E1 E2].
  assert (LA : length (se_A y0 n) = length X) by (unfold se_A, y0; rewrite !map_length; auto).
  assert (NI : nth i (se_A y0 n) [] = se_row (vmin y0) ((vmax y0 - vmin y0) / INR (n - 1)) n t).
  { unfold se_A. rewrite E1, E2. rewrite nth_indep with (d' := se_row (vmin y0) ((vmax y0 - vmin y0) / INR (n - 1)) n 0) by (rewrite map_length; unfold y0; rewrite map_length; auto).
    rewrite map_nth. f_equal. unfold y0, t. rewrite nth_indep with (d' := dot [] u) by (rewrite map_length; auto). rewrite (map_nth (fun x => dot x u)). auto. }
  specialize (U1 i ltac:(lia)). specialize (U2 i ltac:(lia)). rewrite NI in U1, U2. unfold se_grid in Ht |- *.
  rewrite (row_interp (vmin y0) (vmax y0) n t ub k) in U1 by auto. rewrite (row_interp (vmin y0) (vmax y0) n t lb k) in U2 by auto. lra.
Qed.
(** every projection lies on some piece *)
Theorem envelope_pieces : forall (X : mat) (u : vec) n i, let y := map (fun x => dot x u) X in (2 <= n)%nat -> vmin y < vmax y -> (i < length X)%nat ->
  exists k, (S k < n)%nat /\ vget (se_grid y n) k <= dot (nth i X []) u <= vget (se_grid y n) (S k).
Proof.
  intros X u n i y Hn Hv Hi. apply piece_exists; auto. apply y_range. unfold y. apply in_map_iff. exists (nth i X []). split; auto. apply nth_In; auto.
Qed.

Lemma se_row_eq : forall y n i, (2 <= n)%nat -> (i < length y)%nat -> nth i (se_A y n) [] = se_row (vmin y) ((vmax y - vmin y) / INR (n - 1)) n (vget y i).
Proof.
  intros y n i Hn Hi. destruct (se_h_eq y n Hn) as [E1 E2]. unfold se_A. rewrite E1, E2.
  rewrite nth_indep with (d' := se_row (vmin y) ((vmax y - vmin y) / INR (n - 1)) n 0) by (rewrite map_length; auto). rewrite map_nth. auto.
Qed.
(** and it is the tightest one: any values on the grid whose interpolant lies above (below) the data have a larger (smaller) sum *)
Theorem envelope_tight : forall solve_ub solve_lb X fX u ngrid y lb ub,
  shadow_envelope solve_ub solve_lb X fX u ngrid = Some (y, lb, ub) ->
  let n := se_ngrid y ngrid in (2 <= n)%nat ->
  se_ub_ok n (se_A y n) fX ub -> se_lb_ok n (se_A y n) fX lb -> forall w, length w = n ->
  ((forall i k, (i < length X)%nat -> (S k < n)%nat -> vget (se_grid y n) k <= dot (nth i X []) u <= vget (se_grid y n) (S k) -> vget fX i <= on_piece (se_grid y n) w k (dot (nth i X []) u)) -> vsum ub <= vsum w) /\
  ((forall i k, (i < length X)%nat -> (S k < n)%nat -> vget (se_grid y n) k <= dot (nth i X []) u <= vget (se_grid y n) (S k) -> on_piece (se_grid y n) w k (dot (nth i X []) u) <= vget fX i) -> vsum w <= vsum lb).
Proof.
  intros su sl X fX u ngrid y lb ub E n Hn HU HL w Lw. pose proof (envelope_encloses su sl X fX u ngrid y lb ub E Hn HU HL) as [_ [_ [Hv _]]].
  unfold shadow_envelope in E. destruct (Nat.eqb_spec (length X) (length fX)) as [EL|]; [|discriminate]. cbn [negb] in E.
  set (y0 := map (fun x => dot x u) X) in *. destruct (Reqb (se_h y0 (se_ngrid y0 ngrid)) 0) eqn:Z; [discriminate|]. injection E as <- _ _.
  assert (Ly : length y0 = length X) by (unfold y0; rewrite map_length; auto).
  assert (LA : length (se_A y0 n) = length X) by (unfold se_A; rewrite map_length; auto).
  assert (NI : forall i, (i < length X)%nat -> exists k, (S k < n)%nat /\ vget (se_grid y0 n) k <= dot (nth i X []) u <= vget (se_grid y0 n) (S k) /\ dot (nth i (se_A y0 n) []) w = on_piece (se_grid y0 n) w k (dot (nth i X []) u)).
  { intros i Hi. destruct (envelope_pieces X u n i Hn Hv Hi) as [k [Hk P]]. exists k. split; auto. split; auto. rewrite se_row_eq by lia.
    assert (EY : vget y0 i = dot (nth i X []) u). { unfold y0, vget. rewrite nth_indep with (d' := dot [] u) by (rewrite map_length; auto). apply (map_nth (fun x => dot x u)). }
    rewrite EY. apply row_interp; auto. }
  split; intros H.
  - destruct HU as [_ [_ M]]. apply M; auto. intros i Hi. destruct (NI i ltac:(lia)) as [k [Hk [P ->]]]. apply H; auto; lia.
  - destruct HL as [_ [_ M]]. apply M; auto. intros i Hi. destruct (NI i ltac:(lia)) as [k [Hk [P ->]]]. apply H; auto; lia.
Qed.

Example rows_case : vsum (se_row 0 ((2 - 0) / INR (3 - 1)) 3 (1 / 2)) = 1 /\ dot (se_row 0 ((2 - 0) / INR (3 - 1)) 3 (1 / 2)) (linspace 0 2 3) = 1 / 2.
Proof. destruct (rows_partition 0 2 3 (1 / 2)) as [_ [_ P]]; [lra|lia|lra|]. exact P. Qed.

(** samples at 0, 1, 2 on three grid points: the interpolation matrix is the identity *)
Lemma se_case_grid : forall a, se_grid [0; a; 2] 3 = linspace (vmin [0; a; 2]) (vmax [0; a; 2]) 3.
Proof. auto. Qed.
Lemma se_minmax : forall a, 0 <= a <= 2 -> vmin [0; a; 2] = 0 /\ vmax [0; a; 2] = 2.
Proof. intros a H. unfold vmin, vmax; simpl; unfold Rmin, Rmax; split; repeat (destruct (Rle_dec _ _)); lra. Qed.
Lemma linspace3 : forall k, (k < 3)%nat -> vget (linspace 0 2 3) k = INR k.
Proof. intros k H. rewrite linspace_get by lia. simpl (3 - 1)%nat. simpl (INR 2). field. Qed.
Lemma se_A3 : forall a i v, 0 <= a <= 2 -> (i < 3)%nat -> length v = 3%nat -> forall k, (S k < 3)%nat -> INR k <= vget [0; a; 2] i <= INR (S k) ->
  dot (nth i (se_A [0; a; 2] 3) []) v = vget v k + (vget [0; a; 2] i - INR k) * (vget v (S k) - vget v k).
Proof.
  intros a i v Ha Hi Lv k Hk H. destruct (se_minmax a Ha) as [M1 M2]. rewrite se_row_eq by (simpl; lia). rewrite M1, M2.
  rewrite (row_interp 0 2 3 _ v k); auto; try lra; [|rewrite !linspace3 by lia; auto].
  unfold on_piece. rewrite !linspace3 by lia. rewrite S_INR. field. lra.
Qed.
Lemma vec3 : forall v : vec, length v = 3%nat -> exists a b c, v = [a; b; c].
Proof. intros [|a [|b [|c [|d v]]]] L; try discriminate. eauto. Qed.
Example envelope_case : exists y lb ub, let su := fun _ _ => [0; 1; 0] in
  shadow_envelope su su [[0]; [1]; [2]] [0; 1; 0] [1] (Some 3%nat) = Some (y, lb, ub) /\
  se_ub_ok 3 (se_A y 3) [0; 1; 0] ub /\ se_lb_ok 3 (se_A y 3) [0; 1; 0] lb /\ (2 <= se_ngrid y (Some 3%nat))%nat.
Proof.
  exists [0; 1; 2], [0; 1; 0], [0; 1; 0]. assert (EY : map (fun x => dot x [1]) [[0]; [1]; [2]] = [0; 1; 2]).
  { cbn [map]. rewrite !dot_cons, !dot_nil_l. f_equal; [lra|]. f_equal; [lra|]. f_equal. lra. }
  assert (H1 : 0 <= 1 <= 2) by lra.
  assert (D : forall a b c i, (i < 3)%nat -> dot (nth i (se_A [0; 1; 2] 3) []) [a; b; c] = vget [a; b; c] i).
  { intros a b c i Hi. destruct i as [|[|[|i]]]; try lia.
    - rewrite (se_A3 1 0 [a; b; c] H1 ltac:(lia) eq_refl 0%nat); [|lia|unfold vget; simpl; lra]. unfold vget; simpl; lra.
    - rewrite (se_A3 1 1 [a; b; c] H1 ltac:(lia) eq_refl 0%nat); [|lia|unfold vget; simpl; lra]. unfold vget; simpl; lra.
    - rewrite (se_A3 1 2 [a; b; c] H1 ltac:(lia) eq_refl 1%nat); [|lia|unfold vget; simpl; lra]. unfold vget; simpl; lra. }
  split; [|split; [|split]].
  - unfold shadow_envelope. cbn [length Nat.eqb negb]. rewrite EY. destruct (Reqb _ 0) eqn:Z; auto. apply Reqb_true in Z.
    unfold se_ngrid in Z. destruct (se_h_eq [0; 1; 2] 3 ltac:(lia)) as [E1 E2]. rewrite E1 in Z. destruct (se_minmax 1 H1) as [M1 M2]. rewrite M1, M2 in Z. simpl in Z. lra.
  - split; auto. split.
    + intros i Hi. rewrite D by auto. lra.
    + intros w Lw A. destruct (vec3 w Lw) as [a [b [c ->]]]. pose proof (A 0%nat ltac:(simpl; lia)) as A0. pose proof (A 1%nat ltac:(simpl; lia)) as A1. pose proof (A 2%nat ltac:(simpl; lia)) as A2.
      rewrite D in A0, A1, A2 by lia. unfold vget in A0, A1, A2. simpl in *. lra.
  - split; auto. split.
    + intros i Hi. rewrite D by auto. lra.
    + intros w Lw A. destruct (vec3 w Lw) as [a [b [c ->]]]. pose proof (A 0%nat ltac:(simpl; lia)) as A0. pose proof (A 1%nat ltac:(simpl; lia)) as A1. pose proof (A 2%nat ltac:(simpl; lia)) as A2.
      rewrite D in A0, A1, A2 by lia. unfold vget in A0, A1, A2. simpl in *. lra.
  - simpl. lia.
Qed.
Lemma search_small : forall y, (length y < 5)%nat -> se_ngrid y None = 3%nat.
Proof.
  intros y L. destruct (search_bins y) as [R0 [E|[E _]]]; auto. exfalso. specialize (E 0%nat ltac:(lia)).
  assert (F : forall (f : R -> bool) l, (length (filter f l) <= length l)%nat) by (intros f; induction l as [|x l IH]; simpl; auto; destruct (f x); simpl; lia).
  unfold se_count in E. pose proof (F (fun a => (se_bin (vget (se_grid y (se_ngrid y None)) 0) (se_h y (se_ngrid y None)) a =? Z.of_nat 0)%Z) y) as Q. apply (Nat.lt_irrefl 5). eapply Nat.le_lt_trans; [apply E|]. eapply Nat.le_lt_trans; [apply Q|auto].
Qed.
(** with the default grid the linear program for the upper bound can be unbounded: samples at 0, 1.9 and 2 *)
Theorem envelope_default_refuted : exists X fX u, let y := map (fun x => dot x u) X in let n := se_ngrid y None in
  vmin y < vmax y /\ (n = 3)%nat /\ ~ exists v, se_ub_ok n (se_A y n) fX v.
Proof.
  exists [[0]; [19 / 10]; [2]], [0; 0; 0], [1]. assert (EY : map (fun x => dot x [1]) [[0]; [19 / 10]; [2]] = [0; 19 / 10; 2]).
  { cbn [map]. rewrite !dot_cons, !dot_nil_l. f_equal; [lra|]. f_equal; [lra|]. f_equal. lra. }
  cbv zeta. rewrite EY. rewrite search_small by (simpl; lia). assert (H1 : 0 <= 19 / 10 <= 2) by lra. destruct (se_minmax _ H1) as [M1 M2].
  split; [rewrite M1, M2; lra|]. split; auto. intros [v [Lv [A M]]]. destruct (vec3 v Lv) as [a [b [c ->]]].
  assert (D : forall a b c, dot (nth 0 (se_A [0; 19 / 10; 2] 3) []) [a; b; c] = a /\ dot (nth 1 (se_A [0; 19 / 10; 2] 3) []) [a; b; c] = b / 10 + 9 * c / 10 /\ dot (nth 2 (se_A [0; 19 / 10; 2] 3) []) [a; b; c] = c).
  { clear. intros a b c. assert (H1 : 0 <= 19 / 10 <= 2) by lra. split; [|split].
    - rewrite (se_A3 _ 0 [a; b; c] H1 ltac:(lia) eq_refl 0%nat); [|lia|unfold vget; simpl; lra]. unfold vget; simpl; lra.
    - rewrite (se_A3 _ 1 [a; b; c] H1 ltac:(lia) eq_refl 1%nat); [|lia|unfold vget; simpl; lra]. unfold vget; simpl; lra.
    - rewrite (se_A3 _ 2 [a; b; c] H1 ltac:(lia) eq_refl 1%nat); [|lia|unfold vget; simpl; lra]. unfold vget; simpl; lra. }
  specialize (M [a; b - 9; c + 1] eq_refl). destruct (D a b c) as [D0 [D1 D2]]. destruct (D a (b - 9) (c + 1)) as [F0 [F1 F2]].
  pose proof (A 0%nat ltac:(simpl; lia)) as A0. pose proof (A 1%nat ltac:(simpl; lia)) as A1. pose proof (A 2%nat ltac:(simpl; lia)) as A2. rewrite D0 in A0. rewrite D1 in A1. rewrite D2 in A2.
  assert (P : se_above (se_A [0; 19 / 10; 2] 3) [0; 0; 0] [a; b - 9; c + 1]).
  { intros i Hi. destruct i as [|[|[|i]]]; [| | |simpl in Hi; lia]; [rewrite F0|rewrite F1|rewrite F2]; unfold vget in *; simpl in *; lra. }
  specialize (M P). simpl in M. lra.
Qed.
