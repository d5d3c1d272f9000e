(** The linear constraints of the nozzle parameterization: elimination of fixed variables, geometric meaning, cleanup. *)
Require Import Reals Lra Lia List Bool Arith.
From Verif Require Import RVec Num Sums DomModel DomMoreModel HullProofs NozModel.
Import ListNotations.
Local Open Scope R_scope.

(* ------------------------------------------------------------------ rows *)
(** the vector z satisfies the system A z <= b *)
Definition sat (A : mat) (b z : vec) : Prop := forall k, (k < length A)%nat -> dot (nth k A []) z <= vget b k.
(** all entries of the parameterization: fixed values where v is 0, design variables elsewhere *)
Definition design (v : list nat) (x z : vec) : vec :=
  map (fun i => match nth i v 0%nat with O => vget x i | S k => vget z k end) (seq 0 (length v)).

Lemma add_at_length : forall a k t, length (add_at a k t) = length a.
Proof. induction a; destruct k; simpl; intros; auto. Qed.
Lemma add_at_dot : forall a k t z, length a = length z -> (k < length a)%nat -> dot (add_at a k t) z = dot a z + t * vget z k.
Proof.
  induction a as [|h a IH]; intros k t z L Hk; simpl in Hk; [lia|]. destruct z as [|b z]; [discriminate|]. destruct k as [|k]; simpl; rewrite !dot_cons.
  - unfold vget. simpl. ring.
  - rewrite IH by (simpl in L; lia). unfold vget. simpl. ring.
Qed.
Lemma vmaxn_ge : forall v i, (nth i v 0 <= vmaxn v)%nat.
Proof.
  induction v as [|a v IH]; intros [|i]; simpl; try lia. specialize (IH i). lia.
Qed.
Lemma dot_repeat0 : forall n z, dot (repeat 0 n) z = 0.
Proof. intros. apply dot_zero_l. Qed.
Lemma dot_seq : forall row w, (length row <= length w)%nat -> dot row w = rsum (length row) (fun i => vget row i * vget w i).
Proof.
  induction row as [|a row IH]; intros w L; [rewrite dot_nil_l; auto|]. destruct w as [|b w]; [simpl in L; lia|].
  change (length (a :: row)) with (S (length row)). rewrite dot_cons, rsum_S_first, IH by (simpl in L; lia). unfold vget. simpl. auto.
Qed.

(** elimination: the reduced row at z says what the full row says at the full design *)
Theorem reduce_row_spec : forall v x rc z, length z = vmaxn v -> (length (fst rc) <= length v)%nat ->
  let (a, b) := reduce_row v x rc in
  length a = vmaxn v /\ dot a z - b = dot (fst rc) (design v x z) - snd rc.
Proof.
  intros v x [row c] z Lz Lv. unfold reduce_row. cbn [fst snd] in *.
  assert (G : forall m, (m <= length row)%nat -> let (a, b) := fold_left (reduce_step v x row) (seq 0 m) (repeat 0 (vmaxn v), c) in
     length a = vmaxn v /\ dot a z - b = rsum m (fun i => vget row i * vget (design v x z) i) - c).
  { induction m as [|m IH]; intro Hm.
    - simpl. rewrite repeat_length, dot_repeat0. split; auto.
    - rewrite seq_S, fold_left_app. simpl plus. specialize (IH ltac:(lia)). destruct (fold_left _ (seq 0 m) _) as [a b]. destruct IH as [LA E].
      cbn [fold_left]. unfold reduce_step. cbn [fst snd rsum].
      assert (DG : vget (design v x z) m = match nth m v 0%nat with O => vget x m | S k => vget z k end).
      { unfold design. rewrite vget_map_seq by lia. auto. }
      rewrite DG. pose proof (vmaxn_ge v m) as VG. destruct (nth m v 0%nat) as [|k].
      + split; auto. lra.
      + rewrite add_at_length. split; auto. rewrite add_at_dot by lia. lra. }
  specialize (G (length row) (Nat.le_refl _)). destruct (fold_left _ _ _) as [a b]. destruct G as [LA E]. split; auto.
  rewrite E. f_equal. symmetry. apply dot_seq. unfold design. rewrite map_length, seq_length. auto.
Qed.

Lemma reduce_sat : forall v x Bc z, length z = vmaxn v -> (forall rc, In rc Bc -> (length (fst rc) <= length v)%nat) ->
  let (A, b) := reduce v x Bc in
  sat A b z <-> forall rc, In rc Bc -> dot (fst rc) (design v x z) <= snd rc.
Proof.
  intros v x Bc z Lz LB. unfold reduce, sat. rewrite map_length.
  assert (E : forall k, (k < length Bc)%nat -> dot (nth k (map (fun rc => fst (reduce_row v x rc)) Bc) []) z - vget (map (fun rc => snd (reduce_row v x rc)) Bc) k
     = dot (fst (nth k Bc ([], 0))) (design v x z) - snd (nth k Bc ([], 0))).
  { intros k Hk. unfold vget. rewrite (nth_indep _ [] (fst (reduce_row v x ([], 0)))) by (rewrite map_length; auto).
    rewrite (nth_indep _ 0 (snd (reduce_row v x ([], 0)))) by (rewrite map_length; auto).
    rewrite (map_nth (fun rc => fst (reduce_row v x rc))), (map_nth (fun rc => snd (reduce_row v x rc))).
    pose proof (reduce_row_spec v x (nth k Bc ([], 0)) z Lz (LB _ (nth_In _ _ Hk))) as S.
    destruct (reduce_row v x (nth k Bc ([], 0))) as [a b]. apply S. }
  split.
  - intros H rc Hrc. apply (In_nth _ _ ([], 0)) in Hrc. destruct Hrc as (k & Hk & <-). specialize (H k Hk). specialize (E k Hk). lra.
  - intros H k Hk. specialize (H _ (nth_In _ ([], 0) Hk)). specialize (E k Hk). lra.
Qed.

(** value of a row given by distinct assignments *)
Definition esum (l : list (nat * R)) (w : vec) : R := fold_right (fun e s => snd e * vget w (fst e) + s) 0 l.
Lemma entry_gen : forall l k d, fold_left (fun acc e => if Nat.eqb (fst e) k then snd e else acc) l d =
  if existsb (fun e => Nat.eqb (fst e) k) l then entry l k else d.
Proof.
  intros l k. unfold entry. induction l as [|e l IH]; intro d; simpl; auto. rewrite IH. rewrite (IH (if Nat.eqb (fst e) k then snd e else 0)).
  destruct (Nat.eqb (fst e) k); simpl; destruct (existsb _ l); auto.
Qed.
Lemma entry_cons : forall e l k, entry (e :: l) k = if existsb (fun e => Nat.eqb (fst e) k) l then entry l k else if Nat.eqb (fst e) k then snd e else 0.
Proof. intros e l k. unfold entry at 1. simpl. rewrite entry_gen. auto. Qed.
Lemma entry_absent : forall l k, ~ In k (map fst l) -> entry l k = 0.
Proof.
  induction l as [|e l IH]; intros k H; [reflexivity|]. rewrite entry_cons. simpl in H.
  replace (existsb (fun e => Nat.eqb (fst e) k) l) with false.
  - destruct (Nat.eqb_spec (fst e) k); [exfalso; auto|auto].
  - symmetry. apply not_true_is_false. intro X. apply existsb_exists in X. destruct X as (e' & I1 & I2). apply Nat.eqb_eq in I2. apply H. right. rewrite <- I2. apply in_map. auto.
Qed.
Lemma brow_dot : forall n l c w, NoDup (map fst l) -> (forall e, In e l -> (fst e < n)%nat) -> (n <= length w)%nat -> dot (brow n (l, c)) w = esum l w.
Proof.
  intros n l c w ND B L. unfold brow. cbn [fst]. rewrite dot_seq by (rewrite map_length, seq_length; auto). rewrite map_length, seq_length.
  rewrite (rsum_ext _ _ (fun i => entry l i * vget w i)) by (intros i Hi; rewrite vget_map_seq by auto; auto).
  induction l as [|e l IH]; simpl.
  - apply rsum_zero. intros. unfold entry. simpl. ring.
  - simpl in ND. inversion ND as [|? ? NI ND']; subst.
    rewrite (rsum_ext _ _ (fun i => (if Nat.eqb i (fst e) then snd e * vget w (fst e) else 0) + entry l i * vget w i)).
    + rewrite rsum_plus, IH by (auto; intros; apply B; simpl; auto). rewrite (rsum_single _ (fst e)) by
        (try (apply B; simpl; auto); intros i _ N; apply Nat.eqb_neq in N; rewrite N; auto). rewrite Nat.eqb_refl. auto.
    + intros i Hi. rewrite entry_cons. destruct (existsb (fun e0 => Nat.eqb (fst e0) i) l) eqn:EX.
      * destruct (Nat.eqb_spec i (fst e)); [|ring]. exfalso. apply existsb_exists in EX. destruct EX as (e' & I1 & I2). apply Nat.eqb_eq in I2. apply NI. rewrite <- e0, <- I2. apply in_map. auto.
      * rewrite (entry_absent l i).
        -- rewrite Nat.eqb_sym. destruct (Nat.eqb_spec i (fst e)); [subst; ring|ring].
        -- intro X. apply in_map_iff in X. destruct X as (e' & I1 & I2). assert (existsb (fun e0 => Nat.eqb (fst e0) i) l = true); [|congruence].
           apply existsb_exists. exists e'. split; auto. apply Nat.eqb_eq. auto.
Qed.

(** the meaning of a list of rows *)
Definition rows_ok (rows : list constr) (w : vec) : Prop := Forall (fun r => esum (fst r) w <= snd r) rows.
Definition distinct_rows (rows : list constr) : Prop := Forall (fun r => NoDup (map fst (fst r))) rows.

Lemma finish_spec : forall lim n v x rows A b z, finish lim n v x rows = Done A b -> length z = vmaxn v -> distinct_rows rows ->
  (sat A b z <-> rows_ok rows (design v x z)) /\ (length rows <= lim)%nat /\ length A = length rows.
Proof.
  intros lim n v x rows A b z E Lz D. unfold finish in E. unfold fillB in E.
  destruct (andb (Nat.leb (length rows) lim) (forallb (fun r => forallb (fun e => Nat.ltb (fst e) n) (fst r)) rows)) eqn:C; [|discriminate].
  apply andb_true_iff in C. destruct C as [C1 C2]. apply Nat.leb_le in C1. rewrite forallb_forall in C2.
  destruct (orb (Nat.ltb (length v) n) (match v with [] => true | _ => false end)) eqn:O; [discriminate|].
  apply orb_false_iff in O. destruct O as [O1 _]. apply Nat.ltb_ge in O1.
  pose proof (reduce_sat v x (map (fun r => (brow n r, snd r)) rows) z Lz) as S.
  unfold reduce in *. injection E as <- <-. split; [|split; auto; rewrite !map_length; auto].
  rewrite S.
  - unfold rows_ok. rewrite Forall_forall. unfold distinct_rows in D. rewrite Forall_forall in D. split.
    + intros H [l c] Hr. specialize (H (brow n (l, c), c)). cbn [fst snd] in H. rewrite brow_dot in H; [apply H|apply (D (l, c)); auto| |unfold design; rewrite map_length, seq_length; auto].
      * apply in_map_iff. exists (l, c). auto.
      * intros e He. specialize (C2 (l, c) Hr). rewrite forallb_forall in C2. apply Nat.ltb_lt. apply C2. auto.
    + intros H rc Hrc. apply in_map_iff in Hrc. destruct Hrc as ([l c] & <- & Hr). cbn [fst snd]. rewrite brow_dot; [apply (H (l, c)); auto|apply (D (l, c)); auto| |unfold design; rewrite map_length, seq_length; auto].
      intros e He. specialize (C2 (l, c) Hr). rewrite forallb_forall in C2. apply Nat.ltb_lt. apply C2. auto.
  - intros rc Hrc. apply in_map_iff in Hrc. destruct Hrc as (r & <- & _). cbn [fst]. unfold brow. rewrite map_length, seq_length. auto.
Qed.

(** no exception: the rows fit and all columns exist *)
Lemma finish_done : forall lim n v x (rows : list constr), (length rows <= lim)%nat -> (forall r e, In r rows -> In e (fst r) -> (fst e < n)%nat) ->
  (n <= length v)%nat -> v <> [] -> exists A b, finish lim n v x rows = Done A b.
Proof.
  intros lim n v x rows H1 H2 H3 H4. unfold finish, fillB.
  match goal with |- context [if ?c then Some _ else None] => destruct c eqn:C end.
  - destruct (orb (Nat.ltb (length v) n) (match v with [] => true | _ => false end)) eqn:O; [|unfold reduce; do 2 eexists; reflexivity].
    apply orb_true_iff in O. destruct O as [O|O]; [apply Nat.ltb_lt in O; lia|destruct v; congruence].
  - apply andb_false_iff in C. destruct C as [C|C]; [apply Nat.leb_gt in C; lia|]. exfalso. apply not_true_iff_false in C. apply C.
    apply forallb_forall. intros r Hr. apply forallb_forall. intros e He. apply Nat.ltb_lt. eauto.
Qed.
Lemma finish_too_many : forall lim n v x (rows : list constr), (lim < length rows)%nat -> finish lim n v x rows = Raised.
Proof. intros. unfold finish, fillB. replace (Nat.leb (length rows) lim) with false by (symmetry; apply Nat.leb_gt; auto). auto. Qed.

(* ------------------------------------------------------------------ row blocks *)
Lemma rows_ok_app : forall a b w, rows_ok (a ++ b) w <-> rows_ok a w /\ rows_ok b w.
Proof. intros. unfold rows_ok. apply Forall_app. Qed.
Lemma rows_ok_map : forall A (f : A -> constr) l w, rows_ok (map f l) w <-> forall a, In a l -> esum (fst (f a)) w <= snd (f a).
Proof.
  intros A f l w. unfold rows_ok. rewrite Forall_forall. split.
  - intros H a Ha. apply H. apply in_map. auto.
  - intros H r Hr. apply in_map_iff in Hr. destruct Hr as (a & <- & Ha). auto.
Qed.
Lemma rows_ok_flat : forall A (f : A -> list constr) l w, rows_ok (flat_map f l) w <-> forall a, In a l -> rows_ok (f a) w.
Proof.
  intros A f l w. unfold rows_ok. split.
  - intros H a Ha. rewrite Forall_forall in *. intros r Hr. apply H. apply in_flat_map. exists a. auto.
  - intros H. rewrite Forall_forall. intros r Hr. apply in_flat_map in Hr. destruct Hr as (a & Ha & Hr). specialize (H a Ha). rewrite Forall_forall in H. auto.
Qed.
Lemma rows_ok_nil : forall w, rows_ok [] w <-> True.
Proof. intros. split; auto. intros. constructor. Qed.
Lemma rows_ok_cons : forall r l w, rows_ok (r :: l) w <-> esum (fst r) w <= snd r /\ rows_ok l w.
Proof. intros. unfold rows_ok. split; [intro H; inversion H; auto|intros [? ?]; constructor; auto]. Qed.
Lemma distinct_app : forall a b, distinct_rows a -> distinct_rows b -> distinct_rows (a ++ b).
Proof. intros. apply Forall_app. auto. Qed.
Lemma distinct_map : forall A (f : A -> constr) l, (forall a, In a l -> NoDup (map fst (fst (f a)))) -> distinct_rows (map f l).
Proof. intros A f l H. apply Forall_forall. intros r Hr. apply in_map_iff in Hr. destruct Hr as (a & <- & Ha). auto. Qed.
Lemma distinct_flat : forall A (f : A -> list constr) l, (forall a, In a l -> distinct_rows (f a)) -> distinct_rows (flat_map f l).
Proof.
  intros A f l H. apply Forall_forall. intros r Hr. apply in_flat_map in Hr. destruct Hr as (a & Ha & Hr). specialize (H a Ha). unfold distinct_rows in H. rewrite Forall_forall in H. auto.
Qed.
Ltac nodup := repeat (constructor; [simpl; intro; repeat match goal with H : _ \/ _ |- _ => destruct H end; try lia; auto|]); try constructor.

(* ------------------------------------------------------------------ bspline *)
(** the limit of segment j, if any *)
Definition limit_at (l : limit) (j : nat) : option R := match l with LNone => None | LVal m => Some m | LList l => Some (vget l j) end.

(** the conditions on the control points (X i, Y i), i < nx, imposed by bspline *)
Definition bspline_ok (nx t : nat) (s0 s1 s2 s3 : limit) (xl xr : option R) (delta : R) (lowest : bool) (minT maxT : option R) (X Y : nat -> R) : Prop :=
  (forall a, xl = Some a -> a + delta <= X 0%nat) /\
  (forall i, (1 <= i < nx)%nat -> X (i - 1)%nat + (if orb (Nat.eqb i t) (orb (Nat.eqb i (t + 1)) (Nat.eqb i (t + 2))) then / 20 else delta) <= X i) /\
  (forall a, xr = Some a -> X (nx - 1)%nat + delta <= a) /\
  (t <> 0%nat -> X (t + 2)%nat <= X (t + 1)%nat + / 10 /\ X t <= X (t - 1)%nat + / 10) /\
  (lowest = true -> t <> 0%nat -> Y t + / 100 <= Y (t - 1)%nat /\ forall i, (t < i < nx)%nat -> Y t + / 100 <= Y i) /\
  (forall a i, minT = Some a -> (i < nx)%nat -> a <= Y i) /\
  (forall a i, maxT = Some a -> (i < nx)%nat -> Y i <= a) /\
  (forall i m, t <> 0%nat -> (1 <= i < t)%nat -> limit_at s0 (i - 1) = Some m -> m * (X i - X (i - 1)%nat) <= Y i - Y (i - 1)%nat) /\
  (forall i m, t <> 0%nat -> (1 <= i < t)%nat -> limit_at s1 (i - 1) = Some m -> Y i - Y (i - 1)%nat <= m * (X i - X (i - 1)%nat)) /\
  (forall i m, (t + 3 <= i < nx)%nat -> limit_at s2 (i - (t + 3)) = Some m -> m * (X i - X (i - 1)%nat) <= Y i - Y (i - 1)%nat) /\
  (forall i m, (t + 3 <= i < nx)%nat -> limit_at s3 (i - (t + 3)) = Some m -> Y i - Y (i - 1)%nat <= m * (X i - X (i - 1)%nat)).

Lemma m_bound_at : forall l n mb j, m_bound l n = Some mb -> is_lnone l = false -> (j < n)%nat -> limit_at l j = Some (vget mb j).
Proof.
  intros l n mb j E N H. destruct l as [|m|l]; simpl in *; [discriminate| |].
  - injection E as <-. f_equal. rewrite <- (repeat_length m n) in H. apply (nth_In _ 0) in H. apply repeat_spec in H. auto.
  - destruct (Nat.eqb (length l) n); [|discriminate]. injection E as <-. auto.
Qed.

Lemma x_rows_ok : forall nx t delta xl xr w, rows_ok (x_rows nx t delta xl xr) w <->
  (forall a, xl = Some a -> a + delta <= vget w 0%nat) /\
  (forall i, (1 <= i < nx)%nat -> vget w (i - 1)%nat + (if orb (Nat.eqb i t) (orb (Nat.eqb i (t + 1)) (Nat.eqb i (t + 2))) then / 20 else delta) <= vget w i) /\
  (forall a, xr = Some a -> vget w (nx - 1)%nat + delta <= a).
Proof.
  intros nx t delta xl xr w. unfold x_rows. rewrite !rows_ok_app, rows_ok_map.
  assert (P1 : rows_ok (opt_row xl (fun a => [([put 0 (-1)], - delta - a)])) w <-> forall a, xl = Some a -> a + delta <= vget w 0%nat).
  { destruct xl as [a|]; simpl.
    - rewrite rows_ok_cons, rows_ok_nil. simpl. split; [intros [H _] b E; injection E as <-; lra|intro H; specialize (H a eq_refl); split; auto; lra].
    - rewrite rows_ok_nil. split; auto. discriminate. }
  assert (P3 : rows_ok (opt_row xr (fun a => [([put (nx - 1) 1], a - delta)])) w <-> forall a, xr = Some a -> vget w (nx - 1)%nat + delta <= a).
  { destruct xr as [a|]; simpl.
    - rewrite rows_ok_cons, rows_ok_nil. simpl. split; [intros [H _] b E; injection E as <-; lra|intro H; specialize (H a eq_refl); split; auto; lra].
    - rewrite rows_ok_nil. split; auto. discriminate. }
  rewrite P1, P3. split; intros (H1 & H2 & H3); (split; [exact H1|split; [|exact H3]]).
  - intros i Hi. specialize (H2 i ltac:(apply in_seq; lia)). destruct (orb (Nat.eqb i t) _); simpl in H2; lra.
  - intros i Hi. apply in_seq in Hi. specialize (H2 i ltac:(lia)). destruct (orb (Nat.eqb i t) _); simpl; lra.
Qed.

Lemma width_rows_ok : forall t w, rows_ok (width_rows t) w <->
  (t <> 0%nat -> vget w (t + 2)%nat <= vget w (t + 1)%nat + / 10 /\ vget w t <= vget w (t - 1)%nat + / 10).
Proof.
  intros t w. unfold width_rows. destruct (Nat.eqb_spec t 0) as [E|E].
  - rewrite rows_ok_nil. split; auto. intros _ N. contradiction.
  - rewrite !rows_ok_cons, rows_ok_nil. simpl. split; [intros (H1 & H2 & _) _; lra|intro H; destruct (H E); repeat split; auto; lra].
Qed.

Lemma lowest_rows_ok : forall lowest nx t w, (t < nx)%nat -> rows_ok (lowest_rows lowest (2 * nx) nx t) w <->
  (lowest = true -> t <> 0%nat -> vget w (nx + t)%nat + / 100 <= vget w (nx + (t - 1))%nat /\ forall i, (t < i < nx)%nat -> vget w (nx + t)%nat + / 100 <= vget w (nx + i)%nat).
Proof.
  intros lowest nx t w Ht. unfold lowest_rows, delta2. destruct lowest; simpl andb.
  - destruct (Nat.eqb_spec t 0) as [E|E]; cbn [negb andb].
    + rewrite rows_ok_nil. split; auto. intros _ _ N. contradiction.
    + rewrite rows_ok_cons, rows_ok_map. simpl. replace (nx + t - 1)%nat with (nx + (t - 1))%nat by lia. split.
      * intros [H1 H2] _ _. split; [lra|]. intros i Hi. specialize (H2 (nx + i)%nat ltac:(apply in_seq; lia)). lra.
      * intros H. destruct (H eq_refl E) as [H1 H2]. split; [lra|]. intros i Hi. apply in_seq in Hi. specialize (H2 (i - nx)%nat ltac:(lia)).
        replace (nx + (i - nx))%nat with i in H2 by lia. lra.
  - rewrite rows_ok_nil. split; auto. discriminate.
Qed.

Lemma min_rows_ok : forall nx o w, rows_ok (min_rows (2 * nx) nx o) w <-> forall a i, o = Some a -> (i < nx)%nat -> a <= vget w (nx + i)%nat.
Proof.
  intros nx o w. unfold min_rows. destruct o as [a|]; simpl opt_row.
  - rewrite rows_ok_map. simpl. split.
    + intros H b i E Hi. injection E as <-. specialize (H (nx + i)%nat ltac:(apply in_seq; lia)). lra.
    + intros H i Hi. apply in_seq in Hi. specialize (H a (i - nx)%nat eq_refl ltac:(lia)). replace (nx + (i - nx))%nat with i in H by lia. lra.
  - rewrite rows_ok_nil. split; auto. discriminate.
Qed.
Lemma max_rows_ok : forall nx o w, rows_ok (max_rows (2 * nx) nx o) w <-> forall a i, o = Some a -> (i < nx)%nat -> vget w (nx + i)%nat <= a.
Proof.
  intros nx o w. unfold max_rows. destruct o as [a|]; simpl opt_row.
  - rewrite rows_ok_map. simpl. split.
    + intros H b i E Hi. injection E as <-. specialize (H (nx + i)%nat ltac:(apply in_seq; lia)). lra.
    + intros H i Hi. apply in_seq in Hi. specialize (H a (i - nx)%nat eq_refl ltac:(lia)). replace (nx + (i - nx))%nat with i in H by lia. lra.
  - rewrite rows_ok_nil. split; auto. discriminate.
Qed.

Lemma slope_lo_ok : forall nx start len mb w, (1 <= start)%nat -> rows_ok (slope_lo nx start len mb) w <->
  forall i, (start <= i < start + len)%nat -> vget mb (i - start) * (vget w i - vget w (i - 1)) <= vget w (nx + i)%nat - vget w (nx + (i - 1))%nat.
Proof.
  intros nx start len mb w Hs. unfold slope_lo. rewrite rows_ok_map. cbv zeta. cbn [fst snd esum put fold_right]. split.
  - intros H i Hi. specialize (H (i - start)%nat ltac:(apply in_seq; lia)). replace (start + (i - start))%nat with i in H by lia.
    replace (i + nx - 1)%nat with (nx + (i - 1))%nat in H by lia. replace (i + nx)%nat with (nx + i)%nat in H by lia. lra.
  - intros H j Hj. apply in_seq in Hj. specialize (H (start + j)%nat ltac:(lia)). replace (start + j - start)%nat with j in H by lia.
    replace (start + j + nx - 1)%nat with (nx + (start + j - 1))%nat by lia. replace (start + j + nx)%nat with (nx + (start + j))%nat by lia. lra.
Qed.
Lemma slope_hi_ok : forall nx start len mb w, (1 <= start)%nat -> rows_ok (slope_hi nx start len mb) w <->
  forall i, (start <= i < start + len)%nat -> vget w (nx + i)%nat - vget w (nx + (i - 1))%nat <= vget mb (i - start) * (vget w i - vget w (i - 1)).
Proof.
  intros nx start len mb w Hs. unfold slope_hi. rewrite rows_ok_map. cbv zeta. cbn [fst snd esum put fold_right]. split.
  - intros H i Hi. specialize (H (i - start)%nat ltac:(apply in_seq; lia)). replace (start + (i - start))%nat with i in H by lia.
    replace (i + nx - 1)%nat with (nx + (i - 1))%nat in H by lia. replace (i + nx)%nat with (nx + i)%nat in H by lia. lra.
  - intros H j Hj. apply in_seq in Hj. specialize (H (start + j)%nat ltac:(lia)). replace (start + j - start)%nat with j in H by lia.
    replace (start + j + nx - 1)%nat with (nx + (start + j - 1))%nat by lia. replace (start + j + nx)%nat with (nx + (start + j))%nat by lia. lra.
Qed.

Lemma slope_lo_lim : forall nx start len s mb w, (1 <= start)%nat -> m_bound s len = Some mb ->
  rows_ok (if is_lnone s then [] else slope_lo nx start len mb) w <->
  forall i m, (start <= i < start + len)%nat -> limit_at s (i - start) = Some m -> m * (vget w i - vget w (i - 1)) <= vget w (nx + i)%nat - vget w (nx + (i - 1))%nat.
Proof.
  intros nx start len s mb w Hs E. destruct (is_lnone s) eqn:N.
  - rewrite rows_ok_nil. split; auto. intros _ i m Hi L. destruct s; discriminate.
  - rewrite slope_lo_ok by auto. split.
    + intros H i m Hi L. rewrite (m_bound_at s len mb) in L by (auto; lia). injection L as <-. auto.
    + intros H i Hi. apply H; auto. apply (m_bound_at s len mb); auto. lia.
Qed.
Lemma slope_hi_lim : forall nx start len s mb w, (1 <= start)%nat -> m_bound s len = Some mb ->
  rows_ok (if is_lnone s then [] else slope_hi nx start len mb) w <->
  forall i m, (start <= i < start + len)%nat -> limit_at s (i - start) = Some m -> vget w (nx + i)%nat - vget w (nx + (i - 1))%nat <= m * (vget w i - vget w (i - 1)).
Proof.
  intros nx start len s mb w Hs E. destruct (is_lnone s) eqn:N.
  - rewrite rows_ok_nil. split; auto. intros _ i m Hi L. destruct s; discriminate.
  - rewrite slope_hi_ok by auto. split.
    + intros H i m Hi L. rewrite (m_bound_at s len mb) in L by (auto; lia). injection L as <-. auto.
    + intros H i Hi. apply H; auto. apply (m_bound_at s len mb); auto. lia.
Qed.

Definition bspline_rows (n nx t : nat) (s0 s1 s2 s3 : limit) (xl xr : option R) (delta : R) (lowest : bool) (minT maxT : option R) (pre : nat) (b0 b1 b2 b3 : vec) : list constr :=
  x_rows nx t delta xl xr ++ width_rows t ++ lowest_rows lowest n nx t ++ min_rows n nx minT ++ max_rows n nx maxT ++
        (if is_lnone s0 then [] else slope_lo nx 1 pre b0) ++ (if is_lnone s1 then [] else slope_hi nx 1 pre b1) ++
        (if is_lnone s2 then [] else slope_lo nx (t + 3) (nx - (t + 3)) b2) ++ (if is_lnone s3 then [] else slope_hi nx (t + 3) (nx - (t + 3)) b3).

Lemma opt_distinct : forall (o : option R) f, (forall a, distinct_rows (f a)) -> distinct_rows (opt_row o f).
Proof. intros [a|] f H; simpl; auto. constructor. Qed.

Lemma bspline_distinct : forall nx t s0 s1 s2 s3 xl xr delta lowest minT maxT pre b0 b1 b2 b3, (t + 2 < nx \/ t = 0)%nat -> (pre <= t)%nat ->
  distinct_rows (bspline_rows (2 * nx) nx t s0 s1 s2 s3 xl xr delta lowest minT maxT pre b0 b1 b2 b3).
Proof.
  intros nx t s0 s1 s2 s3 xl xr delta lowest minT maxT pre b0 b1 b2 b3 Ht Hp. unfold bspline_rows.
  assert (SL : forall start len mb, (1 <= start)%nat -> (start + len <= nx)%nat -> distinct_rows (slope_lo nx start len mb)).
  { intros start len mb H1 H2. apply distinct_map. intros j Hj. apply in_seq in Hj. simpl. nodup. }
  assert (SH : forall start len mb, (1 <= start)%nat -> (start + len <= nx)%nat -> distinct_rows (slope_hi nx start len mb)).
  { intros start len mb H1 H2. apply distinct_map. intros j Hj. apply in_seq in Hj. simpl. nodup. }
  assert (ZL : forall len mb, len = 0%nat -> distinct_rows (slope_lo nx 1 len mb)) by (intros; subst; constructor).
  assert (ZH : forall len mb, len = 0%nat -> distinct_rows (slope_hi nx 1 len mb)) by (intros; subst; constructor).
  repeat apply distinct_app.
  - apply opt_distinct. intro a. constructor; [|constructor]. simpl. nodup.
  - apply distinct_map. intros i Hi. apply in_seq in Hi. destruct (orb (Nat.eqb i t) _); simpl; nodup.
  - apply opt_distinct. intro a. constructor; [|constructor]. simpl. nodup.
  - unfold width_rows. destruct (Nat.eqb_spec t 0); [constructor|]. constructor; [simpl; nodup|constructor; [simpl; nodup|constructor]].
  - unfold lowest_rows. destruct (Nat.eqb_spec t 0); [rewrite andb_false_r; constructor|]. destruct lowest; [|constructor]. simpl andb. constructor; [simpl; nodup|].
    apply distinct_map. intros i Hi. apply in_seq in Hi. simpl. nodup.
  - apply opt_distinct. intro a. apply distinct_map. intros i _. simpl. nodup.
  - apply opt_distinct. intro a. apply distinct_map. intros i _. simpl. nodup.
  - destruct (is_lnone s0); [constructor|]. destruct Ht as [Ht|Ht]; [apply SL; lia|apply ZL; lia].
  - destruct (is_lnone s1); [constructor|]. destruct Ht as [Ht|Ht]; [apply SH; lia|apply ZH; lia].
  - destruct (is_lnone s2); [constructor|]. destruct (Nat.le_gt_cases (t + 3) nx); [apply SL; lia|]. replace (nx - (t + 3))%nat with 0%nat by lia. constructor.
  - destruct (is_lnone s3); [constructor|]. destruct (Nat.le_gt_cases (t + 3) nx); [apply SH; lia|]. replace (nx - (t + 3))%nat with 0%nat by lia. constructor.
Qed.

(** the polytope returned by bspline is the set of designs whose control points satisfy the geometric conditions *)
Theorem bspline_spec : forall x v t s0 s1 s2 s3 xl xr delta lowest minT maxT nx A b z,
  bspline x v t s0 s1 s2 s3 xl xr delta lowest minT maxT = Done A b -> length x = (2 * nx)%nat -> (1 <= nx)%nat -> (t + 2 < nx \/ t = 0)%nat -> length z = vmaxn v ->
  (sat A b z <-> bspline_ok nx t s0 s1 s2 s3 xl xr delta lowest minT maxT (fun i => vget (design v x z) i) (fun i => vget (design v x z) (nx + i))).
Proof.
  intros x v t s0 s1 s2 s3 xl xr delta lowest minT maxT nx A b z E Lx Hnx Ht Lz. unfold bspline in E. rewrite Lx in E.
  replace (Nat.div2 (2 * nx)) with nx in E by (rewrite Nat.div2_double; auto).
  set (pre := if Nat.eqb t 0 then 0%nat else (t - 1)%nat) in *.
  set (s0' := if Nat.eqb t 0 then LNone else s0) in *. set (s1' := if Nat.eqb t 0 then LNone else s1) in *.
  replace (nx - 1 - (t + 2))%nat with (nx - (t + 3))%nat in E by lia.
  destruct (m_bound s0' pre) as [b0|] eqn:M0; [|discriminate]. destruct (m_bound s1' pre) as [b1|] eqn:M1; [|discriminate].
  destruct (m_bound s2 (nx - (t + 3))) as [b2|] eqn:M2; [|discriminate]. destruct (m_bound s3 (nx - (t + 3))) as [b3|] eqn:M3; [|discriminate].
  change (finish 100 (2 * nx) v x (bspline_rows (2 * nx) nx t s0' s1' s2 s3 xl xr delta lowest minT maxT pre b0 b1 b2 b3) = Done A b) in E.
  assert (PT : (pre <= t)%nat) by (unfold pre; destruct (Nat.eqb t 0); lia).
  destruct (finish_spec _ _ _ _ _ _ _ z E Lz (bspline_distinct nx t s0' s1' s2 s3 xl xr delta lowest minT maxT pre b0 b1 b2 b3 Ht PT)) as (S & _ & _).
  rewrite S. clear S E. set (w := design v x z). unfold bspline_rows. rewrite !rows_ok_app.
  rewrite x_rows_ok, width_rows_ok, lowest_rows_ok, min_rows_ok, max_rows_ok by lia.
  rewrite (slope_lo_lim nx 1 pre s0' b0), (slope_hi_lim nx 1 pre s1' b1), (slope_lo_lim nx (t + 3) (nx - (t + 3)) s2 b2), (slope_hi_lim nx (t + 3) (nx - (t + 3)) s3 b3) by (auto; lia).
  unfold bspline_ok.
  assert (L0 : (forall i m, (1 <= i < 1 + pre)%nat -> limit_at s0' (i - 1) = Some m -> m * (vget w i - vget w (i - 1)) <= vget w (nx + i)%nat - vget w (nx + (i - 1))%nat) <->
               (forall i m, t <> 0%nat -> (1 <= i < t)%nat -> limit_at s0 (i - 1) = Some m -> m * (vget w i - vget w (i - 1)) <= vget w (nx + i)%nat - vget w (nx + (i - 1))%nat)).
  { unfold pre, s0'. destruct (Nat.eqb_spec t 0) as [Z|Z].
    - split; [intros _ i m N; contradiction|intros _ i m Hi; lia].
    - split; intro H; [intros i m _ Hi L; apply H; auto; lia|intros i m Hi L; apply H; auto; lia]. }
  assert (L1 : (forall i m, (1 <= i < 1 + pre)%nat -> limit_at s1' (i - 1) = Some m -> vget w (nx + i)%nat - vget w (nx + (i - 1))%nat <= m * (vget w i - vget w (i - 1))) <->
               (forall i m, t <> 0%nat -> (1 <= i < t)%nat -> limit_at s1 (i - 1) = Some m -> vget w (nx + i)%nat - vget w (nx + (i - 1))%nat <= m * (vget w i - vget w (i - 1)))).
  { unfold pre, s1'. destruct (Nat.eqb_spec t 0) as [Z|Z].
    - split; [intros _ i m N; contradiction|intros _ i m Hi; lia].
    - split; intro H; [intros i m _ Hi L; apply H; auto; lia|intros i m Hi L; apply H; auto; lia]. }
  rewrite L0, L1.
  assert (L2 : (forall i m, (t + 3 <= i < t + 3 + (nx - (t + 3)))%nat -> limit_at s2 (i - (t + 3)) = Some m -> m * (vget w i - vget w (i - 1)) <= vget w (nx + i)%nat - vget w (nx + (i - 1))%nat) <->
               (forall i m, (t + 3 <= i < nx)%nat -> limit_at s2 (i - (t + 3)) = Some m -> m * (vget w i - vget w (i - 1)) <= vget w (nx + i)%nat - vget w (nx + (i - 1))%nat)).
  { split; intros H i m Hi L; apply H; auto; lia. }
  assert (L3 : (forall i m, (t + 3 <= i < t + 3 + (nx - (t + 3)))%nat -> limit_at s3 (i - (t + 3)) = Some m -> vget w (nx + i)%nat - vget w (nx + (i - 1))%nat <= m * (vget w i - vget w (i - 1))) <->
               (forall i m, (t + 3 <= i < nx)%nat -> limit_at s3 (i - (t + 3)) = Some m -> vget w (nx + i)%nat - vget w (nx + (i - 1))%nat <= m * (vget w i - vget w (i - 1)))).
  { split; intros H i m Hi L; apply H; auto; lia. }
  rewrite L2, L3. tauto.
Qed.

(** if the control points keep a positive distance, the segments have slopes within the limits *)
Lemma quotient_lo : forall m dx dy, 0 < dx -> (m * dx <= dy <-> m <= dy / dx).
Proof.
  intros m dx dy H. split; intro E.
  - apply Rmult_le_reg_r with dx; auto. unfold Rdiv. rewrite Rmult_assoc, Rinv_l, Rmult_1_r by lra. auto.
  - apply Rmult_le_compat_r with (r := dx) in E; [|lra]. unfold Rdiv in E. rewrite Rmult_assoc, Rinv_l, Rmult_1_r in E by lra. auto.
Qed.
Lemma quotient_hi : forall m dx dy, 0 < dx -> (dy <= m * dx <-> dy / dx <= m).
Proof.
  intros m dx dy H. split; intro E.
  - apply Rmult_le_reg_r with dx; auto. unfold Rdiv. rewrite Rmult_assoc, Rinv_l, Rmult_1_r by lra. auto.
  - apply Rmult_le_compat_r with (r := dx) in E; [|lra]. unfold Rdiv in E. rewrite Rmult_assoc, Rinv_l, Rmult_1_r in E by lra. auto.
Qed.
Theorem bspline_slopes : forall nx t s0 s1 s2 s3 xl xr delta lowest minT maxT X Y, 0 < delta -> (t + 2 < nx \/ t = 0)%nat ->
  bspline_ok nx t s0 s1 s2 s3 xl xr delta lowest minT maxT X Y ->
  (forall i j, (i < j < nx)%nat -> X i < X j) /\
  (forall i m, t <> 0%nat -> (1 <= i < t)%nat -> limit_at s0 (i - 1) = Some m -> m <= (Y i - Y (i - 1)%nat) / (X i - X (i - 1)%nat)) /\
  (forall i m, t <> 0%nat -> (1 <= i < t)%nat -> limit_at s1 (i - 1) = Some m -> (Y i - Y (i - 1)%nat) / (X i - X (i - 1)%nat) <= m) /\
  (forall i m, (t + 3 <= i < nx)%nat -> limit_at s2 (i - (t + 3)) = Some m -> m <= (Y i - Y (i - 1)%nat) / (X i - X (i - 1)%nat)) /\
  (forall i m, (t + 3 <= i < nx)%nat -> limit_at s3 (i - (t + 3)) = Some m -> (Y i - Y (i - 1)%nat) / (X i - X (i - 1)%nat) <= m).
Proof.
  intros nx t s0 s1 s2 s3 xl xr delta lowest minT maxT X Y D Ht (_ & G & _ & _ & _ & _ & _ & S0 & S1 & S2 & S3).
  assert (GP : forall i, (1 <= i < nx)%nat -> 0 < X i - X (i - 1)%nat).
  { intros i Hi. specialize (G i Hi). destruct (orb _ _); lra. }
  split.
  { intros i j Hij. induction j as [|j IH]; [lia|]. specialize (GP (S j) ltac:(lia)). replace (S j - 1)%nat with j in GP by lia.
    destruct (Nat.eq_dec i j) as [->|N]; [lra|]. specialize (IH ltac:(lia)). lra. }
  split; [|split; [|split]]; intros.
  - refine (proj1 (quotient_lo _ _ _ (GP i _)) _); eauto; lia.
  - refine (proj1 (quotient_hi _ _ _ (GP i _)) _); eauto; lia.
  - refine (proj1 (quotient_lo _ _ _ (GP i _)) _); eauto; lia.
  - refine (proj1 (quotient_hi _ _ _ (GP i _)) _); eauto; lia.
Qed.

(* ------------------------------------------------------------------ piecewiseBilinearAxial *)
(** conditions on the break locations X, the angles Y and the thicknesses Z i j at (X i, Y j) which the comments announce *)
Definition x_order (nx : nat) (xl xr : option R) (dx : R) (X : nat -> R) : Prop :=
  (forall a, xl = Some a -> a + dx <= X 0%nat) /\ (forall i, (1 <= i < nx)%nat -> X (i - 1)%nat + dx <= X i) /\ (forall a, xr = Some a -> X (nx - 1)%nat + dx <= a).
Definition axial_slopes (nx ny : nat) (mlo mhi : R) (X : nat -> R) (Z : nat -> nat -> R) : Prop :=
  forall i j, (1 <= i < nx)%nat -> (j < ny)%nat -> mlo * (X i - X (i - 1)%nat) <= Z i j - Z (i - 1)%nat j <= mhi * (X i - X (i - 1)%nat).
(** neighbours in the radial direction, with the last angle next to the first *)
Definition radial_close (nx ny : nat) (dz : option R) (Z : nat -> nat -> R) : Prop :=
  forall d i j, dz = Some d -> (i < nx)%nat -> (j < ny)%nat -> Rabs (Z i j - Z i (Nat.modulo (j + 1) ny)) <= d.
Definition y_order (ny : nat) (dy : option R) (Y : nat -> R) : Prop := forall d j, dy = Some d -> (1 <= j < ny)%nat -> Y (j - 1)%nat + d <= Y j.
(** what is imposed on the angles instead *)
Definition y_imposed (nx ny : nat) (dy : option R) (X Y : nat -> R) : Prop :=
  forall d, dy = Some d -> ((2 <= ny)%nat -> X (nx - 1)%nat + d <= Y 0%nat) /\ (forall j, (1 <= j < ny - 1)%nat -> Y (j - 1)%nat + d <= Y j).

Lemma Rabs_le_iff : forall a d, Rabs a <= d <-> a <= d /\ - a <= d.
Proof. intros a d. split; [intro H; pose proof (Rle_abs a); pose proof (Rle_abs (- a)); rewrite Rabs_Ropp in *; lra|intros [? ?]; apply Rabs_le; lra]. Qed.

Lemma pba_distinct : forall nx ny mlo mhi xl xr dx dy dz, (1 <= nx)%nat -> (2 <= ny \/ dz = None)%nat -> distinct_rows (pba_rows nx ny mlo mhi xl xr dx dy dz).
Proof.
  intros nx ny mlo mhi xl xr dx dy dz Hx Hz. unfold pba_rows. repeat apply distinct_app.
  - apply opt_distinct. intro a. constructor; [simpl; nodup|constructor].
  - apply distinct_map. intros i Hi. apply in_seq in Hi. simpl. nodup.
  - apply opt_distinct. intro a. constructor; [simpl; nodup|constructor].
  - apply opt_distinct. intro a. apply distinct_map. intros i Hi. apply in_seq in Hi. simpl. nodup.
  - apply distinct_flat. intros i Hi. apply in_seq in Hi. apply distinct_map. intros j Hj. apply in_seq in Hj. simpl. nodup.
  - apply distinct_flat. intros i Hi. apply in_seq in Hi. apply distinct_map. intros j Hj. apply in_seq in Hj. simpl. nodup.
  - destruct dz as [d|]; [|constructor]. destruct Hz as [Hz|Hz]; [|discriminate]. simpl opt_row. apply distinct_flat. intros i Hi. apply in_seq in Hi.
    assert (P : (nx <= (ny - 1) * nx)%nat) by nia. generalize dependent ((ny - 1) * nx)%nat. intros q P.
    constructor; [simpl; nodup|constructor; [simpl; nodup|]]. apply distinct_flat. intros j Hj. apply in_seq in Hj.
    replace (j * nx)%nat with ((j - 1) * nx + nx)%nat by nia. generalize ((j - 1) * nx)%nat. intro r.
    constructor; [simpl; nodup|constructor; [simpl; nodup|constructor]].
Qed.

Theorem pba_spec : forall x y z v mlo mhi xl xr dx dy dz A b u,
  piecewiseBilinearAxial x y z v mlo mhi xl xr dx dy dz = Done A b -> (1 <= length x)%nat -> (2 <= length y \/ dz = None)%nat -> length u = vmaxn v ->
  let nx := length x in let ny := length y in let w := design v (x ++ y ++ z) u in
  let X := fun i => vget w i in let Y := fun j => vget w (nx + j)%nat in let Z := fun i j => vget w (nx + ny + j * nx + i)%nat in
  (sat A b u <-> x_order nx xl xr dx X /\ y_imposed nx ny dy X Y /\ axial_slopes nx ny mlo mhi X Z /\ radial_close nx ny dz Z).
Proof.
  intros x y z v mlo mhi xl xr dx dy dz A b u E Hx Hz Lu nx ny w X Y Z. unfold piecewiseBilinearAxial in E.
  destruct (negb (Nat.eqb (length z) (length x * length y))); [discriminate|].
  destruct (negb (Nat.eqb (length v) (length x + length y + length z))); [discriminate|]. fold nx ny in E.
  destruct (finish_spec _ _ _ _ _ _ _ u E Lu (pba_distinct nx ny mlo mhi xl xr dx dy dz Hx Hz)) as (S & _ & _). fold w in S. rewrite S. clear S E.
  unfold pba_rows. rewrite !rows_ok_app.
  assert (P1 : rows_ok (opt_row xl (fun a => [([put 0 (-1)], - dx - a)])) w <-> forall a, xl = Some a -> a + dx <= X 0%nat).
  { destruct xl as [a|]; simpl.
    - rewrite rows_ok_cons, rows_ok_nil. unfold X. simpl. split; [intros [H _] c Q; injection Q as <-; lra|intro H; specialize (H a eq_refl); split; auto; lra].
    - rewrite rows_ok_nil. split; auto. discriminate. }
  assert (P2 : rows_ok (map (fun i => ([put i (-1); put (i - 1) 1], - dx)) (seq 1 (nx - 1))) w <-> forall i, (1 <= i < nx)%nat -> X (i - 1)%nat + dx <= X i).
  { rewrite rows_ok_map. unfold X. simpl. split.
    - intros H i Hi. specialize (H i ltac:(apply in_seq; lia)). lra.
    - intros H i Hi. apply in_seq in Hi. specialize (H i ltac:(lia)). lra. }
  assert (P3 : rows_ok (opt_row xr (fun a => [([put (nx - 1) 1], a - dx)])) w <-> forall a, xr = Some a -> X (nx - 1)%nat + dx <= a).
  { destruct xr as [a|]; simpl opt_row.
    - rewrite rows_ok_cons, rows_ok_nil. unfold X. simpl. split; [intros [H _] c Q; injection Q as <-; lra|intro H; specialize (H a eq_refl); split; auto; lra].
    - rewrite rows_ok_nil. split; auto. discriminate. }
  assert (P4 : rows_ok (opt_row dy (fun d => map (fun i => ([put i (-1); put (i - 1) 1], - d)) (seq (1 + nx - 1) (ny + nx - 1 - (1 + nx - 1))))) w <-> y_imposed nx ny dy X Y).
  { unfold y_imposed, X, Y. destruct dy as [d|]; simpl opt_row.
    - rewrite rows_ok_map. cbn [fst snd esum put fold_right]. split.
      + intros H c Q. injection Q as <-. split.
        * intro Hn. specialize (H nx ltac:(apply in_seq; lia)). rewrite Nat.add_0_r. lra.
        * intros j Hj. specialize (H (nx + j)%nat ltac:(apply in_seq; lia)). replace (nx + j - 1)%nat with (nx + (j - 1))%nat in H by lia. lra.
      + intros H i Hi. apply in_seq in Hi. destruct (H d eq_refl) as [H1 H2]. destruct (Nat.eq_dec i nx) as [->|N].
        * specialize (H1 ltac:(lia)). rewrite Nat.add_0_r in H1. lra.
        * specialize (H2 (i - nx)%nat ltac:(lia)). replace (nx + (i - nx))%nat with i in H2 by lia. replace (nx + (i - nx - 1))%nat with (i - 1)%nat in H2 by lia. lra.
    - rewrite rows_ok_nil. split; auto. discriminate. }
  assert (P56 : (rows_ok (flat_map (fun i => map (fun j => ([put i mlo; put (i - 1) (- mlo); put (nx + ny + j * nx + i - 1) 1; put (nx + ny + j * nx + i) (-1)], 0)) (seq 0 ny)) (seq 1 (nx - 1))) w /\
     rows_ok (flat_map (fun i => map (fun j => ([put i (- mhi); put (i - 1) mhi; put (nx + ny + j * nx + i - 1) (-1); put (nx + ny + j * nx + i) 1], 0)) (seq 0 ny)) (seq 1 (nx - 1))) w) <->
     axial_slopes nx ny mlo mhi X Z).
  { rewrite !rows_ok_flat. unfold axial_slopes, X, Z. split.
    - intros [H1 H2] i j Hi Hj. specialize (H1 i ltac:(apply in_seq; lia)). specialize (H2 i ltac:(apply in_seq; lia)). rewrite rows_ok_map in H1, H2.
      specialize (H1 j ltac:(apply in_seq; lia)). specialize (H2 j ltac:(apply in_seq; lia)). cbn [fst snd esum put fold_right] in H1, H2.
      replace (nx + ny + j * nx + i - 1)%nat with (nx + ny + j * nx + (i - 1))%nat in H1, H2 by lia. lra.
    - intro H. split; intros i Hi; apply in_seq in Hi; apply rows_ok_map; intros j Hj; apply in_seq in Hj; specialize (H i j ltac:(lia) ltac:(lia)); cbn [fst snd esum put fold_right];
      replace (nx + ny + j * nx + i - 1)%nat with (nx + ny + j * nx + (i - 1))%nat by lia; lra. }
  assert (P7 : rows_ok (opt_row dz (fun d => flat_map (fun i =>
     let k := (nx + ny + i)%nat in let k2 := (nx + ny + i + (ny - 1) * nx)%nat in
     ([put k 1; put k2 (-1)], d) :: ([put k (-1); put k2 1], d) ::
     flat_map (fun j => let k := (nx + ny + (j - 1) * nx + i)%nat in let k2 := (nx + ny + j * nx + i)%nat in
        [([put k2 1; put k (-1)], d); ([put k2 (-1); put k 1], d)]) (seq 1 (ny - 1))) (seq 0 nx))) w <-> radial_close nx ny dz Z).
  { unfold radial_close, Z. destruct dz as [d|]; simpl opt_row; [|rewrite rows_ok_nil; split; auto; discriminate]. destruct Hz as [Hz|Hz]; [|discriminate]. fold ny in Hz.
    rewrite rows_ok_flat. cbv zeta. split.
    - intros H c i j Q Hi Hj. injection Q as <-. specialize (H i ltac:(apply in_seq; lia)). rewrite !rows_ok_cons, rows_ok_flat in H. destruct H as (H1 & H2 & H3).
      cbn [fst snd esum put fold_right] in H1, H2. apply Rabs_le_iff. destruct (Nat.eq_dec j (ny - 1)) as [->|N].
      + replace (ny - 1 + 1)%nat with ny by lia. rewrite Nat.mod_same by lia.
        replace (nx + ny + (ny - 1) * nx + i)%nat with (nx + ny + i + (ny - 1) * nx)%nat by lia. replace (nx + ny + 0 * nx + i)%nat with (nx + ny + i)%nat by lia. lra.
      + rewrite Nat.mod_small by lia. specialize (H3 (j + 1)%nat ltac:(apply in_seq; lia)). rewrite !rows_ok_cons in H3. cbn [fst snd esum put fold_right] in H3.
        replace (j + 1 - 1)%nat with j in H3 by lia. lra.
    - intros H i Hi. apply in_seq in Hi. rewrite !rows_ok_cons, rows_ok_flat. cbn [fst snd esum put fold_right].
      pose proof (H d i (ny - 1)%nat eq_refl ltac:(lia) ltac:(lia)) as H1. replace (ny - 1 + 1)%nat with ny in H1 by lia. rewrite Nat.mod_same in H1 by lia. apply Rabs_le_iff in H1.
      replace (nx + ny + (ny - 1) * nx + i)%nat with (nx + ny + i + (ny - 1) * nx)%nat in H1 by lia. replace (nx + ny + 0 * nx + i)%nat with (nx + ny + i)%nat in H1 by lia.
      split; [lra|split; [lra|]]. intros j Hj. apply in_seq in Hj. specialize (H d i (j - 1)%nat eq_refl ltac:(lia) ltac:(lia)). replace (j - 1 + 1)%nat with j in H by lia.
      rewrite Nat.mod_small in H by lia. apply Rabs_le_iff in H. rewrite !rows_ok_cons, rows_ok_nil. cbn [fst snd esum put fold_right]. split; [lra|split; auto; lra]. }
  rewrite P1, P2, P3, P4, P7. unfold x_order. rewrite <- P56. tauto.
Qed.

(** number of rows and the exception at more than 100 of them *)
Definition opt1 (o : option R) : nat := match o with None => 0 | Some _ => 1 end.
Definition pba_count (nx ny : nat) (xl xr dy dz : option R) : nat :=
  (opt1 xl + (nx - 1) + opt1 xr + opt1 dy * (ny - 1) + 2 * ((nx - 1) * ny) + opt1 dz * (2 * (nx * ny)))%nat.
Lemma flat_map_length_const : forall A B (f : A -> list B) l k, (forall a, In a l -> length (f a) = k) -> length (flat_map f l) = (length l * k)%nat.
Proof. induction l as [|a l IH]; intros k H; simpl; auto. rewrite app_length, (H a), (IH k) by (simpl; auto; intros; apply H; simpl; auto). auto. Qed.
Lemma pba_rows_length : forall nx ny mlo mhi xl xr dx dy dz, (1 <= nx)%nat -> (1 <= ny)%nat -> length (pba_rows nx ny mlo mhi xl xr dx dy dz) = pba_count nx ny xl xr dy dz.
Proof.
  intros nx ny mlo mhi xl xr dx dy dz H1 H2. unfold pba_rows, pba_count. rewrite !app_length, map_length, seq_length.
  rewrite (flat_map_length_const _ _ _ (seq 1 (nx - 1)) ny) by (intros; rewrite map_length, seq_length; auto).
  rewrite (flat_map_length_const _ _ _ (seq 1 (nx - 1)) ny) by (intros; rewrite map_length, seq_length; auto). rewrite seq_length.
  match goal with |- context [@length ?T (opt_row dz ?f)] => assert (D : @length T (opt_row dz f) = (opt1 dz * (2 * (nx * ny)))%nat) end.
  { destruct dz as [d|]; simpl opt_row; [|auto]. rewrite (flat_map_length_const _ _ _ _ (2 * ny)%nat); [rewrite seq_length; simpl opt1; nia|].
    intros i Hi. cbv zeta. cbn [length]. rewrite (flat_map_length_const _ _ _ _ 2%nat) by auto. rewrite seq_length. lia. }
  rewrite D.
  match goal with |- context [@length ?T (opt_row xl ?f)] => assert (D1 : @length T (opt_row xl f) = opt1 xl) by (destruct xl; auto) end.
  match goal with |- context [@length ?T (opt_row xr ?f)] => assert (D2 : @length T (opt_row xr f) = opt1 xr) by (destruct xr; auto) end.
  match goal with |- context [@length ?T (opt_row dy ?f)] => assert (D3 : @length T (opt_row dy f) = (opt1 dy * (ny - 1))%nat) end.
  { destruct dy; simpl opt_row; auto. rewrite map_length, seq_length. simpl opt1. lia. }
  rewrite D1, D2, D3. lia.
Qed.
Lemma pba_cols : forall nx ny mlo mhi xl xr dx dy dz r e, (1 <= nx)%nat -> (1 <= ny)%nat -> In r (pba_rows nx ny mlo mhi xl xr dx dy dz) -> In e (fst r) -> (fst e < nx + ny + nx * ny)%nat.
Proof.
  intros nx ny mlo mhi xl xr dx dy dz r e H1 H2 Hr He. unfold pba_rows in Hr.
  repeat (rewrite in_app_iff in Hr). destruct Hr as [Hr|[Hr|[Hr|[Hr|[Hr|[Hr|Hr]]]]]].
  - destruct xl; simpl in Hr; [|contradiction]. destruct Hr as [<-|[]]. simpl in He. destruct He as [<-|[]]. simpl. lia.
  - apply in_map_iff in Hr. destruct Hr as (i & <- & Hi). apply in_seq in Hi. simpl in He. destruct He as [<-|[<-|[]]]; simpl; lia.
  - destruct xr; simpl in Hr; [|contradiction]. destruct Hr as [<-|[]]. simpl in He. destruct He as [<-|[]]. simpl. lia.
  - destruct dy; simpl opt_row in Hr; [|contradiction]. apply in_map_iff in Hr. destruct Hr as (i & <- & Hi). apply in_seq in Hi. simpl in He. destruct He as [<-|[<-|[]]]; simpl; nia.
  - apply in_flat_map in Hr. destruct Hr as (i & Hi & Hr). apply in_map_iff in Hr. destruct Hr as (j & <- & Hj). apply in_seq in Hi. apply in_seq in Hj.
    assert (j * nx + i < nx * ny)%nat by nia. simpl in He. destruct He as [<-|[<-|[<-|[<-|[]]]]]; simpl; lia.
  - apply in_flat_map in Hr. destruct Hr as (i & Hi & Hr). apply in_map_iff in Hr. destruct Hr as (j & <- & Hj). apply in_seq in Hi. apply in_seq in Hj.
    assert (j * nx + i < nx * ny)%nat by nia. simpl in He. destruct He as [<-|[<-|[<-|[<-|[]]]]]; simpl; lia.
  - destruct dz; simpl opt_row in Hr; [|contradiction]. apply in_flat_map in Hr. destruct Hr as (i & Hi & Hr). apply in_seq in Hi. cbv zeta in Hr.
    assert (i + (ny - 1) * nx < nx * ny)%nat by nia. destruct Hr as [<-|[<-|Hr]]; [simpl in He; destruct He as [<-|[<-|[]]]; simpl; lia|simpl in He; destruct He as [<-|[<-|[]]]; simpl; lia|].
    apply in_flat_map in Hr. destruct Hr as (j & Hj & Hr). apply in_seq in Hj. assert (j * nx + i < nx * ny)%nat by nia. assert ((j - 1) * nx + i < nx * ny)%nat by nia.
    destruct Hr as [<-|[<-|[]]]; simpl in He; destruct He as [<-|[<-|[]]]; simpl; lia.
Qed.
(** the function returns a system exactly when the lengths agree and the rows fit into the 100 rows allocated *)
Theorem pba_returns : forall x y z v mlo mhi xl xr dx dy dz, (1 <= length x)%nat -> (1 <= length y)%nat ->
  ((exists A b, piecewiseBilinearAxial x y z v mlo mhi xl xr dx dy dz = Done A b) <->
   length z = (length x * length y)%nat /\ length v = (length x + length y + length z)%nat /\ (pba_count (length x) (length y) xl xr dy dz <= 100)%nat) /\
  (forall A b, piecewiseBilinearAxial x y z v mlo mhi xl xr dx dy dz = Done A b -> length A = pba_count (length x) (length y) xl xr dy dz /\ length b = length A /\ forall r, In r A -> length r = vmaxn v).
Proof.
  intros x y z v mlo mhi xl xr dx dy dz Hx Hy. set (nx := length x) in *. set (ny := length y) in *.
  assert (L : length (pba_rows nx ny mlo mhi xl xr dx dy dz) = pba_count nx ny xl xr dy dz) by (apply pba_rows_length; auto).
  split; [split|].
  - intros (A & b & E). unfold piecewiseBilinearAxial in E. fold nx ny in E.
    destruct (Nat.eqb_spec (length z) (nx * ny)) as [E1|]; [|discriminate]. destruct (Nat.eqb_spec (length v) (nx + ny + length z)) as [E2|]; [|discriminate]. cbn [negb] in E.
    repeat split; auto. destruct (Nat.le_gt_cases (pba_count nx ny xl xr dy dz) 100) as [C|C]; auto. rewrite finish_too_many in E by lia. discriminate.
  - intros (E1 & E2 & C). unfold piecewiseBilinearAxial. fold nx ny. rewrite E1, E2, E1, !Nat.eqb_refl. cbn [negb].
    apply finish_done; [lia| |lia|].
    + intros r e Hr He. apply (pba_cols nx ny mlo mhi xl xr dx dy dz r e Hx Hy Hr He).
    + intro; subst v. simpl in E2. lia.
  - intros A b E. unfold piecewiseBilinearAxial in E. fold nx ny in E.
    destruct (negb (Nat.eqb (length z) (nx * ny))); [discriminate|]. destruct (negb (Nat.eqb (length v) (nx + ny + length z))); [discriminate|].
    unfold finish in E. unfold fillB in E. match type of E with context [if ?c then Some _ else None] => destruct c; [|discriminate] end.
    match type of E with context [if ?c then Raised else _] => destruct c; [discriminate|] end.
    unfold reduce in E. injection E as <- <-. rewrite !map_length. repeat split; auto. intros r Hr. apply in_map_iff in Hr. destruct Hr as (rc & <- & _).
    unfold reduce_row. clear. generalize (seq 0 (length (fst rc))) as l.
    assert (G : forall l a c, length a = vmaxn v -> length (fst (fold_left (reduce_step v (x ++ y ++ z) (fst rc)) l (a, c))) = vmaxn v).
    { induction l as [|i l IH]; intros a c La; simpl; auto. unfold reduce_step at 2. cbn [fst snd]. destruct (nth i v 0%nat); apply IH; auto. rewrite add_at_length. auto. }
    intro l. apply G. apply repeat_length.
Qed.

(* ------------------------------------------------------------------ baffles *)
Theorem baffles_spec : forall x th v dmin dmax A b u, baffles x th v dmin dmax = Done A b -> length u = vmaxn v ->
  (sat A b u <-> forall i, (1 <= i < length x)%nat -> let w := design v (x ++ th) u in dmin <= vget w i - vget w (i - 1) <= dmax).
Proof.
  intros x th v dmin dmax A b u E Lu. unfold baffles in E. destruct (Nat.eqb (length x) 0); [discriminate|]. destruct (existsb _ _); [discriminate|].
  assert (D : distinct_rows (baffle_rows (length x) dmin dmax)).
  { apply distinct_flat. intros i Hi. apply in_seq in Hi. constructor; [simpl; nodup|constructor; [simpl; nodup|constructor]]. }
  destruct (finish_spec _ _ _ _ _ _ _ u E Lu D) as (S & _ & _). rewrite S. unfold baffle_rows. rewrite rows_ok_flat. split.
  - intros H i Hi. cbv zeta. specialize (H i ltac:(apply in_seq; lia)). rewrite !rows_ok_cons in H. cbn [fst snd esum put fold_right] in H. lra.
  - intros H i Hi. apply in_seq in Hi. specialize (H i ltac:(lia)). cbv zeta in H. rewrite !rows_ok_cons, rows_ok_nil. cbn [fst snd esum put fold_right]. split; [lra|split; auto; lra].
Qed.
(** the system always fits and is returned when there is a location and the numbering covers them all *)
Theorem baffles_returns : forall x th v dmin dmax, (1 <= length x)%nat -> length v = (length x + length th)%nat ->
  exists A b, baffles x th v dmin dmax = Done A b /\ length A = (2 * (length x - 1))%nat.
Proof.
  intros x th v dmin dmax Hx Lv. unfold baffles. destruct (Nat.eqb_spec (length x) 0); [lia|].
  destruct (existsb _ _) eqn:X.
  - exfalso. apply existsb_exists in X. destruct X as (i & Hi & E). apply in_seq in Hi. apply andb_true_iff in E. destruct E as [_ E]. apply Nat.leb_le in E. rewrite app_length in E. lia.
  - assert (L : length (baffle_rows (length x) dmin dmax) = ((length x - 1) * 2)%nat).
    { unfold baffle_rows. rewrite (flat_map_length_const _ _ _ _ 2%nat) by auto. rewrite seq_length. auto. }
    destruct (finish_done ((length x - 1) * 2) (length v) v (x ++ th) (baffle_rows (length x) dmin dmax)) as (A & b & E); try lia.
    + intros r e Hr He. unfold baffle_rows in Hr. apply in_flat_map in Hr. destruct Hr as (i & Hi & Hr). apply in_seq in Hi. destruct Hr as [<-|[<-|[]]]; simpl in He; destruct He as [<-|[<-|[]]]; simpl; lia.
    + destruct v; [simpl in Lv; lia|discriminate].
    + exists A, b. split; auto. unfold finish, fillB in E. match type of E with context [if ?c then Some _ else None] => destruct c; [|discriminate] end.
      match type of E with context [if ?c then Raised else _] => destruct c; [discriminate|] end. unfold reduce in E. injection E as <- <-. rewrite !map_length. lia.
Qed.
