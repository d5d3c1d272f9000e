(** Poisson disk sampling, poisson.py: C35. *)
Require Import Reals Lra Lia List Bool Arith ZArith.
From Verif Require Import RVec Num Sums DomModel DomSpec DomProofs DomMoreModel SweepProofs HullIneqProofs LipModel LipProofs SampModel PigeonLib LatinProofs.
Import ListNotations.
Local Open Scope R_scope.

(** any two points are more than r apart in the metric of L *)
Definition separated (L : mat) (r : R) (X : mat) : Prop :=
  forall i j, (i < length X)%nat -> (j < length X)%nat -> i <> j -> r < Ldist L (nth i X []) (nth j X []).

Lemma first_some_spec : forall (A B : Type) (f : A -> option B) l b, first_some f l = Some b -> exists a, In a l /\ f a = Some b.
Proof. intros A B f l b. induction l as [|a l IH]; simpl; [discriminate|]. destruct (f a) eqn:E; [intro H; injection H as <-; exists a; auto|]. intro H. destruct (IH H) as [a' [I F]]. exists a'. auto. Qed.

Lemma separated_snoc : forall L r X x, X <> [] -> separated L r X -> r < vmin (map (Ldist L x) X) -> separated L r (X ++ [x]).
Proof.
  intros L r X x N HS HD. assert (D : forall y, In y X -> r < Ldist L x y) by (apply vmin_map_gt; auto).
  intros i j Hi Hj Hij. rewrite app_length in Hi, Hj. simpl in Hi, Hj.
  assert (E : nth (length X) (X ++ [x]) [] = x) by (rewrite app_nth2 by lia; rewrite Nat.sub_diag; auto).
  destruct (Nat.eq_dec i (length X)) as [->|Ni], (Nat.eq_dec j (length X)) as [->|Nj]; try congruence.
  - rewrite E, app_nth1 by lia. apply D, nth_In. lia.
  - rewrite E, app_nth1 by lia. rewrite Ldist_sym. apply D, nth_In. lia.
  - rewrite !app_nth1 by lia. apply HS; auto; lia.
Qed.

(** loop invariant *)
Definition pinv (L : mat) (r : R) (P : vec -> Prop) (X : mat) (act : list bool) : Prop :=
  X <> [] /\ separated L r X /\ Forall P X /\ length act = length X.
Lemma clear_len : forall i act, length (clear_at i act) = length act.
Proof. intros. unfold clear_at. rewrite map_length, seq_length. auto. Qed.
Lemma poisson_step_inv : forall L r inside (P : vec -> Prop) X act i trials, (forall x, inside x = true -> P x) -> pinv L r P X act ->
  pinv L r P (fst (poisson_step L r inside X act i trials)) (snd (poisson_step L r inside X act i trials)).
Proof.
  intros L r inside P X act i trials HI [N [HS [HF HA]]]. unfold poisson_step. destruct (first_some _ trials) as [xc|] eqn:E; simpl.
  - apply first_some_spec in E. destruct E as [t [_ E]]. unfold poisson_trial in E. destruct (poisson_cand L (nth i X []) t) as [y|]; [|discriminate].
    destruct (inside y && Rltb r (vmin (map (Ldist L y) X)))%bool eqn:E2; [|discriminate]. injection E as <-. apply andb_true_iff in E2. destruct E2 as [E2 E3]. apply Rltb_true in E3.
    split; [destruct X; discriminate|]. split; [apply separated_snoc; auto|]. split; [apply Forall_app; auto|]. rewrite !app_length, HA. auto.
  - split; auto. split; auto. split; auto. rewrite clear_len. auto.
Qed.
Lemma poisson_loop_inv : forall fuel k L r inside (P : vec -> Prop) pick trials X act Y, (forall x, inside x = true -> P x) -> pinv L r P X act ->
  poisson_loop fuel k L r inside pick trials X act = Some Y -> exists act', pinv L r P Y act' /\ active_idx act' = [] /\ exists Z, Y = X ++ Z.
Proof.
  induction fuel as [|f IH]; intros k L r inside P pick trials X act Y HI HP H; simpl in H; [discriminate|].
  destruct (active_idx act) as [|a l] eqn:E.
  - injection H as <-. exists act. split; auto. split; auto. exists []. rewrite app_nil_r. auto.
  - destruct (IH _ _ _ _ P _ _ _ _ _ HI (poisson_step_inv L r inside P X act (pick k (a :: l)) (trials k (nth (pick k (a :: l)) X [])) HI HP) H) as [act' [A [B [Z C]]]].
    exists act'. split; auto. split; auto. revert C. unfold poisson_step. destruct (first_some _ _) as [xc|]; simpl; intros ->; [exists (xc :: Z); rewrite <- app_assoc; auto|exists Z; auto].
Qed.

(** whatever the random choices, every returned set is separated, inside the domain, starts with the first sample and has no active point left *)
Theorem poisson_correct : forall fuel L r inside pick trials x0 Y, inside x0 = true ->
  poisson fuel L r inside pick trials x0 = Some Y -> separated L r Y /\ Forall (fun x => inside x = true) Y /\ hd [] Y = x0.
Proof.
  intros fuel L r inside pick trials x0 Y H0 H. unfold poisson in H.
  destruct (poisson_loop_inv fuel 0 L r inside (fun x => inside x = true) pick trials [x0] [true] Y) as [act' [[_ [A [B _]]] [_ [Z C]]]]; auto.
  - split; [discriminate|]. split; [|split; auto]. intros i j Hi Hj Hij. simpl in *. lia.
  - split; auto. split; auto. rewrite C. auto.
Qed.
(** with the membership test of a domain object (tolerance tol): all points satisfy the constraints relaxed by tol *)
Theorem poisson_domain : forall fuel L r d tol pick trials x0 Y, dom_wf d -> dcls d <> Point -> relaxed d tol x0 ->
  poisson fuel L r (fun x => inside1 d x tol) pick trials x0 = Some Y -> separated L r Y /\ Forall (relaxed d tol) Y.
Proof.
  intros fuel L r d tol pick trials x0 Y W C H0 H. apply poisson_correct in H; [|apply inside1_spec; auto]. destruct H as [A [B _]].
  split; auto. eapply Forall_impl; [|exact B]. intros x Hx. apply inside1_spec in Hx; auto.
Qed.

(* ------------------------------------------------------------------ *)
(** * Termination *)
Definition nact (act : list bool) : nat := length (filter (fun b => b) act).
Lemma filter_map_len : forall (A B : Type) (f : B -> bool) (g : A -> B) l, length (filter f (map g l)) = length (filter (fun a => f (g a)) l).
Proof. intros. induction l as [|a l IH]; simpl; auto. destruct (f (g a)); simpl; auto. Qed.
Lemma map_nth_id : forall (A : Type) (l : list A) d, map (fun k => nth k l d) (seq 0 (length l)) = l.
Proof. intros. apply (nth_ext _ _ d d); [rewrite map_length, seq_length; auto|]. intros n Hn. rewrite map_length, seq_length in Hn. rewrite nth_map_seq; auto. Qed.
Lemma nact_idx : forall act, nact act = length (active_idx act).
Proof. intros act. unfold nact, active_idx. rewrite <- (map_nth_id bool act false) at 1. rewrite filter_map_len. auto. Qed.
Lemma filter_one_less : forall (f g : nat -> bool) l i, NoDup l -> In i l -> f i = true -> g i = false -> (forall k, k <> i -> g k = f k) ->
  S (length (filter g l)) = length (filter f l).
Proof.
  intros f g l i ND I F G E. induction l as [|a l IH]; [destruct I|]. inversion ND; subst. destruct I as [->|I].
  - simpl. rewrite F, G. simpl. f_equal. f_equal. apply filter_ext_in. intros k Hk. apply E. intros ->. auto.
  - simpl. assert (a <> i) by (intros ->; auto). rewrite (E a) by auto. destruct (f a); simpl; rewrite <- (IH H2 I); auto.
Qed.
Lemma nact_clear : forall i act, In i (active_idx act) -> S (nact (clear_at i act)) = nact act.
Proof.
  intros i act H. unfold active_idx in H. apply filter_In in H. destruct H as [H1 H2].
  unfold nact. rewrite <- (map_nth_id bool act false) at 2. unfold clear_at. rewrite !filter_map_len.
  apply filter_one_less with (i := i); auto; [apply seq_NoDup|rewrite Nat.eqb_refl; auto|]. intros k Hk. destruct (Nat.eqb_spec k i); [congruence|auto].
Qed.
Lemma nact_snoc : forall act, nact (act ++ [true]) = S (nact act).
Proof. intros. unfold nact. rewrite filter_app, app_length. simpl. lia. Qed.

(** if no separated set in the domain has more than K points, the loop stops after at most 2K iterations *)
Lemma poisson_loop_fuel : forall K L r inside pick trials fuel k X act, (forall k l, l <> [] -> In (pick k l) l) ->
  (forall Y, separated L r Y -> Forall (fun x => inside x = true) Y -> (length Y <= K)%nat) ->
  pinv L r (fun x => inside x = true) X act -> (2 * (K - length X) + nact act < fuel)%nat -> exists Y, poisson_loop fuel k L r inside pick trials X act = Some Y.
Proof.
  intros K L r inside pick trials. induction fuel as [|f IH]; intros k X act HPk HK HP HF; [lia|]. simpl.
  destruct (active_idx act) as [|a l] eqn:E; [eauto|]. set (i := pick k (a :: l)).
  assert (Ii : In i (active_idx act)) by (rewrite E; apply HPk; discriminate).
  pose proof (poisson_step_inv L r inside (fun x => inside x = true) X act i (trials k (nth i X [])) (fun x H => H) HP) as HP'.
  apply IH; auto. destruct HP' as [_ [S' [F' _]]]. revert S' F'. unfold poisson_step. destruct (first_some _ _) as [xc|]; simpl; intros S' F'.
  - pose proof (HK _ S' F') as B. rewrite app_length in *. simpl in *. rewrite nact_snoc. lia.
  - pose proof (nact_clear i act Ii). lia.
Qed.
Theorem poisson_terminates : forall K L r inside pick trials x0, (forall k l, l <> [] -> In (pick k l) l) -> inside x0 = true ->
  (forall Y, separated L r Y -> Forall (fun x => inside x = true) Y -> (length Y <= K)%nat) ->
  exists Y, poisson (2 * K) L r inside pick trials x0 = Some Y.
Proof.
  intros K L r inside pick trials x0 HPk H0 HK. unfold poisson.
  assert (P0 : pinv L r (fun x => inside x = true) [x0] [true]).
  { split; [discriminate|]. split; [|split; auto]. intros i j Hi Hj Hij. simpl in *. lia. }
  assert (K1 : (1 <= K)%nat) by (apply (HK [x0]); destruct P0 as [_ [A [B _]]]; auto).
  (* the bound 2(K-1)+1 < 2K *)
  apply (poisson_loop_fuel K); auto. simpl length. unfold nact. simpl. lia.
Qed.

(* ------------------------------------------------------------------ *)
(** * Packing bound: in a bounded box only finitely many separated points fit *)

(** Frobenius bound of a matrix-vector product *)
Definition fro (L : mat) : R := sqrt (vsum (map norm2sq L)).
Lemma sum_sq_nonneg : forall L : mat, 0 <= vsum (map norm2sq L).
Proof. induction L as [|a L IH]; [unfold vsum; simpl; lra|]. cbn [map]. rewrite vsum_cons. pose proof (norm2sq_nonneg a). lra. Qed.
Lemma mv_norm_bound : forall L x, Forall (fun a => length a = length x) L -> norm2 (mv L x) <= fro L * norm2 x.
Proof.
  intros L x H. apply Rsqr_incr_0_var; [|apply Rmult_le_pos; [apply sqrt_pos|apply norm2_nonneg]]. rewrite Rsqr_mult. unfold Rsqr. rewrite !norm2_sq.
  unfold fro. rewrite sqrt_sqrt by apply sum_sq_nonneg. induction H as [|a L Ha HL IH].
  - unfold norm2sq at 1. unfold mv. cbn [map]. rewrite dot_nil_l. unfold vsum. simpl. lra.
  - unfold mv. cbn [map]. fold (mv L x). unfold norm2sq at 1. rewrite dot_cons. fold (norm2sq (mv L x)). rewrite vsum_cons.
    assert (C : dot a x * dot a x <= norm2sq a * norm2sq x).
    { pose proof (cauchy_schwarz_sq a x Ha) as C. unfold norm2sq in *. lra. }
    lra.
Qed.
Fixpoint tuples (m c : nat) : list (list nat) :=
  match m with O => [[]] | S m' => flat_map (fun a => map (cons a) (tuples m' c)) (seq 0 c) end.
Lemma tuples_in : forall m c t, length t = m -> Forall (fun a => (a < c)%nat) t -> In t (tuples m c).
Proof.
  induction m as [|m IH]; intros c [|a t] HL HF; simpl in *; try discriminate; auto. inversion HF; subst.
  apply in_flat_map. exists a. split; [apply in_seq; lia|]. apply in_map, IH; auto.
Qed.
(** cell index of a point, cells of side s *)
Definition cell (s : R) (l : vec) (x : vec) : list nat := map (fun i => Z.to_nat (Int_part ((vget x i - vget l i) / s))) (seq 0 (length l)).
Lemma int_part_bounds : forall t, IZR (Int_part t) <= t < IZR (Int_part t) + 1.
Proof. intros t. destruct (base_Int_part t). lra. Qed.
Lemma int_part_nonneg : forall t, 0 <= t -> (0 <= Int_part t)%Z.
Proof. intros t H. destruct (int_part_bounds t). apply le_IZR. assert (0 < IZR (Int_part t + 1)) by (rewrite plus_IZR; lra). apply lt_IZR in H2. apply IZR_le. lia. Qed.
Lemma int_part_mono : forall a b, a <= b -> (Int_part a <= Int_part b)%Z.
Proof. intros a b H. destruct (int_part_bounds a), (int_part_bounds b). assert (IZR (Int_part a) < IZR (Int_part b + 1)) by (rewrite plus_IZR; lra). apply lt_IZR in H4. lia. Qed.
Lemma same_cell_close : forall s l x y, 0 < s -> (forall i, (i < length l)%nat -> vget l i <= vget x i) -> (forall i, (i < length l)%nat -> vget l i <= vget y i) ->
  cell s l x = cell s l y -> forall i, (i < length l)%nat -> Rabs (vget x i - vget y i) <= s.
Proof.
  intros s l x y Hs Hx Hy E i Hi. pose proof (f_equal (fun t => nth i t O) E) as Ei. unfold cell in Ei. rewrite !nth_map_seq in Ei by auto.
  set (a := (vget x i - vget l i) / s) in *. set (b := (vget y i - vget l i) / s) in *.
  assert (A0 : 0 <= a) by (apply Rmult_le_pos; [pose proof (Hx i Hi); lra|left; apply Rinv_0_lt_compat; auto]).
  assert (B0 : 0 <= b) by (apply Rmult_le_pos; [pose proof (Hy i Hi); lra|left; apply Rinv_0_lt_compat; auto]).
  pose proof (int_part_nonneg a A0). pose proof (int_part_nonneg b B0). assert (EZ : Int_part a = Int_part b) by lia.
  destruct (int_part_bounds a), (int_part_bounds b). rewrite EZ in *.
  assert (vget x i - vget l i = a * s) by (unfold a; field; lra). assert (vget y i - vget l i = b * s) by (unfold b; field; lra).
  apply Rabs_le. split; nra.
Qed.
Lemma sq_abs : forall a, a * a = Rabs a * Rabs a.
Proof. intro a. unfold Rabs. destruct (Rcase_abs a); ring. Qed.
Lemma norm2sq_coord : forall (x : vec) s, 0 <= s -> (forall i, (i < length x)%nat -> Rabs (vget x i) <= s) -> norm2sq x <= INR (length x) * (s * s).
Proof.
  intros x s Hs H. unfold norm2sq. rewrite dot_rsum by auto. rewrite <- rsum_const. apply rsum_le. intros i Hi.
  pose proof (H i Hi) as B. rewrite sq_abs. pose proof (Rabs_pos (vget x i)). nra.
Qed.

Definition in_box (l u : vec) (x : vec) : Prop := length x = length l /\ forall i, (i < length l)%nat -> vget l i <= vget x i <= vget u i.
Theorem packing : forall L r l u, 0 < r -> Forall (fun a => length a = length l) L ->
  exists K, forall Y, separated L r Y -> Forall (in_box l u) Y -> (length Y <= K)%nat.
Proof.
  intros L r l u Hr HL. set (m := length l). set (s := r / (fro L * (INR m + 1) + 1)).
  assert (F0 : 0 <= fro L) by apply sqrt_pos. pose proof (pos_INR m) as M0.
  assert (D0 : 0 < fro L * (INR m + 1) + 1) by nra. assert (S0 : 0 < s) by (apply Rmult_lt_0_compat; [auto|apply Rinv_0_lt_compat; auto]).
  set (c := S (fold_right Nat.max O (map (fun i => Z.to_nat (Int_part ((vget u i - vget l i) / s))) (seq 0 m)))).
  exists (length (tuples m c)). intros Y HS HB. rewrite Forall_forall in HB.
  assert (IN : incl (map (cell s l) Y) (tuples m c)).
  { intros t Ht. apply in_map_iff in Ht. destruct Ht as [x [<- Hx]]. destruct (HB x Hx) as [Lx Bx]. apply tuples_in; [unfold cell; rewrite map_length, seq_length; auto|].
    apply Forall_forall. intros a Ha. unfold cell in Ha. apply in_map_iff in Ha. destruct Ha as [i [<- Hi]]. apply in_seq in Hi. destruct (Bx i ltac:(lia)) as [B1 B2].
    assert (Q : (Int_part ((vget x i - vget l i) / s) <= Int_part ((vget u i - vget l i) / s))%Z).
    { apply int_part_mono. apply Rmult_le_compat_r; [left; apply Rinv_0_lt_compat; auto|lra]. }
    assert (MX : forall n (ls : list nat), In n ls -> (n <= fold_right Nat.max O ls)%nat) by (intros n ls; induction ls; simpl; intuition lia).
    pose proof (MX _ _ (in_map (fun i => Z.to_nat (Int_part ((vget u i - vget l i) / s))) (seq 0 m) i ltac:(apply in_seq; unfold m; lia))) as M. unfold c. lia. }
  assert (ND : NoDup (map (cell s l) Y)).
  { apply (NoDup_nth _ []). intros i j Hi Hj E. rewrite map_length in Hi, Hj. destruct (Nat.eq_dec i j) as [|Nij]; auto. exfalso.
    assert (G : forall k, (k < length Y)%nat -> nth k (map (cell s l) Y) [] = cell s l (nth k Y [])).
    { intros k Hk. rewrite nth_indep with (d' := cell s l []) by (rewrite map_length; auto). apply map_nth. }
    rewrite !G in E by auto. pose proof (HB _ (nth_In Y [] Hi)) as [Li Bi]. pose proof (HB _ (nth_In Y [] Hj)) as [Lj Bj].
    pose proof (same_cell_close s l _ _ S0 (fun k Hk => proj1 (Bi k Hk)) (fun k Hk => proj1 (Bj k Hk)) E) as C.
    pose proof (HS i j Hi Hj Nij) as D. rewrite Ldist_eq in D by congruence. set (v := vsub (nth i Y []) (nth j Y [])) in *.
    assert (Lv : length v = m) by (unfold v; rewrite vsub_length by congruence; auto).
    assert (B1 : norm2 (mv L v) <= fro L * norm2 v) by (apply mv_norm_bound; rewrite Lv; auto).
    assert (B2 : norm2 v <= (INR m + 1) * s).
    { apply norm2_le_iff; [nra|]. eapply Rle_trans; [apply (norm2sq_coord v s); [lra|]|].
      - intros k Hk. unfold v. rewrite vsub_get by congruence. apply C. lia.
      - rewrite Lv. nra. }
    assert (B3 : fro L * ((INR m + 1) * s) < r).
    { assert (r = (fro L * (INR m + 1) + 1) * s) by (unfold s; field; lra). nra. }
    nra. }
  rewrite <- (map_length (cell s l) Y). apply NoDup_incl_length; auto.
Qed.

(** on a domain contained in a box the sampler always stops and returns a separated set *)
Theorem poisson_bounded : forall L r inside l u, 0 < r -> Forall (fun a => length a = length l) L -> (forall x, inside x = true -> in_box l u x) ->
  exists fuel, forall pick trials x0, (forall k l, l <> [] -> In (pick k l) l) -> inside x0 = true ->
    exists Y, poisson fuel L r inside pick trials x0 = Some Y /\ separated L r Y /\ Forall (fun x => inside x = true) Y.
Proof.
  intros L r inside l u Hr HL HB. destruct (packing L r l u Hr HL) as [K HK]. exists (2 * K)%nat. intros pick trials x0 HP H0.
  destruct (poisson_terminates K L r inside pick trials x0 HP H0) as [Y E].
  - intros Y SY FY. apply HK; auto. eapply Forall_impl; [|exact FY]. auto.
  - exists Y. split; auto. destruct (poisson_correct _ _ _ _ _ _ _ _ H0 E) as [A [B _]]. auto.
Qed.
Theorem poisson_bounded_domain : forall L r d tol l u, 0 < r -> dom_wf d -> dcls d <> Point -> lb d = map Fin l -> ub d = map Fin u -> Forall (fun a => length a = dim d) L ->
  exists fuel, forall pick trials x0, (forall k l, l <> [] -> In (pick k l) l) -> relaxed d tol x0 ->
    exists Y, poisson fuel L r (fun x => inside1 d x tol) pick trials x0 = Some Y /\ separated L r Y /\ Forall (relaxed d tol) Y.
Proof.
  intros L r d tol l u Hr W C El Eu HL. pose proof W as [Wl [Wu _]]. rewrite El, map_length in Wl. rewrite Eu, map_length in Wu.
  destruct (poisson_bounded L r (fun x => inside1 d x tol) (map (fun v => v - tol) l) (map (fun v => v + tol) u)) as [fuel HF]; auto.
  - rewrite map_length. eapply Forall_impl; [|exact HL]. simpl. intros. congruence.
  - intros x Hx. apply inside1_spec in Hx; auto. destruct Hx as [Lx [Bx _]]. split; [rewrite map_length; congruence|]. rewrite map_length. intros i Hi.
    destruct (Bx i) as [B1 B2]. rewrite El, Eu in *.
    assert (G1 : nth_error (map Fin l) i = Some (Fin (vget l i))) by (rewrite nth_error_map, (nth_error_nth' l 0 Hi); auto).
    assert (G2 : nth_error (map Fin u) i = Some (Fin (vget u i))) by (rewrite nth_error_map, (nth_error_nth' u 0) by lia; auto).
    assert (V : forall (f : R -> R) (v : list R), (i < length v)%nat -> vget (map f v) i = f (vget v i)).
    { intros f v Hv. unfold vget. rewrite nth_indep with (d' := f 0) by (rewrite map_length; auto). apply map_nth. }
    rewrite !V by lia. split; auto.
  - exists fuel. intros pick trials x0 HP H0. destruct (HF pick trials x0 HP) as [Y [E [A B]]]; [apply inside1_spec; auto|].
    exists Y. split; auto. split; auto. eapply Forall_impl; [|exact B]. intros x Hx. apply inside1_spec in Hx; auto.
Qed.

(** every returned point was given up only after a pass of trials around it none of which is acceptable, neither then nor beside the returned set *)
Definition spent (L : mat) (r : R) (inside : vec -> bool) (trials : nat -> vec -> list (vec * R)) (X : mat) (x : vec) : Prop :=
  exists k, forall t xc, In t (trials k x) -> poisson_cand L x t = Some xc -> inside xc = true -> exists y, In y X /\ Ldist L xc y <= r.
Lemma first_some_none : forall (A B : Type) (f : A -> option B) l a, first_some f l = None -> In a l -> f a = None.
Proof. intros A B f l a. induction l as [|b l IH]; simpl; [tauto|]. destruct (f b) eqn:E; [discriminate|]. intros H [->|I]; auto. Qed.
Lemma poisson_loop_spent : forall fuel k L r inside pick trials X act Y, X <> [] -> length act = length X ->
  (forall i, (i < length X)%nat -> nth i act false = false -> spent L r inside trials X (nth i X [])) ->
  poisson_loop fuel k L r inside pick trials X act = Some Y -> forall x, In x Y -> spent L r inside trials Y x.
Proof.
  induction fuel as [|f IH]; intros k L r inside pick trials X act Y NX LA HS H x Ix; simpl in H; [discriminate|].
  destruct (active_idx act) as [|a l] eqn:E.
  - injection H as <-. destruct (In_nth _ _ [] Ix) as [i [Hi <-]]. apply HS; auto. destruct (nth i act false) eqn:Q; auto. assert (In i (active_idx act)) by (unfold active_idx; apply filter_In; split; [apply in_seq; lia|auto]). rewrite E in H. destruct H.
  - revert H. set (i0 := pick k (a :: l)). unfold poisson_step. destruct (first_some _ _) as [xc|] eqn:F; cbn [fst snd]; intro H.
    + apply (IH (S k) L r inside pick trials (X ++ [xc]) (act ++ [true]) Y); auto; [destruct X; discriminate|rewrite !app_length; simpl; lia|].
      intros i Hi Q. rewrite app_length in Hi. simpl in Hi. destruct (Nat.eq_dec i (length X)) as [->|Ni]; [rewrite app_nth2 in Q by lia; rewrite LA, Nat.sub_diag in Q; discriminate|].
      rewrite app_nth1 in Q by lia. rewrite app_nth1 by lia. destruct (HS i ltac:(lia) Q) as [k' Hk]. exists k'. intros t y It Ec Hy. destruct (Hk t y It Ec Hy) as [z [Iz Hz]]. exists z. split; auto. apply in_or_app; auto.
    + apply (IH (S k) L r inside pick trials X (clear_at i0 act) Y); auto; [rewrite clear_len; auto|]. intros i Hi Q. unfold clear_at in Q. rewrite (nth_map_seq _ _ _ i) in Q by lia. destruct (Nat.eqb_spec i i0) as [->|Ni]; [|auto].
      exists k. intros t y It Ec Hy. pose proof (first_some_none _ _ _ _ t F It) as N. unfold poisson_trial in N. fold i0 in N. rewrite Ec, Hy in N. cbn [andb] in N. destruct (Rltb r _) eqn:R; [discriminate|]. apply Rltb_false in R.
      destruct (vmin_spec (map (Ldist L y) X) ltac:(destruct X; [congruence|discriminate])) as [_ Iv]. apply in_map_iff in Iv. destruct Iv as [z [Ez Iz]]. exists z. split; auto. lra.
Qed.
Theorem poisson_spent : forall fuel L r inside pick trials x0 Y, poisson fuel L r inside pick trials x0 = Some Y -> forall x, In x Y -> spent L r inside trials Y x.
Proof.
  intros fuel L r inside pick trials x0 Y H. unfold poisson in H. apply (poisson_loop_spent fuel 0 L r inside pick trials [x0] [true] Y); auto; [discriminate|]. intros i Hi Q. simpl in Hi. assert (i = O) by lia. subst. discriminate.
Qed.
