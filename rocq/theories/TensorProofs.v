(** Proofs about tensor product domains. *)
Require Import Reals Lra Lia List Bool Arith.
From Verif Require Import RVec Num DomModel DomSpec DomProofs NormProofs DomOpsProofs DomExamples TensorModel.
Import ListNotations.
Local Open Scope R_scope.

(** arbitrary nesting of products, as the user writes it *)
Inductive tree := TL (f : leaf) | TP (ts : list tree).

Fixpoint build (t : tree) : edom :=
  match t with TL f => Leaf f | TP ts => mk_tensor (map build ts) end.

(** meaning: a point of a product is a concatenation of points of the factors, in order *)
Fixpoint tree_mem (tol : R) (t : tree) (x : vec) : Prop :=
  match t with
  | TL f => inside1 (ldom f) x tol = true
  | TP ts => (fix go ts x := match ts with
                             | [] => x = []
                             | t :: ts' => exists b r, x = b ++ r /\ tree_mem tol t b /\ go ts' r
                             end) ts x
  end.

Fixpoint tree_dim (t : tree) : nat :=
  match t with TL f => dlen f | TP ts => fold_right (fun t n => tree_dim t + n)%nat O ts end.

Local Arguments mk_tensor : simpl never.
Local Arguments dlen : simpl never.

(* ---- flattening ---- *)
Definition factors (e : edom) : list leaf := match e with Leaf f => [f] | Tensor fs => fs end.

Lemma mk_tensor_flat : forall ds, mk_tensor ds = Tensor (flat_map factors ds).
Proof.
  intro ds. unfold mk_tensor. f_equal.
  assert (G : forall acc, fold_left (fun acc d => match d with Tensor fs => acc ++ fs | Leaf f => acc ++ [f] end) ds acc
             = acc ++ flat_map factors ds).
  { induction ds as [|d ds IH]; intro acc; simpl; [rewrite app_nil_r; auto|].
    rewrite IH. destruct d; simpl; rewrite <- app_assoc; auto. }
  apply G.
Qed.

Fixpoint leaves (t : tree) : list leaf :=
  match t with TL f => [f] | TP ts => flat_map leaves ts end.

(** induction on trees *)
Lemma tree_ind' : forall P : tree -> Prop, (forall f, P (TL f)) ->
  (forall ts, Forall P ts -> P (TP ts)) -> forall t, P t.
Proof.
  intros P HL HP. fix IH 1. intro t. destruct t as [f|ts]; [apply HL|]. apply HP.
  induction ts; constructor; auto.
Qed.

Lemma factors_build : forall t, factors (build t) = leaves t.
Proof.
  induction t as [f|ts IH] using tree_ind'; auto.
  change (build (TP ts)) with (mk_tensor (map build ts)). rewrite mk_tensor_flat. simpl. induction IH as [|t ts H _ IH2]; simpl; auto. rewrite H, IH2; auto.
Qed.

Lemma build_tensor : forall ts, build (TP ts) = Tensor (leaves (TP ts)).
Proof.
  intros. pose proof (factors_build (TP ts)) as H. change (build (TP ts)) with (mk_tensor (map build ts)) in *.
  rewrite mk_tensor_flat in *. simpl in *. congruence.
Qed.

(** membership in a flat list of factors *)
Fixpoint flat_mem (tol : R) (fs : list leaf) (x : vec) : Prop :=
  match fs with
  | [] => x = []
  | f :: fs' => exists b r, x = b ++ r /\ inside1 (ldom f) b tol = true /\ flat_mem tol fs' r
  end.

Lemma flat_mem_app : forall tol fs gs x, flat_mem tol (fs ++ gs) x <->
  exists a b, x = a ++ b /\ flat_mem tol fs a /\ flat_mem tol gs b.
Proof.
  induction fs as [|f fs IH]; intros gs x; simpl.
  - split.
    + intro H. exists [], x. auto.
    + intros [a [b [E [H1 H2]]]]. subst; auto.
  - split.
    + intros [b [r [E [H1 H2]]]]. apply IH in H2. destruct H2 as [a [c [E2 [H3 H4]]]]. subst.
      exists (b ++ a), c. rewrite app_assoc. repeat split; auto. exists b, a; auto.
    + intros [a [b [E [[c [d [E2 [H1 H2]]]] H3]]]]. subst. exists c, (d ++ b). rewrite app_assoc.
      repeat split; auto. apply IH. exists d, b; auto.
Qed.

Lemma tree_mem_leaves : forall tol t x, tree_mem tol t x <-> flat_mem tol (leaves t) x.
Proof.
  intros tol t. induction t as [f|ts IH] using tree_ind'; intro x; simpl.
  - split.
    + intro H. exists x, []. rewrite app_nil_r. auto.
    + intros [b [r [E [H1 H2]]]]. subst. rewrite app_nil_r; auto.
  - revert x. induction IH as [|t ts H _ IH2]; intro x; simpl; [tauto|].
    rewrite flat_mem_app. split.
    + intros [b [r [E [H1 H2]]]]. exists b, r. rewrite <- H, <- IH2. auto.
    + intros [b [r [E [H1 H2]]]]. exists b, r. rewrite H, IH2. auto.
Qed.

(* ---- the loop over slices ---- *)
Definition total (fs : list leaf) : nat := fold_right (fun f n => dlen f + n)%nat O fs.

Lemma total_cons : forall f fs, total (f :: fs) = (dlen f + total fs)%nat.
Proof. reflexivity. Qed.

Lemma inside1_length : forall d x tol, inside1 d x tol = true -> length x = dim d.
Proof.
  intros d x tol H. unfold inside1, isinside in H. destruct (Nat.eqb_spec (length x) (dim d)); auto. discriminate.
Qed.

Lemma isinside_rows_length1 : forall d x tol, exists b, isinside_rows d [x] tol = [b].
Proof.
  intros d x tol.
  assert (H1 : exists b, isinside_bounds d [x] tol = [b]).
  { unfold isinside_bounds.
    assert (G : forall n, exists u v, isinside_bounds_loop d [x] tol n = ([u],[v])).
    { induction n as [|n [u [v E]]]; simpl; eauto. rewrite E. simpl.
      destruct (nth n (lb d) NaN); destruct (nth n (ub d) NaN); simpl; do 2 eexists; reflexivity. }
    destruct (G (dim d)) as [u [v E]]. rewrite E. eexists; reflexivity. }
  assert (H4 : exists b, isinside_quad d [x] tol = [b]).
  { unfold isinside_quad. change (map (fun _ : vec => true) [x]) with [true].
    generalize true. generalize (quads d) as qs. induction qs as [|q qs IH]; intro b.
    - exists b. reflexivity.
    - cbn [fold_left map band zipw]. apply IH. }
  destruct H1 as [b1 E1]. destruct H4 as [b4 E4].
  unfold isinside_rows. destruct (dcls d); rewrite ?E1, ?E4; eexists; reflexivity.
Qed.

Lemma leaf_isinside1 : forall f x tol, leaf_isinside f (length x) [x] tol = [inside1 (ldom f) x tol].
Proof.
  intros f x tol. unfold leaf_isinside, inside1, isinside. destruct (Nat.eqb (length x) (dim (ldom f))); auto.
  destruct (isinside_rows_length1 (ldom f) x tol) as [b E]. rewrite E. simpl. rewrite andb_true_r. auto.
Qed.

Lemma slices_loop : forall fs pre y tol b, length y = total fs ->
  exists v, fold_left (fun inside fI => let '(f, J) := fI in
       band inside (leaf_isinside f (snd J - fst J) (map (slice J) [pre ++ y]) tol))
     (combine fs (slices_from (length pre) (length pre) fs)) [b] = [v] /\
    (v = true <-> b = true /\ flat_mem tol fs y).
Proof.
  induction fs as [|f fs IH]; intros pre y tol b H.
  - destruct y; [|discriminate]. exists b. simpl. split; auto. intuition.
  - rewrite total_cons in H. simpl combine. simpl fold_left. simpl flat_mem.
    assert (Hy : y = firstn (dlen f) y ++ skipn (dlen f) y) by (symmetry; apply firstn_skipn).
    set (y1 := firstn (dlen f) y) in *. set (y2 := skipn (dlen f) y) in *.
    assert (L1 : length y1 = dlen f) by (unfold y1; rewrite firstn_length; lia).
    assert (L2 : length y2 = total fs) by (unfold y2; rewrite skipn_length; lia).
    assert (S1 : slice (length pre, (length pre + dlen f)%nat) (pre ++ y) = y1).
    { unfold slice; simpl. replace (length pre + dlen f - length pre)%nat with (dlen f) by lia.
      rewrite skipn_app, skipn_all, Nat.sub_diag. simpl. reflexivity. }
    rewrite S1. replace (length pre + dlen f - length pre)%nat with (length y1) by lia.
    rewrite leaf_isinside1. simpl band.
    destruct (IH (pre ++ y1) y2 tol (b && inside1 (ldom f) y1 tol)%bool L2) as [v [E1 E2]].
    exists v. split.
    + rewrite <- E1. rewrite app_length, L1. rewrite <- app_assoc, <- Hy. reflexivity.
    + rewrite E2, andb_true_iff. split.
      * intros [[H1 H2] H3]. split; auto. exists y1, y2. auto.
      * intros [H1 [c [r [E [H2 H3]]]]]. 
        assert (c = y1 /\ r = y2) as [-> ->]; [|auto].
        pose proof (inside1_length _ _ _ H2) as LC. fold (dlen f) in LC.
        unfold y1, y2. rewrite E, <- LC. rewrite firstn_app, skipn_app, firstn_all, skipn_all, Nat.sub_diag. simpl.
        rewrite app_nil_r. auto.
Qed.

Lemma flat_mem_length : forall tol fs x, flat_mem tol fs x -> length x = total fs.
Proof.
  induction fs as [|f fs IH]; simpl; intros x H; [subst; auto|].
  destruct H as [b [r [E [H1 H2]]]]. subst. rewrite app_length. apply inside1_length in H1. apply IH in H2.
  unfold dlen. lia.
Qed.

Lemma tensor_inside : forall fs x tol, einside (Tensor fs) x tol = true <-> flat_mem tol fs x.
Proof.
  intros fs x tol. simpl. fold (total fs). destruct (Nat.eqb_spec (length x) (total fs)) as [E|E].
  - unfold tensor_isinside, slices. destruct (slices_loop fs [] x tol true E) as [v [E1 E2]].
    simpl app in E1. simpl length in E1. replace (map (fun _ : vec => true) [x]) with [true] by reflexivity.
    rewrite E1. simpl. rewrite andb_true_r. rewrite E2. intuition.
  - split; [discriminate|]. intro H. apply flat_mem_length in H. congruence.
Qed.

Theorem tensor_membership : forall t x tol, einside (build t) x tol = true <-> tree_mem tol t x.
Proof.
  intros t x tol. destruct t as [f|ts].
  - simpl. tauto.
  - rewrite build_tensor, tensor_inside, tree_mem_leaves. tauto.
Qed.

Lemma total_app : forall a b, total (a ++ b) = (total a + total b)%nat.
Proof. unfold total. induction a; intro b; simpl; auto. rewrite IHa. lia. Qed.

Lemma tensor_dim : forall t, elen (build t) = tree_dim t.
Proof.
  assert (G : forall t, total (leaves t) = tree_dim t).
  { induction t as [f|ts IH] using tree_ind'; simpl; [lia|].
    induction IH as [|t ts H _ IH2]; simpl; auto. rewrite total_app, H. simpl in IH2. rewrite IH2. auto. }
  intros t. destruct t as [f|ts]; auto. rewrite build_tensor. simpl elen. apply (G (TP ts)).
Qed.

Theorem tensor_assoc : forall a b c, tmul (tmul a b) c = tmul a (tmul b c).
Proof. intros. unfold tmul. rewrite !mk_tensor_flat. simpl. rewrite !app_nil_r, app_assoc. auto. Qed.

(* ---- normalization ---- *)
Definition leaf_ok (f : leaf) : Prop := length (lnlb f) = dlen f /\ length (lnub f) = dlen f.

Lemma blocks_map : forall (g : leaf -> vec -> vec) fs pre bs, Forall2 (fun (f : leaf) (b : vec) => length b = dlen f) fs bs ->
  map (fun fI => g (fst fI) (slice (snd fI) (pre ++ concat bs)))
      (combine fs (slices_from (length pre) (length pre) fs)) = zipw g fs bs.
Proof.
  intros g fs pre bs H. revert pre. induction H as [|f b fs bs Hb H IH]; intro pre; simpl; auto. f_equal.
  - f_equal. unfold slice; simpl. replace (length pre + dlen f - length pre)%nat with (dlen f) by lia.
    rewrite skipn_app, skipn_all, Nat.sub_diag. simpl.
    rewrite firstn_app, <- Hb, firstn_all, Nat.sub_diag. simpl. apply app_nil_r.
  - rewrite <- (IH (pre ++ b)). rewrite app_length, Hb, <- app_assoc. reflexivity.
Qed.

Theorem tensor_normalize_blocks : forall fs bs, Forall2 (fun (f : leaf) (b : vec) => length b = dlen f) fs bs ->
  tnormalize fs (concat bs) = concat (zipw (fun f b => normalize (lnlb f) (lnub f) b) fs bs).
Proof.
  intros fs bs H. unfold tnormalize, slices. f_equal.
  exact (blocks_map (fun f b => normalize (lnlb f) (lnub f) b) fs [] bs H).
Qed.
Theorem tensor_unnormalize_blocks : forall fs bs, Forall2 (fun (f : leaf) (b : vec) => length b = dlen f) fs bs ->
  tunnormalize fs (concat bs) = concat (zipw (fun f b => unnormalize (lnlb f) (lnub f) b) fs bs).
Proof.
  intros fs bs H. unfold tunnormalize, slices. f_equal.
  exact (blocks_map (fun f b => unnormalize (lnlb f) (lnub f) b) fs [] bs H).
Qed.

Lemma split_blocks : forall fs x, length x = total fs ->
  exists bs, x = concat bs /\ Forall2 (fun (f : leaf) (b : vec) => length b = dlen f) fs bs.
Proof.
  induction fs as [|f fs IH]; intros x H; rewrite ?total_cons in H.
  - exists []. destruct x; [auto|discriminate].
  - destruct (IH (skipn (dlen f) x)) as [bs [E F]]; [rewrite skipn_length; lia|].
    exists (firstn (dlen f) x :: bs). simpl. rewrite <- E, firstn_skipn. split; auto. constructor; auto.
    rewrite firstn_length; lia.
Qed.

Lemma zipw_blocks : forall (g : leaf -> vec -> vec) fs bs,
  (forall f b, leaf_ok f -> length b = dlen f -> length (g f b) = dlen f) -> Forall leaf_ok fs ->
  Forall2 (fun (f : leaf) (b : vec) => length b = dlen f) fs bs -> Forall2 (fun (f : leaf) (b : vec) => length b = dlen f) fs (zipw g fs bs).
Proof.
  intros g fs bs G O H. induction H; simpl; constructor; inversion O; subst; auto.
Qed.

Theorem tensor_unnormalize_normalize : forall fs x, Forall leaf_ok fs -> length x = elen (Tensor fs) ->
  tunnormalize fs (tnormalize fs x) = x /\ tnormalize fs (tunnormalize fs x) = x.
Proof.
  intros fs x O H. destruct (split_blocks fs x H) as [bs [E F]]. subst x.
  assert (N : forall f b, leaf_ok f -> length b = dlen f -> length (normalize (lnlb f) (lnub f) b) = dlen f).
  { intros f b [O1 O2] Hb. rewrite normalize_length; congruence. }
  assert (U : forall f b, leaf_ok f -> length b = dlen f -> length (unnormalize (lnlb f) (lnub f) b) = dlen f).
  { intros f b [O1 O2] Hb. rewrite unnormalize_length; congruence. }
  split.
  - rewrite tensor_normalize_blocks by auto. rewrite tensor_unnormalize_blocks by (apply zipw_blocks; auto).
    f_equal. clear H N U. induction F; simpl; auto. inversion O; subst. destruct H2. f_equal; auto.
    apply unnormalize_normalize; congruence.
  - rewrite tensor_unnormalize_blocks by auto. rewrite tensor_normalize_blocks by (apply zipw_blocks; auto).
    f_equal. clear H N U. induction F; simpl; auto. inversion O; subst. destruct H2. f_equal; auto.
    apply normalize_unnormalize; congruence.
Qed.

(* ---- blockwise reasoning ---- *)
(** product of the factor sets [P] *)
Fixpoint prod_set (P : leaf -> vec -> Prop) (fs : list leaf) (x : vec) : Prop :=
  match fs with
  | [] => x = []
  | f :: fs' => exists b r, x = b ++ r /\ P f b /\ prod_set P fs' r
  end.

Lemma app_block : forall (a b c d : vec), a ++ b = c ++ d -> length a = length c -> a = c /\ b = d.
Proof.
  induction a; destruct c; simpl; intros d H L; try discriminate; auto.
  inversion H; subst. destruct (IHa b c d) as [-> ->]; auto.
Qed.

Lemma prod_set_blocks : forall (P : leaf -> vec -> Prop), (forall f b, P f b -> length b = dlen f) ->
  forall fs bs, Forall2 (fun (f : leaf) (b : vec) => length b = dlen f) fs bs ->
  (prod_set P fs (concat bs) <-> Forall2 P fs bs).
Proof.
  intros P HP fs bs H. induction H as [|f b fs bs Hb H IH]; simpl.
  - split; intro; [constructor|reflexivity].
  - split.
    + intros [c [r [E [H1 H2]]]]. apply app_block in E; [|rewrite (HP _ _ H1); auto]. destruct E as [E1 E2]. subst.
      constructor; auto. apply IH; auto.
    + intro F. inversion F; subst. exists b, (concat bs). rewrite IH. auto.
Qed.

Lemma flat_mem_prod : forall tol fs x, flat_mem tol fs x <-> prod_set (fun f b => inside1 (ldom f) b tol = true) fs x.
Proof. induction fs; simpl; intros; [tauto|]. split; intros [b [r [E [H1 H2]]]]; exists b, r; rewrite IHfs in *; auto. Qed.

(** product of the exact sets *)
Definition tmember (fs : list leaf) (x : vec) : Prop := prod_set (fun f b => member (ldom f) b) fs x.

Lemma tmember_length : forall f b, member (ldom f) b -> length b = dlen f.
Proof. intros f b [H _]. exact H. Qed.

(** factors whose normalization is faithful (see C04) *)
Definition leaf_norm_ok (f : leaf) : Prop :=
  dom_wf (ldom f) /\ length (lnlb f) = dlen f /\ length (lnub f) = dlen f /\ uniform (lb (ldom f)) /\
  uniform (ub (ldom f)) /\ oriented (lnlb f) (lnub f) /\ Forall (quad_centred (lnlb f) (lnub f)) (quads (ldom f)).

Lemma normalized_dim : forall a b d, dim (normalized_domain a b d) = dim d.
Proof. intros. unfold normalized_domain. destruct (dcls d); auto. Qed.

Theorem tensor_normalized_member : forall nb fs x, Forall leaf_norm_ok fs -> length x = elen (Tensor fs) ->
  (tmember (tnormalized nb fs) (tnormalize fs x) <-> tmember fs x).
Proof.
  intros nb fs x O H. destruct (split_blocks fs x H) as [bs [E F]]. subst x. clear H.
  rewrite tensor_normalize_blocks by auto. unfold tmember.
  rewrite prod_set_blocks; [|exact tmember_length|].
  2:{ clear - O F. unfold tnormalized. induction F as [|f b fs bs Hb F IH]; simpl; [constructor|].
      inversion O as [|? ? Of Ofs]; subst. constructor; auto. destruct Of as [_ [L1 [L2 _]]].
      rewrite normalize_length by congruence. unfold dlen; simpl. rewrite normalized_dim. exact L1. }
  rewrite prod_set_blocks by (exact tmember_length || auto).
  unfold tnormalized. induction F as [|f b fs bs Hb F IH]; simpl; [split; constructor|].
  inversion O as [|? ? Of Ofs]; subst. specialize (IH Ofs).
  destruct Of as [O1 [O2 [O3 [O4 [O5 [O6 O7]]]]]].
  pose proof (normalized_domain_member (lnlb f) (lnub f) (ldom f) b O1 O2 O3 O4 O5 O6 O7 Hb) as M.
  split; intro G; inversion G; subst; constructor; simpl in *; intuition.
Qed.

(* ---- the product written as one linear-quadratic domain ---- *)
Lemma dot_app : forall (a c b d : vec), length a = length c -> dot (a ++ b) (c ++ d) = dot a c + dot b d.
Proof.
  induction a; destruct c; simpl; intros b d H; try discriminate.
  - rewrite dot_nil_l. ring.
  - rewrite !dot_cons, IHa by lia. ring.
Qed.

Lemma dot_repeat0 : forall n x, dot (repeat 0 n) x = 0.
Proof. intros. apply (dot_zero_l n x). Qed.

Lemma dot_pad : forall tot (pre y post r : vec), length y = length r -> tot = (length pre + length y + length post)%nat ->
  dot (pad_row tot (length pre) r) (pre ++ y ++ post) = dot r y.
Proof.
  intros tot pre y post r H T. unfold pad_row. rewrite dot_app by (rewrite repeat_length; auto).
  rewrite dot_app by auto. rewrite !dot_repeat0. ring.
Qed.

Definition leaf_lin (f : leaf) : Prop := dom_wf (ldom f) /\ dcls (ldom f) <> Point /\ quads (ldom f) = [].

(** satisfaction of the concatenated bounds *)
Lemma sat_bounds_app : forall l1 l2 u1 u2 tol x1 x2, length l1 = length x1 -> length u1 = length x1 ->
  length l2 = length x2 -> length u2 = length x2 ->
  (sat_bounds (l1 ++ l2) (u1 ++ u2) tol (x1 ++ x2) <-> sat_bounds l1 u1 tol x1 /\ sat_bounds l2 u2 tol x2).
Proof.
  intros l1 l2 u1 u2 tol x1 x2 H1 H2 H3 H4. unfold sat_bounds, vget. split.
  - intro HH. split; intro i.
    + destruct (HH i) as [A B]. split; intros v Hv.
      * assert (i < length l1)%nat by (apply nth_error_Some; congruence).
        specialize (A v). rewrite nth_error_app1, app_nth1 in A by lia. auto.
      * assert (i < length u1)%nat by (apply nth_error_Some; congruence).
        specialize (B v). rewrite nth_error_app1, app_nth1 in B by lia. auto.
    + destruct (HH (length x1 + i)%nat) as [A B]. rewrite app_nth2 in A, B by lia.
      replace (length x1 + i - length x1)%nat with i in * by lia. split; intros v Hv.
      * apply A. rewrite nth_error_app2 by lia. rewrite H1. replace (length x1 + i - length x1)%nat with i by lia. auto.
      * apply B. rewrite nth_error_app2 by lia. rewrite H2. replace (length x1 + i - length x1)%nat with i by lia. auto.
  - intros [HA HB] i. destruct (Nat.lt_ge_cases i (length x1)) as [L|L].
    + rewrite app_nth1 by auto. rewrite !nth_error_app1 by lia. apply HA.
    + rewrite app_nth2 by auto. rewrite !nth_error_app2 by lia. rewrite H1, H2. apply HB.
Qed.

Lemma rows_app_iff : forall (A1 A2 : mat) (b1 b2 : vec) (Q : list R -> R -> Prop), length A1 = length b1 ->
  ((forall k a c, nth_error (A1 ++ A2) k = Some a -> nth_error (b1 ++ b2) k = Some c -> Q a c) <->
   (forall k a c, nth_error A1 k = Some a -> nth_error b1 k = Some c -> Q a c) /\
   (forall k a c, nth_error A2 k = Some a -> nth_error b2 k = Some c -> Q a c)).
Proof. exact nth_error_app_rows. Qed.

Lemma pad_rows_iff : forall (A : mat) (b : vec) (T : R -> R -> Prop) tot (pre y post : vec),
  Forall (fun r => length r = length y) A -> tot = (length pre + length y + length post)%nat ->
  ((forall k a c, nth_error (map (pad_row tot (length pre)) A) k = Some a -> nth_error b k = Some c ->
      T (dot a (pre ++ y ++ post)) c) <->
   (forall k a c, nth_error A k = Some a -> nth_error b k = Some c -> T (dot a y) c)).
Proof.
  intros A b T tot pre y post F E. rewrite Forall_forall in F. split.
  - intros HH k a c Ha Hc. rewrite <- (dot_pad tot pre y post a); [|symmetry; apply F; eapply nth_error_In; eauto|auto].
    apply (HH k); auto. apply map_nth_error; auto.
  - intros HH k a c Ha Hc. rewrite nth_error_map in Ha. destruct (nth_error A k) as [r|] eqn:Hr; [|discriminate].
    simpl in Ha. inversion Ha; subst. rewrite dot_pad; [eauto| |auto]. symmetry. apply F. eapply nth_error_In; eauto.
Qed.

(** rows of the stacked padded matrices, starting after the prefix [pre] *)
Lemma stacked_rows : forall (sel : dom -> mat) (selb : dom -> vec) (T : R -> R -> Prop) tot fs pre bs,
  Forall (fun f => Forall (fun r => length r = dlen f) (sel (ldom f)) /\ length (sel (ldom f)) = length (selb (ldom f))) fs ->
  Forall2 (fun (f : leaf) (b : vec) => length b = dlen f) fs bs -> tot = (length pre + total fs)%nat ->
  ((forall k a c, nth_error (concat (map (fun fI => map (pad_row tot (fst (snd fI))) (sel (ldom (fst fI))))
        (combine fs (slices_from (length pre) (length pre) fs)))) k = Some a ->
      nth_error (concat (map (fun f => selb (ldom f)) fs)) k = Some c -> T (dot a (pre ++ concat bs)) c) <->
   Forall2 (fun f b => forall k a c, nth_error (sel (ldom f)) k = Some a -> nth_error (selb (ldom f)) k = Some c ->
      T (dot a b) c) fs bs).
Proof.
  intros sel selb T tot fs pre bs W F. revert pre. induction F as [|f b fs bs Hb F IH]; intros pre E; simpl.
  - split; [constructor|]. intros _ k a c Ha. destruct k; discriminate.
  - inversion W as [|? ? [Wf1 Wf2] Wfs]; subst. rewrite total_cons in *.
    assert (LB : length (concat bs) = total fs).
    { clear - F. induction F as [|f b fs bs Hb F IH]; simpl; auto. rewrite app_length, IH, Hb. reflexivity. }
    rewrite rows_app_iff with (Q := fun a c => T (dot a (pre ++ b ++ concat bs)) c) by (rewrite map_length; auto).
    rewrite (pad_rows_iff (sel (ldom f)) (selb (ldom f)) T); [|rewrite Hb; auto|rewrite LB, Hb; lia].
    specialize (IH Wfs (pre ++ b)). rewrite app_length, Hb in IH. specialize (IH ltac:(lia)).
    rewrite app_assoc. rewrite IH. split.
    + intros [H1 H2]. constructor; auto.
    + intro G. inversion G; subst. auto.
Qed.

Lemma stacked_bounds : forall fs bs tol, Forall (fun f => dom_wf (ldom f)) fs ->
  Forall2 (fun (f : leaf) (b : vec) => length b = dlen f) fs bs ->
  (sat_bounds (concat (map (fun f => lb (ldom f)) fs)) (concat (map (fun f => ub (ldom f)) fs)) tol (concat bs) <->
   Forall2 (fun f b => sat_bounds (lb (ldom f)) (ub (ldom f)) tol b) fs bs).
Proof.
  intros fs bs tol W F. induction F as [|f b fs bs Hb F IH]; simpl.
  - split; [constructor|]. intros _ i. split; intros v Hv; destruct i; discriminate.
  - inversion W as [|? ? [Wf1 [Wf2 _]] Wfs]; subst. fold (dlen f) in Wf1, Wf2.
    assert (LL : length (concat (map (fun f => lb (ldom f)) fs)) = length (concat bs) /\
                 length (concat (map (fun f => ub (ldom f)) fs)) = length (concat bs)).
    { clear - F Wfs. induction F as [|f b fs bs Hb F IH]; simpl; auto.
      inversion Wfs as [|? ? [W1 [W2 _]] Wfs']; subst. unfold dlen in Hb. rewrite !app_length. destruct IH as [I1 I2]; auto. split; lia. }
    destruct LL as [L1 L2]. rewrite sat_bounds_app by congruence. rewrite IH by auto. split.
    + intros [H1 H2]. constructor; auto.
    + intro G; inversion G; subst; auto.
Qed.

Lemma Forall2_and : forall (A B : Type) (P Q : A -> B -> Prop) l m,
  Forall2 (fun a b => P a b /\ Q a b) l m <-> Forall2 P l m /\ Forall2 Q l m.
Proof.
  intros. split.
  - intro H. induction H as [|? ? ? ? [? ?] ? [? ?]]; split; constructor; auto.
  - intros [H1 H2]. induction H1; inversion H2; subst; constructor; auto.
Qed.

Lemma tensor_as_linquad_wf : forall fs, Forall leaf_lin fs -> dom_wf (tensor_as_linquad fs).
Proof.
  intros fs W. unfold tensor_as_linquad, dom_wf; cbn [dcls dim lb ub dA db dAeq dbeq quads]. fold (total fs).
  change (elen (Tensor fs)) with (total fs).
  assert (W' : Forall (fun f => dom_wf (ldom f)) fs) by (apply Forall_impl with (2 := W); intros a [H _]; auto).
  assert (G : forall (sel : dom -> mat) (selb : dom -> vec), 
     Forall (fun f => Forall (fun r => length r = dlen f) (sel (ldom f)) /\ length (sel (ldom f)) = length (selb (ldom f))) fs ->
     Forall (fun r => length r = total fs) (tensor_A sel fs) /\
     length (tensor_A sel fs) = length (concat (map (fun f => selb (ldom f)) fs))).
  { intros sel selb FF. unfold tensor_A, slices. change (elen (Tensor fs)) with (total fs).
    assert (GG : forall tot st gs, Forall (fun f => Forall (fun r => length r = dlen f) (sel (ldom f)) /\ length (sel (ldom f)) = length (selb (ldom f))) gs ->
       (st + total gs = tot)%nat ->
       Forall (fun r => length r = tot) (concat (map (fun fI => map (pad_row tot (fst (snd fI))) (sel (ldom (fst fI)))) (combine gs (slices_from st st gs)))) /\
       length (concat (map (fun fI => map (pad_row tot (fst (snd fI))) (sel (ldom (fst fI)))) (combine gs (slices_from st st gs)))) = length (concat (map (fun f => selb (ldom f)) gs))).
    { intros tot st gs. revert st. induction gs as [|g gs IH]; intros st Fg E; simpl; [auto|].
      inversion Fg as [|? ? [F1 F2] Fgs]; subst. rewrite total_cons in *.
      destruct (IH (st + dlen g)%nat Fgs ltac:(lia)) as [I1 I2]. rewrite Forall_app, !app_length, map_length. split; [|lia].
      split; auto. apply Forall_forall. intros r Hr. apply in_map_iff in Hr. destruct Hr as [r0 [E0 H0]]. subst r.
      rewrite Forall_forall in F1. apply F1 in H0. unfold pad_row. rewrite !app_length, !repeat_length. simpl. lia. }
    apply GG; auto. }
  assert (GA : Forall (fun f => Forall (fun r => length r = dlen f) (dA (ldom f)) /\ length (dA (ldom f)) = length (db (ldom f))) fs).
  { apply Forall_impl with (2 := W'). intros f [_ [_ [H3 [H4 _]]]]. auto. }
  assert (GE : Forall (fun f => Forall (fun r => length r = dlen f) (dAeq (ldom f)) /\ length (dAeq (ldom f)) = length (dbeq (ldom f))) fs).
  { apply Forall_impl with (2 := W'). intros f [_ [_ [_ [_ [H5 [H6 _]]]]]]. auto. }
  destruct (G dA db GA) as [A1 A2]. destruct (G dAeq dbeq GE) as [E1 E2].
  assert (LL : forall (s : dom -> list num), (forall f, In f fs -> length (s (ldom f)) = dlen f) ->
     length (concat (map (fun f => s (ldom f)) fs)) = total fs).
  { clear. intros s. induction fs as [|f fs IH]; intro H; simpl; auto. rewrite app_length, IH, H; simpl; auto.
    intros; apply H; simpl; auto. }
  rewrite Forall_forall in W'.
  assert (L1 : length (concat (map (fun f => lb (ldom f)) fs)) = total fs).
  { apply LL. intros f Hf. destruct (W' f Hf) as [H1 _]. exact H1. }
  assert (L2 : length (concat (map (fun f => ub (ldom f)) fs)) = total fs).
  { apply LL. intros f Hf. destruct (W' f Hf) as [_ [H2 _]]. exact H2. }
  split; [exact L1|]. split; [exact L2|]. split; [exact A1|]. split; [exact A2|]. split; [exact E1|]. split; [exact E2|].
  split; [constructor|]. split; [auto|]. split; [intros [?|?]; discriminate|discriminate].
Qed.

Theorem tensor_as_linquad_inside : forall fs x tol, Forall leaf_lin fs ->
  inside1 (tensor_as_linquad fs) x tol = einside (Tensor fs) x tol.
Proof.
  intros fs x tol W. apply Bool.eq_true_iff_eq. rewrite tensor_inside.
  rewrite inside1_spec; [|apply tensor_as_linquad_wf; auto|discriminate].
  assert (W' : Forall (fun f => dom_wf (ldom f)) fs) by (apply Forall_impl with (2 := W); intros a [H _]; auto).
  unfold relaxed, tensor_as_linquad; cbn [dcls dim lb ub dA db dAeq dbeq quads]. change (elen (Tensor fs)) with (total fs).
  split.
  - intros [L [B [I [E _]]]]. destruct (split_blocks fs x L) as [bs [X F]]. subst x.
    apply flat_mem_prod. apply prod_set_blocks; auto. { intros f b HI. apply inside1_length in HI; auto. }
    apply stacked_bounds in B; auto.
    unfold sat_ineq, tensor_A, slices in I.
    pose proof (stacked_rows dA db (fun l r => l <= r + tol) (total fs) fs [] bs) as RA. simpl app in RA. simpl length in RA.
    apply RA in I; auto. 2:{ apply Forall_impl with (2 := W'). intros f [_ [_ [H3 [H4 _]]]]. auto. }
    unfold sat_eq, tensor_A, slices in E.
    pose proof (stacked_rows dAeq dbeq (fun l r => Rabs (l - r) < tol) (total fs) fs [] bs) as RE. simpl app in RE. simpl length in RE.
    apply RE in E; auto. 2:{ apply Forall_impl with (2 := W'). intros f [_ [_ [_ [_ [H5 [H6 _]]]]]]. auto. }
    clear RA RE L W'. induction F as [|f b fs bs Hb F IH]; [constructor|].
    inversion W as [|? ? [W1 [W2 W3]] Wfs]; inversion B; inversion I; inversion E; subst. constructor; auto.
    apply inside1_spec; auto. unfold relaxed, sat_ineq, sat_eq. rewrite W3.
    split; [exact Hb|]. split; [assumption|]. split; [assumption|]. split; [assumption|intros q []].
  - intro M. pose proof (flat_mem_length _ _ _ M) as L. split; auto.
    destruct (split_blocks fs x L) as [bs [X F]]. subst x.
    apply flat_mem_prod in M. apply prod_set_blocks in M; auto. 2:{ intros f b HI. apply inside1_length in HI; auto. }
    assert (M' : Forall2 (fun f b => relaxed (ldom f) tol b) fs bs).
    { clear - W M. induction M; constructor; inversion W as [|? ? [W1 [W2 W3]] Wfs]; subst; auto. apply inside1_spec; auto. }
    unfold relaxed in M'. rewrite !Forall2_and in M'. destruct M' as [_ [MB [MI [ME _]]]].
    split; [apply stacked_bounds; auto|]. split; [|split; [|intros q []]].
    + unfold sat_ineq, tensor_A, slices.
      pose proof (stacked_rows dA db (fun l r => l <= r + tol) (total fs) fs [] bs) as RA. simpl app in RA. simpl length in RA.
      apply RA; auto. apply Forall_impl with (2 := W'). intros f [_ [_ [H3 [H4 _]]]]. auto.
    + unfold sat_eq, tensor_A, slices.
      pose proof (stacked_rows dAeq dbeq (fun l r => Rabs (l - r) < tol) (total fs) fs [] bs) as RE. simpl app in RE. simpl length in RE.
      apply RE; auto. apply Forall_impl with (2 := W'). intros f [_ [_ [_ [_ [H5 [H6 _]]]]]]. auto.
Qed.

Lemma concat_proper : forall fs, Forall (fun f => proper (ldom f)) fs -> proper (tensor_as_linquad fs).
Proof.
  intros fs H. unfold proper, tensor_as_linquad; simpl. induction H as [|f fs [H1 H2] _ [I1 I2]]; simpl; [auto|].
  rewrite !Forall_app. auto.
Qed.

Theorem tensor_add_inside : forall fs c x tol, Forall leaf_lin fs -> Forall (fun f => proper (ldom f)) fs ->
  dom_wf c -> proper c -> dim c = elen (Tensor fs) -> dcls c <> Point ->
  inside1 (tensor_add_constraints fs c) x tol = (einside (Tensor fs) x tol && inside1 c x tol)%bool.
Proof.
  intros fs c x tol W P Wc Pc D N. unfold tensor_add_constraints.
  rewrite add_constraints_inside; auto using tensor_as_linquad_wf, concat_proper; [|discriminate].
  rewrite tensor_as_linquad_inside by auto. auto.
Qed.

(** running python minimum *)
Lemma min_fold_spec : forall es e al, e <> NaN -> Forall (fun v => v <> NaN) es ->
  (nleb (Fin al) (fold_left (fun m v => if nltb v m then v else m) es e) = true <->
   nleb (Fin al) e = true /\ Forall (fun v => nleb (Fin al) v = true) es).
Proof.
  induction es as [|v es IH]; intros e al He Hes; simpl fold_left.
  - split; [auto|tauto].
  - inversion Hes as [|? ? Hv Hes']; subst.
    assert (K : (if nltb v e then v else e) <> NaN) by (destruct (nltb v e); auto).
    rewrite IH by auto.
    assert (Q : nleb (Fin al) (if nltb v e then v else e) = true <-> nleb (Fin al) e = true /\ nleb (Fin al) v = true).
    { destruct (nltb v e) eqn:L.
      - split; [|tauto]. intro A. split; auto.
        destruct v; destruct e; simpl in *; try discriminate; try congruence; auto.
        apply Rltb_true in L. apply Rleb_true in A. apply Rleb_true. lra.
      - split; [|tauto]. intro A. split; auto.
        destruct v; destruct e; simpl in *; try discriminate; try congruence; auto.
        apply Rltb_false in L. apply Rleb_true in A. apply Rleb_true. lra. }
    rewrite Q. split.
    + intros [[A B] C]. auto.
    + intros [A C]. inversion C; subst. auto.
Qed.

(** [e] is the exact step of factor [f] from [x] along [p] *)
Definition exact_step (f : leaf) (stol : R) (x p : vec) : Prop :=
  length x = dlen f /\ length p = dlen f /\ extent_ (ldom f) stol x p <> NaN /\
  forall al, 0 <= al -> (member (ldom f) (along x p al) <-> nleb (Fin al) (extent_ (ldom f) stol x p) = true).

Lemma along_app : forall x1 x2 p1 p2 al, length x1 = length p1 ->
  along (x1 ++ x2) (p1 ++ p2) al = along x1 p1 al ++ along x2 p2 al.
Proof.
  intros x1 x2 p1 p2 al. unfold along, vadd, vscale. revert p1.
  induction x1; destruct p1; simpl; intros H; try discriminate; auto. f_equal. apply IHx1. lia.
Qed.

Theorem tensor_extent_exact : forall stol (ts : list (leaf * (vec * vec))), ts <> [] ->
  Forall (fun t => exact_step (fst t) stol (fst (snd t)) (snd (snd t))) ts ->
  let fs := map fst ts in
  let x := concat (map (fun t => fst (snd t)) ts) in
  let p := concat (map (fun t => snd (snd t)) ts) in
  exists e, tensor_extent fs stol x p = Some e /\
    forall al, 0 <= al -> (tmember fs (along x p al) <-> nleb (Fin al) e = true).
Proof.
  intros stol ts NE H fs x p.
  assert (FX : Forall2 (fun (f : leaf) (b : vec) => length b = dlen f) fs (map (fun t => fst (snd t)) ts)).
  { unfold fs. clear - H. induction H as [|t ts [H1 _] _ IH]; simpl; constructor; auto. }
  assert (FP : Forall2 (fun (f : leaf) (b : vec) => length b = dlen f) fs (map (fun t => snd (snd t)) ts)).
  { unfold fs. clear - H. induction H as [|t ts [_ [H1 _]] _ IH]; simpl; constructor; auto. }
  assert (E : map (fun fI => extent_ (ldom (fst fI)) stol (slice (snd fI) x) (slice (snd fI) p)) (combine fs (slices fs))
            = map (fun t => extent_ (ldom (fst t)) stol (fst (snd t)) (snd (snd t))) ts).
  { unfold fs, x, p, slices in *. clear NE fs x p.
    assert (G : forall pre pre', length pre' = length pre ->
      map (fun fI => extent_ (ldom (fst fI)) stol (slice (snd fI) (pre ++ concat (map (fun t => fst (snd t)) ts)))
            (slice (snd fI) (pre' ++ concat (map (fun t => snd (snd t)) ts))))
        (combine (map fst ts) (slices_from (length pre) (length pre) (map fst ts)))
      = map (fun t => extent_ (ldom (fst t)) stol (fst (snd t)) (snd (snd t))) ts).
    { clear FX FP. induction H as [|t ts [H1 [H2 _]] _ IH]; intros pre pre' LP; simpl; auto.
      assert (SL : forall (q b r : vec), length q = length pre -> length b = dlen (fst t) ->
        slice (length pre, (length pre + dlen (fst t))%nat) (q ++ b ++ r) = b).
      { intros q b r Lq Lb. unfold slice; simpl. replace (length pre + dlen (fst t) - length pre)%nat with (dlen (fst t)) by lia.
        rewrite <- Lq. rewrite skipn_app, skipn_all, Nat.sub_diag. simpl.
        rewrite firstn_app, <- Lb, firstn_all, Nat.sub_diag. simpl. apply app_nil_r. }
      f_equal.
      - rewrite !SL; auto.
      - rewrite <- (IH (pre ++ fst (snd t)) (pre' ++ snd (snd t))) by (rewrite !app_length; lia).
        rewrite app_length, H1. apply map_ext. intros a. rewrite <- !app_assoc. reflexivity. }
    exact (G [] [] eq_refl). }
  unfold tensor_extent. rewrite E.
  destruct ts as [|t ts]; [congruence|]. cbn [map].
  set (e0 := extent_ (ldom (fst t)) stol (fst (snd t)) (snd (snd t))).
  set (es := map (fun t => extent_ (ldom (fst t)) stol (fst (snd t)) (snd (snd t))) ts).
  eexists. split; [reflexivity|]. intros al Hal.
  inversion H as [|? ? [T1 [T2 [T3 T4]]] HT]; subst.
  rewrite min_fold_spec; auto.
  2:{ unfold es. clear - HT. induction HT as [|t ts [_ [_ [N _]]] _ IH]; simpl; constructor; auto. }
  assert (G : forall ts, Forall (fun t => exact_step (fst t) stol (fst (snd t)) (snd (snd t))) ts ->
     (tmember (map fst ts) (along (concat (map (fun t => fst (snd t)) ts)) (concat (map (fun t => snd (snd t)) ts)) al) <->
      Forall (fun v => nleb (Fin al) v = true) (map (fun t => extent_ (ldom (fst t)) stol (fst (snd t)) (snd (snd t))) ts))).
  { clear - Hal. intros ts H. induction H as [|t ts [H1 [H2 [_ H4]]] _ IH]; simpl.
    - split; [constructor|]. intros _. reflexivity.
    - rewrite along_app by congruence. unfold tmember in *. simpl. split.
      + intros [b [r [E [M1 M2]]]]. pose proof (tmember_length _ _ M1) as LB.
        apply app_block in E; [|rewrite along_length; congruence]. destruct E as [E1 E2]. subst.
        constructor; [apply H4; auto|apply IH; auto].
      + intro G. inversion G; subst. eexists; eexists. split; [reflexivity|]. split; [apply H4; auto|apply IH; auto]. }
  pose proof (G (t :: ts) H) as G'. cbn [map] in G'. unfold fs, x, p. cbn [map]. rewrite G'.
  fold e0. fold es. split.
  - intro K. inversion K; subst. auto.
  - intros [K1 K2]. constructor; auto.
Qed.

(* ---- cases ---- *)
Definition ex_leaf1 : leaf := mkLeaf (mkDom Box 1 [Fin 0] [Fin 1] [] [] [] [] []) [Fin 0] [Fin 1].
Definition ex_leaf2 : leaf := mkLeaf (mkDom LinIneq 2 [Fin 0; Fin 0] [Fin 2; Fin 2] [[1;1]] [3] [] [] []) [Fin 0; Fin 0] [Fin 2; Fin 2].

Lemma ex_leaf_lin : Forall leaf_lin [ex_leaf1; ex_leaf2] /\ Forall (fun f => proper (ldom f)) [ex_leaf1; ex_leaf2].
Proof.
  split; apply Forall_cons; try (apply Forall_cons; [|constructor]).
  - split; [unfold ex_leaf1; simpl; wf|]. split; [discriminate|reflexivity].
  - split; [unfold ex_leaf2; simpl; wf|]. split; [discriminate|reflexivity].
  - unfold proper; simpl; repeat constructor.
  - unfold proper; simpl; repeat constructor.
Qed.

Lemma ex_tree_mem : tree_mem (1/100) (TP [TL ex_leaf1; TP [TL ex_leaf2; TL ex_leaf1]]) [1; 1; 2; 0].
Proof.
  assert (W1 : dom_wf (ldom ex_leaf1)) by (unfold ex_leaf1; simpl; wf).
  assert (W2 : dom_wf (ldom ex_leaf2)) by (unfold ex_leaf2; simpl; wf).
  simpl. exists [1], [1;2;0]. split; auto. split.
  - apply inside1_spec; auto; [discriminate|]. apply member_relaxed1; [memb|lra].
  - exists [1;2;0], []. repeat split; auto. exists [1;2], [0]. split; auto. split.
    + apply inside1_spec; auto; [discriminate|]. apply member_relaxed1; [memb|lra].
    + exists [0], []. repeat split; auto. apply inside1_spec; auto; [discriminate|]. apply member_relaxed1; [memb|lra].
Qed.

(** a tensor product with an ellipsoidal factor forgets the ellipsoid when constraints are added *)
Definition ex_disc : leaf := mkLeaf (mkDom LinQuad 1 [NInf] [PInf] [] [] [] [] [mkQuad [[1]] [0] 1]) [Fin (-1)] [Fin 1].
Lemma tensor_add_refuted : exists fs c x tol, Forall (fun f => dom_wf (ldom f) /\ dcls (ldom f) <> Point) fs /\
  Forall (fun f => proper (ldom f)) fs /\ dom_wf c /\ proper c /\ dim c = elen (Tensor fs) /\ 0 < tol /\
  einside (Tensor fs) x tol = false /\ inside1 (tensor_add_constraints fs c) x tol = true.
Proof.
  exists [ex_disc], (mkDom Box 1 [Fin (-10)] [Fin 10] [] [] [] [] []), [5], (1/100).
  assert (W : dom_wf (mkDom Box 1 [Fin (-10)] [Fin 10] [] [] [] [] [])) by wf.
  assert (WD : dom_wf (ldom ex_disc)) by (unfold ex_disc; simpl; wf).
  split; [apply Forall_cons; [split; [exact WD|discriminate]|constructor]|].
  split; [apply Forall_cons; [unfold proper; simpl; repeat constructor|constructor]|].
  split; auto. split; [unfold proper; simpl; repeat constructor|]. split; auto. split; [lra|]. split.
  - match goal with |- ?b = false => destruct b eqn:E; auto end. apply tensor_inside in E. simpl in E.
    destruct E as [b [r [E1 [E2 E3]]]]. subst r. rewrite app_nil_r in E1. subst b.
    apply inside1_spec in E2; auto; [|discriminate]. destruct E2 as [_ [_ [_ [_ Q]]]].
    specialize (Q _ (or_introl eq_refl)). simpl in Q. apply norm2_le_iff in Q; [|lra]. vc. lra.
  - unfold tensor_add_constraints, tensor_as_linquad, add_constraints, ex_disc. simpl.
    unfold tensor_A. simpl. apply inside1_spec; [wf|discriminate|]. apply member_relaxed1; [memb|lra].
Qed.

(** a box factor has an exact step from any of its points in any direction *)
Lemma box_exact_step : forall l u nl nu stol x p, length l = length u -> length p = length l -> 0 < stol ->
  length x = length l -> (forall i, (i < length l)%nat -> vget l i <= vget x i <= vget u i) ->
  exact_step (mkLeaf (box_of l u) nl nu) stol x p.
Proof.
  intros l u nl nu stol x p H Hp Hs Hx M.
  destruct (extent_box l u 1 stol x p H Hp ltac:(lra) Hs Hx M) as [e [E1 E2]].
  unfold exact_step, dlen; cbn [ldom]. simpl dim. rewrite Hp, Hx. split; [auto|]. split; [auto|].
  assert (E3 : extent_ (box_of l u) stol x p = e).
  { unfold extent in E1. destruct (inside1 _ _ _); congruence. }
  rewrite E3. split.
  - intro N. subst e. specialize (E2 0 ltac:(lra)). destruct E2 as [E2 _].
    assert (A : nleb (Fin 0) NaN = true) by (rewrite <- N; apply E2; intros i Hi; specialize (M i Hi); lra). simpl in A. discriminate A.
  - intros al Hal. rewrite <- E2 by auto. rewrite box_member by auto. rewrite along_length by lia. split; [intros [_ G]; revert G|intro G; split; [lia|revert G]]; intros G i Hi;
      specialize (G i Hi); rewrite along_get in * by lia; lra.
Qed.

Lemma ex_tensor_steps : Forall (fun t => exact_step (fst t) (1/100) (fst (snd t)) (snd (snd t)))
  [ (mkLeaf (box_of [0] [1]) [] [], ([1/2], [1])); (mkLeaf (box_of [0;0] [2;3]) [] [], ([1;1], [-1;2])) ].
Proof.
  apply Forall_cons; [|apply Forall_cons; [|apply Forall_nil]]; cbn [fst snd].
  - apply box_exact_step; simpl; auto; try lra. intros i Hi. replace i with O by lia. unfold vget; simpl. lra.
  - apply box_exact_step; simpl; auto; try lra. intros i Hi. destruct i as [|[|i]]; unfold vget; simpl in *; try lra; lia.
Qed.

Lemma ex_leaf_norm : Forall leaf_norm_ok [ex_leaf1; ex_leaf2].
Proof.
  assert (O : forall a b, Forall2 (fun u v => exists p q, u = Fin p /\ v = Fin q /\ p <= q) a b -> oriented a b).
  { intros a b F. induction F as [|u v a b [p [q [E1 [E2 E3]]]] F IH]; intros i v' w' Hv Hw.
    - destruct i; discriminate.
    - destruct i as [|i]; simpl in *; [congruence|]. eapply IH; eauto. }
  assert (O' : forall a b, Forall2 (fun p q => p <= q) a b -> oriented (map Fin a) (map Fin b)).
  { intros a b F. apply O. induction F; simpl; constructor; eauto. }
  apply Forall_cons; [|apply Forall_cons; [|constructor]]; unfold leaf_norm_ok, ex_leaf1, ex_leaf2, dlen; simpl.
  - split; [wf|]. split; auto. split; auto. split; [left; exists [0]; auto|]. split; [left; exists [1]; auto|].
    split; [|constructor]. apply (O' [0] [1]). repeat constructor; lra.
  - split; [wf|]. split; auto. split; auto. split; [left; exists [0;0]; auto|]. split; [left; exists [2;2]; auto|].
    split; [|constructor]. apply (O' [0;0] [2;2]). repeat constructor; lra.
Qed.
