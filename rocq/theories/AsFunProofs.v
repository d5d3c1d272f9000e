(** ActiveSubspace.fit_function is exact for polynomials on boxes: C is the integral of grad f grad f^T, its kernel the directions along which f is constant. *)
Require Import Reals Lra Lia List Bool Arith.
From Verif Require Import RVec Sums Num MatLib GrassLib SpecProofs DomModel DomSpec DomProofs NormProofs DomOpsProofs DomExamples DomMoreModel SweepProofs QuadProofs QuadExact LipModel LipFitProofs SubModel ActiveProofs AsFunModel.
Import ListNotations.
Local Open Scope R_scope.

(** * products of polynomials *)
Lemma mpoly_shift : forall d m fs, Forall (mpoly d m) fs -> Forall (mpoly d m) ((fun _ => 0) :: fs).
Proof. intros. constructor; auto. apply mpoly_zero. Qed.
Lemma mpoly_le : forall m a b f, (a <= b)%nat -> mpoly a m f -> mpoly b m f.
Proof.
  induction m as [|m IH]; intros a b f H M; [exact I|]. destruct M as (fs & L & F & E). exists fs. split; [lia|]. split; auto. eapply Forall_impl; [|exact F]. intros g. apply IH. auto.
Qed.
Fixpoint fmul (fs gs : list (vec -> R)) : list (vec -> R) :=
  match fs with
  | [] => []
  | f :: fs' => fadd (map (fun g y => f y * g y) gs) ((fun _ => 0) :: fmul fs' gs)
  end.
Lemma fmul_len : forall fs gs, (length (fmul fs gs) <= length fs + length gs)%nat.
Proof. induction fs as [|f fs IH]; intro gs; [simpl; lia|]. cbn [fmul length]. apply fadd_len; [rewrite map_length; lia|]. simpl. specialize (IH gs). lia. Qed.
Lemma polyval_fmul : forall fs gs y x, polyval (map (fun g => g y) (fmul fs gs)) x = polyval (map (fun g => g y) fs) x * polyval (map (fun g => g y) gs) x.
Proof.
  induction fs as [|f fs IH]; intros gs y x; [simpl; ring|]. cbn [fmul]. rewrite fadd_val. cbn [map polyval]. rewrite IH. rewrite map_map. cbv beta.
  assert (E : polyval (map (fun g : vec -> R => f y * g y) gs) x = f y * polyval (map (fun g => g y) gs) x). { clear. induction gs as [|g gs IH]; simpl; [ring|]. rewrite IH. ring. } rewrite E. ring.
Qed.
Lemma Forall_fadd : forall d m fs gs, Forall (mpoly d m) fs -> Forall (mpoly d m) gs -> Forall (mpoly d m) (fadd fs gs).
Proof.
  intros d m fs. induction fs as [|f fs IH]; intros gs F G; [simpl; destruct gs; auto|]. destruct gs as [|g gs]; [simpl; auto|]. simpl. pose proof (Forall_inv F). pose proof (Forall_inv G). constructor; [apply mpoly_add; auto|]. apply IH; [exact (Forall_inv_tail F)|exact (Forall_inv_tail G)].
Qed.
Lemma mpoly_mul : forall m a b f g, mpoly a m f -> mpoly b m g -> mpoly (a + b) m (fun y => f y * g y).
Proof.
  induction m as [|m IH]; intros a b f g Mf Mg; [exact I|]. destruct Mf as (fs & Lf & Ff & Ef). destruct Mg as (gs & Lg & Fg & Eg).
  exists (fmul fs gs). split; [pose proof (fmul_len fs gs); lia|]. split.
  - clear Lf Ef Eg. induction fs as [|h fs IHf]; [constructor|]. cbn [fmul]. apply Forall_fadd.
    + apply Forall_map. apply Forall_forall. intros k Hk. apply IH; [exact (Forall_inv Ff)|]. apply (proj1 (Forall_forall _ _) Fg k Hk).
    + apply mpoly_shift. apply IHf. exact (Forall_inv_tail Ff).
  - intros x y Ly. rewrite Ef, Eg by auto. symmetry. apply polyval_fmul.
Qed.

(** * polynomials with many zeros *)
Lemma polyval_factor : forall c r, exists e, length e = (length c - 1)%nat /\ forall x, polyval c x = polyval c r + (x - r) * polyval e x.
Proof.
  induction c as [|a c IH]; intro r; [exists []; split; auto; intro x; simpl; ring|]. destruct c as [|b c].
  - exists []. split; auto. intro x. simpl. ring.
  - destruct (IH r) as (e & Le & E). exists (polyval (b :: c) r :: e). split; [simpl in *; lia|]. intro x. change (polyval (a :: b :: c) x) with (a + x * polyval (b :: c) x). change (polyval (a :: b :: c) r) with (a + r * polyval (b :: c) r). rewrite (E x). cbn [polyval]. ring.
Qed.
Lemma polyval_roots : forall c xs, NoDup xs -> (length c <= length xs)%nat -> (forall x, In x xs -> polyval c x = 0) -> forall x, polyval c x = 0.
Proof.
  intros c xs. revert c. induction xs as [|r xs IH]; intros c ND L Z x; [destruct c; [auto|simpl in L; lia]|]. destruct (polyval_factor c r) as (e & Le & E). rewrite E. rewrite (Z r) by (left; auto).
  apply NoDup_cons_iff in ND. destruct ND as [NI ND]. rewrite (IH e); auto; [ring|simpl in L; lia|]. intros y Hy. pose proof (Z y (or_intror Hy)) as K. rewrite E, (Z r) in K by (left; auto). assert (y - r <> 0) by (intro Q; apply NI; replace r with y by lra; auto). nra.
Qed.
Lemma polyval_zero_coef : forall c, (forall x, polyval c x = 0) -> Forall (fun a => a = 0) c.
Proof.
  induction c as [|a c IH]; intro Z; constructor.
  - specialize (Z 0). simpl in Z. lra.
  - apply IH. assert (A : a = 0) by (specialize (Z 0); simpl in Z; lra). assert (N : forall x, x <> 0 -> polyval c x = 0) by (intros x Hx; specialize (Z x); simpl in Z; nra).
    intro x. set (xs := map (fun k => INR (S k)) (seq 0 (length c))). apply (polyval_roots c xs); [|unfold xs; rewrite map_length, seq_length; auto|intros y Hy; unfold xs in Hy; apply in_map_iff in Hy; destruct Hy as (k & <- & _); apply N; apply not_0_INR; lia].
    unfold xs. apply FinFun.Injective_map_NoDup; [|apply seq_NoDup]. intros i j E. apply INR_eq in E. lia.
Qed.
(** zero on the tensor grid, zero everywhere *)
Lemma mpoly_grid_zero : forall rules q m f, length rules = m -> Forall (fun r => length (fst r) = q /\ length (snd r) = q /\ NoDup (fst r)) rules -> mpoly q m f ->
  (forall p w, In (p, w) (cart_w rules) -> f p = 0) -> forall y, length y = m -> f y = 0.
Proof.
  induction rules as [|[xs ws] rs IH]; intros q m f Lm R M Z y Ly.
  - simpl in Lm. subst m. destruct y; [|discriminate]. apply (Z [] 1). left. auto.
  - destruct m as [|m]; [discriminate|]. simpl in Lm. destruct M as (fs & Lf & Ff & Ef). pose proof (Forall_inv R) as (L1 & L2 & ND). cbn [fst snd] in L1, L2, ND. pose proof (Forall_inv_tail R) as R'.
    assert (K : forall g, In g fs -> forall p w, In (p, w) (cart_w rs) -> g p = 0).
    { intros g Hg p w Hp. assert (Lp : length p = m) by (apply cart_w_dim in Hp; lia). assert (ZZ : forall x, polyval (map (fun g => g p) fs) x = 0).
      { apply (polyval_roots _ xs); auto; [rewrite map_length; lia|]. intros x Hx. rewrite <- Ef by auto. destruct (In_nth _ _ 0 Hx) as (k & Hk & Ek). apply (Z (x :: p) (nth k ws 0 * w)). cbn [cart_w]. apply in_flat_map. exists (nth k xs 0, nth k ws 0). split.
        - rewrite <- (combine_nth xs ws) by congruence. apply nth_In. rewrite combine_length. lia.
        - cbn [fst snd]. apply in_map_iff. exists (p, w). split; auto. cbn [fst snd]. rewrite Ek. auto. }
      apply polyval_zero_coef in ZZ. apply (proj1 (Forall_forall _ _) ZZ). apply in_map_iff. exists g. auto. }
    destruct y as [|x y]; [discriminate|]. simpl in Ly. rewrite Ef by lia. assert (A : forall x0, polyval (map (fun g => g y) fs) x0 = 0); [|apply A]. assert (B : Forall (fun a => a = 0) (map (fun g => g y) fs)).
    { apply Forall_map. apply Forall_forall. intros g Hg. apply (IH q m g); try lia; auto; [apply (proj1 (Forall_forall _ _) Ff g Hg)|]. apply K. auto. }
    intro x0. clear - B. induction B as [|a l Ea B IHB]; auto. simpl. rewrite IHB, Ea. ring.
Qed.

(** * the rule on a box *)
Definition strict (l u : vec) : Prop := length l = length u /\ forall i, (i < length l)%nat -> vget l i < vget u i.
Lemma strict_cons : forall a l b u, strict (a :: l) (b :: u) -> a < b /\ strict l u.
Proof. intros a l b u [E H]. simpl in E. split; [apply (H O); simpl; lia|]. split; [lia|]. intros i Hi. apply (H (S i)). simpl; lia. Qed.
Lemma full_rules_good : forall q l u rules, strict l u -> full_rules q l u rules ->
  length rules = length l /\ Forall (fun r => length (fst r) = q /\ length (snd r) = q /\ NoDup (fst r) /\ Forall (fun w => 0 < w) (snd r)) rules.
Proof.
  intros q l. induction l as [|a l IH]; intros u rules S R.
  - destruct u; [|destruct S; discriminate]. unfold full_rules in R. simpl in R. inversion R. auto.
  - destruct u as [|b u]; [destruct S; discriminate|]. apply strict_cons in S. destruct S as [AB S]. unfold full_rules in R. cbn [combine] in R. inversion R as [|lu r c rs (ew & ev & E & ->) R' Q1 Q2]. subst. cbn [fst snd] in *. destruct (IH u rs S R') as [L F]. split; [simpl; lia|]. constructor; auto.
    destruct (gauss_nodes q ew ev a b E AB) as (_ & P & ND). cbn [fst snd]. destruct E as (L1 & L2 & _). split; [unfold gauss_x; rewrite map_length; auto|]. split; [unfold gauss_w; rewrite map_length; auto|]. auto.
Qed.
Lemma cart_w_pos : forall rules p w, Forall (fun r => Forall (fun a => 0 < a) (snd r)) rules -> In (p, w) (cart_w rules) -> 0 < w.
Proof.
  induction rules as [|[xs ws] rs IH]; intros p w F H; cbn [cart_w] in H.
  - destruct H as [E|[]]. injection E as <- <-. lra.
  - apply in_flat_map in H. destruct H as [[a wa] [H1 H2]]. apply in_map_iff in H2. destruct H2 as [[p' w'] [E H2]]. cbn [fst snd] in E. injection E as <- <-. apply in_combine_r in H1. pose proof (Forall_inv F) as F1. cbn [snd] in F1.
    apply Rmult_lt_0_compat; [apply (proj1 (Forall_forall _ _) F1); auto|]. apply (IH p'); auto. exact (Forall_inv_tail F).
Qed.
Lemma strict_ordered : forall l u, strict l u -> ordered l u.
Proof. intros l u [L H]. split; auto. intros i Hi. left. auto. Qed.
Lemma box_rule : forall fuel l u tol rules N q, strict l u -> 0 < tol -> (1 <= q)%nat -> full_rules q l u (rules q) -> quadrature_gauss fuel (box_of l u) tol rules N q = Some (cart_w (rules q)).
Proof.
  intros fuel l u tol rules N q S Ht Hq R. assert (M0 : mpoly (2 * q) (length l) (fun _ => 0)) by apply mpoly_zero. apply strict_ordered in S. assert (O := S).
  assert (R' : Forall2 (fun lu r => exists ew ev, eigh_contract q (jacobi q) ew ev /\ r = (gauss_x ew (fst lu) (snd lu), gauss_w ev (fst lu) (snd lu))) (combine l u) (rules q)).
  { clear - R Hq. unfold full_rules in R. induction R as [|lu r c rs (ew & ev & E1 & E2) R IH]; constructor; auto. exists ew, ev. split; auto. apply eigh_full_contract; auto. }
  destruct (gauss_rules_facts l u (rules q) q O R') as [X1 [X2 [X3 X4]]].
  assert (A : quad_inside (box_of l u) tol (rules q) = cart_w (rules q)).
  { apply filter_all. intros [p w] H. apply inside1_spec; [apply box_of_wf; apply O|discriminate|]. apply member_relaxed1; auto. apply box_member; [apply O|].
    apply cart_w_in in H. destruct H as [ws [W1 [W2 [W3 W4]]]]. simpl. split; [lia|]. apply (X4 p ws); auto. }
  unfold quadrature_gauss. rewrite A. rewrite (cart_w_length _ q) by auto. assert (DD : dim (box_of l u) = length l) by reflexivity. rewrite DD, X1, Nat.eqb_refl. auto.
Qed.
(** outer_avg of the sampled gradients is the cubature of the products *)
Lemma outer_avg_cub : forall res (grad : vec -> vec) i j, outer_avg (map snd res) (map (fun pw => grad (fst pw)) res) i j = cub (fun x => vget (grad x) i * vget (grad x) j) res.
Proof.
  intros res grad i j. unfold outer_avg, cub. rewrite map_length. induction res as [|[p w] res IH]; [auto|]. cbn [length map]. rewrite rsum_S_first, vsum_cons. cbn [fst snd nth]. rewrite <- IH. unfold vget at 1. cbn [nth]. auto.
Qed.
Lemma cub_zero : forall (h : vec -> R) res, (forall p w, In (p, w) res -> 0 < w) -> (forall p w, In (p, w) res -> 0 <= h p) -> cub h res = 0 -> forall p w, In (p, w) res -> h p = 0.
Proof.
  intros h res. unfold cub. induction res as [|[p w] res IH]; intros P Q Z a b H; [destruct H|]. cbn [map] in Z. rewrite vsum_cons in Z. cbn [fst snd] in Z.
  assert (NN : forall r, (forall p w, In (p, w) r -> 0 < w) -> (forall p w, In (p, w) r -> 0 <= h p) -> 0 <= vsum (map (fun pw => snd pw * h (fst pw)) r)).
  { clear. induction r as [|[p w] r IH]; intros P Q; [simpl; lra|]. cbn [map]. rewrite vsum_cons. cbn [fst snd]. pose proof (P p w (or_introl eq_refl)). pose proof (Q p w (or_introl eq_refl)). specialize (IH (fun a b H => P a b (or_intror H)) (fun a b H => Q a b (or_intror H))). nra. }
  pose proof (NN res (fun a b H => P a b (or_intror H)) (fun a b H => Q a b (or_intror H))). pose proof (P p w (or_introl eq_refl)). pose proof (Q p w (or_introl eq_refl)). assert (w * h p = 0) by nra.
  destruct H as [E|H]; [injection E as <- <-; nra|]. apply (IH (fun a b H => P a b (or_intror H)) (fun a b H => Q a b (or_intror H)) ltac:(lra) a b H).
Qed.
Lemma cub_lin : forall n (c : nat -> R) (h : nat -> vec -> R) res, cub (fun x => rsum n (fun i => c i * h i x)) res = rsum n (fun i => c i * cub (h i) res).
Proof.
  intros n c h res. unfold cub. induction res as [|[p w] res IH]; [simpl; symmetry; apply rsum_zero; intros; ring|]. cbn [map]. rewrite vsum_cons, IH. cbn [fst snd]. rewrite <- rsum_scal_l, <- rsum_plus. apply rsum_ext. intros i Hi. rewrite vsum_cons. ring.
Qed.

(** some side at least as long as the tolerance of is_point *)
Definition wide (ptol : R) (l u : vec) : Prop := exists i, (i < length l)%nat /\ ptol <= vget u i - vget l i.
Lemma wide_not_point : forall ptol l u, length l = length u -> wide ptol l u -> all_close (map Fin l) (map Fin u) ptol = false.
Proof.
  intros ptol l. unfold all_close. induction l as [|a l IH]; intros u L (i & Hi & W); [simpl in Hi; lia|]. destruct u as [|b u]; [discriminate|]. cbn [map zipw forallb]. destruct i as [|i].
  - apply andb_false_iff. left. unfold vget in W. simpl in W. simpl. apply Rltb_false. pose proof (Rle_abs (b - a)). replace (b + - a) with (b - a) by ring. lra.
  - apply andb_false_iff. right. apply IH; [simpl in L; lia|]. exists i. split; [simpl in Hi; lia|]. exact W.
Qed.
Lemma fin_not_inf : forall l u, any_inf (map Fin l) (map Fin u) = false.
Proof. intros l u. unfold any_inf. assert (H : forall x, existsb is_inf (map Fin x) = false) by (induction x; simpl; auto). rewrite !H. auto. Qed.
(** the matrix passed to scipy.linalg.svd: columns sqrt(w) grad f(x) over the points of the rule; contract of the decomposition *)
Definition fit_cols (grad : vec -> vec) (res : list (vec * R)) : list vec := map (fun pw => vscale (sqrt (snd pw)) (grad (fst pw))) res.
Definition svd_of (m : nat) (svd : list vec -> list vec * vec) (cols : list vec) : Prop := exists vs, svd_full m cols (fst (svd cols)) (snd (svd cols)) vs.
Lemma fit_cols_as : forall grad res, as_cols (map snd res) (map (fun pw => grad (fst pw)) res) = fit_cols grad res.
Proof. intros grad res. unfold as_cols, fit_cols. induction res as [|[p w] res IH]; [auto|]. cbn [map zipw fst snd]. f_equal. exact IH. Qed.
Section Fit.
  Variable svd : list vec -> list vec * vec.
  Variable fuel : nat.
  Variable l u : vec.
  Variable ptol tol : R.
  Variable sample : nat -> list vec.
  Variable vol : R.
  Variable rules : nat -> list (vec * vec).
  Variable N : nat.
  Variable grad : vec -> vec.
  Notation m := (length l).
  Notation q := (quad_q N (length l)).
  Hypothesis S : strict l u.
  Hypothesis W : wide ptol l u.
  Hypothesis Ht : 0 < tol.
  Hypothesis Hq : (2 <= q)%nat.
  Hypothesis R : full_rules q l u (rules q).
  Hypothesis GL : forall x, length x = m -> length (grad x) = m.
  Notation res := (cart_w (rules q)).
  Notation gs := (map (fun pw => grad (fst pw)) res).
  Hypothesis SV : svd_of m svd (fit_cols grad res).
  Lemma fit_res : exists U s C, box_fit_function svd fuel l u ptol tol rules sample vol N grad = Some (U, s, C) /\ as_fit svd m gs (Some (map snd res)) = (U, s, C).
  Proof.
    unfold box_fit_function, quadrature_rule. rewrite (wide_not_point ptol l u (proj1 S) W), fin_not_inf. fold (box_of l u). change (dim (box_of l u)) with m. change (dAeq (box_of l u)) with (@nil vec). replace (Nat.ltb 1 q) with true by (symmetry; apply Nat.ltb_lt; lia). cbn [andb negb length Nat.eqb]. rewrite (box_rule fuel l u tol rules N q S Ht ltac:(lia) R). unfold as_fit_function. destruct (as_fit svd m gs (Some (map snd res))) as [[U s] C]. exists U, s, C. auto.
  Qed.
  Lemma res_len : forall p w, In (p, w) res -> length p = m.
  Proof. intros p w H. apply cart_w_dim in H. rewrite H. apply (full_rules_good q l u (rules q) S R). Qed.
  Lemma res_pos : forall p w, In (p, w) res -> 0 < w.
  Proof. intros p w. apply cart_w_pos. destruct (full_rules_good q l u (rules q) S R) as [_ F]. eapply Forall_impl; [|exact F]. intros r H. apply H. Qed.
  Lemma gs_len : Forall (fun g => length g = m) gs.
  Proof. apply Forall_map. apply Forall_forall. intros [p w] H. cbn [fst]. apply GL. apply (res_len p w H). Qed.
  Lemma ws_ok : forall v, Some (map snd res) = Some v -> length v = length gs /\ Forall (fun a => 0 <= a) v.
  Proof. intros v E. injection E as <-. split; [rewrite !map_length; auto|]. apply Forall_map. apply Forall_forall. intros [p w] H. cbn [snd]. left. apply (res_pos p w H). Qed.
  Lemma fit_C : forall U s C, as_fit svd m gs (Some (map snd res)) = (U, s, C) -> length s = m /\ sq m C /\ (forall i j, (i < m)%nat -> (j < m)%nat -> mget C i j = cub (fun x => vget (grad x) i * vget (grad x) j) res).
  Proof.
    intros U s C E. destruct (as_C_correct svd m gs (Some (map snd res)) U s C gs_len ws_ok) as (A & B & D & _); auto.
    - change (as_weights gs (Some (map snd res))) with (map snd res). rewrite fit_cols_as. exact SV.
    - split; auto. split; auto. intros i j Hi Hj. rewrite D by auto. apply outer_avg_cub.
  Qed.
End Fit.

(** C is the integral of grad f grad f^T *)
Theorem fit_function_integral : forall svd fuel l u ptol tol rules sample vol N grad, let m := length l in let q := quad_q N m in
  strict l u -> wide ptol l u -> 0 < tol -> (2 <= q)%nat -> full_rules q l u (rules q) -> (forall x, length x = m -> length (grad x) = m) ->
  svd_of m svd (fit_cols grad (cart_w (rules q))) ->
  (forall i, (i < m)%nat -> mpoly q m (fun x => vget (grad x) i)) ->
  exists U s C, box_fit_function svd fuel l u ptol tol rules sample vol N grad = Some (U, s, C) /\ sq m C /\
    forall i j v, (i < m)%nat -> (j < m)%nat -> boxint l u (fun x => vget (grad x) i * vget (grad x) j) v -> mget C i j = v.
Proof.
  intros svd fuel l u ptol tol rules sample vol N grad m q S W Ht Hq R GL SV P. destruct (fit_res svd fuel l u ptol tol sample vol rules N grad S W Ht Hq R) as (U & s & C & E1 & E2). exists U, s, C. split; auto.
  destruct (fit_C svd l u rules N grad S R GL SV U s C E2) as (_ & SC & EC). split; auto. intros i j v Hi Hj B. rewrite EC by auto. apply (cub_exact q l u); auto; [apply S|]. apply (mpoly_le m (q + q)); [lia|]. apply mpoly_mul; apply P; auto.
Qed.
(** the kernel of C: the directions along which the gradient vanishes identically *)
Theorem fit_function_kernel : forall svd fuel l u ptol tol rules sample vol N grad, let m := length l in let q := quad_q N m in
  strict l u -> wide ptol l u -> 0 < tol -> (2 <= q)%nat -> full_rules q l u (rules q) -> (forall x, length x = m -> length (grad x) = m) ->
  svd_of m svd (fit_cols grad (cart_w (rules q))) ->
  (forall i, (i < m)%nat -> mpoly q m (fun x => vget (grad x) i)) ->
  exists U s C, box_fit_function svd fuel l u ptol tol rules sample vol N grad = Some (U, s, C) /\
    forall v, length v = m -> (mv C v = vzero m <-> forall x, length x = m -> dot (grad x) v = 0).
Proof.
  intros svd fuel l u ptol tol rules sample vol N grad m q S W Ht Hq R GL SV P. destruct (fit_res svd fuel l u ptol tol sample vol rules N grad S W Ht Hq R) as (U & s & C & E1 & E2). exists U, s, C. split; auto.
  destruct (fit_C svd l u rules N grad S R GL SV U s C E2) as (_ & SC & EC). fold m q in EC, SC. set (res := cart_w (rules q)) in *.
  intros v Lv. pose proof SC as [LC FC].
  assert (MV : forall i, (i < m)%nat -> vget (mv C v) i = cub (fun x => vget (grad x) i * dot (grad x) v) res).
  { intros i Hi. rewrite mv_get by lia. rewrite (dot_rs m) by (auto; apply (proj1 (Forall_forall _ _) FC); apply nth_In; lia). rewrite (rsum_ext m _ (fun j => vget v j * cub (fun x => vget (grad x) i * vget (grad x) j) res)) by (intros j Hj; fold (mget C i j); rewrite EC by auto; ring).
    rewrite <- cub_lin. apply cub_ext. intros p w Hp. assert (Lp : length p = m) by (apply (res_len l u rules N S R p w Hp)). rewrite (dot_rs m (grad p) v) by auto. rewrite <- rsum_scal_l. apply rsum_ext. intros j Hj. ring. }
  split.
  - intros Z. assert (Q : cub (fun x => dot (grad x) v * dot (grad x) v) res = 0).
    { transitivity (rsum m (fun i => vget v i * cub (fun x => vget (grad x) i * dot (grad x) v) res)).
      - rewrite <- cub_lin. apply cub_ext. intros p w Hp. assert (Lp : length p = m) by (apply (res_len l u rules N S R p w Hp)). rewrite (dot_rs m (grad p) v) at 1 by auto. rewrite <- rsum_scal_r. apply rsum_ext. intros j Hj. ring.
      - apply rsum_zero. intros i Hi. rewrite <- MV by auto. rewrite Z. unfold vzero, vget. rewrite nth_repeat. ring. }
    assert (G : forall p w, In (p, w) res -> dot (grad p) v = 0). { intros p w Hp. pose proof (cub_zero (fun x => dot (grad x) v * dot (grad x) v) res (res_pos l u rules N S R) ltac:(intros; nra) Q p w Hp) as K. cbv beta in K. nra. }
    destruct (full_rules_good q l u (rules q) S R) as [LR FR]. apply (mpoly_grid_zero (rules q) q m (fun x => dot (grad x) v)); auto.
    + eapply Forall_impl; [|exact FR]. intros r (A & B & D & _). auto.
    + apply (mpoly_ext q m (fun x => rsum m (fun i => vget v i * vget (grad x) i))); [|intros y Ly; rewrite (dot_rs m (grad y) v) by auto; apply rsum_ext; intros; ring].
      assert (H : forall n, (n <= m)%nat -> mpoly q m (fun x => rsum n (fun i => vget v i * vget (grad x) i))); [|apply H; auto]. induction n as [|n IH]; intro Hn; [apply mpoly_zero|]. cbn [rsum]. apply mpoly_add; [apply IH; lia|]. apply mpoly_scale. apply P. lia.
  - intro Z. apply vec_ext; [rewrite mv_length; unfold vzero; rewrite repeat_length; auto|]. intros i Hi. rewrite mv_length, LC in Hi. rewrite MV by auto. unfold vzero, vget at 2. rewrite nth_repeat. unfold cub.
    assert (WW : forall r, (forall p w, In (p, w) r -> length p = m) -> vsum (map (fun pw => snd pw * (vget (grad (fst pw)) i * dot (grad (fst pw)) v)) r) = 0). { induction r as [|[p w] r IH]; intro H; [auto|]. cbn [map]. rewrite vsum_cons, IH by (intros a b K; apply (H a b (or_intror K))). cbn [fst snd]. rewrite Z by (apply (H p w (or_introl eq_refl))). ring. }
    apply WW. intros p w Hp. apply (res_len l u rules N S R p w Hp).
Qed.
(** f is constant along v exactly if C v = 0 *)
Theorem fit_function_constant : forall svd fuel l u ptol tol rules sample vol N f grad, let m := length l in let q := quad_q N m in
  strict l u -> wide ptol l u -> 0 < tol -> (2 <= q)%nat -> full_rules q l u (rules q) -> (forall x, length x = m -> length (grad x) = m) ->
  svd_of m svd (fit_cols grad (cart_w (rules q))) ->
  (forall i, (i < m)%nat -> mpoly q m (fun x => vget (grad x) i)) ->
  (forall x v t, length x = m -> length v = m -> derivable_pt_lim (fun t => f (vadd x (vscale t v))) t (dot (grad (vadd x (vscale t v))) v)) ->
  exists U s C, box_fit_function svd fuel l u ptol tol rules sample vol N grad = Some (U, s, C) /\
    forall v, length v = m -> (mv C v = vzero m <-> forall x t, length x = m -> f (vadd x (vscale t v)) = f x).
Proof.
  intros svd fuel l u ptol tol rules sample vol N f grad m q S W Ht Hq R GL SV P D. destruct (fit_function_kernel svd fuel l u ptol tol rules sample vol N grad S W Ht Hq R GL SV P) as (U & s & C & E & K). exists U, s, C. split; auto. intros v Lv. fold m in K. rewrite (K v Lv).
  assert (V0 : forall x, length x = m -> vadd x (vscale 0 v) = x). { intros x Lx. apply vec_ext; [rewrite vadd_length; rewrite ?vscale_length; congruence|]. intros i _. rewrite vadd_get by (rewrite vscale_length; congruence). rewrite vscale_get. ring. }
  split; intros Z x.
  - intros t Lx. rewrite <- (V0 x Lx) at 2. assert (A : forall t, derivable_pt_lim (fun t => f (vadd x (vscale t v))) t 0). { intro t0. rewrite <- (Z (vadd x (vscale t0 v))) by (rewrite vadd_length; rewrite ?vscale_length; congruence). apply D; auto. }
    pose proof (antider_unique (fun t => f (vadd x (vscale t v))) (fun _ => 0) (fun _ => 0) 0 t A (fun y => derivable_pt_lim_const 0 y)) as Q. cbv beta in Q. lra.
  - intro Lx. pose proof (D x v 0 Lx Lv) as D0. rewrite V0 in D0 by auto. apply (uniqueness_limite (fun t => f (vadd x (vscale t v))) 0); auto.
    intros eps He. exists (mkposreal 1 Rlt_0_1). intros h _ _. rewrite !Z by auto. replace ((f x - f x) / h - 0) with 0 by (unfold Rdiv; ring). rewrite Rabs_R0. auto.
Qed.


(** f depends only on the active coordinates: if no column of U with s_k > 0 was zeroed by the sign fix (C53), points with the same coordinates along
    these columns have the same value, and s_k = 0 exactly if f is constant along the k-th singular vector *)
Theorem fit_function_active : forall svd fuel l u ptol tol rules sample vol N f grad, let m := length l in let q := quad_q N m in
  strict l u -> wide ptol l u -> 0 < tol -> (2 <= q)%nat -> full_rules q l u (rules q) -> (forall x, length x = m -> length (grad x) = m) ->
  svd_of m svd (fit_cols grad (cart_w (rules q))) ->
  (forall i, (i < m)%nat -> mpoly q m (fun x => vget (grad x) i)) ->
  (forall x v t, length x = m -> length v = m -> derivable_pt_lim (fun t => f (vadd x (vscale t v))) t (dot (grad (vadd x (vscale t v))) v)) ->
  exists U s C, box_fit_function svd fuel l u ptol tol rules sample vol N grad = Some (U, s, C) /\ length U = m /\ length s = m /\
    ((forall k, (k < m)%nat -> 0 < vget s k -> nth k U [] <> vzero m) ->
     forall x y, length x = m -> length y = m -> (forall k, (k < m)%nat -> 0 < vget s k -> dot (nth k U []) x = dot (nth k U []) y) -> f x = f y) /\
    (forall k, (k < m)%nat -> (vget s k = 0 <-> forall x t, length x = m -> f (vadd x (vscale t (nth k (fst (svd (fit_cols grad (cart_w (rules q))))) []))) = f x)).
Proof.
  intros svd fuel l u ptol tol rules sample vol N f grad m q S W Ht Hq R GL SV P D. destruct (fit_function_constant svd fuel l u ptol tol rules sample vol N f grad S W Ht Hq R GL SV P D) as (U & s & C & E & K). exists U, s, C. split; auto.
  destruct (fit_res svd fuel l u ptol tol sample vol rules N grad S W Ht Hq R) as (U' & s' & C' & E1 & E2). rewrite E in E1. injection E1 as <- <- <-. fold m q in E2, K. set (res := cart_w (rules q)) in *.
  assert (GS : Forall (fun g => length g = m) (map (fun pw => grad (fst pw)) res)) by (apply (gs_len l u rules N grad S R GL)).
  assert (WS : forall v, Some (map snd res) = Some v -> length v = length (map (fun pw => grad (fst pw)) res) /\ Forall (fun a => 0 <= a) v) by (apply (ws_ok l u rules N grad S R)).
  assert (SV' : exists vs, svd_full m (as_cols (as_weights (map (fun pw => grad (fst pw)) res) (Some (map snd res))) (map (fun pw => grad (fst pw)) res)) (fst (svd (as_cols (as_weights (map (fun pw => grad (fst pw)) res) (Some (map snd res))) (map (fun pw => grad (fst pw)) res)))) (snd (svd (as_cols (as_weights (map (fun pw => grad (fst pw)) res) (Some (map snd res))) (map (fun pw => grad (fst pw)) res)))) vs).
  { change (as_weights (map (fun pw => grad (fst pw)) res) (Some (map snd res))) with (map snd res). rewrite fit_cols_as. exact SV. }
  destruct (as_C_correct svd m _ _ U s C GS WS SV' E2) as (Ls & SC & _ & Ps & _). destruct (as_U_partial svd m _ _ U s C GS WS SV' E2) as (LU & FU & _). split; auto. split; auto.
  unfold as_fit in E2. change (as_weights (map (fun pw => grad (fst pw)) res) (Some (map snd res))) with (map snd res) in E2. rewrite fit_cols_as in E2.
  destruct SV as (vs & SV). destruct (svd (fit_cols grad res)) as [us s0] eqn:ES. cbn [fst snd] in SV |- *. injection E2 as EU Es EC. pose proof SV as [OB _]. pose proof OB as [LUs [FUs OR]].
  assert (MVC : forall v i, length v = m -> (i < m)%nat -> vget (mv C v) i = rsum m (fun k => vget s k ^ 2 * dot (nth k us []) v * vget (nth k us []) i)).
  { intros v i Lv Hi. rewrite <- EC, Es. assert (L2 : length (map (fun a => a ^ 2) s) = length us) by (rewrite map_length; lia). rewrite mv_spec by auto. rewrite MatLib.lincomb_get by (auto; rewrite vmul_length; rewrite ?mv_length; auto). rewrite LUs. apply rsum_ext. intros k Hk. rewrite vmul_get by (rewrite mv_length; auto). rewrite mv_get by lia. rewrite vget_sq by lia. ring. }
  split.
  - intros NZ x y Lx Ly H. set (v := vsub y x). assert (Lv : length v = m) by (unfold v; rewrite vsub_length; lia).
    assert (Z : mv C v = vzero m).
    { apply vec_ext; [rewrite mv_length; unfold vzero; rewrite repeat_length; apply SC|]. intros i Hi. rewrite mv_length in Hi. destruct SC as [LC _]. rewrite LC in Hi. rewrite MVC by auto. unfold vzero, vget at 3. rewrite nth_repeat. apply rsum_zero. intros k Hk.
      destruct (Req_dec (vget s k) 0) as [Q|Q]; [rewrite Q; ring|]. assert (P0 : 0 < vget s k) by (pose proof (Ps k Hk); lra). specialize (NZ k Hk P0). specialize (H k Hk P0). rewrite <- EU in NZ, H. rewrite sg_cols_nth in NZ, H by lia.
      set (c := sgn (mean_slope (nth k us []) (map (fun pw => grad (fst pw)) res))) in *. assert (Luk : length (nth k us []) = m) by (apply onb_row; auto).
      assert (C0 : c <> 0). { intro Z. apply NZ. rewrite Z. apply vec_ext; [rewrite vscale_length; unfold vzero; rewrite repeat_length; auto|]. intros a _. rewrite vscale_get. unfold vzero, vget at 2. rewrite nth_repeat. ring. }
      rewrite !dot_vscale_l in H. assert (DD : dot (nth k us []) v = 0) by (unfold v; rewrite dot_vsub_r by congruence; nra). rewrite DD. ring. }
    pose proof (proj1 (K v Lv) Z x 1 Lx) as Q. rewrite <- Q. f_equal. apply vec_ext; [rewrite vadd_length; rewrite ?vscale_length; lia|]. intros i Hi. rewrite vadd_get by (rewrite vscale_length; lia). rewrite vscale_get. unfold v. rewrite vsub_get by lia. ring.
  - intros k Hk. assert (Luk : length (nth k us []) = m) by (apply onb_row; auto). rewrite <- (K _ Luk).
    assert (EIG : forall i, (i < m)%nat -> vget (mv C (nth k us [])) i = vget s k ^ 2 * vget (nth k us []) i).
    { intros i Hi. rewrite MVC by auto. rewrite (rsum_single _ k); auto; [rewrite (OR k k) by lia; rewrite Nat.eqb_refl; ring|]. intros j Hj Nj. rewrite (OR j k) by lia. destruct (Nat.eqb_spec j k); [lia|ring]. }
    split; intro Z.
    + apply vec_ext; [rewrite mv_length; unfold vzero; rewrite repeat_length; apply SC|]. intros i Hi. rewrite mv_length in Hi. destruct SC as [LC _]. rewrite LC in Hi. rewrite EIG by auto. rewrite Z. unfold vzero, vget at 2. rewrite nth_repeat. ring.
    + assert (Q : dot (nth k us []) (mv C (nth k us [])) = vget s k ^ 2). { rewrite (dot_rs m) by (auto; rewrite mv_length; apply SC). rewrite (rsum_ext m _ (fun i => vget s k ^ 2 * (vget (nth k us []) i * vget (nth k us []) i))) by (intros i Hi; rewrite EIG by auto; ring). rewrite rsum_scal_l. rewrite <- (dot_rs m) by auto. rewrite (OR k k) by lia. rewrite Nat.eqb_refl. ring. }
      rewrite Z in Q. assert (D0 : dot (nth k us []) (vzero m) = 0). { rewrite (dot_rs m) by (auto; unfold vzero; apply repeat_length). apply rsum_zero. intros i _. unfold vzero, vget at 2. rewrite nth_repeat. ring. } rewrite D0 in Q. nra.
Qed.
