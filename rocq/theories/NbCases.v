(** Concrete cases for the normalization bounds, and the domains on which they go wrong. *)
Require Import Reals Lra Lia List Bool Arith.
From Verif Require Import RVec Sums Num MatLib GrassLib SpecProofs DomModel DomSpec DomProofs NormProofs DomOpsProofs DomExamples DomMoreModel CvxProofs PredModel PredProofs PredCases NbModel NbProofs.
Import ListNotations.
Local Open Scope R_scope.

(** answers that are right for the set are right for the normalized program *)
Lemma ok_outcome : forall nlb nub d p a, norm_ok nlb nub d -> length p = dim d ->
  (match a with Pt x => member d x /\ (forall y, member d y -> dot p y <= dot p x) | EmptyExc => forall y, ~ member d y | UnboundedExc => forall B, exists y, member d y /\ B < dot p y end) ->
  corner_outcome nlb nub d p a.
Proof.
  intros nlb nub d p a OK Lp H. pose proof OK as [W [H1 [H2 _]]].
  assert (FN : forall x, member d x -> norm_feasible nlb nub d (normalize nlb nub x)).
  { intros x Mx. assert (Lx : length x = dim d) by apply Mx. apply norm_feasible_member; auto. split; [rewrite normalize_length; congruence|]. rewrite unnormalize_normalize by congruence. auto. }
  destruct a as [x| |]; simpl.
  - destruct H as [Mx K]. assert (Lx : length x = dim d) by apply Mx. exists (normalize nlb nub x). split; [|rewrite unnormalize_normalize; congruence]. split; auto.
    intros w Fw. apply norm_feasible_member in Fw; auto. destruct Fw as [Lw Mw]. rewrite (corner_obj_shift nlb nub d p x) by auto. pose proof (corner_obj_shift nlb nub d p (unnormalize nlb nub w) OK Lp ltac:(apply Mw)) as S.
    rewrite normalize_unnormalize in S by congruence. rewrite S. specialize (K _ Mw). lra.
  - intros z Fz. apply norm_feasible_member in Fz; auto. destruct Fz. eapply H; eauto.
  - intro B. destruct (H (B + dot p (center nlb nub))) as (y & My & Hy). assert (Ly : length y = dim d) by apply My. exists (normalize nlb nub y). split; auto. rewrite (corner_obj_shift nlb nub d p y) by auto. lra.
Qed.

(** ** 0 <= x0 <= 1, x1 >= 0, all given as linear inequalities *)
Definition strip : dom := mkDom LinIneq 2 [NInf; NInf] [PInf; PInf] [[1; 0]; [-1; 0]; [0; -1]] [1; 0; 0] [] [] [].
Definition strip_corner (_ _ : list num) (p : vec) : answer := if Rltb 0 (vget p 1) then UnboundedExc else Pt [if Rltb (vget p 0) 0 then 0 else 1; 0].
Lemma strip_member : forall x, member strip x <-> length x = 2%nat /\ 0 <= vget x 0 <= 1 /\ 0 <= vget x 1.
Proof.
  intro x. split.
  - intros (L & _ & A & _). split; [exact L|]. destruct x as [|a [|b [|]]]; try discriminate. pose proof (A 0%nat [1; 0] 1 eq_refl eq_refl) as A0. pose proof (A 1%nat [-1; 0] 0 eq_refl eq_refl) as A1. pose proof (A 2%nat [0; -1] 0 eq_refl eq_refl) as A2.
    rewrite !dot_cons, !dot_nil_l in *. unfold vget. simpl. lra.
  - intros (L & H0 & H1). destruct x as [|a [|b [|]]]; try discriminate. unfold vget in H0, H1. simpl in H0, H1. split; [reflexivity|]. split; [|split; [|split]].
    + intro i. split; intros v Hv; destruct i as [|[|[|i]]]; simpl in Hv; discriminate.
    + intros k r c Hr Hc. destruct k as [|[|[|[|k]]]]; simpl in Hr, Hc; try discriminate; injection Hr as <-; injection Hc as <-; rewrite !dot_cons, !dot_nil_l; lra.
    + intros k r c Hr. destruct k; discriminate.
    + intros q [].
Qed.
Lemma strip_normalizes : normalizes strip.
Proof.
  split; [wf|]. split; [right; repeat constructor|]. split; [right; repeat constructor|]. split; [split; auto; intros i Hi; right; destruct i as [|[|]]; simpl in *; auto; lia|]. left; auto.
Qed.
Lemma strip_exact : exact_solver strip strip_corner.
Proof.
  intros nlb nub p O1 O2 OR Lp. destruct strip_normalizes as (W & U1 & U2 & _).
  apply ok_outcome; auto; [split; auto; split; [apply O1|]; split; [apply O2|]; split; auto; split; auto; split; auto; constructor|].
  destruct p as [|a [|b [|]]]; try discriminate. unfold strip_corner, vget. simpl. destruct (Rltb 0 b) eqn:E.
  - apply Rltb_true in E. intro B. exists [0; (Rabs B + 1) / b]. split; [apply strip_member; split; auto; unfold vget; simpl; split; [lra|]; apply Rmult_le_pos; [pose proof (Rabs_pos B); lra|left; apply Rinv_0_lt_compat; lra]|].
    rewrite !dot_cons, !dot_nil_l. replace (a * 0 + (b * ((Rabs B + 1) / b) + 0)) with (Rabs B + 1) by (field; lra). pose proof (Rle_abs B). lra.
  - apply Rltb_false in E. split; [apply strip_member; split; auto; unfold vget; simpl; destruct (Rltb a 0); lra|]. intros y My. apply strip_member in My. destruct My as (Ly & Y0 & Y1). destruct y as [|c [|e [|]]]; try discriminate.
    unfold vget in Y0, Y1. simpl in Y0, Y1. rewrite !dot_cons, !dot_nil_l. destruct (Rltb a 0) eqn:E2; [apply Rltb_true in E2|apply Rltb_false in E2]; nra.
Qed.
Lemma strip_case : normalizes strip /\ exact_solver strip strip_corner /\ (exists x, member strip x) /\
  run (lb strip) (ub strip) strip_corner [QUpper; QLower; QUpper] fresh = [Some [Fin 1; PInf]; Some [Fin 0; Fin 0]; Some [Fin 1; PInf]].
Proof.
  split; [apply strip_normalizes|]. split; [apply strip_exact|]. split; [exists [0; 0]; apply strip_member; split; auto; unfold vget; simpl; lra|].
  assert (E0 : forall nl nu, strip_corner nl nu (unitR 2 0) = Pt [1; 0]) by (intros; unfold strip_corner, unitR, vget; simpl; rb; auto).
  assert (E1 : forall nl nu, strip_corner nl nu (unitR 2 1) = UnboundedExc) by (intros; unfold strip_corner, unitR, vget; simpl; rb; auto).
  assert (E2 : forall nl nu, strip_corner nl nu (vscale (-1) (unitR 2 0)) = Pt [0; 0]) by (intros; unfold strip_corner, unitR, vget; simpl; rb; auto).
  assert (E3 : forall nl nu, strip_corner nl nu (vscale (-1) (unitR 2 1)) = Pt [1; 0]) by (intros; unfold strip_corner, unitR, vget; simpl; rb; auto).
  repeat (cbn -[strip_corner unitR vscale]; rewrite ?E0, ?E1, ?E2, ?E3); reflexivity.
Qed.

(** ** the disc of radius 1 about (1, 2) *)
Definition disc : dom := mkDom LinQuad 2 [NInf; NInf] [PInf; PInf] [] [] [] [] [mkQuad [[1; 0]; [0; 1]] [1; 2] 1].
Definition disc_corner (_ _ : list num) (p : vec) : answer := if Reqb (norm2 p) 0 then Pt [1; 2] else Pt [1 + vget p 0 / norm2 p; 2 + vget p 1 / norm2 p].
Lemma disc_member : forall a b, member disc [a; b] <-> (a - 1) * (a - 1) + (b - 2) * (b - 2) <= 1.
Proof.
  intros a b. assert (N : norm2 (mv [[1; 0]; [0; 1]] (vsub [a; b] [1; 2])) = sqrt ((a - 1) * (a - 1) + (b - 2) * (b - 2))) by (unfold norm2, norm2sq; vc; f_equal; ring). split.
  - intros (_ & _ & _ & _ & Q). pose proof (Q _ (or_introl eq_refl)) as K. cbn [qL qy qrho] in K. rewrite N in K. apply Rnot_lt_le. intro G. assert (sqrt 1 < sqrt ((a - 1) * (a - 1) + (b - 2) * (b - 2))) by (apply sqrt_lt_1_alt; lra). rewrite sqrt_1 in H. lra.
  - intro H. split; [reflexivity|]. split; [|split; [|split]].
    + intro i. split; intros v Hv; destruct i as [|[|[|i]]]; simpl in Hv; discriminate.
    + intros k r c Hr. destruct k; discriminate.
    + intros k r c Hr. destruct k; discriminate.
    + intros q [<-|[]]. cbn [qL qy qrho]. rewrite N. eapply Rle_trans; [apply sqrt_le_1_alt; exact H|]. rewrite sqrt_1. lra.
Qed.
Lemma disc_normalizes : normalizes disc.
Proof.
  split; [unfold dom_wf, quad_wf; simpl; repeat split; intros; auto; try discriminate; try (repeat constructor; simpl; auto; try lra; fail); try (exfalso; intuition congruence); congruence|].
  split; [right; repeat constructor|]. split; [right; repeat constructor|]. split; [split; auto; intros i Hi; right; destruct i as [|[|]]; simpl in *; auto; lia|].
  right. split; [|split; repeat constructor]. exists [1; 2]. split; auto. split; [|repeat constructor].
  intros x Mx. assert (Lx : length x = 2%nat) by apply Mx. destruct x as [|a [|b [|]]]; try discriminate. apply disc_member in Mx. unfold vsub, vscale. simpl. apply disc_member. nra.
Qed.
Lemma disc_exact : exact_solver disc disc_corner.
Proof.
  intros nlb nub p O1 O2 OR Lp. destruct disc_normalizes as (W & U1 & U2 & _ & [Q|[(y & Ly & SY & FQ) [I1 I2]]]); [discriminate|].
  apply ok_outcome; auto.
  - split; auto. split; [apply O1|]. split; [apply O2|]. split; auto. split; auto. split; auto. apply Forall_forall. intros q Hq. apply (ok_centred disc y); auto. apply (proj1 (Forall_forall _ _) FQ q Hq).
  - destruct p as [|a [|b [|]]]; try discriminate. assert (N2 : norm2 [a; b] * norm2 [a; b] = a * a + b * b) by (unfold norm2; rewrite sqrt_sqrt; [unfold norm2sq; rewrite !dot_cons, !dot_nil_l; ring|unfold norm2sq; rewrite !dot_cons, !dot_nil_l; nra]).
    assert (NP : 0 <= norm2 [a; b]) by apply sqrt_pos. unfold disc_corner, vget. cbn [nth]. set (n := norm2 [a; b]) in *. clearbody n. destruct (Reqb n 0) eqn:E.
    + apply Reqb_true in E. subst n. assert (a = 0) by nra. assert (b = 0) by nra. subst. split; [apply disc_member; lra|]. intros y' My. assert (L : length y' = 2%nat) by apply My. destruct y' as [|c [|e [|]]]; try discriminate. rewrite !dot_cons, !dot_nil_l. lra.
    + assert (n <> 0) by (intro; subst; rewrite (proj2 (Reqb_true 0 0) eq_refl) in E; discriminate). assert (0 < n) by lra. split.
      * apply disc_member. replace ((1 + a / n - 1) * (1 + a / n - 1) + (2 + b / n - 2) * (2 + b / n - 2)) with ((a * a + b * b) / (n * n)) by (field; lra). rewrite <- N2. right. field. lra.
      * intros y' My. assert (L : length y' = 2%nat) by apply My. destruct y' as [|c [|e [|]]]; try discriminate. apply disc_member in My. rewrite !dot_cons, !dot_nil_l.
        replace (a * (1 + a / n) + (b * (2 + b / n) + 0)) with (a + 2 * b + (a * a + b * b) / n) by (field; lra). rewrite <- N2. replace (n * n / n) with n by (field; lra).
        assert (G : a * (c - 1) + b * (e - 2) <= n); [|lra]. apply Rnot_lt_le. intro G. assert (n * n < (a * (c - 1) + b * (e - 2)) * (a * (c - 1) + b * (e - 2))) by nra.
        assert ((a * (c - 1) + b * (e - 2)) * (a * (c - 1) + b * (e - 2)) <= (a * a + b * b) * ((c - 1) * (c - 1) + (e - 2) * (e - 2))) by (pose proof (Rle_0_sqr (a * (e - 2) - b * (c - 1))) as SQ; unfold Rsqr in SQ; nra).
        assert (0 <= a * a + b * b) by nra. nra.
Qed.
Lemma disc_case : normalizes disc /\ exact_solver disc disc_corner /\ (exists x, member disc x) /\
  run (lb disc) (ub disc) disc_corner [QLower; QUpper] fresh = [Some [Fin 0; Fin 1]; Some [Fin 2; Fin 3]].
Proof.
  split; [apply disc_normalizes|]. split; [apply disc_exact|]. split; [exists [1; 2]; apply disc_member; lra|].
  assert (N1 : norm2 (unitR 2 0) = 1) by (unfold norm2, norm2sq, unitR; simpl; rewrite !dot_cons, !dot_nil_l; replace (1 * 1 + (0 * 0 + 0)) with 1 by ring; apply sqrt_1).
  assert (N2 : norm2 (unitR 2 1) = 1) by (unfold norm2, norm2sq, unitR; simpl; rewrite !dot_cons, !dot_nil_l; replace (0 * 0 + (1 * 1 + 0)) with 1 by ring; apply sqrt_1).
  assert (N3 : norm2 (vscale (-1) (unitR 2 0)) = 1) by (unfold norm2, norm2sq, unitR, vscale; simpl; rewrite !dot_cons, !dot_nil_l; replace (_ + _) with 1 by ring; apply sqrt_1).
  assert (N4 : norm2 (vscale (-1) (unitR 2 1)) = 1) by (unfold norm2, norm2sq, unitR, vscale; simpl; rewrite !dot_cons, !dot_nil_l; replace (_ + _) with 1 by ring; apply sqrt_1).
  assert (E0 : forall nl nu, disc_corner nl nu (unitR 2 0) = Pt [2; 2]) by (intros; unfold disc_corner; rewrite N1; rb1; unfold unitR, vget; simpl; repeat f_equal; field).
  assert (E1 : forall nl nu, disc_corner nl nu (unitR 2 1) = Pt [1; 3]) by (intros; unfold disc_corner; rewrite N2; rb1; unfold unitR, vget; simpl; repeat f_equal; field).
  assert (E2 : forall nl nu, disc_corner nl nu (vscale (-1) (unitR 2 0)) = Pt [0; 2]) by (intros; unfold disc_corner; rewrite N3; rb1; unfold unitR, vscale, vget; simpl; repeat f_equal; field).
  assert (E3 : forall nl nu, disc_corner nl nu (vscale (-1) (unitR 2 1)) = Pt [1; 1]) by (intros; unfold disc_corner; rewrite N4; rb1; unfold unitR, vscale, vget; simpl; repeat f_equal; field).
  repeat (cbn -[disc_corner unitR vscale]; rewrite ?E0, ?E1, ?E2, ?E3); reflexivity.
Qed.

(** ** an empty domain: x <= 0 and x >= 1 *)
Definition nothing : dom := mkDom LinIneq 1 [NInf] [PInf] [[1]; [-1]] [0; -1] [] [] [].
Lemma nothing_empty : forall x, ~ member nothing x.
Proof.
  intros x (L & _ & A & _). destruct x as [|a [|]]; try discriminate. pose proof (A 0%nat [1] 0 eq_refl eq_refl) as A0. pose proof (A 1%nat [-1] (-1) eq_refl eq_refl) as A1. rewrite !dot_cons, !dot_nil_l in *. lra.
Qed.
Lemma nothing_normalizes : normalizes nothing.
Proof.
  split; [wf|]. split; [right; repeat constructor|]. split; [right; repeat constructor|]. split; [split; auto; intros i Hi; right; destruct i as [|]; simpl in *; auto; lia|]. left; auto.
Qed.
Lemma nothing_exact : exact_solver nothing (fun _ _ _ => EmptyExc).
Proof.
  intros nlb nub p O1 O2 OR Lp. destruct nothing_normalizes as (W & U1 & U2 & _).
  apply ok_outcome; auto; [split; auto; split; [apply O1|]; split; [apply O2|]; split; auto; split; auto; split; auto; constructor|apply nothing_empty].
Qed.
Lemma nothing_case : normalizes nothing /\ exact_solver nothing (fun _ _ _ => EmptyExc) /\ (forall x, ~ member nothing x) /\ nth 0 (lb nothing) NaN = NInf /\
  run (lb nothing) (ub nothing) (fun _ _ _ => EmptyExc) [QLower; QUpper; QLower] fresh = [None; Some [PInf]; Some [NInf]].
Proof. split; [apply nothing_normalizes|]. split; [apply nothing_exact|]. split; [apply nothing_empty|]. split; reflexivity. Qed.

(** ** refuted: an ellipsoid whose centre is not the centre of the bounds *)
Definition offc : dom := mkDom LinQuad 1 [Fin 6] [Fin 10] [] [] [] [] [mkQuad [[1]] [5] 2].
Lemma offc_refuted : exists d x, dom_wf d /\ uniform (lb d) /\ uniform (ub d) /\ sided (lb d) (ub d) /\ member d x /\
  forall cor, exists L U, (forall qs, run (lb d) (ub d) cor qs fresh = map (fun q => Some (match q with QLower => L | QUpper => U end)) qs) /\
    ((forall p, length p = dim d -> corner_outcome L U d p (cor L U p)) -> is_empty (dim d) (cor L U) = true).
Proof.
  exists offc, [6]. split; [unfold dom_wf, quad_wf; simpl; repeat split; intros; auto; try discriminate; try (repeat constructor; simpl; auto; try lra; fail); try (exfalso; intuition congruence); congruence|].
  split; [left; exists [6]; auto|]. split; [left; exists [10]; auto|]. split; [split; auto; intros [|i] Hi; simpl in *; [left; eauto|lia]|].
  assert (N : forall a, norm2 [a] = Rabs a) by (intro a; unfold norm2, norm2sq; rewrite dot_cons, dot_nil_l, Rplus_0_r; apply sqrt_Rsqr_abs).
  split.
  - split; [reflexivity|]. split; [|split; [|split]].
    + intros [|i]; split; intros v Hv; simpl in Hv; try (destruct i; discriminate); injection Hv as <-; unfold vget; simpl; lra.
    + intros k r c Hr. destruct k; discriminate.
    + intros k r c Hr. destruct k; discriminate.
    + intros q [<-|[]]. cbn [qL qy qrho]. unfold mv, vsub. simpl. rewrite dot_cons, dot_nil_l, N. unfold Rabs. destruct (Rcase_abs _); lra.
  - intro cor. exists [Fin 6], [Fin 10]. split.
    + assert (E1 : norm_lb [Fin 6] [Fin 10] cor fresh = (Some [Fin 6], mkNst (Some [Fin 6]) None)) by (cbn; unfold nmin2; simpl; rb; auto).
      assert (E2 : norm_ub [Fin 6] [Fin 10] cor fresh = (Some [Fin 10], mkNst None (Some [Fin 10]))) by (cbn; unfold nmax; simpl; rb; auto).
      assert (E3 : norm_lb [Fin 6] [Fin 10] cor (mkNst None (Some [Fin 10])) = (Some [Fin 6], mkNst (Some [Fin 6]) (Some [Fin 10]))) by (cbn; unfold nmin2; simpl; rb; auto).
      assert (E4 : norm_ub [Fin 6] [Fin 10] cor (mkNst (Some [Fin 6]) None) = (Some [Fin 10], mkNst (Some [Fin 6]) (Some [Fin 10]))) by (cbn; unfold nmax; simpl; rb; auto).
      intro qs. assert (G : forall st, st = fresh \/ st = mkNst (Some [Fin 6]) None \/ st = mkNst None (Some [Fin 10]) \/ st = mkNst (Some [Fin 6]) (Some [Fin 10]) ->
        run [Fin 6] [Fin 10] cor qs st = map (fun q => Some (match q with QLower => [Fin 6] | QUpper => [Fin 10] end)) qs); [|apply G; auto].
      induction qs as [|q qs IH]; intros st H; [reflexivity|]. cbn [run map]. destruct q; cbn [ask].
      * destruct H as [-> | [-> | [-> | ->]]]; [rewrite E1|simpl|rewrite E3|simpl]; f_equal; apply IH; auto.
      * destruct H as [-> | [-> | [-> | ->]]]; [rewrite E2|rewrite E4|simpl|simpl]; f_equal; apply IH; auto.
    + intro H. unfold is_empty. specialize (H (repeat 1 (dim offc)) eq_refl). cbn [dim offc] in *.
      assert (NF : forall z, ~ norm_feasible [Fin 6] [Fin 10] offc z).
      { intros z (Lz & B1 & B2 & _ & _ & Q). destruct z as [|a [|]]; try discriminate. 
        assert (EL : lb_norm [Fin 6] [Fin 10] [Fin 6] = [Fin (-1)]) by (cbn; unfold nslopes, center, ndot, diag; simpl; rb; unfold nsum, vget; simpl; f_equal; f_equal; field).
        assert (EQ : mv (qL (quad_norm [Fin 6] [Fin 10] (mkQuad [[1]] [5] 2))) [a] = [2 * a]) by (cbn; unfold A_norm, uslopes, diag; simpl; rb; unfold mv, dot, vmul, vsum, vget; simpl; rb; f_equal; field).
        assert (EY : mv (qL (quad_norm [Fin 6] [Fin 10] (mkQuad [[1]] [5] 2))) (qy (quad_norm [Fin 6] [Fin 10] (mkQuad [[1]] [5] 2))) = [-6]) by (cbn; unfold A_norm, uslopes, diag, center; simpl; rb; unfold mv, dot, vmul, vsum, vget; simpl; rb; f_equal; field).
        specialize (B1 0%nat (-1)). cbn [normalized_domain dcls offc lb] in B1. rewrite EL in B1. specialize (B1 eq_refl). unfold vget in B1. simpl in B1.
        specialize (Q _ (or_introl eq_refl)). cbn [qrho quad_norm] in Q. rewrite EQ, EY in Q. unfold vsub in Q. simpl in Q. rewrite N in Q. pose proof (Rle_abs (2 * a - -6)). lra. }
      destruct (cor [Fin 6] [Fin 10] (repeat 1 1)) as [x| |]; auto; exfalso; [destruct H as (z & [Fz _] & _); eapply NF; eauto|destruct (H 0) as (z & Fz & _); eapply NF; eauto].
Qed.

(** ** refuted: one coordinate with bounds, the other without; the normalized bounds become NaN and are dropped *)
Definition slant : dom := mkDom LinIneq 2 [Fin 0; NInf] [Fin 1; PInf] [[1; 1]; [-1; -1]] [1; 0] [] [] [].
Definition slant_corner (_ _ : list num) (p : vec) : answer := if Reqb (vget p 0) (vget p 1) then Pt [if Rltb (vget p 0) 0 then 0 else 1; 0] else UnboundedExc.
Definition NL : list num := [Fin 0; NInf].
Definition NU : list num := [Fin 1; PInf].
Lemma slant_member : forall a b, member slant [a; b] -> 0 <= a <= 1 /\ 0 <= a + b <= 1.
Proof.
  intros a b (_ & B & A & _). destruct (B 0%nat) as [B1 B2]. specialize (B1 0 eq_refl). specialize (B2 1 eq_refl). pose proof (A 0%nat [1; 1] 1 eq_refl eq_refl) as A0. pose proof (A 1%nat [-1; -1] 0 eq_refl eq_refl) as A1.
  rewrite !dot_cons, !dot_nil_l in *. unfold vget in *. simpl in *. lra.
Qed.
Lemma slant_feasible : forall a b, norm_feasible NL NU slant [a; b] <-> - (1/2) <= a / 2 + b <= 1/2.
Proof.
  intros a b. unfold norm_feasible.
  assert (EL : lb (normalized_domain NL NU slant) = [NaN; NInf]) by (cbn; unfold lb_norm, normalizeN, nslopes, center, diag, ndot; simpl; rb; unfold nsum, vget; simpl; rb; repeat f_equal; auto).
  assert (EU : ub (normalized_domain NL NU slant) = [NaN; PInf]) by (cbn; unfold ub_norm, normalizeN, nslopes, center, diag, ndot; simpl; rb; unfold nsum, vget; simpl; rb; repeat f_equal; auto).
  assert (EA : dA (normalized_domain NL NU slant) = [[1/2; 1]; [-(1/2); -1]]) by (cbn; unfold A_norm, uslopes, diag; simpl; rb; unfold mv, dot, vmul, vsum, vget; simpl; rb; repeat (apply (f_equal2 (@cons (list R))); [apply (f_equal2 (@cons R)); [field|apply (f_equal2 (@cons R)); [field|reflexivity]]|]); reflexivity).
  assert (EB : db (normalized_domain NL NU slant) = [1/2; 1/2]) by (cbn; unfold b_norm, center; simpl; unfold vsub, mv, dot, vmul, vsum; simpl; apply (f_equal2 (@cons R)); [field|apply (f_equal2 (@cons R)); [field|reflexivity]]).
  rewrite EL, EU, EA, EB. split.
  - intros (_ & _ & _ & A & _). pose proof (A 0%nat _ _ eq_refl eq_refl) as A0. pose proof (A 1%nat _ _ eq_refl eq_refl) as A1. rewrite !dot_cons, !dot_nil_l in *. lra.
  - intro H. split; [reflexivity|]. split; [|split; [|split; [|split]]].
    + intros [|[|[|i]]] v Hv; simpl in Hv; discriminate.
    + intros [|[|[|i]]] v Hv; simpl in Hv; discriminate.
    + intros [|[|[|k]]] r c Hr Hc; simpl in Hr, Hc; try discriminate; injection Hr as <-; injection Hc as <-; rewrite !dot_cons, !dot_nil_l; lra.
    + intros k r c Hr. destruct k; discriminate.
    + intros q [].
Qed.
Lemma slant_obj : forall p q a b, corner_obj NL NU [p; q] [a; b] = p * (a / 2) + q * b.
Proof. intros. unfold corner_obj, uslopes, diag, NL, NU. simpl. rb. unfold mv, dot, vmul, vsum, vget. simpl. field. Qed.
Lemma slant_outcome : forall p, length p = 2%nat -> corner_outcome NL NU slant p (slant_corner NL NU p).
Proof.
  intros p Lp. destruct p as [|p [|q [|]]]; try discriminate. unfold slant_corner, vget. simpl nth. destruct (Reqb p q) eqn:E.
  - apply Reqb_true in E. subst q. set (x := if Rltb p 0 then 0 else 1). exists [2 * x - 1; 0]. split.
    + split; [apply slant_feasible; unfold x; destruct (Rltb p 0); lra|]. intros w Fw. assert (Lw : length w = 2%nat) by apply Fw. destruct w as [|a [|b [|]]]; try discriminate. apply slant_feasible in Fw. rewrite !slant_obj.
      unfold x. destruct (Rltb p 0) eqn:EP; [apply Rltb_true in EP|apply Rltb_false in EP]; nra.
    + unfold unnormalize, uslopes, center, NL, NU, diag, mv, dot, vmul, vsum, vadd, vget. simpl. rb. apply (f_equal2 (@cons R)); [field|apply (f_equal2 (@cons R)); [field|reflexivity]].
  - assert (NE : p <> q) by (intro; subst; rewrite (proj2 (Reqb_true q q) eq_refl) in E; discriminate). intro B. exists [2 * ((Rabs B + 1) / (p - q)); - ((Rabs B + 1) / (p - q))]. split; [apply slant_feasible; lra|].
    rewrite slant_obj. replace (_ + _) with (Rabs B + 1) by (field; lra). pose proof (Rle_abs B). lra.
Qed.
Lemma mixed_bounds_refuted : exists d cor V L U, dom_wf d /\ quads d = [] /\ sided (lb d) (ub d) /\ bounded (member d) /\ onb (dim d) V /\
  run (lb d) (ub d) cor [QLower; QUpper; QLower] fresh = [Some L; Some U; Some L] /\ run (lb d) (ub d) cor [QUpper; QLower; QUpper] fresh = [Some U; Some L; Some U] /\
  (forall p, length p = dim d -> corner_outcome L U d p (cor L U p)) /\ nth 1 L NaN = NInf /\ (forall x, member d x -> -1 <= vget x 1) /\ is_unbounded (dim d) (cor L U) V = Some true.
Proof.
  exists slant, slant_corner, rot, NL, NU. split; [wf|]. split; auto. split; [split; auto; intros [|[|i]] Hi; simpl in *; [left; eauto|right; auto|lia]|].
  split. { exists 2. intros y My. assert (Ly : length y = 2%nat) by apply My. destruct y as [|a [|b [|]]]; try discriminate. apply slant_member in My. unfold norm2, norm2sq. rewrite !dot_cons, !dot_nil_l. rewrite <- (sqrt_Rsqr 2) by lra. apply sqrt_le_1_alt. unfold Rsqr. nra. }
  split; [apply rot_onb|].
  assert (E1 : forall nl nu, slant_corner nl nu (unitR 2 1) = UnboundedExc) by (intros; unfold slant_corner, unitR, vget; simpl; rb; auto).
  assert (E3 : forall nl nu, slant_corner nl nu (vscale (-1) (unitR 2 1)) = UnboundedExc) by (intros; unfold slant_corner, unitR, vget; simpl; rb; auto).
  assert (M1 : nmin2 (Fin 0) (Fin 1) = Fin 0) by (unfold nmin2; simpl; rb; auto). assert (M2 : nmax (Fin 1) (Fin 0) = Fin 1) by (unfold nmax; simpl; rb; auto).
  split; [repeat (cbn -[slant_corner unitR vscale nmin2 nmax]; rewrite ?E1, ?E3, ?M1, ?M2); reflexivity|]. split; [repeat (cbn -[slant_corner unitR vscale nmin2 nmax]; rewrite ?E1, ?E3, ?M1, ?M2); reflexivity|].
  split; [apply slant_outcome|]. split; [reflexivity|]. split; [intros x Mx; assert (Lx : length x = 2%nat) by apply Mx; destruct x as [|a [|b [|]]]; try discriminate; apply slant_member in Mx; unfold vget; simpl; lra|].
  assert (E4 : slant_corner NL NU [3/5; 4/5] = UnboundedExc) by (unfold slant_corner, vget; simpl; rb; auto). unfold is_unbounded, rot. simpl. rewrite E4. auto.
Qed.
