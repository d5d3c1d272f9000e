(** The normalization bounds of a NormalDomain in closed form; a truncated normal domain normalizes into [-1,1]^m, touching every face. *)
Require Import Reals Lra Lia List Bool Arith.
From Verif Require Import RVec Sums Num MatLib GrassLib SpecProofs DomModel DomSpec DomProofs NormProofs DomOpsProofs DomMoreModel CvxProofs PredModel PredProofs NbModel NbProofs CholProofs RandModel RandProofs.
Import ListNotations.
Local Open Scope R_scope.

Lemma norm2_sqrt_le : forall v c, 0 <= c -> (norm2 v <= sqrt c <-> norm2sq v <= c).
Proof.
  intros v c Hc. unfold norm2. assert (0 <= norm2sq v) by apply norm2sq_nonneg. split; intro H1; [|apply sqrt_le_1_alt; auto]. apply Rnot_lt_le. intro G. pose proof (sqrt_lt_1_alt c (norm2sq v) (conj Hc G)). lra.
Qed.
Lemma normal_pt_member : forall m mean cov L Linv c w, length mean = m -> chol_ok m cov L -> inv_ok m L Linv -> 0 <= c -> length w = m -> norm2sq w <= c -> member (normal_dom mean Linv (Some c)) (vadd mean (mv L w)).
Proof.
  intros m mean cov L Linv c w Lm C I Hc Lw H. pose proof C as (SL & _). assert (LL : length (mv L w) = m) by (apply sq_mv; auto). apply normal_member. split; [rewrite vadd_length; congruence|]. intros c' E. injection E as <-.
  assert (Z : vsub (vadd mean (mv L w)) mean = mv L w). { apply vec_ext; [rewrite vsub_length; rewrite vadd_length; congruence|]. intros i _. rewrite vsub_get by (rewrite vadd_length; congruence). rewrite vadd_get by congruence. ring. }
  rewrite Z, (chol_inv_left m cov L Linv C I w Lw). apply norm2_sqrt_le; auto.
Qed.
Lemma cov_diag_pos : forall m cov L i, chol_ok m cov L -> (i < m)%nat -> 0 < ent cov i i /\ ent cov i i = norm2sq (nth i L []).
Proof.
  intros m cov L i (SL & T & P & G) Hi. assert (E : ent cov i i = norm2sq (nth i L [])) by (symmetry; apply G; auto). split; auto. rewrite E. unfold norm2sq. rewrite (dot_rs m) by (apply sq_row; auto).
  rewrite (rsum_cut (S i) m) by (try lia; intros k Hk; fold (ent L i k); rewrite T by lia; ring). simpl. assert (0 <= rsum i (fun k => vget (nth i L []) k * vget (nth i L []) k)) by (apply rsum_nonneg; intros; nra). fold (ent L i i). specialize (P i Hi). nra.
Qed.
(** the range of a coordinate *)
Theorem normal_range : forall m mean cov L Linv c i, length mean = m -> chol_ok m cov L -> inv_ok m L Linv -> 0 < c -> (i < m)%nat ->
  let M := member (normal_dom mean Linv (Some c)) in let w := sqrt (c * ent cov i i) in
  (forall x, M x -> vget mean i - w <= vget x i <= vget mean i + w) /\ (exists x, M x /\ vget x i = vget mean i - w) /\ (exists x, M x /\ vget x i = vget mean i + w).
Proof.
  intros m mean cov L Linv c i Lm C I Hc Hi M w. pose proof C as (SL & T & P & G). destruct (cov_diag_pos m cov L i C Hi) as [Pc Ec]. pose proof (sq_row m L i SL Hi) as LR. pose proof SL as [LL _].
  assert (W2 : w * w = c * ent cov i i) by (unfold w; apply sqrt_sqrt; nra). assert (W0 : 0 <= w) by apply sqrt_pos.
  split; [|].
  - intros x Mx. apply normal_member in Mx. destruct Mx as [Lx H]. specialize (H c eq_refl). apply norm2_sqrt_le in H; [|lra]. set (y := mv Linv (vsub x mean)) in *. assert (LV : length (vsub x mean) = m) by (rewrite vsub_length; congruence).
    assert (LY : length y = m) by (unfold y; apply sq_mv; apply I). assert (E : dot (nth i L []) y = vget x i - vget mean i). { assert (Q : vget (mv L y) i = vget (vsub x mean) i) by (unfold y; rewrite (proj2 I) by auto; auto). rewrite mv_get in Q by lia. rewrite Q. apply vsub_get. congruence. }
    pose proof (cauchy_schwarz_sq (nth i L []) y ltac:(congruence)) as CSQ. rewrite <- Ec in CSQ. rewrite E in CSQ. assert (B : (vget x i - vget mean i) * (vget x i - vget mean i) <= w * w) by nra. split; nra.
  - assert (K : forall sg, sg = 1 \/ sg = -1 -> exists x, M x /\ vget x i = vget mean i + sg * w).
    { intros sg SG. exists (vadd mean (mv L (vscale (sg * sqrt c / sqrt (ent cov i i)) (nth i L [])))). assert (Q : 0 < sqrt (ent cov i i)) by (apply sqrt_lt_R0; auto). split.
      - apply (normal_pt_member m mean cov L); auto; try lra; [rewrite vscale_length; auto|]. unfold norm2sq. rewrite dot_vscale_l, dot_vscale_r. fold (norm2sq (nth i L [])). rewrite <- Ec. assert (S1 : sqrt c * sqrt c = c) by (apply sqrt_sqrt; lra). assert (S2 : sqrt (ent cov i i) * sqrt (ent cov i i) = ent cov i i) by (apply sqrt_sqrt; lra).
        right. rewrite <- S2 at 3. replace (_ * _) with (sg * sg * (sqrt c * sqrt c)) by (field; lra). rewrite S1. destruct SG as [->| ->]; ring.
      - rewrite vadd_get by (rewrite mv_length; congruence). rewrite mv_get by lia. rewrite dot_vscale_r. fold (norm2sq (nth i L [])). rewrite <- Ec. f_equal. unfold w. rewrite sqrt_mult by lra. assert (S2 : sqrt (ent cov i i) * sqrt (ent cov i i) = ent cov i i) by (apply sqrt_sqrt; lra).
        rewrite <- S2 at 2. field. lra. }
    split; [destruct (K (-1)) as (x & Mx & Ex); auto; exists x; split; auto; lra|destruct (K 1) as (x & Mx & Ex); auto; exists x; split; auto; lra].
Qed.
Definition normal_nlb (mean : vec) (cov : mat) (c : R) : list num := map (fun i => Fin (vget mean i - sqrt (c * ent cov i i))) (seq 0 (length mean)).
Definition normal_nub (mean : vec) (cov : mat) (c : R) : list num := map (fun i => Fin (vget mean i + sqrt (c * ent cov i i))) (seq 0 (length mean)).
Lemma normal_nlb_get : forall mean cov c i, (i < length mean)%nat -> nth i (normal_nlb mean cov c) NaN = Fin (vget mean i - sqrt (c * ent cov i i)).
Proof. intros. unfold normal_nlb. apply (nth_map_seq _ (fun i => Fin (vget mean i - sqrt (c * ent cov i i)))). auto. Qed.
Lemma normal_nub_get : forall mean cov c i, (i < length mean)%nat -> nth i (normal_nub mean cov c) NaN = Fin (vget mean i + sqrt (c * ent cov i i)).
Proof. intros. unfold normal_nub. apply (nth_map_seq _ (fun i => Fin (vget mean i + sqrt (c * ent cov i i)))). auto. Qed.
Lemma inf_sided : forall m, sided (repeat NInf m) (repeat PInf m).
Proof. intro m. split; [rewrite !repeat_length; auto|]. rewrite repeat_length. intros i Hi. right. apply nth_repeat_num. auto. Qed.
Lemma inf_in_bounds : forall M m, in_bounds M (repeat NInf m) (repeat PInf m).
Proof.
  intros M m x i _. split; intros v Hv; exfalso; (destruct (Nat.lt_ge_cases i m); [rewrite nth_repeat_num in Hv by auto; discriminate|rewrite nth_overflow in Hv by (rewrite repeat_length; auto); discriminate]).
Qed.
(** norm_lb and norm_ub of a truncated normal domain, whichever is asked for first *)
Theorem normal_norm_bounds : forall m mean cov L Linv c cor, length mean = m -> chol_ok m cov L -> inv_ok m L Linv -> 0 < c ->
  let d := normal_dom mean Linv (Some c) in
  (forall nlb nub, okl (member d) (lb d) (ub d) nlb -> oku (member d) (lb d) (ub d) nub -> corner_ok (member d) m (cor nlb nub)) ->
  forall qs, run (lb d) (ub d) cor qs fresh = map (fun q => Some (match q with QLower => normal_nlb mean cov c | QUpper => normal_nub mean cov c end)) qs.
Proof.
  intros m mean cov L Linv c cor Lm C I Hc d CO qs. assert (ELB : lb d = repeat NInf m) by (unfold d, normal_dom; simpl; rewrite Lm; auto). assert (EUB : ub d = repeat PInf m) by (unfold d, normal_dom; simpl; rewrite Lm; auto).
  assert (LLB : length (lb d) = m) by (rewrite ELB; apply repeat_length).
  assert (NE : exists x, member d x). { exists mean. apply normal_member. split; auto. intros c' E. injection E as <-. assert (Z : vsub mean mean = repeat 0 m). { apply vec_ext; [rewrite vsub_length, repeat_length; auto|]. intros i Hi. rewrite vsub_get by auto. unfold vget. rewrite nth_repeat. ring. }
    rewrite Z. apply norm2_sqrt_le; [lra|]. assert (Z2 : norm2sq (mv Linv (repeat 0 m)) = 0). { unfold norm2sq. pose proof I as [SI _]. rewrite (dot_rs m) by (apply sq_mv; auto). apply rsum_zero. intros k Hk. rewrite mv_get by (destruct SI; lia). rewrite (dot_rs m) by (rewrite ?repeat_length; auto; apply sq_row; auto). rewrite rsum_zero; [ring|]. intros j Hj. unfold vget. rewrite nth_repeat. ring. } rewrite Z2. lra. }
  destruct (norm_bounds_exact (member d) (lb d) (ub d) cor) as (NL & NU & L1 & L2 & S & R).
  - rewrite ELB, EUB. apply inf_sided.
  - rewrite ELB, EUB. apply inf_in_bounds.
  - intros x Mx. rewrite LLB. rewrite <- Lm. apply normal_member in Mx. apply Mx.
  - auto.
  - rewrite LLB. auto.
  - rewrite R. apply map_ext. intros q. rewrite LLB in *.
    assert (FL : NL = normal_nlb mean cov c).
    { apply (nth_ext _ _ NaN NaN); [unfold normal_nlb; rewrite map_length, seq_length; congruence|]. intros i Hi. rewrite L1 in Hi. rewrite normal_nlb_get by congruence. destruct (S i Hi) as [S1 _]. apply (low_spec_unique (member d) (lb d) (ub d) i); auto.
      unfold low_spec. rewrite ELB, nth_repeat_num by auto. left. exists (vget mean i - sqrt (c * ent cov i i)). split; auto. destruct (normal_range m mean cov L Linv c i Lm C I Hc Hi) as (A & B & _). split; auto. intros x Mx. apply A. auto. }
    assert (FU : NU = normal_nub mean cov c).
    { apply (nth_ext _ _ NaN NaN); [unfold normal_nub; rewrite map_length, seq_length; congruence|]. intros i Hi. rewrite L2 in Hi. rewrite normal_nub_get by congruence. destruct (S i Hi) as [_ S1]. apply (up_spec_unique (member d) (lb d) (ub d) i); auto.
      unfold up_spec. rewrite EUB, nth_repeat_num by auto. left. exists (vget mean i + sqrt (c * ent cov i i)). split; auto. destruct (normal_range m mean cov L Linv c i Lm C I Hc Hi) as (A & _ & B). split; auto. intros x Mx. apply A. auto. }
    rewrite FL, FU. auto.
Qed.
Lemma normal_nb_oriented : forall mean cov c, oriented (normal_nlb mean cov c) (normal_nub mean cov c).
Proof.
  intros mean cov c i v w Ev Ew. destruct (Nat.lt_ge_cases i (length mean)) as [H|H].
  - rewrite normal_nlb_get in Ev by auto. rewrite normal_nub_get in Ew by auto. injection Ev as <-. injection Ew as <-. pose proof (sqrt_pos (c * ent cov i i)). lra.
  - rewrite nth_overflow in Ev by (unfold normal_nlb; rewrite map_length, seq_length; auto). discriminate.
Qed.
(** the normalized domain touches -1 and 1 in every coordinate *)
Theorem normal_normalized_unit : forall chol tinv isf m mean cov t c, chol_spec chol -> tinv_spec tinv -> length mean = m -> factors m cov -> c = isf t m -> 0 < c ->
  let d := normal_new chol tinv isf mean cov (Some t) in let d' := normal_normalized chol tinv isf (normal_nlb mean cov c) (normal_nub mean cov c) d in
  normal_nlb (n_mean d') (n_cov d') c = repeat (Fin (-1)) m /\ normal_nub (n_mean d') (n_cov d') c = repeat (Fin 1) m /\ n_clip d' = Some c /\
  forall x, member (ndom_dom d') x -> forall i, (i < m)%nat -> -1 <= vget x i <= 1.
Proof.
  intros chol tinv isf m mean cov t c CS TS Lm FA Ec Hc d d'. set (nlb := normal_nlb mean cov c) in *. set (nub := normal_nub mean cov c) in *.
  assert (L1 : length nlb = m) by (unfold nlb, normal_nlb; rewrite map_length, seq_length; auto). assert (L2 : length nub = m) by (unfold nub, normal_nub; rewrite map_length, seq_length; auto). assert (OR : oriented nlb nub) by apply normal_nb_oriented.
  assert (IS : forall a, Some t = Some a -> 0 < isf a m) by (intros a E; injection E as <-; rewrite <- Ec; auto).
  destruct (mean' chol tinv isf m mean cov (Some t) nlb nub Lm L1 L2) as [LM ZM]. fold d d' in LM, ZM.
  assert (CV : forall i, (i < m)%nat -> ent (n_cov d') i i = 1 / c).
  { intros i Hi. unfold d', d. rewrite (cov' chol tinv isf m mean cov (Some t) nlb nub Lm FA L1 L2 i i Hi Hi). rewrite nslopes_get by congruence. unfold nlb, nub. rewrite normal_nlb_get, normal_nub_get by congruence. unfold nslope.
    destruct FA as [_ [L C]]. destruct (cov_diag_pos m cov L i C Hi) as [P _]. assert (W : 0 < sqrt (c * ent cov i i)) by (apply sqrt_lt_R0; nra). assert (W2 : sqrt (c * ent cov i i) * sqrt (c * ent cov i i) = c * ent cov i i) by (apply sqrt_sqrt; nra).
    destruct (Req_EM_T _ _) as [E|_]; [lra|]. set (w := sqrt (c * ent cov i i)) in *. clearbody w. replace (ent cov i i) with (w * w / c) by (rewrite W2; field; lra). field. split; lra. }
  assert (SQ1 : forall i, (i < m)%nat -> sqrt (c * ent (n_cov d') i i) = 1) by (intros i Hi; rewrite CV by auto; replace (c * (1 / c)) with 1 by (field; lra); apply sqrt_1).
  assert (CL : n_clip d' = Some c). { unfold d', d. rewrite (clip' chol tinv isf m mean cov (Some t) nlb nub Lm L1 L2). unfold normal_new. simpl. rewrite Lm, <- Ec. auto. }
  split; [|split; [|split; auto]].
  - apply (nth_ext _ _ NaN NaN); [unfold normal_nlb; rewrite map_length, seq_length, repeat_length; auto|]. intros i Hi. unfold normal_nlb in Hi. rewrite map_length, seq_length, LM in Hi. rewrite normal_nlb_get by congruence. rewrite nth_repeat_num by auto. rewrite ZM, SQ1 by auto. f_equal. ring.
  - apply (nth_ext _ _ NaN NaN); [unfold normal_nub; rewrite map_length, seq_length, repeat_length; auto|]. intros i Hi. unfold normal_nub in Hi. rewrite map_length, seq_length, LM in Hi. rewrite normal_nub_get by congruence. rewrite nth_repeat_num by auto. rewrite ZM, SQ1 by auto. f_equal. ring.
  - intros x Mx i Hi. unfold ndom_dom in Mx. rewrite CL in Mx. pose proof (fac' chol tinv isf m mean cov (Some t) nlb nub Lm FA L1 L2 OR) as F'. fold d d' in F'. pose proof (CS m _ F') as C'. pose proof (TS m _ _ C') as I'.
    destruct (normal_range m (n_mean d') (n_cov d') (chol (n_cov d')) (tinv (chol (n_cov d'))) c i LM C' I' Hc Hi) as (A & _). specialize (A x Mx). rewrite ZM, SQ1 in A by auto. lra.
Qed.
(** without truncation every coordinate ranges over the whole line *)
Theorem normal_free_bounds : forall m mean Linv cor, length mean = m ->
  let d := normal_dom mean Linv None in
  (forall nlb nub, okl (member d) (lb d) (ub d) nlb -> oku (member d) (lb d) (ub d) nub -> corner_ok (member d) m (cor nlb nub)) ->
  forall qs, run (lb d) (ub d) cor qs fresh = map (fun q => Some (match q with QLower => repeat NInf m | QUpper => repeat PInf m end)) qs.
Proof.
  intros m mean Linv cor Lm d CO qs. assert (ELB : lb d = repeat NInf m) by (unfold d, normal_dom; simpl; rewrite Lm; auto). assert (EUB : ub d = repeat PInf m) by (unfold d, normal_dom; simpl; rewrite Lm; auto).
  assert (LLB : length (lb d) = m) by (rewrite ELB; apply repeat_length). assert (MM : forall x, length x = m -> member d x) by (intros x Lx; apply normal_member; split; [congruence|discriminate]).
  assert (PT : forall i B, (i < m)%nat -> exists x, member d x /\ vget x i = B). { intros i B Hi. exists (map (fun _ => B) (seq 0 m)). split; [apply MM; rewrite map_length, seq_length; auto|]. apply (vget_map_seq (fun _ => B)). auto. }
  destruct (norm_bounds_exact (member d) (lb d) (ub d) cor) as (NL & NU & L1 & L2 & S & R).
  - rewrite ELB, EUB. apply inf_sided.
  - rewrite ELB, EUB. apply inf_in_bounds.
  - intros x Mx. rewrite LLB. rewrite <- Lm. apply normal_member in Mx. apply Mx.
  - exists mean. apply MM. auto.
  - rewrite LLB. auto.
  - rewrite R. apply map_ext. intros q. rewrite LLB in *.
    assert (FL : NL = repeat NInf m). { apply (nth_ext _ _ NaN NaN); [rewrite repeat_length; auto|]. intros i Hi. rewrite L1 in Hi. rewrite nth_repeat_num by auto. destruct (S i Hi) as [S1 _]. apply (low_spec_unique (member d) (lb d) (ub d) i); auto.
      unfold low_spec. rewrite ELB, nth_repeat_num by auto. right. split; auto. intro B. destruct (PT i (B - 1) Hi) as (x & Mx & E). exists x. split; auto. lra. }
    assert (FU : NU = repeat PInf m). { apply (nth_ext _ _ NaN NaN); [rewrite repeat_length; auto|]. intros i Hi. rewrite L2 in Hi. rewrite nth_repeat_num by auto. destruct (S i Hi) as [_ S1]. apply (up_spec_unique (member d) (lb d) (ub d) i); auto.
      unfold up_spec. rewrite EUB, nth_repeat_num by auto. right. split; auto. intro B. destruct (PT i (B + 1) Hi) as (x & Mx & E). exists x. split; auto. lra. }
    rewrite FL, FU. auto.
Qed.
(** * what corner returns for a normal domain *)
Lemma uslope_nz : forall l u, uslope l u <> 0.
Proof. intros l u H. pose proof (slopes_inv l u) as E. rewrite H in E. lra. Qed.
Section Corner.
  Variable m : nat.
  Variable d : ndom.
  Variable nlb nub : list num.
  Hypothesis Lm : length (n_mean d) = m.
  Hypothesis SI : sq_mat m (n_Linv d).
  Hypothesis L1 : length nlb = m.
  Hypothesis L2 : length nub = m.
  Notation us := (uslopes nlb nub).
  Lemma us_len : length us = m. Proof. rewrite uslopes_length; congruence. Qed.
  Lemma un_scale : forall z, length z = m -> mv (diag us) z = vmul us z /\ length (vmul us z) = m.
  Proof. intros z Lz. pose proof us_len. split; [apply mv_diag; congruence|rewrite vmul_length; congruence]. Qed.
  Lemma un_dist : forall z, length z = m -> length (normal_unnormalize nlb nub d z) = m /\
    vsub (normal_unnormalize nlb nub d z) (n_mean d) = vmul us z.
  Proof.
    intros z Lz. destruct (un_scale z Lz) as [E LE]. unfold normal_unnormalize. rewrite E. assert (LA : length (vadd (vmul us z) (n_mean d)) = m) by (rewrite vadd_length; congruence). split; auto.
    apply vec_ext; [rewrite vsub_length; congruence|]. intros i _. rewrite vsub_get by congruence. rewrite vadd_get by congruence. ring.
  Qed.
  Lemma anorm_mv : forall z, length z = m -> mv (A_norm nlb nub (n_Linv d)) z = mv (n_Linv d) (vmul us z).
  Proof.
    intros z Lz. destruct SI as [LL FL]. rewrite A_norm_rows by (try congruence; rewrite L1; auto). unfold mv. rewrite map_map. apply map_ext_in. intros r Hr. pose proof (proj1 (Forall_forall _ _) FL r Hr) as Lr. cbv beta in Lr. pose proof us_len as LU.
    rewrite !(dot_rs m) by (auto; rewrite vmul_length; congruence). apply rsum_ext. intros k Hk. rewrite !vmul_get by congruence. ring.
  Qed.
  Lemma nfeasible_member : forall z, length z = m -> (normal_feasible nlb nub d z <-> member (ndom_dom d) (normal_unnormalize nlb nub d z)).
  Proof.
    intros z Lz. destruct (un_dist z Lz) as [LU DU]. unfold ndom_dom. rewrite normal_member, DU. unfold normal_feasible. rewrite !anorm_mv by (auto; rewrite vsub_length; congruence).
    assert (Z : vsub (mv (n_Linv d) (vmul us z)) (mv (n_Linv d) (vmul us (vsub (n_mean d) (n_mean d)))) = mv (n_Linv d) (vmul us z)).
    { pose proof us_len as LUS. pose proof SI as [LL FL]. apply vec_ext; [rewrite vsub_length; rewrite !mv_length; auto|]. intros i Hi. rewrite vsub_length in Hi by (rewrite !mv_length; auto). rewrite mv_length, LL in Hi. rewrite vsub_get by (rewrite !mv_length; auto). rewrite !mv_get by lia.
      assert (LV : length (vmul us (vsub (n_mean d) (n_mean d))) = m) by (rewrite vmul_length; [auto|rewrite vsub_length; congruence]). rewrite (dot_rs m (nth i (n_Linv d) []) (vmul us (vsub _ _))) by (auto; apply sq_row; auto; split; auto).
      rewrite (rsum_zero m); [ring|]. intros k Hk. rewrite vmul_get by (rewrite vsub_length; congruence). rewrite vsub_get by auto. ring. }
    rewrite Z. rewrite Lm, Lz, LU. tauto.
  Qed.
  Lemma un_onto : forall x, length x = m -> exists z, length z = m /\ normal_unnormalize nlb nub d z = x.
  Proof.
    intros x Lx. exists (map (fun i => (vget x i - vget (n_mean d) i) / vget us i) (seq 0 m)). assert (LZ : length (map (fun i => (vget x i - vget (n_mean d) i) / vget us i) (seq 0 m)) = m) by (rewrite map_length, seq_length; auto). split; auto.
    destruct (un_scale _ LZ) as [E LE]. unfold normal_unnormalize. rewrite E. pose proof us_len as LUS. apply vec_ext; [rewrite vadd_length; congruence|]. intros i Hi. rewrite vadd_length, LE in Hi by congruence. rewrite vadd_get by congruence. rewrite vmul_get by congruence.
    rewrite (vget_map_seq (fun i => (vget x i - vget (n_mean d) i) / vget us i)) by auto. field. rewrite uslopes_get by congruence. apply uslope_nz.
  Qed.
  Lemma un_obj : forall p z, length p = m -> length z = m -> dot (mv (diag us) p) z = dot p (normal_unnormalize nlb nub d z) - dot p (n_mean d).
  Proof.
    intros p z Lp Lz. destruct (un_scale p Lp) as [E LE]. destruct (un_scale z Lz) as [E' LE']. destruct (un_dist z Lz) as [LU DU]. rewrite E. pose proof us_len as LUS. rewrite !(dot_rs m) by auto. rewrite <- rsum_minus. apply rsum_ext. intros i Hi.
    rewrite vmul_get by congruence. pose proof (f_equal (fun v => vget v i) DU) as Q. cbv beta in Q. rewrite vsub_get, vmul_get in Q by congruence. nra.
  Qed.
  Lemma normal_outcome_answer : forall p a, length p = m -> (exists i, (i < m)%nat /\ vget p i <> 0) -> normal_outcome nlb nub d p a ->
    match a with
    | Pt x => member (ndom_dom d) x /\ forall y, member (ndom_dom d) y -> dot p y <= dot p x
    | EmptyExc => forall y, ~ member (ndom_dom d) y
    | UnboundedExc => forall B, exists y, member (ndom_dom d) y /\ B < dot p y
    end.
  Proof.
    intros p a Lp (i & Hi & Np) H. unfold normal_outcome in H. destruct a as [x| |].
    - destruct H as [_ (z & [Fz K] & ->)]. assert (Lz : length z = m) by (destruct Fz; congruence). split; [apply nfeasible_member; auto|]. intros y My. assert (Ly : length y = m) by (unfold ndom_dom in My; apply normal_member in My; destruct My; congruence).
      destruct (un_onto y Ly) as (w & Lw & <-). apply nfeasible_member in My; auto. specialize (K w My). rewrite !un_obj in K by auto. lra.
    - intros y My. assert (Ly : length y = m) by (unfold ndom_dom in My; apply normal_member in My; destruct My; congruence). destruct (un_onto y Ly) as (w & Lw & <-). apply nfeasible_member in My; auto. apply (H w My).
    - intro B. destruct H as [NC|H].
      + exists (vscale ((Rabs B + 1) / (vget p i * vget p i)) (map (fun j => if Nat.eqb j i then vget p i else 0) (seq 0 m))). unfold ndom_dom. rewrite NC. split; [apply normal_member; split; [rewrite vscale_length, map_length, seq_length; auto|discriminate]|].
        rewrite dot_vscale_r. rewrite (dot_rs m) by (auto; rewrite map_length, seq_length; auto). rewrite (rsum_single m i); auto.
        * rewrite (vget_map_seq (fun j => if Nat.eqb j i then vget p i else 0)) by auto. rewrite Nat.eqb_refl. replace ((Rabs B + 1) / (vget p i * vget p i) * (vget p i * vget p i)) with (Rabs B + 1) by (field; auto). pose proof (Rle_abs B). lra.
        * intros k Hk N. rewrite (vget_map_seq (fun j => if Nat.eqb j i then vget p i else 0)) by auto. destruct (Nat.eqb_spec k i); [contradiction|ring].
      + destruct (H (B - dot p (n_mean d))) as (z & Fz & Hz). assert (Lz : length z = m) by (destruct Fz; congruence). exists (normal_unnormalize nlb nub d z). split; [apply nfeasible_member; auto|]. rewrite un_obj in Hz by auto. lra.
  Qed.
End Corner.
(** a solver that is exact on the arrays that can be stored *)
Definition normal_solver (m : nat) (d : ndom) (cor : list num -> list num -> vec -> answer) : Prop :=
  forall nlb nub p, length nlb = m -> length nub = m -> length p = m -> (exists i, (i < m)%nat /\ vget p i <> 0) -> normal_outcome nlb nub d p (cor nlb nub p).
Lemma normal_solver_corner : forall m d cor, length (n_mean d) = m -> sq_mat m (n_Linv d) -> normal_solver m d cor ->
  forall nlb nub, okl (member (ndom_dom d)) (lb (ndom_dom d)) (ub (ndom_dom d)) nlb -> oku (member (ndom_dom d)) (lb (ndom_dom d)) (ub (ndom_dom d)) nub -> corner_ok (member (ndom_dom d)) m (cor nlb nub).
Proof.
  intros m d cor Lm SI NS nlb nub [O1 _] [O2 _] p Lp NZ. assert (LB : length (lb (ndom_dom d)) = m) by (unfold ndom_dom, normal_dom; cbn [lb]; rewrite repeat_length; auto). rewrite LB in O1, O2.
  apply (normal_outcome_answer m d nlb nub); auto.
Qed.
(** norm_lb and norm_ub as the code computes them *)
Theorem normal_code_bounds : forall chol tinv isf m mean cov t cor, chol_spec chol -> tinv_spec tinv -> length mean = m -> factors m cov -> (forall a, t = Some a -> 0 < isf a m) ->
  let d := normal_new chol tinv isf mean cov t in normal_solver m d cor ->
  forall qs, run (lb (ndom_dom d)) (ub (ndom_dom d)) cor qs fresh = map (fun q => Some (match t, q with
    | Some a, QLower => normal_nlb mean cov (isf a m) | Some a, QUpper => normal_nub mean cov (isf a m) | None, QLower => repeat NInf m | None, QUpper => repeat PInf m end)) qs.
Proof.
  intros chol tinv isf m mean cov t cor CS TS Lm FA IS d NS qs. pose proof (CS m cov FA) as C. pose proof (TS m cov _ C) as I. assert (Lm' : length (n_mean d) = m) by auto. assert (SI : sq_mat m (n_Linv d)) by apply I.
  pose proof (normal_solver_corner m d cor Lm' SI NS) as CO. unfold d, normal_new, ndom_dom in CO |- *. cbn [n_mean n_Linv n_clip] in CO |- *. destruct t as [a|].
  - rewrite Lm in CO |- *. rewrite (normal_norm_bounds m mean cov (chol cov) (tinv (chol cov)) (isf a m) cor) by auto. apply map_ext. intros []; auto.
  - rewrite (normal_free_bounds m mean (tinv (chol cov)) cor) by auto. apply map_ext. intros []; auto.
Qed.
(** the four facts together *)
Theorem normalized_normal : forall chol tinv isf det m mean cov t nlb nub, chol_spec chol -> tinv_spec tinv -> det_spec det -> (forall a, t = Some a -> 0 < isf a m) ->
  length mean = m -> factors m cov -> length nlb = m -> length nub = m -> oriented nlb nub ->
  let d := normal_new chol tinv isf mean cov t in let d' := normal_normalized chol tinv isf nlb nub d in let N := normal_normalize nlb nub d in
  (forall i, vget (n_mean d') i = 0) /\
  (forall i j, (i < m)%nat -> (j < m)%nat -> ent (n_cov d') i j = vget (nslopes nlb nub) i * ent cov i j * vget (nslopes nlb nub) j) /\
  (forall xi, length xi = m -> normal_point d' xi = N (normal_point d xi)) /\
  forall x, length x = m -> (member (ndom_dom d') (N x) <-> member (ndom_dom d) x) /\
    (forall tol, inside1 (ndom_dom d') (N x) tol = inside1 (ndom_dom d) x tol) /\
    forall tol, normal_pdf det d tol x = vprod (nslopes nlb nub) * normal_pdf det d' tol (N x).
Proof.
  intros chol tinv isf det m mean cov t nlb nub CS TS DS IS Lm FA L1 L2 OR d d' N. split; [apply (mean' chol tinv isf m); auto|]. split; [intros; apply (cov' chol tinv isf m); auto|]. split; [intros; apply (normal_normalized_point chol tinv isf m); auto|].
  intros x Lx. split; [apply (normal_normalized_member chol tinv isf m); auto|]. split; intro tol; [apply (normal_normalized_inside chol tinv isf m); auto|apply (normal_normalized_pdf chol tinv isf det m); auto].
Qed.

(** * LogNormalDomain *)
Definition logn_draw (d : logn) (y : R) : R := logn_sample (g_off d) (g_scale d) y.
Definition logn_density (d : logn) (x : R) : R := logn_pdf (g_mean d) (g_cov d) (g_off d) (g_scale d) x.
Lemma logn_nb_trunc : forall d a b, g_trunc d = Some (a, b) -> 0 < g_scale d -> a < b ->
  logn_nb d = (Fin (g_off d + g_scale d * exp a), Fin (g_off d + g_scale d * exp b)) /\ g_off d + g_scale d * exp a < g_off d + g_scale d * exp b.
Proof.
  intros d a b E S H. pose proof (exp_increasing a b H). assert (g_off d + g_scale d * exp a < g_off d + g_scale d * exp b) by nra. split; auto.
  unfold logn_nb, logn_bounds. rewrite E. cbn [logn_lb logn_ub norm_lb_i norm_ub_i]. rewrite Rmin_left by lra. rewrite Rmax_left by lra. auto.
Qed.
Theorem logn_normalized_spec : forall d, 0 < g_scale d -> (forall a b, g_trunc d = Some (a, b) -> a < b) ->
  let d' := logn_normalized d in
  (forall y, logn_draw d' y = logn_normalize d (logn_draw d y)) /\
  (g_trunc d <> None -> logn_bounds d' = (Fin (-1), Fin 1)) /\ (g_trunc d = None -> d' = d /\ forall x, logn_normalize d x = x) /\
  forall x, logn_density d' (logn_normalize d x) = logn_density d x.
Proof.
  intros d S TR d'. destruct (g_trunc d) as [[a b]|] eqn:E.
  - specialize (TR a b eq_refl). destruct (logn_nb_trunc d a b E S TR) as [NB LT]. set (l := g_off d + g_scale d * exp a) in *. set (u := g_off d + g_scale d * exp b) in *.
    assert (SL : nslope (Fin l) (Fin u) = 2 / (u - l)) by (unfold nslope; destruct (Req_EM_T u l); [lra|auto]).
    assert (NM : forall x, logn_normalize d x = 2 / (u - l) * (x - (l + u) / 2)) by (intro x; unfold logn_normalize; rewrite NB, SL; auto).
    assert (ED : d' = mkLogn (g_mean d) (g_cov d) (2 / (u - l) * (g_off d - (l + u) / 2)) (2 / (u - l) * g_scale d) (Some (a, b))) by (unfold d', logn_normalized; rewrite E, NB, SL; auto).
    split; [|split; [|split]].
    + intro y. rewrite NM, ED. unfold logn_draw, logn_sample. cbn [g_off g_scale]. ring.
    + intros _. rewrite ED. unfold logn_bounds. cbn [g_off g_scale g_trunc logn_lb logn_ub]. assert (A : g_scale d * exp a = l - g_off d) by (unfold l; ring). assert (B : g_scale d * exp b = u - g_off d) by (unfold u; ring). clearbody l u. f_equal; f_equal.
      * rewrite Rmult_assoc, A. field. lra.
      * rewrite Rmult_assoc, B. field. lra.
    + discriminate.
    + intro x. unfold logn_density. rewrite NM, ED. cbn [g_off g_scale g_mean g_cov]. unfold logn_pdf. assert (X : (2 / (u - l) * (x - (l + u) / 2) - 2 / (u - l) * (g_off d - (l + u) / 2)) / (2 / (u - l) * g_scale d) = (x - g_off d) / g_scale d) by (clearbody l u; field; split; lra). rewrite X. auto.
  - assert (ED : d' = d) by (unfold d', logn_normalized; rewrite E; auto). assert (NM : forall x, logn_normalize d x = x) by (intro x; unfold logn_normalize, logn_nb, logn_bounds; rewrite E; cbn; ring).
    split; [intro y; rewrite NM, ED; auto|]. split; [intro H; exfalso; apply H; auto|]. split; [auto|]. intro x. rewrite NM, ED. auto.
Qed.
