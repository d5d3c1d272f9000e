(** Existence of least squares solutions, and what local_linear (local_linear.py 108-195) computes on arbitrary data. *)
Require Import Reals List Bool Arith ZArith Lia Lra Psatz.
From Verif Require Import RVec Num Sums DomMoreModel BasisModel SweepProofs HullProofs HullIneqProofs ArnoldiMoreProofs MatLib SpecProofs LipModel LipFitProofs GrassLib SubModel ActiveProofs LocalLinProofs.
Import ListNotations.
Local Open Scope R_scope.

(** the normal equations are always solvable: columns are added one by one, each replaced by its residual *)
Lemma normal_equations : forall n N (V : nat -> nat -> R) (b : nat -> R), exists c, forall j, (j < n)%nat -> rsum N (fun i => V i j * (b i - rsum n (fun l => V i l * c l))) = 0.
Proof.
  induction n as [|n IH]; intros N V b; [exists (fun _ => 0); intros; lia|].
  destruct (IH N V b) as [c Hc]. destruct (IH N V (fun i => V i n)) as [d Hd].
  set (r := fun i => b i - rsum n (fun l => V i l * c l)) in *. set (u := fun i => V i n - rsum n (fun l => V i l * d l)) in *.
  assert (T : exists t, rsum N (fun i => u i * (r i - t * u i)) = 0).
  { destruct (Req_dec (rsum N (fun i => u i * u i)) 0) as [Z|Z].
    - exists 0. apply rsum_zero. intros i Hi. pose proof (rsum_zero_inv N (fun i => u i * u i) ltac:(intros; nra) Z i Hi) as Q. simpl in Q. apply Rmult_integral in Q. destruct Q as [-> | ->]; ring.
    - exists (rsum N (fun i => u i * r i) / rsum N (fun i => u i * u i)). set (t := _ / _).
      rewrite (rsum_ext _ _ (fun i => u i * r i - t * (u i * u i))) by (intros; ring). rewrite rsum_minus, rsum_scal_l. unfold t. field. auto. }
  destruct T as [t Ht]. exists (fun l => if Nat.eqb l n then t else c l - t * d l).
  assert (E : forall i, b i - rsum (S n) (fun l => V i l * (if Nat.eqb l n then t else c l - t * d l)) = r i - t * u i).
  { intro i. unfold rsum at 1; fold rsum. cbn [rsum]. rewrite Nat.eqb_refl. rewrite (rsum_ext _ _ (fun l => V i l * c l - t * (V i l * d l))) by (intros l Hl; replace (Nat.eqb l n) with false by (symmetry; apply Nat.eqb_neq; lia); ring).
    rewrite rsum_minus, rsum_scal_l. unfold r, u. ring. }
  assert (O : forall j, (j < n)%nat -> rsum N (fun i => V i j * (r i - t * u i)) = 0).
  { intros j Hj. rewrite (rsum_ext _ _ (fun i => V i j * r i - t * (V i j * u i))) by (intros; ring). rewrite rsum_minus, rsum_scal_l.
    assert (Q1 : rsum N (fun i => V i j * r i) = 0) by (apply Hc; auto). assert (Q2 : rsum N (fun i => V i j * u i) = 0) by (apply Hd; auto). rewrite Q1, Q2. ring. }
  intros j Hj. rewrite (rsum_ext _ _ (fun i => V i j * (r i - t * u i))) by (intros; rewrite E; auto).
  destruct (Nat.eq_dec j n) as [->|Ne]; [|apply O; lia].
  rewrite (rsum_ext _ _ (fun i => u i * (r i - t * u i) + rsum n (fun l => d l * (V i l * (r i - t * u i))))).
  - rewrite rsum_plus, Ht, rsum_swap, Rplus_0_l. apply rsum_zero. intros l Hl. rewrite rsum_scal_l, O by auto. ring.
  - intros i Hi. replace (V i n) with (u i + rsum n (fun l => V i l * d l)) by (unfold u; ring). rewrite Rmult_plus_distr_r. f_equal. rewrite <- rsum_scal_r. apply rsum_ext. intros. ring.
Qed.
Lemma lstsq_post_exists : forall n A b, Forall (fun r => length r = n) A -> length b = length A -> exists a, lstsq_post n A b a.
Proof.
  intros n A b FA Lb. destruct (normal_equations n (length A) (fun i j => vget (nth i A []) j) (vget b)) as [c Hc].
  set (a := map c (seq 0 n)). assert (La : length a = n) by (unfold a; rewrite map_length, seq_length; auto). exists a. split; auto. intros d Ld.
  assert (G : forall v i, length v = n -> (i < length A)%nat -> vget (mv A v) i = rsum n (fun l => vget (nth i A []) l * vget v l)).
  { intros v i Lv Hi. assert (Lr : length (nth i A []) = n) by (rewrite Forall_forall in FA; apply FA, nth_In; auto). rewrite mv_get by auto. rewrite dot_rsum by lia. rewrite Lr. auto. }
  assert (Q : forall v, length v = n -> norm2sq (vsub (mv A v) b) = rsum (length A) (fun i => (vget (mv A v) i - vget b i) * (vget (mv A v) i - vget b i))).
  { intros v Lv. unfold norm2sq. rewrite dot_rsum by auto. rewrite vsub_length, mv_length by (rewrite mv_length; lia). apply rsum_ext. intros i Hi. rewrite vsub_get by (rewrite mv_length; lia). auto. }
  rewrite !Q by auto.
  assert (Z : rsum (length A) (fun i => (vget (mv A d) i - vget (mv A a) i) * (vget b i - vget (mv A a) i)) = 0).
  { rewrite (rsum_ext _ _ (fun i => rsum n (fun l => (vget d l - c l) * (vget (nth i A []) l * (vget b i - rsum n (fun l => vget (nth i A []) l * c l)))))).
    - rewrite rsum_swap. apply rsum_zero. intros l Hl. rewrite rsum_scal_l, (Hc l Hl). ring.
    - intros i Hi. rewrite !G by auto. assert (EA : rsum n (fun l => vget (nth i A []) l * vget a l) = rsum n (fun l => vget (nth i A []) l * c l)).
      { apply rsum_ext. intros l Hl. unfold a. rewrite vget_map_seq by auto. auto. }
      rewrite EA, <- rsum_minus, <- rsum_scal_r. apply rsum_ext. intros. ring. }
  rewrite (rsum_ext _ (fun i => (vget (mv A d) i - vget b i) * (vget (mv A d) i - vget b i)) (fun i => (vget (mv A a) i - vget b i) * (vget (mv A a) i - vget b i) + ((vget (mv A d) i - vget (mv A a) i) * (vget (mv A d) i - vget (mv A a) i)
    - 2 * ((vget (mv A d) i - vget (mv A a) i) * (vget b i - vget (mv A a) i))))) by (intros; ring).
  rewrite rsum_plus, rsum_minus, rsum_scal_l, Z. pose proof (rsum_nonneg (length A) (fun i => (vget (mv A d) i - vget (mv A a) i) * (vget (mv A d) i - vget (mv A a) i)) (fun i _ => Rle_0_sqr _)). lra.
Qed.

(* ------------------------------------------------------------------ the documented objective *)
(** sum_i [(a0 + a.x_i) - f(x_i)]^2 exp(-beta |x_i - x_t|^2), local_linear.py 120-123 *)
Definition wls (X : mat) (fX : vec) (beta : R) (xt : vec) (a0 : R) (a : vec) : R :=
  rsum (length X) (fun i => (a0 + dot a (nth i X []) - vget fX i) ^ 2 * exp (- beta * norm2sq (vsub (nth i X []) xt))).
(** the factor used: from the perplexity, or half of the bandwidth *)
Definition factor (pb : vec -> R -> option R) (m : nat) (X : mat) (perp : option R) (bw : option bwopt) (xt : vec) (beta : R) : Prop :=
  match perp, bw with
  | Some p, _ => pb (sqdist X xt) p = Some beta
  | None, None => pb (sqdist X xt) (INR (Nat.min (m + 1) (length X))) = Some beta
  | None, Some BwXia => beta = 2.34 * Rpower (INR (length X)) (- 1 / (Rmax (INR (length X)) 3 + 6)) / 2
  | None, Some (BwVal b) => beta = b / 2
  end.
Lemma wls_eq : forall X fX beta xt a0 a, Forall (fun x => length x = length a) X -> length fX = length X ->
  norm2sq (vsub (mv (zipw vscale (ll_sw beta (sqdist X xt)) (map ll_row X)) (a0 :: a)) (vmul (ll_sw beta (sqdist X xt)) fX)) = wls X fX beta xt a0 a.
Proof.
  intros X fX beta xt a0 a FX Lf. set (sw := ll_sw beta (sqdist X xt)). assert (Ls : length sw = length X) by (unfold sw; rewrite ll_sw_len, sqdist_len; auto).
  assert (LY : length (map ll_row X) = length X) by apply map_length.
  assert (LA : length (zipw vscale sw (map ll_row X)) = length X) by (rewrite zipw_length; lia).
  assert (LV : length (vmul sw fX) = length X) by (rewrite vmul_length; lia).
  unfold norm2sq, wls. rewrite dot_rsum by auto. rewrite vsub_length, mv_length, LA by (rewrite mv_length; lia). apply rsum_ext. intros i Hi.
  rewrite vsub_get by (rewrite mv_length; lia). rewrite vget_mv_scaled by lia. rewrite vmul_get by lia.
  rewrite (nth_indep _ [] (ll_row [])) by lia. rewrite map_nth. unfold ll_row. rewrite dot_cons, (dot_comm (nth i X [])).
  assert (S : vget sw i * vget sw i = exp (- beta * norm2sq (vsub (nth i X []) xt))).
  { unfold sw, ll_sw, sqdist, vget. rewrite map_map. rewrite nth_indep with (d' := (fun z => exp (- (1 / 2) * beta * norm2sq (vsub z xt))) []) by (rewrite map_length; auto).
    rewrite (map_nth (fun z => exp (- (1 / 2) * beta * norm2sq (vsub z xt)))). rewrite <- exp_plus. f_equal. field. }
  rewrite <- S. ring.
Qed.
Lemma weighted_rows : forall m (X : mat) (sw : vec), Forall (fun x => length x = m) X -> length sw = length X -> Forall (fun r => length r = (m + 1)%nat) (zipw vscale sw (map ll_row X)).
Proof.
  intros m X sw FX Ls. rewrite Forall_forall in *. intros y Iy. apply (In_nth _ _ []) in Iy. destruct Iy as (i & Hi & <-). rewrite zipw_length in Hi by (rewrite map_length; auto).
  rewrite (zipw_nth R vec vec vscale sw (map ll_row X) i 0 [] []) by (try rewrite map_length; lia). rewrite vscale_length. rewrite (nth_indep _ [] (ll_row [])) by (rewrite map_length; lia). rewrite map_nth. unfold ll_row. cbn [length].
  rewrite (FX (nth i X [])) by (apply nth_In; lia). lia.
Qed.
(** every requested row minimizes the documented objective *)
Theorem ll_weighted : forall pb lstsq m X fX perp bw Xt A, lstsq_ok (m + 1) lstsq -> Forall (fun x => length x = m) X ->
  local_linear pb lstsq m X fX perp bw Xt = Some A -> forall t, (t < length (points X Xt))%nat -> let xt := nth t (points X Xt) [] in
  exists beta a0 a, factor pb m X perp bw xt beta /\ nth t A [] = a0 :: a /\ length a = m /\ forall c0 c, length c = m -> wls X fX beta xt a0 a <= wls X fX beta xt c0 c.
Proof.
  intros pb lstsq m X fX perp bw Xt A LS FX E t Ht xt. unfold local_linear in E. destruct (Nat.eqb (length fX) (length X)) eqn:Lf; [|discriminate]. apply Nat.eqb_eq in Lf. simpl in E.
  destruct (ll_beta pb (length X) m perp bw) as [bf|] eqn:EB; [|discriminate]. fold (points X Xt) in E. apply ll_loop_spec in E. destruct E as [_ [_ [N1 _]]]. specialize (N1 t Ht). fold xt in N1.
  destruct (bf (sqdist X xt)) as [beta|] eqn:Eb; [|discriminate]. injection N1 as N1. unfold ll_coef in N1.
  set (sw := ll_sw beta (sqdist X xt)) in *. assert (Ls : length sw = length X) by (unfold sw; rewrite ll_sw_len, sqdist_len; auto).
  destruct (LS (zipw vscale sw (map ll_row X)) (vmul sw fX)) as (r & Er & Lr & Mr).
  { apply lstsq_post_exists.
    - apply weighted_rows; auto.
    - rewrite vmul_length, zipw_length; rewrite ?map_length; lia. }
  rewrite Er in N1. destruct r as [|a0 a]; [simpl in Lr; lia|]. simpl in Lr. assert (La : length a = m) by lia. exists beta, a0, a. split; [|split; [auto|split; auto]].
  - unfold ll_beta in EB. unfold factor. destruct perp as [p|].
    + destruct (Rleb 2 p && Rltb p (INR (length X)))%bool; [|discriminate]. injection EB as <-. auto.
    + destruct bw as [[|b]|].
      * injection EB as <-. injection Eb as <-. unfold ll_xia. field.
      * injection EB as <-. injection Eb as <-. field.
      * destruct (Rleb 2 _ && Rltb _ (INR (length X)))%bool; [|discriminate]. injection EB as <-. auto.
  - intros c0 c Lc. specialize (Mr (c0 :: c) ltac:(simpl; lia)). unfold sw in Mr. rewrite !wls_eq in Mr by (auto; rewrite Forall_forall in *; intros; rewrite FX by auto; lia). auto.
Qed.
(** each row has m + 1 entries, also where the solver fails *)
Theorem ll_row_length : forall pb lstsq m X fX perp bw Xt A, (forall B b a, lstsq B b = Some a -> length a = (m + 1)%nat) ->
  local_linear pb lstsq m X fX perp bw Xt = Some A -> Forall (fun r => length r = (m + 1)%nat) A.
Proof.
  intros pb lstsq m X fX perp bw Xt A LS E. pose proof (ll_shape _ _ _ _ _ _ _ _ _ E) as (LA & LP & ZA). unfold local_linear in E. destruct (Nat.eqb (length fX) (length X)); [|discriminate]. simpl in E.
  destruct (ll_beta pb (length X) m perp bw) as [bf|]; [|discriminate]. fold (points X Xt) in E. apply ll_loop_spec in E. destruct E as [_ [_ [N1 _]]].
  apply Forall_forall. intros r I. apply (In_nth _ _ []) in I. destruct I as (i & Hi & <-). destruct (Nat.lt_ge_cases i (length (points X Xt))) as [H|H].
  - specialize (N1 i H). destruct (bf _) as [b|]; [|discriminate]. injection N1 as N1. rewrite <- N1. unfold ll_coef. destruct (lstsq _ _) as [a|] eqn:El; [eapply LS; eauto|apply vzero_length].
  - rewrite ZA by lia. apply vzero_length.
Qed.

(* ------------------------------------------------------------------ the bandwidth is not the documented beta *)
Lemma wls_normal : forall X fX beta xt a0 a (h0 : R) (h : vec), length h = length a ->
  (forall c0 c, length c = length a -> wls X fX beta xt a0 a <= wls X fX beta xt c0 c) -> Forall (fun x => length x = length a) X ->
  rsum (length X) (fun i => (a0 + dot a (nth i X []) - vget fX i) * (h0 + dot h (nth i X [])) * exp (- beta * norm2sq (vsub (nth i X []) xt))) = 0.
Proof.
  intros X fX beta xt a0 a h0 h Lh M FX. set (w := fun i => exp (- beta * norm2sq (vsub (nth i X []) xt))). set (r := fun i => a0 + dot a (nth i X []) - vget fX i). set (g := fun i => h0 + dot h (nth i X [])).
  set (Lin := rsum (length X) (fun i => r i * g i * w i)). set (Qd := rsum (length X) (fun i => g i ^ 2 * w i)).
  assert (Q0 : 0 <= Qd) by (apply rsum_nonneg; intros i _; apply Rmult_le_pos; [apply pow2_ge_0|apply Rlt_le, exp_pos]).
  assert (H : forall t, 0 <= 2 * t * Lin + t * t * Qd).
  { intro t. specialize (M (a0 + t * h0) (vadd a (vscale t h)) ltac:(rewrite vadd_length; rewrite ?vscale_length; lia)).
    assert (E : wls X fX beta xt (a0 + t * h0) (vadd a (vscale t h)) = wls X fX beta xt a0 a + (2 * t * Lin + t * t * Qd)).
    { unfold wls, Lin, Qd. rewrite <- !rsum_scal_l, <- !rsum_plus. apply rsum_ext. intros i Hi. rewrite dot_vadd_l by (rewrite vscale_length; auto). rewrite dot_vscale_l. unfold r, g, w. ring. }
    rewrite E in M. lra. }
  destruct (Req_dec Lin 0) as [Z|Z]; [exact Z|]. exfalso. destruct (Req_dec Qd 0) as [Q|Q].
  - specialize (H (- Lin)). rewrite Q in H. assert (0 < Lin * Lin) by nra. nra.
  - specialize (H (- Lin / Qd)). replace (2 * (- Lin / Qd) * Lin + - Lin / Qd * (- Lin / Qd) * Qd) with (- (Lin * Lin / Qd)) in H by (field; auto).
    assert (0 < Lin * Lin / Qd) by (apply Rdiv_lt_0_compat; [nra|lra]). lra.
Qed.
Lemma wls_min : forall m X fX beta xt, Forall (fun x => length x = m) X -> length fX = length X -> exists a0 a, length a = m /\ forall c0 c, length c = m -> wls X fX beta xt a0 a <= wls X fX beta xt c0 c.
Proof.
  intros m X fX beta xt FX Lf. set (sw := ll_sw beta (sqdist X xt)). assert (Ls : length sw = length X) by (unfold sw; rewrite ll_sw_len, sqdist_len; auto).
  destruct (lstsq_post_exists (m + 1) (zipw vscale sw (map ll_row X)) (vmul sw fX)) as (r & Lr & Mr).
  - apply weighted_rows; auto.
  - rewrite vmul_length, zipw_length; rewrite ?map_length; lia.
  - destruct r as [|a0 a]; [simpl in Lr; lia|]. simpl in Lr. assert (La : length a = m) by lia. exists a0, a. split; auto. intros c0 c Lc. specialize (Mr (c0 :: c) ltac:(simpl; lia)). unfold sw in Mr.
    rewrite !wls_eq in Mr by (auto; rewrite Forall_forall in *; intros; rewrite FX by auto; lia). auto.
Qed.
(** values 0, 0, 1 at 0, 1, 2, bandwidth 1: no minimizer of the documented objective with beta = 1 is returned for the first point *)
Theorem ll_bandwidth_refuted : exists X fX b, forall pb lstsq, lstsq_ok 2 lstsq -> exists A a0 a, local_linear pb lstsq 1 X fX None (Some (BwVal b)) None = Some A /\ nth 0 A [] = a0 :: a /\
  exists c0 c, length c = 1%nat /\ wls X fX b (nth 0 X []) c0 c < wls X fX b (nth 0 X []) a0 a.
Proof.
  exists [[0]; [1]; [2]], [0; 0; 1], 1. intros pb lstsq LS. destruct (ll_returns pb lstsq 1 [[0]; [1]; [2]] [0; 0; 1] 1 None eq_refl ltac:(simpl; lia)) as [A E].
  assert (FX : Forall (fun x : vec => length x = 1%nat) [[0]; [1]; [2]]) by repeat constructor.
  destruct (ll_weighted pb lstsq 1 _ _ _ _ _ A LS FX E 0%nat ltac:(simpl; lia)) as (beta & a0 & a & F & N & La & M). simpl in F. exists A, a0, a. split; auto. split; auto.
  destruct (wls_min 1 [[0]; [1]; [2]] [0; 0; 1] 1 [0] FX eq_refl) as (c0 & c & Lc & MC). exists c0, c. split; auto. change (nth 0 [[0]; [1]; [2]] []) with [0].
  destruct (Rlt_le_dec (wls [[0]; [1]; [2]] [0; 0; 1] 1 [0] c0 c) (wls [[0]; [1]; [2]] [0; 0; 1] 1 [0] a0 a)) as [H|H]; auto. exfalso.
  assert (M1 : forall c0 c, length c = length a -> wls [[0]; [1]; [2]] [0; 0; 1] 1 [0] a0 a <= wls [[0]; [1]; [2]] [0; 0; 1] 1 [0] c0 c).
  { intros d0 d Ld. eapply Rle_trans; [exact H|]. apply MC. lia. }
  assert (M2 : forall c0 c, length c = length a -> wls [[0]; [1]; [2]] [0; 0; 1] beta [0] a0 a <= wls [[0]; [1]; [2]] [0; 0; 1] beta [0] c0 c) by (intros; apply M; lia).
  assert (FX' : Forall (fun x : vec => length x = length a) [[0]; [1]; [2]]) by (rewrite La; auto).
  destruct a as [|a1 [|? ?]]; simpl in La; try lia.
  pose proof (wls_normal _ _ _ _ a0 [a1] 2 [-1] eq_refl M1 FX') as A1. pose proof (wls_normal _ _ _ _ a0 [a1] 1 [-1] eq_refl M1 FX') as A2.
  pose proof (wls_normal _ _ _ _ a0 [a1] 2 [-1] eq_refl M2 FX') as B1. clear M M1 M2 MC.
  cbn [length rsum nth] in A1, A2, B1. unfold norm2sq, vget in A1, A2, B1. cbn [nth] in A1, A2, B1. unfold vsub in A1, A2, B1. cbn [vmap2] in A1, A2, B1. rewrite !dot_cons, !dot_nil_l in A1, A2, B1.
  subst beta.
  replace (-(1) * ((0 - 0) * (0 - 0) + 0)) with 0 in A1, A2 by ring. replace (-(1) * ((1 - 0) * (1 - 0) + 0)) with (-1) in A1, A2 by ring. replace (-(1) * ((2 - 0) * (2 - 0) + 0)) with (-4) in A1, A2 by ring.
  replace (- (1 / 2) * ((0 - 0) * (0 - 0) + 0)) with 0 in B1 by field. replace (- (1 / 2) * ((1 - 0) * (1 - 0) + 0)) with (- (1/2)) in B1 by field. replace (- (1 / 2) * ((2 - 0) * (2 - 0) + 0)) with (-2) in B1 by field.
  rewrite exp_0 in A1, A2, B1. pose proof (exp_increasing (-1) (- (1/2)) ltac:(lra)) as I1. pose proof (exp_pos (-4)) as P4. pose proof (exp_pos (-1)) as P1.
  assert (R1 : (a0 + a1) * (exp (- (1/2)) - exp (-1)) = 0) by lra. apply Rmult_integral in R1. destruct R1 as [R1|R1]; [|lra].
  assert (R0 : a0 = 0) by (replace a1 with (- a0) in A1 by lra; lra). assert (a1 = 0) by lra. subst a0 a1. lra.
Qed.
