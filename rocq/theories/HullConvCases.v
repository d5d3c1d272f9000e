(** Concrete hulls meeting the hypotheses of the conversion theorems. *)
Require Import Reals List Bool Arith ZArith Lia Lra Psatz.
From Verif Require Import RVec Num Sums DomModel DomSpec NormProofs DomOpsProofs DomMoreModel LipModel LipProofs SweepProofs HullProofs HullIneqProofs MatLib GrassLib SpecProofs ArnoldiMoreProofs ArnoldiCases PartialProofs VoronoiProofs GeoModel SampModel PigeonLib
  LocalLinProofs LinProg Spectral Decomp SolveMore Minkowski HullConvModel HullConvProofs HullConvMore HullBasis.
Import ListNotations.
Local Open Scope R_scope.

Definition I2 : mat := [[1; 0]; [0; 1]].
Lemma I2_onb : onb 2 I2.
Proof. split; [reflexivity|]. split; [repeat constructor|]. apply orth2; auto; rewrite !dot_cons, dot_nil_l; ring. Qed.
Lemma close_0 : np_close 0 0 = true.
Proof. unfold np_close. apply Rleb_le. rewrite Rminus_0_r, Rabs_R0. unfold atol, rtol. lra. Qed.

(** * a segment in the plane *)
Definition sgX : mat := [[-1; 0]; [1; 0]].
Definition sg_svd (C : mat) : vec * mat := ([sqrt 2; 0], I2).
Definition sg_h : hull := mkHull sgX (mkDom LinQuad 2 [NInf; NInf] [PInf; PInf] [] [] [] [] []).
Lemma close_s2 : np_close (sqrt 2) 0 = false.
Proof. unfold np_close. apply Rleb_false. rewrite Rminus_0_r, Rabs_R0. assert (1 < sqrt 2) by (rewrite <- sqrt_1; apply sqrt_lt_1; lra). rewrite Rabs_pos_eq by lra. unfold atol, rtol. lra. Qed.
Lemma sg_centred : centred 2 sgX = sgX.
Proof. unfold centred, row_mean, sgX, col, vsub, vsum, vget. cbn. repeat (f_equal; try field). Qed.
Lemma sg_svd_ok : svd_rows 2 sgX (sg_svd sgX).
Proof.
  destruct rt2_sq as (S2 & P2). assert (RS : sqrt 2 * rt2 = 1) by (unfold rt2; field; apply Rgt_not_eq, sqrt_lt_R0; lra). pose proof (sqrt_pos 2) as SP. unfold svd_rows, sg_svd. cbn [fst snd]. split; [reflexivity|]. split; [reflexivity|]. destruct I2_onb as (_ & F & OI). split; auto. split; auto. split; [repeat first [apply Forall_nil | apply Forall_cons; [lra|]]|].
  split; [intros [|[|i]] [|[|j]] H; simpl in H; try lia; unfold vget; cbn [nth]; lra|]. exists [[- rt2; rt2]; [rt2; rt2]]. split; [reflexivity|]. split; [apply orth2; auto; rewrite !dot_cons, dot_nil_l; lra|]. split; [repeat constructor|].
  intros c Hc. unfold sgX, I2. destruct c as [|[|c]]; simpl in Hc; try lia; unfold col, lincomb, vmul, vadd, vscale, vzero, vget; cbn [nth map vmap2 repeat]; repeat (f_equal; try lra).
Qed.
Lemma sg_big : big_rows [sqrt 2; 0] I2 = [[1; 0]].
Proof. unfold big_rows, big, I2. cbn [combine filter fst]. rewrite close_0, close_s2. reflexivity. Qed.
Lemma sg_qr : qr_ok 2 [[1; 0]] I2.
Proof. split; [apply I2_onb|]. intros k j Hk Hj. simpl in Hk. assert (k = 0 /\ j = 1)%nat as [-> ->] by lia. cbn [nth I2]. rewrite !dot_cons, dot_nil_l. ring. Qed.
Lemma sg_sharp : sharp [sqrt 2; 0].
Proof. repeat constructor; intro H; auto. rewrite close_s2 in H. discriminate. Qed.
Lemma sg_conv : conv_ok sg_svd (fun _ => I2) (fun _ => ([], [])) 2 sgX.
Proof.
  unfold conv_ok. cbn zeta. rewrite sg_centred. split; [apply sg_svd_ok|]. unfold sg_svd. cbn [fst snd]. split; [apply sg_sharp|]. rewrite sg_big. split; [apply sg_qr|]. simpl. lia.
Qed.
Lemma sg_wf : hull_wf sg_h.
Proof. unfold hull_wf, sg_h. cbn. split; [|split; [discriminate|repeat constructor]]. unfold dom_wf. cbn. repeat split; auto; try (intros [K|K]; discriminate); intros; try discriminate. Qed.
Example sg_to_linineq : exists d, to_linineq sg_svd (fun _ => I2) (fun _ => ([], [])) sg_h = Some d /\ dA d = [vscale 1 [1; 0]; vscale (-1) [1; 0]] /\ db d = [1; 1] /\ dAeq d = [[0; 1]] /\ dbeq d = [0] /\
  hull_wf sg_h /\ hX sg_h <> [] /\ no_bounds (hcon sg_h) /\ conv_ok sg_svd (fun _ => I2) (fun _ => ([], [])) (dim (hcon sg_h)) (hX sg_h) /\ member d [1/2; 0] /\ ~ member d [1/2; 1].
Proof.
  assert (CO : conv_ok sg_svd (fun _ => I2) (fun _ => ([], [])) (dim (hcon sg_h)) (hX sg_h)) by apply sg_conv. assert (NB : no_bounds (hcon sg_h)) by (split; intros [|[|[|i]]] v H; discriminate).
  assert (E : exists d, to_linineq sg_svd (fun _ => I2) (fun _ => ([], [])) sg_h = Some d /\ dA d = [vscale 1 [1; 0]; vscale (-1) [1; 0]] /\ db d = [1; 1] /\ dAeq d = [[0; 1]] /\ dbeq d = [0]).
  { unfold to_linineq, hull_to_linineq. cbn [hcon sg_h dim hX]. unfold sgX at 1. unfold sg_svd. rewrite sg_big. cbn. eexists. split; [reflexivity|]. cbn. split; auto. split; [|split; auto].
    - unfold sgX. cbn [map]. rewrite !dot_cons, !dot_nil_l. unfold vmax, vmin, Rmax, Rmin. cbn [fold_left]. repeat destruct Rle_dec; repeat (f_equal; try lra).
    - unfold sgX, vsum. cbn [map fold_right]. rewrite !dot_cons, !dot_nil_l. f_equal. field. }
  destruct E as (d & E & E1 & E2 & E3 & E4). exists d. assert (NX : hX sg_h <> []) by discriminate. split; [exact E|]. split; [exact E1|]. split; [exact E2|]. split; [exact E3|]. split; [exact E4|]. split; [apply sg_wf|]. split; [exact NX|]. split; [exact NB|]. split; [exact CO|]. split.
  - apply (to_linineq_member _ _ _ sg_h d _ sg_wf NX NB CO E). split.
    + exists [1/4; 3/4]. split; [reflexivity|]. split; [repeat first [apply Forall_nil | apply Forall_cons; [lra|]]|]. split; [unfold vsum; simpl; lra|]. cbn. unfold vadd, vscale, vzero. cbn. repeat (f_equal; try field).
    + split; [reflexivity|]. cbn. split; [intros [|[|[|i]]]; split; intros v H; discriminate|]. split; [intros k a c H; destruct k; discriminate|]. split; [intros k a c H; destruct k; discriminate|intros q []].
  - intros M. apply (to_linineq_member _ _ _ sg_h d _ sg_wf NX NB CO E) in M. destruct M as ((al & La & Pa & Sa & K) & _). destruct al as [|a [|b [|]]]; try discriminate La. unfold sg_h, sgX, lincomb, vadd, vscale, vzero in K. cbn in K. injection K as K1 K2. lra.
Qed.
Example sg_returns : Forall (fun x => length x = 2%nat) sgX /\ conv_ok sg_svd (fun _ => I2) (fun _ => ([], [])) 2 sgX /\ (exists x y, In x sgX /\ In y sgX /\ x <> y).
Proof. split; [repeat constructor|]. split; [apply sg_conv|]. exists [-1; 0], [1; 0]. split; [left; auto|]. split; [right; left; auto|]. intro H. injection H as H. lra. Qed.
(** the basis of the segment is the second axis: (3, 4) is projected to (3, 0) *)
Definition sg_orth (C : mat) : mat := C.
Example sg_basis : basis_ok sg_svd (fun _ => I2) sg_orth 2 [] sgX /\ hull_eq_basis sg_svd (fun _ => I2) sg_orth 2 [] sgX = [[0; 1]] /\ proj_out (hull_eq_basis sg_svd (fun _ => I2) sg_orth 2 [] sgX) [3; 4] = [3; 0].
Proof.
  assert (B : hull_eq_basis sg_svd (fun _ => I2) sg_orth 2 [] sgX = [[0; 1]]) by (unfold hull_eq_basis, sg_svd; cbn [existsb]; rewrite close_0, orb_true_r; rewrite sg_big; reflexivity).
  split; [|split; [exact B|rewrite B; unfold proj_out, mv, lincomb, vsub, vadd, vscale, vzero; cbn; rewrite !dot_cons, dot_nil_l; repeat (f_equal; try ring)]].
  unfold basis_ok. cbn zeta. rewrite sg_centred. split; [apply sg_svd_ok|]. unfold sg_svd. cbn [fst snd]. split; [apply sg_sharp|]. rewrite sg_big. split; [apply sg_qr|]. split; [congruence|]. cbn [app length skipn I2]. unfold sg_orth. split; [repeat constructor|].
  split; [intros i j Hi Hj; simpl in Hi, Hj; assert (i = 0 /\ j = 0)%nat as [-> ->] by lia; cbn [nth Nat.eqb]; rewrite !dot_cons, dot_nil_l; ring|]. intros w Lw. tauto.
Qed.

(** * a square: the branch calling Qhull *)
Definition sqX : mat := [[1; 1]; [1; -1]; [-1; 1]; [-1; -1]].
Definition sq_svd (C : mat) : vec * mat := ([2; 2], I2).
Lemma sq_centred : centred 2 sqX = sqX.
Proof. unfold centred, row_mean, sqX, col, vsub, vsum, vget. cbn. repeat (f_equal; try field). Qed.
Lemma sq_svd_ok : svd_rows 2 sqX (sq_svd sqX).
Proof.
  unfold svd_rows, sq_svd. cbn [fst snd]. split; [reflexivity|]. split; [reflexivity|]. destruct I2_onb as (_ & F & OI). split; auto. split; auto. split; [repeat first [apply Forall_nil | apply Forall_cons; [lra|]]|].
  split; [intros [|[|i]] [|[|j]] H; simpl in H; try lia; unfold vget; cbn [nth]; lra|]. exists [[1/2; 1/2; -1/2; -1/2]; [1/2; -1/2; 1/2; -1/2]]. split; [reflexivity|]. split; [apply orth2; auto; rewrite !dot_cons, dot_nil_l; field|]. split; [repeat constructor|].
  intros c Hc. unfold sqX, I2. destruct c as [|[|[|[|c]]]]; simpl in Hc; try lia; unfold col, lincomb, vmul, vadd, vscale, vzero, vget; cbn [nth map vmap2 repeat]; repeat (f_equal; try field).
Qed.
Lemma sq_big : big_rows [2; 2] I2 = I2.
Proof. unfold big_rows, big, I2. cbn [combine filter fst]. rewrite close_two. reflexivity. Qed.
Lemma mv_I2 : forall a b, mv I2 [a; b] = [a; b].
Proof. intros a b. unfold mv, I2. cbn [map]. rewrite !dot_cons, !dot_nil_l. repeat (f_equal; try ring). Qed.
Definition sq_eqs : list (vec * R) := [([1; 0], 1); ([-1; 0], 1); ([0; 1], 1); ([0; -1], 1)].
Lemma sq_qhull : qhull_ok 2 sqX (sq_eqs, [0; 1; 2; 3]%nat).
Proof.
  unfold qhull_ok. cbn [fst snd]. split; [intros r c [Q|[Q|[Q|[Q|[]]]]]; injection Q as <- <-; reflexivity|]. split; [|split; [repeat constructor|]].
  - intros y Ly. destruct y as [|a [|b [|]]]; try discriminate Ly. split.
    + intro S. assert (S1 := S _ _ (or_introl eq_refl)). assert (S2 := S _ _ (or_intror (or_introl eq_refl))). assert (S3 := S _ _ (or_intror (or_intror (or_introl eq_refl)))). assert (S4 := S _ _ (or_intror (or_intror (or_intror (or_introl eq_refl))))). rewrite !dot_cons, !dot_nil_l in *.
      exists [(1 + a) * (1 + b) / 4; (1 + a) * (1 - b) / 4; (1 - a) * (1 + b) / 4; (1 - a) * (1 - b) / 4]. split; [reflexivity|]. split; [repeat first [apply Forall_nil | apply Forall_cons; [nra|]]|]. split; [unfold vsum; cbn; field|]. unfold sqX, lincomb, vadd, vscale, vzero. cbn. repeat (f_equal; try field).
    + intros (al & La & Pa & Sa & K). destruct al as [|c1 [|c2 [|c3 [|c4 [|]]]]]; try discriminate La. unfold sqX, lincomb, vadd, vscale, vzero in K. cbn in K. injection K as K1 K2. unfold vsum in Sa. cbn in Sa. rewrite Forall_forall in Pa. assert (P1 : 0 <= c1) by (apply Pa; simpl; auto). assert (P2 : 0 <= c2) by (apply Pa; simpl; auto). assert (P3 : 0 <= c3) by (apply Pa; simpl; auto). assert (P4 : 0 <= c4) by (apply Pa; simpl; auto).
      intros r c [Q|[Q|[Q|[Q|[]]]]]; injection Q as <- <-; rewrite !dot_cons, dot_nil_l; lra.
  - intros y I. apply (cc_self 2); [repeat constructor|]. auto.
Qed.
Example sq_conv : Forall (fun x => length x = 2%nat) sqX /\ sqX <> [] /\ conv_ok sq_svd (fun _ => I2) (fun _ => (sq_eqs, [0; 1; 2; 3]%nat)) 2 sqX /\
  exists r, hull_to_linineq sq_svd (fun _ => I2) (fun _ => (sq_eqs, [0; 1; 2; 3]%nat)) 2 sqX = Some r /\ hd_b r = [1; 1; 1; 1] /\ hd_Aeq r = [] /\ hd_vert r = sqX /\ hd_A r = map (fun e => lincomb 2 I2 (fst e)) sq_eqs.
Proof.
  split; [repeat constructor|]. split; [discriminate|]. split.
  - unfold conv_ok. cbn zeta. rewrite sq_centred. split; [apply sq_svd_ok|]. unfold sq_svd. cbn [fst snd]. split; [repeat constructor; intro H; rewrite close_two in H; discriminate|]. rewrite sq_big. split; [split; [apply I2_onb|]; intros k j Hk Hj; simpl in Hk; assert (k = 0 /\ j = 1)%nat as [-> ->] by lia; cbn [nth I2]; rewrite !dot_cons, dot_nil_l; ring|]. intros _. change (firstn (length I2) I2) with I2. change (length I2) with 2%nat. replace (map (mv I2) sqX) with sqX; [apply sq_qhull|]. unfold sqX. cbn [map]. rewrite !mv_I2. auto.
  - unfold hull_to_linineq, sq_svd. unfold sqX at 1. rewrite sq_big. cbn [Nat.ltb Nat.leb length I2]. eexists. split; [reflexivity|]. cbn [hd_b hd_Aeq hd_vert hd_A]. split; [reflexivity|]. split; [reflexivity|]. split; reflexivity.
Qed.
Example sq_build : exists ds x, Forall dom_wf ds /\ length x = fold_right (fun d n => (dim d + n)%nat) 0%nat ds /\ build_tensor (map (fun d => (dim d, build_lin d)) ds) x /\ length ds = 2%nat.
Proof.
  set (b1 := mkDom Box 1 [Fin 0] [Fin 1] [] [] [] [] []). exists [b1; b1], [1/2; 1]. assert (W : dom_wf b1) by (unfold dom_wf, b1; cbn; repeat split; auto; try discriminate; intros; try discriminate). split; [repeat constructor; apply W|]. split; [reflexivity|].
  assert (M : forall t, 0 <= t <= 1 -> build_lin b1 [t]).
  { intros t Ht. unfold build_lin, b1, vget. cbn. split; [intros [|[|i]] v H; try discriminate; injection H as <-; simpl; lra|]. split; [intros [|[|i]] v H; try discriminate; injection H as <-; simpl; lra|]. split; [intros; lia|]. split; [intros; lia|intros q []]. }
  split; [|reflexivity]. cbn. split; [apply M; lra|]. split; [apply M; lra|auto].
Qed.
