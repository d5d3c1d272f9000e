(** Tensor bases: product with coefficients, scaling, roots, bounded fits, cases (C22, C23, C25, C60). *)
Require Import Reals Lra Lia List Bool Arith Psatz.
From Verif Require Import RVec Num Sums NormProofs DomMoreModel HullProofs HullIneqProofs ChebProofs VecTac Deriv BasisModel IndexProofs PolyProofs FunProofs.
Import ListNotations.
Local Open Scope R_scope.

(* ---------------- VC ---------------- *)
Definition pcol (B : tbasis) (x : vec) (al : list nat) : R := prodn (tb_dim B) (fun k => vget (vcoord B x k) (ith al k)).
Lemma vc_loop_spec : forall B x p idx c out, length idx = length c -> Forall (fun cj => length cj = p) c -> length out = p ->
  length (vc_loop B x idx c out) = p /\ forall k, (k < p)%nat -> vget (vc_loop B x idx c out) k = vget out k + dot (map (pcol B x) idx) (col c k).
Proof.
  induction idx as [|al idx IH]; intros c out L HC HO; destruct c as [|cj c]; try discriminate.
  - simpl. split; auto. intros. unfold dot. simpl. ring.
  - inversion HC as [|? ? HJ HC']; subst. simpl vc_loop. fold (pcol B x al).
    set (out' := if Rltb 0 (vmax (map Rabs cj)) then vadd out (map (fun a => a * pcol B x al) cj) else out).
    assert (LO : length out' = length out) by (unfold out'; destruct (Rltb 0 _); auto; rewrite vadd_length; auto; rewrite map_length; auto).
    destruct (IH c out' ltac:(simpl in L; lia) HC' LO) as [I1 I2]. split; auto. intros k Hk. rewrite I2 by auto.
    change (col (cj :: c) k) with (vget cj k :: col c k). cbn [map]. rewrite dot_cons.
    assert (E : vget out' k = vget out k + vget cj k * pcol B x al); [|lra].
    unfold out'. destruct (Rltb 0 (vmax (map Rabs cj))) eqn:V.
    + rewrite vadd_get by (rewrite map_length; auto). f_equal. unfold vget.
      rewrite nth_indep with (l := map _ _) (d' := 0 * pcol B x al) by (rewrite map_length; lia). rewrite (map_nth (fun a => a * pcol B x al)). auto.
    + apply Rltb_false in V. destruct (vmax_spec (map Rabs cj)) as [M _]; [destruct cj; [simpl in HJ; lia|discriminate]|].
      specialize (M (Rabs (vget cj k)) ltac:(apply in_map; apply nth_In; lia)). pose proof (Rabs_pos (vget cj k)).
      assert (Z : vget cj k = 0) by (destruct (Req_dec (vget cj k) 0) as [|N]; auto; apply Rabs_pos_lt in N; lra). rewrite Z. ring.
Qed.
Theorem VC_correct : forall B p X c, Forall (fun cj => length cj = p) c ->
  (length c = length (indices B) -> VC B p X c = Some (map (fun x => map (fun k => dot (Vrow B x) (col c k)) (seq 0 p)) X)) /\
  (length c <> length (indices B) -> VC B p X c = None).
Proof.
  intros B p X c HC. unfold VC. split; intro L.
  - destruct (Nat.eqb_spec (length (indices B)) (length c)); [|lia]. f_equal. apply map_ext. intro x. unfold VCrow.
    destruct (vc_loop_spec B x p (indices B) c (vzero p) ltac:(lia) HC ltac:(unfold vzero; apply repeat_length)) as [V1 V2].
    apply vec_ext; [rewrite V1, map_length, seq_length; auto|]. intros k Hk. rewrite V1 in Hk. rewrite V2, vget_map_seq by auto. rewrite vzero_get. unfold Vrow, pcol. ring.
  - destruct (Nat.eqb_spec (length (indices B)) (length c)); [lia|auto].
Qed.

(* ---------------- scaling ---------------- *)
Lemma col_in : forall X k x, In x X -> In (vget x k) (col X k).
Proof. intros X k x H. unfold col. apply (in_map (fun x => vget x k)). auto. Qed.
(** the data range goes onto [-1, 1] *)
Theorem scale_range : forall dim X k, X <> [] -> (k < dim)%nat -> (exists x y, In x X /\ In y X /\ vget x k <> vget y k) ->
  (forall x, In x X -> -1 <= scale (set_scale dim X) k (vget x k) <= 1) /\
  (exists x, In x X /\ scale (set_scale dim X) k (vget x k) = -1) /\ (exists x, In x X /\ scale (set_scale dim X) k (vget x k) = 1).
Proof.
  intros dim X k NE Hk [x0 [y0 [X0 [Y0 N]]]]. unfold set_scale, scale. rewrite !vget_map_seq by auto.
  assert (CN : col X k <> []) by (destruct X; [contradiction|discriminate]).
  destruct (vmin_spec _ CN) as [M1 M2]. destruct (vmax_spec _ CN) as [M3 M4]. set (l := vmin (col X k)) in *. set (u := vmax (col X k)) in *.
  assert (LU : l < u).
  { pose proof (M1 _ (col_in X k x0 X0)). pose proof (M1 _ (col_in X k y0 Y0)). pose proof (M3 _ (col_in X k x0 X0)). pose proof (M3 _ (col_in X k y0 Y0)).
    destruct (Rtotal_order (vget x0 k) (vget y0 k)) as [|[|]]; [lra|contradiction|lra]. }
  split; [|split].
  - intros x Hx. pose proof (M1 _ (col_in X k x Hx)). pose proof (M3 _ (col_in X k x Hx)).
    assert (0 <= (vget x k - l) / (u - l) <= 1).
    { split; [apply Rmult_le_pos; [lra|left; apply Rinv_0_lt_compat; lra]|]. apply Rmult_le_reg_r with (u - l); [lra|]. unfold Rdiv. rewrite Rmult_assoc, Rinv_l by lra. lra. }
    unfold Rdiv in *. lra.
  - unfold col in M2. apply in_map_iff in M2. destruct M2 as [x [E Hx]]. exists x. split; auto. rewrite E. unfold Rdiv. ring.
  - unfold col in M4. apply in_map_iff in M4. destruct M4 as [x [E Hx]]. exists x. split; auto. rewrite E. field. lra.
Qed.
(** scale is an invertible affine map with slope dscale *)
Theorem scale_invertible : forall s dim k, scale_ok s dim = true -> (k < dim)%nat -> dscale s k <> 0 /\
  (forall x y, scale s k y - scale s k x = dscale s k * (y - x)) /\ (forall v, exists x, scale s k x = v).
Proof.
  intros s dim k OK Hk. assert (SQ : sqrt 2 <> 0) by (apply Rgt_not_eq, sqrt_lt_R0; lra).
  assert (NZ : dscale s k <> 0).
  { destruct s as [|lb ub|mu sd]; simpl in *; [lra| |]; rewrite forallb_forall in OK; specialize (OK k ltac:(apply in_seq; lia)).
    - destruct (Req_EM_T (vget ub k) (vget lb k)); [discriminate|]. unfold Rdiv. apply Rmult_integral_contrapositive. split; [lra|]. apply Rinv_neq_0_compat. lra.
    - destruct (Req_EM_T (vget sd k) 0); [discriminate|]. unfold Rdiv. repeat (apply Rmult_integral_contrapositive; split); try lra; apply Rinv_neq_0_compat; auto. }
  assert (A : forall x y, scale s k y - scale s k x = dscale s k * (y - x)).
  { intros x y. pose proof (scale_affine s k x (y - x)) as E. replace (x + (y - x)) with y in E by ring. lra. }
  split; auto. split; auto. intro v. exists ((v - scale s k 0) / dscale s k). pose proof (A 0 ((v - scale s k 0) / dscale s k)) as E.
  replace (dscale s k * ((v - scale s k 0) / dscale s k - 0)) with (v - scale s k 0) in E by (field; auto). lra.
Qed.
Lemma sumsq_nonneg : forall k c (X : mat), 0 <= vsum (map (fun x => (vget x k - c) * (vget x k - c)) X).
Proof.
  intros k c. induction X as [|x X IH]; [unfold vsum; simpl; lra|]. cbn [map]. rewrite vsum_cons. pose proof (Rle_0_sqr (vget x k - c)) as S. unfold Rsqr in S. lra.
Qed.
(** Hermite: the scaled data have mean zero and variance one half, as the weight exp(-x^2) *)
Theorem hermite_scale_moments : forall dim X k, X <> [] -> (k < dim)%nat -> pstd (col X k) <> 0 ->
  mean (map (fun x => scale (set_scale_hermite dim X) k (vget x k)) X) = 0 /\
  mean (map (fun x => scale (set_scale_hermite dim X) k (vget x k) * scale (set_scale_hermite dim X) k (vget x k)) X) = 1/2.
Proof.
  intros dim X k NE Hk NZ. unfold set_scale_hermite, scale. rewrite !vget_map_seq by auto. set (mu := mean (col X k)). set (sd := pstd (col X k)) in *.
  assert (ML : 0 < INR (length X)) by (apply lt_0_INR; destruct X; [contradiction|simpl; lia]).
  assert (SQ : sqrt 2 * sqrt 2 = 2) by (apply sqrt_sqrt; lra). assert (S2 : sqrt 2 <> 0) by (apply Rgt_not_eq, sqrt_lt_R0; lra).
  assert (I2 : / 2 = / sqrt 2 * / sqrt 2) by (rewrite <- Rinv_mult, SQ; reflexivity).
  assert (LIN : forall (g : vec -> R) c, vsum (map (fun x => g x * c) X) = vsum (map g X) * c).
  { intros g c. clear. induction X as [|x X IH]; [unfold vsum; simpl; ring|]. cbn [map]. rewrite !vsum_cons, IH. ring. }
  assert (EXT : forall g h : vec -> R, (forall x, g x = h x) -> map g X = map h X) by (intros; apply map_ext; auto).
  split.
  - unfold mean. rewrite map_length. rewrite (EXT _ (fun x => (vget x k - mu) * (/ sd * / sqrt 2))) by (intro; unfold Rdiv; ring). rewrite (LIN (fun x => vget x k - mu)).
    assert (Z : vsum (map (fun x => vget x k - mu) X) = 0); [|rewrite Z; unfold Rdiv; ring].
    assert (SUB : forall c (Y : mat), vsum (map (fun x => vget x k - c) Y) = vsum (col Y k) - INR (length Y) * c).
    { intros c Y. clear. induction Y as [|x Y IH]; [unfold vsum; simpl; ring|]. change (col (x :: Y) k) with (vget x k :: col Y k). cbn [map length]. rewrite !vsum_cons, IH, S_INR. ring. }
    rewrite SUB. unfold mu, mean. unfold col at 3. rewrite map_length. field. lra.
  - unfold mean. rewrite map_length. rewrite (EXT _ (fun x => ((vget x k - mu) * (vget x k - mu)) * (/ sd * / sd * / 2))) by (intro; rewrite I2; unfold Rdiv; ring).
    rewrite (LIN (fun x => (vget x k - mu) * (vget x k - mu))).
    assert (V : sd * sd = vsum (map (fun x => (vget x k - mu) * (vget x k - mu)) X) / INR (length X)).
    { unfold sd, pstd. fold mu.
      assert (E : mean (map (fun a => (a - mu) * (a - mu)) (col X k)) = vsum (map (fun x => (vget x k - mu) * (vget x k - mu)) X) / INR (length X)).
      { unfold mean, col. rewrite !map_length, map_map. reflexivity. }
      rewrite E. apply sqrt_sqrt. unfold Rdiv. apply Rmult_le_pos; [|left; apply Rinv_0_lt_compat; auto].
      apply sumsq_nonneg. }
    assert (V' : vsum (map (fun x => (vget x k - mu) * (vget x k - mu)) X) = sd * sd * INR (length X)) by (rewrite V; field; lra). rewrite V'. field. split; [exact NZ|lra].
Qed.
(** finding: Laguerre polynomials are orthogonal on [0, oo), but the data are scaled to [-1, 1] *)
Theorem laguerre_scale_refuted : forall dim X k, X <> [] -> (k < dim)%nat -> (exists x y, In x X /\ In y X /\ vget x k <> vget y k) ->
  exists x, In x X /\ scale (set_scale dim X) k (vget x k) < 0.
Proof. intros dim X k NE Hk H. destruct (scale_range dim X k NE Hk H) as [_ [[x [Hx E]] _]]. exists x. split; auto. lra. Qed.
(** finding: a constant coordinate in the data divides by zero and every basis value is NaN *)
Theorem constant_coordinate_refuted : forall F deg dim X Y k a, X <> [] -> (k < dim)%nat -> (forall x, In x X -> vget x k = a) ->
  Vmat (mkTB F deg dim (set_scale dim X)) Y = None.
Proof.
  intros F deg dim X Y k a NE Hk C. unfold Vmat. simpl tb_scale. simpl tb_dim. unfold set_scale. cbn [scale_ok].
  assert (E : forallb (fun i => if Req_EM_T (vget (map (fun k => vmax (col X k)) (seq 0 dim)) i) (vget (map (fun k => vmin (col X k)) (seq 0 dim)) i) then false else true) (seq 0 dim) = false).
  2:{ rewrite E. reflexivity. }
  destruct (forallb _ _) eqn:B; auto. exfalso. rewrite forallb_forall in B. specialize (B k ltac:(apply in_seq; lia)). cbv beta in B. rewrite !vget_map_seq in B by auto.
  assert (CN : col X k <> []) by (destruct X; [contradiction|discriminate]).
  destruct (vmin_spec _ CN) as [_ M2]. destruct (vmax_spec _ CN) as [_ M4]. unfold col in M2, M4. apply in_map_iff in M2, M4.
  destruct M2 as [x [E1 H1]]. destruct M4 as [y [E2 H2]]. fold (col X k) in E1, E2. rewrite (C x H1) in E1. rewrite (C y H2) in E2.
  destruct (Req_EM_T (vmax (col X k)) (vmin (col X k))); [discriminate|congruence].
Qed.

(* ---------------- roots ---------------- *)
Lemma index_set_1 : forall n, index_set n 1 = map (fun a => [a]) (seq 0 (S n)).
Proof.
  intro n. unfold index_set. cbn [seq map repeat]. f_equal. induction (seq 1 n) as [|a l IH]; auto. cbn [flat_map full_index app map]. simpl. f_equal. auto.
Qed.
Lemma poly_eval_1 : forall F deg s c x, length c = S deg ->
  poly_eval (mkTB F deg 1 s) c [x] = rsum (S deg) (fun a => vget c a * phi F a (scale s 0 x)).
Proof.
  intros F deg s c x L. unfold poly_eval, Vrow, indices. cbn [tb_deg tb_dim tb_fam]. rewrite index_set_1, map_map.
  rewrite dot_comm, dot_rsum by (rewrite map_length, seq_length; auto). rewrite L. apply rsum_ext. intros a Ha. f_equal. rewrite vget_map_seq by auto.
  simpl prodn. rewrite Rmult_1_l. unfold ith. simpl nth. unfold vcoord. cbn [tb_fam tb_deg tb_scale]. rewrite vget_map_seq by auto. reflexivity.
Qed.
(** exactly the real zeros in the original variable, when polyroots returns exactly those in the scaled variable *)
Theorem roots_correct : forall F deg s c r rs, length c = S deg -> scale_ok s 1 = true ->
  (forall t, In t r <-> rsum (S deg) (fun a => vget c a * phi F a t) = 0) -> roots (mkTB F deg 1 s) r = Some rs ->
  forall x, In x rs <-> poly_eval (mkTB F deg 1 s) c [x] = 0.
Proof.
  intros F deg s c r rs L OK HR E x. rewrite poly_eval_1 by auto. rewrite <- HR.
  assert (SQ : sqrt 2 <> 0) by (apply Rgt_not_eq, sqrt_lt_R0; lra).
  unfold roots in E. simpl in E. destruct s as [|lb ub|mu sd]; [discriminate| |]; injection E as <-; rewrite in_map_iff; cbn [scale_ok seq forallb] in OK; cbn [scale].
  - destruct (Req_EM_T (vget ub 0) (vget lb 0)) as [|N]; [discriminate|]. split.
    + intros [t [<- Ht]]. replace (2 * _ / _ - 1) with t by (field; lra). auto.
    + intro Ht. eexists. split; [|exact Ht]. field. lra.
  - destruct (Req_EM_T (vget sd 0) 0) as [|N]; [discriminate|]. split.
    + intros [t [<- Ht]]. replace (_ / _ / _) with t by (field; auto). auto.
    + intro Ht. eexists. split; [|exact Ht]. field. auto.
Qed.
(** without data there is no scale: the attribute is missing and roots raises, although V works *)
Theorem roots_noscale_refuted : forall F deg r, roots (mkTB F deg 1 NoScale) r = None /\ forall X, Vmat (mkTB F deg 1 NoScale) X = Some (map (Vrow (mkTB F deg 1 NoScale)) X).
Proof. intros. split; reflexivity. Qed.

(* ---------------- bounded fits ---------------- *)
(** PolynomialApproximation.fit, poly.py 148-168: the fitted polynomial is below (above) the data and best among those *)
Theorem poly_fit_bound : forall B p bd X fX c, linear_fit_returns p bd (map (Vrow B) X) fX c -> length fX = length X ->
  (bd = Lower -> forall i, (i < length X)%nat -> poly_eval B c (nth i X []) <= vget fX i) /\
  (bd = Upper -> forall i, (i < length X)%nat -> vget fX i <= poly_eval B c (nth i X [])) /\
  (forall c', length c' = length c ->
     (bd = Lower -> forall i, (i < length X)%nat -> poly_eval B c' (nth i X []) <= vget fX i) ->
     (bd = Upper -> forall i, (i < length X)%nat -> vget fX i <= poly_eval B c' (nth i X [])) ->
     fit_obj p (vsub (map (poly_eval B c) X) fX) <= fit_obj p (vsub (map (poly_eval B c') X) fX)).
Proof.
  intros B p bd X fX c [FE MN] L.
  assert (MV : forall c, mv (map (Vrow B) X) c = map (poly_eval B c) X) by (intro; unfold mv; rewrite map_map; reflexivity).
  assert (NT : forall c i, (i < length X)%nat -> vget (vsub (map (poly_eval B c) X) fX) i = poly_eval B c (nth i X []) - vget fX i).
  { intros c0 i Hi. rewrite vsub_get by (rewrite map_length; auto). f_equal. unfold vget. rewrite nth_indep with (d' := poly_eval B c0 []) by (rewrite map_length; auto). apply map_nth. }
  assert (LL : forall c, length (vsub (map (poly_eval B c) X) fX) = length X) by (intro; rewrite vsub_length; rewrite map_length; auto).
  unfold fit_residual in *. rewrite MV in *.
  assert (FC : forall c i Q, Forall Q (vsub (map (poly_eval B c) X) fX) -> (i < length X)%nat -> Q (poly_eval B c (nth i X []) - vget fX i)).
  { intros c0 i Q HF Hi. rewrite Forall_forall in HF. rewrite <- NT by auto. apply HF. apply nth_In. rewrite LL. auto. }
  split; [|split].
  - intros -> i Hi. specialize (FC c i _ FE Hi). simpl in FC. lra.
  - intros -> i Hi. specialize (FC c i _ FE Hi). simpl in FC. lra.
  - intros c' Lc H1 H2. specialize (MN c' Lc). rewrite MV in MN. apply MN. destruct bd; simpl; auto; apply Forall_forall; intros t Ht; apply In_nth with (d := 0) in Ht;
      destruct Ht as [i [Hi <-]]; rewrite LL in Hi; fold (vget (vsub (map (poly_eval B c') X) fX) i); rewrite NT by auto.
    + specialize (H1 eq_refl i Hi). lra.
    + specialize (H2 eq_refl i Hi). lra.
Qed.

(* ---------------- cases ---------------- *)
Definition ex_tb : tbasis := mkTB legendre 2 2 (set_scale 2 [[0; 1]; [4; 3]]).
Lemma ex_tb_scale : set_scale 2 [[0; 1]; [4; 3]] = MinMax [0; 1] [4; 3].
Proof. unfold set_scale, col, vmin, vmax, vget. simpl. rewrite !Rmin_left, !Rmax_right by lra. reflexivity. Qed.
(** value, gradient and Hessian of x0 x1 in the scaled variables (index [1; 1]) *)
Example ex_tb_case : fam_ok (tb_fam ex_tb) /\ nth 4 (indices ex_tb) [] = [1; 1]%nat /\ vget (Vrow ex_tb [3; 2.5]) 4 = 1/4 /\
  nth 4 (DVrow ex_tb [3; 2.5]) [] = [1/4; 1/2] /\ nth 4 (DDVrow ex_tb [3; 2.5]) [] = [[0; 1/2]; [1/2; 0]].
Proof.
  split; [apply legendre_ok|]. split; [reflexivity|].
  assert (I4 : nth 4 (indices ex_tb) [] = [1; 1]%nat) by reflexivity.
  assert (D10 : d1 ex_tb 1 = fun y => 1) by (apply FunctionalExtensionality.functional_extensionality; intro y; unfold d1, ex_tb, legendre, odd_gap, leg; simpl; ring).
  assert (D2 : d2 ex_tb 1 = fun y => 0) by (apply FunctionalExtensionality.functional_extensionality; intro y; unfold d2, d1, ex_tb, legendre, odd_gap, leg; simpl; ring).
  assert (S0 : sc ex_tb [3; 2.5] 0 = 1/2) by (unfold sc, ex_tb; cbn [tb_scale]; rewrite ex_tb_scale; unfold scale, vget; cbn [nth]; lra).
  assert (S1 : sc ex_tb [3; 2.5] 1 = 1/2) by (unfold sc, ex_tb; cbn [tb_scale]; rewrite ex_tb_scale; unfold scale, vget; cbn [nth]; lra).
  assert (DS0 : dscale (tb_scale ex_tb) 0 = 1/2) by (unfold ex_tb; cbn [tb_scale]; rewrite ex_tb_scale; unfold dscale, vget; cbn [nth]; lra).
  assert (DS1 : dscale (tb_scale ex_tb) 1 = 1) by (unfold ex_tb; cbn [tb_scale]; rewrite ex_tb_scale; unfold dscale, vget; cbn [nth]; lra).
  assert (PH : phi (tb_fam ex_tb) 1 (1/2) = 1/2) by reflexivity.
  split; [|split].
  - rewrite Vrow_nth by (simpl; lia). rewrite I4. unfold psi. cbn [tb_dim ex_tb prodn ith nth]. fold ex_tb. rewrite S0, S1, PH. lra.
  - apply vec_ext; [reflexivity|]. intros k Hk. change (k < 2)%nat in Hk. rewrite (DVrow_nth ex_tb legendre_ok) by (simpl; auto; lia). rewrite I4.
    destruct k as [|[|k]]; [| |lia]; unfold dpsi; cbn [tb_dim ex_tb prodn ith nth Nat.eqb]; fold ex_tb; rewrite ?S0, ?S1, ?PH, ?DS0, ?DS1, ?D10; unfold vget; simpl; lra.
  - assert (H : forall k l, (k < 2)%nat -> (l < 2)%nat -> vget (nth k (nth 4 (DDVrow ex_tb [3; 2.5]) []) []) l = if Nat.eqb k l then 0 else 1/2).
    { intros k l Hk Hl. rewrite (DDVrow_nth ex_tb legendre_ok) by (simpl; auto; lia). rewrite I4.
      destruct k as [|[|k]]; [| |lia]; (destruct l as [|[|l]]; [| |lia]); unfold ddpsi; cbn [tb_dim ex_tb prodn ith nth Nat.eqb andb orb]; fold ex_tb;
        rewrite ?S0, ?S1, ?PH, ?DS0, ?DS1, ?D10, ?D2; lra. }
    apply nth_ext with (d := []) (d' := []); [reflexivity|]. intros k Hk. change (k < 2)%nat in Hk. apply vec_ext.
    + destruct k as [|[|k]]; [reflexivity|reflexivity|lia].
    + intros l Hl. assert (Hl' : (l < 2)%nat) by (destruct k as [|[|k]]; [exact Hl|exact Hl|lia]). rewrite H by auto.
      destruct k as [|[|k]]; [| |lia]; (destruct l as [|[|l]]; [| |lia]); reflexivity.
Qed.
(** x^2 - 1/4 on data in [0, 4]: zeros 3 and 1 in the original variable *)
Example ex_roots_case : roots (mkTB monomials 2 1 (MinMax [0] [4])) [-1/2; 1/2] = Some [1; 3] /\
  (forall t, In t [-1/2; 1/2] <-> rsum 3 (fun a => vget [-1/4; 0; 1] a * phi monomials a t) = 0) /\ scale_ok (MinMax [0] [4]) 1 = true.
Proof.
  split; [|split].
  - unfold roots, vget. simpl. f_equal. vlist.
  - intro t. simpl. unfold vget. simpl. split.
    + intros [<-|[<-|[]]]; lra.
    + intro H. assert (E : (t + 1/2) * (t - 1/2) = 0) by lra. apply Rmult_integral in E. destruct E; [left|right; left]; lra.
  - unfold scale_ok, vget. simpl. destruct (Req_EM_T 4 0); [lra|reflexivity].
Qed.
(** data in two columns with a zero row of coefficients *)
Example ex_vc_case : exists r, VC (mkTB monomials 1 1 NoScale) 2 [[5]] [[0; 0]; [2; 3]] = Some [r] /\ r = [10; 15].
Proof.
  destruct (VC_correct (mkTB monomials 1 1 NoScale) 2 [[5]] [[0; 0]; [2; 3]]) as [H _]; [repeat constructor|]. rewrite H by reflexivity. eexists. split; [reflexivity|].
  unfold Vrow, indices, col, vget, dot. simpl. unfold vget. simpl. vlist.
Qed.
(** lower bound fit of the constants to the data 3, 5: the fit is 3 *)
Example ex_fit_case : linear_fit_returns Ninf Lower [[1]; [1]] [3; 5] [3].
Proof.
  assert (R : forall a, fit_residual [[1]; [1]] [3; 5] [a] = [a - 3; a - 5]) by (intro a; unfold fit_residual, vsub, mv, dot; simpl; vlist).
  split.
  - rewrite R. simpl. repeat apply Forall_cons; auto; lra.
  - intros y Ly HF. destruct y as [|a [|b y]]; try discriminate. rewrite R in *. simpl in HF. inversion HF as [|? ? H1 H2]; subst.
    unfold fit_obj, vmax. cbn [map fold_left]. pose proof (Rmax_r (Rabs (a - 3)) (Rabs (a - 5))) as M.
    replace (3 - 3) with 0 by ring. replace (3 - 5) with (-2) by ring. rewrite Rabs_R0. rewrite Rmax_right by apply Rabs_pos.
    rewrite (Rabs_left (-2)) by lra. pose proof (Rabs_left (a - 5) ltac:(lra)) as E5. rewrite R. cbn [map fold_left]. lra.
Qed.
(** Hermite data *)
Example ex_herm_case : pstd (col [[1]; [3]] 0) <> 0.
Proof.
  assert (E : pstd (col [[1]; [3]] 0) = sqrt 1) by (unfold pstd, mean, col, vget, vsum; simpl; f_equal; lra). rewrite E, sqrt_1. lra.
Qed.
