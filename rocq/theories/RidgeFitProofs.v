(** polyridge.py: coefficient fits, the sample count check, the residual and Jacobian of the alternating fit, its search
    constraints; polyridge_vec.py: fits with a fixed subspace. *)
Require Import Reals Lra Lia List Bool Arith ZArith.
From Verif Require Import RVec Num Sums DomModel DomMoreModel SweepProofs HullProofs HullIneqProofs Deriv BasisModel IndexProofs PolyProofs PolyMoreProofs MatLib SpecProofs GrassLib LipModel LipFitProofs SubModel ActiveProofs RidgeModel RidgeProofs TrajProofs PolySpan VarproLib VarproProofs GnStep.
Import ListNotations.
Local Open Scope R_scope.

(* ---------- _fit_coef ---------- *)
Lemma mneg_mv : forall A x, mv (mneg A) x = vscale (-1) (mv A x).
Proof. intros A x. unfold mv, mneg, vscale. rewrite !map_map. apply map_ext. intro a. apply dot_vscale_l. Qed.
Lemma fit_residual_neg : forall A b x, length b = length A -> fit_residual (mneg A) (vscale (-1) b) x = vscale (-1) (fit_residual A b x).
Proof.
  intros A b x L. unfold fit_residual. rewrite mneg_mv. assert (L1 : length (mv A x) = length b) by (rewrite mv_length; auto). apply vec_ext; [rewrite vscale_length, !vsub_length; rewrite ?vscale_length; auto|].
  intros i Hi. rewrite vscale_get, !vsub_get by (rewrite ?vscale_length; auto). rewrite !vscale_get. ring.
Qed.
Lemma fit_obj_neg : forall p r, fit_obj p (vscale (-1) r) = fit_obj p r.
Proof.
  intros p r. assert (E : map Rabs (vscale (-1) r) = map Rabs r) by (unfold vscale; rewrite map_map; apply map_ext; intro a; replace (-1 * a) with (- a) by ring; apply Rabs_Ropp).
  destruct p; cbn; rewrite ?E; auto. rewrite norm2_vscale. rewrite Rabs_left by lra. ring.
Qed.
Lemma fit_con_neg : forall r, fit_con Upper (vscale (-1) r) <-> fit_con Lower r.
Proof. intro r. cbn. unfold vscale. rewrite Forall_map. rewrite !Forall_forall. split; intros H x I; specialize (H x I); lra. Qed.
Lemma coef_linear : forall p bd N V f c, length f = length V -> coef_returns p bd N V f c -> length c = N /\ linear_fit_returns p bd V f c.
Proof.
  intros p bd N V f c L H. destruct bd; cbn in H.
  - destruct H as [Lc H]. split; auto. split; [exact I|]. intros y Ly _. apply H. lia.
  - destruct H as [Lc [C H]]. split; auto. rewrite fit_residual_neg in C by auto. split; [apply fit_con_neg; auto|]. intros y Ly Cy. specialize (H y ltac:(lia)). rewrite !fit_residual_neg, !fit_obj_neg in H by auto. apply H. apply fit_con_neg. auto.
  - destruct H as [Lc [C H]]. split; auto. split; auto. intros y Ly Cy. apply H; auto; lia.
Qed.
Theorem ridge_coef_bound : forall B us p bd X f c, coef_returns p bd (length (indices B)) (vp_V B us X) f c -> length f = length X ->
  (bd = Lower -> forall i, (i < length X)%nat -> ridge_eval B c us (nth i X []) <= vget f i) /\
  (bd = Upper -> forall i, (i < length X)%nat -> vget f i <= ridge_eval B c us (nth i X [])) /\
  (forall c', length c' = length (indices B) ->
     (bd = Lower -> forall i, (i < length X)%nat -> ridge_eval B c' us (nth i X []) <= vget f i) ->
     (bd = Upper -> forall i, (i < length X)%nat -> vget f i <= ridge_eval B c' us (nth i X [])) ->
     fit_obj p (vsub (map (ridge_eval B c us) X) f) <= fit_obj p (vsub (map (ridge_eval B c' us) X) f)).
Proof.
  intros B us p bd X f c H L. apply coef_linear in H; [|rewrite vp_V_len; auto]. destruct H as [Lc H]. unfold vp_V in H. rewrite <- (map_map (mv us) (Vrow B)) in H. apply poly_fit_bound in H; [|rewrite map_length; auto]. rewrite map_length in H.
  assert (N : forall i, (i < length X)%nat -> nth i (map (mv us) X) [] = mv us (nth i X [])) by (intros i Hi; rewrite (nth_indep _ [] (mv us [])) by (rewrite map_length; auto); apply map_nth).
  destruct H as [H1 [H2 H3]]. unfold ridge_eval. split; [intros E i Hi; rewrite <- N by auto; auto|]. split; [intros E i Hi; rewrite <- N by auto; auto|].
  intros c' Lc' A1 A2. rewrite <- !(map_map (mv us)). apply H3; [lia| |]; intros E i Hi; rewrite N by auto; auto.
Qed.

(* ---------- number of samples ---------- *)
(** dimension of the Grassmann manifold plus number of coefficients *)
Definition true_n_param (m n d : nat) : Z := (Z.of_nat (choose (n + d) d) + Z.of_nat n * (Z.of_nat m - Z.of_nat n))%Z.
Theorem n_param_count : forall m n d, (true_n_param m n d <= pr_n_param m n d)%Z /\ (pr_n_param m n d = true_n_param m n d <-> (n <= 1)%nat).
Proof.
  intros m n d. unfold true_n_param, pr_n_param. assert (E : (2 * ((n * (n + 1)) / 2) = n * (n + 1))%nat).
  { assert (V : exists k, (n * (n + 1) = 2 * k)%nat) by (induction n as [|n [k IH]]; [exists 0%nat; lia|exists (k + S n)%nat; nia]). destruct V as [k ->]. rewrite (Nat.mul_comm 2 k), Nat.div_mul by lia. lia. }
  set (h := (n * (n + 1) / 2)%nat) in *. rewrite Nat2Z.inj_mul. split; [|split; intro H]; nia.
Qed.
Lemma choose_S : forall n k, choose (S n) (S k) = (choose n k + choose n (S k))%nat. Proof. reflexivity. Qed.
Lemma choose_1 : forall n, choose n 1 = n. Proof. induction n; auto. rewrite choose_S, IHn. rewrite choose_n_0. lia. Qed.
Lemma choose_2 : forall n, (2 * choose (n + 2) 2 = (n + 1) * (n + 2))%nat.
Proof. induction n; auto. replace (S n + 2)%nat with (S (n + 2)) by lia. rewrite choose_S, choose_1. nia. Qed.
Lemma choose_deg : forall n d, (2 <= d)%nat -> (choose (n + 2) 2 <= choose (n + d) d)%nat.
Proof.
  intros n d H. induction d as [|d IH]; [lia|]. destruct (Nat.eq_dec d 1) as [->|]; [auto|]. specialize (IH ltac:(lia)). replace (n + S d)%nat with (S (n + d)) by lia. rewrite choose_S. lia.
Qed.
(** for degree two and more there are at least m n samples, so the Jacobian has mn singular values *)
Theorem enough_for_svd : forall m n d M, (2 <= d)%nat -> pr_enough m n d M = true -> (m * n <= M)%nat.
Proof.
  intros m n d M Hd H. unfold pr_enough in H. rewrite negb_true_iff, Z.ltb_ge in H. unfold pr_n_param in H. pose proof (choose_deg n d Hd). pose proof (choose_2 n). pose proof (Nat.div_le_mono (n * (n + 1)) ((n + 1) * (n + 2)) 2 ltac:(lia) ltac:(nia)).
  assert ((n + 1) * (n + 2) / 2 = choose (n + 2) 2)%nat by (rewrite <- H1, Nat.mul_comm, Nat.div_mul; lia). lia.
Qed.
Theorem n_param_refuted : exists m n d M, (n < m)%nat /\ (true_n_param m n d <= Z.of_nat M)%Z /\ pr_enough m n d M = false.
Proof. exists 3%nat, 2%nat, 2%nat, 8%nat. split; [lia|]. split; [unfold true_n_param; cbn; lia|reflexivity]. Qed.
Example n_param_case : pr_enough 3 2 2 9 = true /\ pr_enough 3 1 2 5 = true /\ pr_enough 3 1 2 4 = false. Proof. repeat split. Qed.

(* ---------- search constraints of the alternating fit ---------- *)
Lemma slice_get : forall a len p i, (i < len)%nat -> vget (slice a len p) i = vget p (a + i).
Proof. intros a len p i Hi. unfold vget, slice. rewrite ActiveProofs.firstn_nth by auto. revert p. induction a as [|a IH]; intro p; auto. destruct p as [|x p]; [simpl; destruct i; auto|]. simpl. apply IH. Qed.
Lemma slice_len : forall a len p, (a + len <= length p)%nat -> length (slice a len p) = len.
Proof. intros. unfold slice. rewrite firstn_length, skipn_length. lia. Qed.
(** for one column the constraint says that the step is orthogonal to U *)
Theorem constraints_one : forall m u p, length u = m -> (m <= length p)%nat -> pr_constraints m [u] p <-> tangent [u] (unflat m 1 p).
Proof.
  intros m u p Lu Lp. assert (E : slice (0 * m) m p = nth 0 (unflat m 1 p) []).
  { cbn [unflat seq map nth]. apply vec_ext; [rewrite slice_len, map_length, seq_length; lia|]. intros i Hi. rewrite slice_len in Hi by lia. rewrite slice_get by auto. rewrite vget_map_seq by auto. f_equal. lia. }
  unfold pr_constraints, tangent. split.
  - intros H v d [<-|[]] Id. destruct Id as [<-|[]]. specialize (H 0%nat ltac:(cbn; lia) u (or_introl eq_refl)). rewrite E in H. exact H.
  - intros H k Hk v [<-|[]]. cbn in Hk. assert (k = 0%nat) by lia. subst k. rewrite E. apply H; left; auto.
Qed.
(** for two columns U is flattened by rows and the step sliced as if by columns: orthogonal steps are refused and others accepted *)
Theorem constraints_refuted : exists m us p q, orthonormal us /\ Forall (fun u => length u = m) us /\ length p = (m * 2)%nat /\ length q = (m * 2)%nat /\
  tangent us (unflat m 2 p) /\ ~ pr_constraints m us p /\ pr_constraints m us q /\ ~ tangent us (unflat m 2 q).
Proof.
  exists 3%nat, [[1; 0; 0]; [0; 1; 0]], [0; 0; 0; 0; 1; 0], [0; 0; 1; 0; 0; 0]. split.
  { intros a b Ha Hb. destruct a as [|[|a]]; destruct b as [|[|b]]; cbn in Ha, Hb; try lia; cbn; rewrite !dot_cons, !dot_nil_l; lra. }
  split; [repeat constructor|]. split; auto. split; auto. split.
  { intros u d Iu Id. destruct Iu as [<-|[<-|[]]]; destruct Id as [<-|[<-|[]]]; cbn; rewrite !dot_cons, !dot_nil_l; unfold vget; cbn; lra. }
  split.
  { intro H. specialize (H 1%nat ltac:(cbn; lia) [0; 1; 0] (or_intror (or_introl eq_refl))). unfold slice in H. cbn in H. rewrite !dot_cons, !dot_nil_l in H. lra. }
  split.
  { intros k Hk u Iu. cbn in Hk. destruct k as [|[|k]]; try lia; destruct Iu as [<-|[<-|[]]]; unfold slice; cbn; rewrite !dot_cons, !dot_nil_l; lra. }
  intro H. specialize (H [0; 1; 0] (nth 0 (unflat 3 2 [0; 0; 1; 0; 0; 0]) []) (or_intror (or_introl eq_refl)) (or_introl eq_refl)). cbn in H. rewrite !dot_cons, !dot_nil_l in H. unfold vget in H. cbn in H. lra.
Qed.

(* ---------- residual and Jacobian in (U, c) ---------- *)
Theorem pr_jac_correct : forall B m n us ds X f c dc a, fam_ok (tb_fam B) -> tb_dim B = n -> (1 <= n)%nat -> length us = n -> length ds = n -> Forall (fun u => length u = m) us -> Forall (fun u => length u = m) ds -> Forall (fun x => length x = m) X ->
  length f = length X -> length c = length (indices B) -> length dc = length (indices B) -> (a < length X)%nat ->
  derivable_pt_lim (fun t => vget (pr_residual B (line us ds t) X f (vadd c (vscale t dc))) a) 0 (vget (lincomb (length X) (pr_jac B us m X c) (flat m ds ++ dc)) a).
Proof.
  intros B m n us ds X f c dc a FO Dn Hn Lu Ld FU FD FX Lf Lc Ldc Ha. set (N := length (indices B)) in *. set (M := length X) in *. assert (L : length us = length ds) by lia.
  assert (Lx : length (nth a X []) = m) by (rewrite Forall_forall in FX; apply FX, nth_In; auto).
  assert (JL : length (pr_jac B us m X c) = (m * length us + N)%nat) by (unfold pr_jac; rewrite app_length, !map_length, !seq_length; auto).
  assert (JF : Forall (fun v => length v = M) (pr_jac B us m X c)) by (unfold pr_jac; apply Forall_app; split; apply Forall_forall; intros v I; apply in_map_iff in I; destruct I as [i [<- _]]; [apply map_length|rewrite col_len, vp_V_len; auto]).
  assert (LF : length (flat m ds) = (m * length us)%nat) by (rewrite flat_len; lia).
  rewrite MatLib.lincomb_get by (auto; rewrite app_length; lia). rewrite JL, rsum_app.
  set (y := mv us (nth a X [])). set (v := mv ds (nth a X [])).
  apply d_ext with (f := fun t => rsum N (fun j => vget (Vrow B (vadd y (vscale t v))) j * (vget c j + t * vget dc j)) - vget f a)
    (l := rsum N (fun j => dot (nth j (DVrow B y) []) v * vget c j + vget (Vrow B y) j * vget dc j) - 0).
  - intro t. assert (LV : length (vp_V B (line us ds t) X) = M) by apply vp_V_len. unfold pr_residual. rewrite vsub_get by (rewrite mv_length; lia). f_equal. rewrite mv_get by lia. rewrite vp_V_nth by auto. rewrite (line_mv m) by auto. fold y v.
    rewrite (dot_rs N) by (try apply Vrow_len; rewrite vadd_length; rewrite ?vscale_length; lia). apply rsum_ext. intros j Hj. rewrite vadd_get by (rewrite vscale_length; lia). rewrite vscale_get. auto.
  - rewrite Rminus_0_r, rsum_plus. f_equal.
    + rewrite rsum_grid. rewrite (rsum_ext m _ (fun k => rsum (length us) (fun l => rsum N (fun j => ent ds l k * (vget (nth a X []) k * (vget (nth j (DVrow B y) []) l * vget c j)))))).
      * rewrite (rsum_ext m _ (fun k => rsum N (fun j => rsum (length us) (fun l => ent ds l k * (vget (nth a X []) k * (vget (nth j (DVrow B y) []) l * vget c j)))))) by (intros; apply rsum_swap). rewrite rsum_swap. apply rsum_ext. intros j Hj.
        rewrite (dot_rs n) by (try (rewrite DVrow_row_len; auto); unfold v; rewrite mv_length; auto). rewrite <- rsum_scal_r. rewrite rsum_swap. rewrite Lu. apply rsum_ext. intros l Hl. unfold v. rewrite mv_get by lia.
        rewrite (dot_rs m) by (auto; rewrite Forall_forall in FD; apply FD, nth_In; lia). rewrite <- rsum_scal_l, <- rsum_scal_r. apply rsum_ext. intros k Hk. unfold ent. ring.
      * intros k Hk. apply rsum_ext. intros l Hl. assert (HI : (k * length us + l < m * length us)%nat) by nia. unfold vget at 1. rewrite app_nth1 by lia. change (nth (k * length us + l) (flat m ds) 0) with (vget (flat m ds) (k * length us + l)). rewrite L at 1. rewrite flat_get by lia.
        unfold pr_jac. rewrite app_nth1 by (rewrite map_length, seq_length; auto). rewrite nth_map_seq by auto. rewrite (Nat.add_comm (k * length us)), Nat.mod_add, Nat.mod_small, Nat.div_add, Nat.div_small by lia.
        rewrite (mapr_get _ _ X a []) by auto. rewrite Nat.add_0_l. fold y. rewrite rsum_scal_l, rsum_scal_l. f_equal. f_equal. rewrite (dot_rs N) by (auto; rewrite map_length, DVrow_len; auto). apply rsum_ext. intros j Hj. rewrite (mapr_get _ _ _ j []) by (rewrite DVrow_len; auto). auto.
    + apply rsum_ext. intros j Hj. unfold vget at 3. rewrite app_nth2 by lia. replace (m * length us + j - length (flat m ds))%nat with j by lia. unfold pr_jac. rewrite app_nth2 by (rewrite map_length, seq_length; lia). rewrite map_length, seq_length. replace (m * length us + j - m * length us)%nat with j by lia.
      rewrite nth_map_seq by auto. rewrite col_get by (rewrite vp_V_len; auto). rewrite vp_V_nth by auto. fold y. unfold vget at 2. ring.
  - apply d_minus; [|apply d_const]. apply (d_rsum N (fun j t => vget (Vrow B (vadd y (vscale t v))) j * (vget c j + t * vget dc j))). intros j Hj.
    eapply d_ext; [intro t; reflexivity| |apply d_mult; [apply (V_dir B y v j FO); unfold y, v; rewrite ?mv_length; lia|apply d_plus; [apply d_const|apply d_mult; [apply d_id|apply d_const]]]].
    assert (E0 : vadd y (vscale 0 v) = y) by (assert (Lyv : length y = length v) by (unfold y, v; rewrite !mv_length; lia); apply vec_ext; [rewrite vadd_length; rewrite ?vscale_length; auto|]; intros i Hi; rewrite vadd_get, vscale_get by (rewrite vscale_length; auto); ring). cbv beta. rewrite E0. ring.
Qed.

(* ---------- fixed subspace, polyridge_vec.py ---------- *)
(** the direction in the full space that belongs to a direction for the free part *)
Definition lift (m nf : nat) (uc ds : list vec) : list vec := repeat (vzero m) nf ++ map (lincomb m uc) ds.
Lemma map_lin_nth : forall m uc ds k, (k < length ds)%nat -> nth k (map (lincomb m uc) ds) [] = lincomb m uc (nth k ds []).
Proof. intros m uc ds k Hk. rewrite (nth_indep _ [] (lincomb m uc [])) by (rewrite map_length; auto). apply map_nth. Qed.
Lemma lift_len : forall m nf uc ds, length (lift m nf uc ds) = (nf + length ds)%nat. Proof. intros. unfold lift. rewrite app_length, repeat_length, map_length. auto. Qed.
Lemma lift_dims : forall m nf uc ds, Forall (fun u => length u = m) uc -> Forall (fun u => length u = m) (lift m nf uc ds).
Proof. intros m nf uc ds F. unfold lift. apply Forall_app. split; apply Forall_forall; intros v I; [apply repeat_spec in I; subst; apply repeat_length|apply in_map_iff in I; destruct I as [d [<- _]]; apply lincomb_length; auto]. Qed.
Lemma pv_join_len : forall m uf uc us, length (pv_join m uf uc us) = (length uf + length us)%nat. Proof. intros. unfold pv_join. rewrite app_length, map_length. auto. Qed.
Lemma pv_join_dims : forall m uf uc us, Forall (fun u => length u = m) uf -> Forall (fun u => length u = m) uc -> Forall (fun u => length u = m) (pv_join m uf uc us).
Proof. intros m uf uc us F G. unfold pv_join. apply Forall_app. split; auto. apply Forall_forall; intros v I; apply in_map_iff in I; destruct I as [d [<- _]]; apply lincomb_length; auto. Qed.
Lemma pv_join_line : forall m uf uc us ds t, Forall (fun u => length u = m) uf -> Forall (fun u => length u = m) uc -> length us = length ds -> Forall (fun u => length u = length uc) us -> Forall (fun u => length u = length uc) ds ->
  pv_join m uf uc (line us ds t) = line (pv_join m uf uc us) (lift m (length uf) uc ds) t.
Proof.
  intros m uf uc us ds t FF FC L FU FD. assert (LL : length (pv_join m uf uc us) = length (lift m (length uf) uc ds)) by (rewrite pv_join_len, lift_len; lia).
  apply (nth_ext _ _ [] []); [rewrite line_len by auto; rewrite !pv_join_len, line_len by auto; reflexivity|]. intros k Hk. rewrite pv_join_len, line_len in Hk by auto. rewrite line_nth by first [exact LL | rewrite pv_join_len; exact Hk]. unfold pv_join, lift. destruct (lt_dec k (length uf)) as [K|K].
  - rewrite !app_nth1 by (rewrite ?repeat_length; auto). assert (LK : length (nth k uf []) = m) by (rewrite Forall_forall in FF; apply FF, nth_In; auto). rewrite (nth_indep (repeat (vzero m) (length uf)) [] (vzero m)) by (rewrite repeat_length; auto). rewrite nth_repeat. assert (LZ : length (vscale t (vzero m)) = m) by (rewrite vscale_length; apply repeat_length).
    apply vec_ext; [rewrite vadd_length; lia|]. intros i Hi. rewrite vadd_get by lia. rewrite vscale_get, vzero_get. ring.
  - rewrite !app_nth2 by (rewrite ?repeat_length; lia). rewrite repeat_length. set (j := (k - length uf)%nat). assert (Hj : (j < length us)%nat) by (unfold j; lia). rewrite !map_lin_nth by (rewrite ?line_len; lia). rewrite line_nth by auto.
    assert (L1 : length (nth j us []) = length uc) by (rewrite Forall_forall in FU; apply FU, nth_In; auto). assert (L2 : length (nth j ds []) = length uc) by (rewrite Forall_forall in FD; apply FD, nth_In; lia).
    assert (G : forall c, length (lincomb m uc c) = m) by (intro; apply lincomb_length; auto).
    apply vec_ext; [rewrite vadd_length; rewrite ?vscale_length, ?G; auto|]. intros i Hi. rewrite G in Hi. rewrite vadd_get by (rewrite vscale_length, !G; auto). rewrite vscale_get. rewrite !MatLib.lincomb_get by (auto; rewrite vadd_length; rewrite ?vscale_length; lia). rewrite <- rsum_scal_l, <- rsum_plus. apply rsum_ext. intros q Hq. rewrite vadd_get by (rewrite vscale_length; lia). rewrite vscale_get. ring.
Qed.
Lemma lift_ent : forall m nf uc ds q j, Forall (fun u => length u = m) uc -> Forall (fun u => length u = length uc) ds -> (j < m)%nat -> (q < nf + length ds)%nat ->
  ent (lift m nf uc ds) q j = if Nat.ltb q nf then 0 else rsum (length uc) (fun l => ent ds (q - nf) l * ent uc l j).
Proof.
  intros m nf uc ds q j FC FD Hj Hq. unfold ent at 1, lift. destruct (Nat.ltb_spec q nf) as [K|K].
  - rewrite app_nth1 by (rewrite repeat_length; auto). rewrite (nth_indep _ [] (vzero m)) by (rewrite repeat_length; auto). rewrite nth_repeat. apply vzero_get.
  - rewrite app_nth2 by (rewrite repeat_length; auto). rewrite repeat_length. rewrite map_lin_nth by lia. rewrite MatLib.lincomb_get; auto. rewrite Forall_forall in FD. apply FD, nth_In. lia.
Qed.
Lemma fixed_chain : forall m nf uc ds J, Forall (fun u => length u = m) uc -> Forall (fun u => length u = length uc) ds -> length J = (m * (nf + length ds))%nat ->
  dot (pv_jac_row m nf (length ds) uc J) (flat (length uc) ds) = dot J (flat m (lift m nf uc ds)).
Proof.
  intros m nf uc ds J FC FD LJ. set (n := length ds) in *. set (mm := length uc) in *.
  assert (L1 : length (pv_jac_row m nf n uc J) = (mm * n)%nat) by (unfold pv_jac_row; rewrite map_length, seq_length; auto). assert (L2 : length (flat mm ds) = (mm * n)%nat) by (rewrite flat_len; auto). assert (L3 : length (flat m (lift m nf uc ds)) = (m * (nf + n))%nat) by (rewrite flat_len, lift_len; auto).
  rewrite (dot_rs (mm * n)), (dot_rs (m * (nf + n))) by auto. rewrite !rsum_grid.
  rewrite (rsum_ext m _ (fun j => rsum n (fun k => rsum mm (fun l => vget J (j * (nf + n) + (nf + k)) * (ent ds k l * ent uc l j))))).
  - rewrite (rsum_ext mm _ (fun l => rsum n (fun k => rsum m (fun j => vget J (j * (nf + n) + (nf + k)) * (ent ds k l * ent uc l j))))).
    + rewrite (rsum_ext m _ (fun j => rsum mm (fun l => rsum n (fun k => vget J (j * (nf + n) + (nf + k)) * (ent ds k l * ent uc l j))))) by (intros; apply rsum_swap). rewrite (rsum_swap m mm). apply rsum_ext. intros l Hl. apply rsum_swap.
    + intros l Hl. apply rsum_ext. intros k Hk. assert (HI : (l * n + k < mm * n)%nat) by nia. unfold pv_jac_row. rewrite vget_map_seq by auto. rewrite (Nat.add_comm (l * n)), Nat.mod_add, Nat.mod_small, Nat.div_add, Nat.div_small by lia. rewrite Nat.add_0_l, (Nat.add_comm k (l * n)). replace (vget (flat mm ds) (l * n + k)) with (ent ds k l) by (symmetry; apply flat_get; auto). rewrite <- rsum_scal_r. apply rsum_ext. intros j Hj. unfold ent. ring.
  - intros j Hj. rewrite rsum_app. rewrite rsum_zero.
    + rewrite Rplus_0_l. apply rsum_ext. intros k Hk. replace (j * (nf + n) + (nf + k))%nat with (j * length (lift m nf uc ds) + (nf + k))%nat at 2 by (rewrite lift_len; auto). rewrite flat_get by (rewrite ?lift_len; fold n; lia). rewrite lift_ent by (auto; fold n; lia). destruct (Nat.ltb_spec (nf + k) nf); [lia|]. replace (nf + k - nf)%nat with k by lia. fold mm. rewrite <- rsum_scal_l. auto.
    + intros q Hq. replace (j * (nf + n) + q)%nat with (j * length (lift m nf uc ds) + q)%nat at 2 by (rewrite lift_len; auto). rewrite flat_get by (rewrite ?lift_len; fold n; lia). rewrite lift_ent by (auto; fold n; lia). destruct (Nat.ltb_spec q nf); [ring|lia].
Qed.
(** _varpro_jacobian_fixed is the derivative of _varpro_residual_fixed *)
Theorem fixed_jacobian_correct : forall (basis : list vec -> tbasis) (coef : list vec -> vec) m uf uc us ds X f ys s zs a,
  let nf := length uf in let n := length us in let J := fun t => pv_join m uf uc (line us ds t) in
  length ds = n -> Forall (fun u => length u = m) uf -> Forall (fun u => length u = m) uc -> Forall (fun u => length u = length uc) us -> Forall (fun u => length u = length uc) ds -> Forall (fun x => length x = m) X -> length f = length X -> (a < length X)%nat ->
  near (fun t => basis_ok (basis (J t)) (nf + n) /\ tb_deg (basis (J t)) = tb_deg (basis (J 0)) /\ ls_opt (length (indices (basis (J t)))) (vp_V (basis (J t)) (J t) X) f (coef (J t))) ->
  svd_mat (length X) (length (indices (basis (J 0)))) (vp_V (basis (J 0)) (J 0) X) ys s zs -> (forall k, (k < length s)%nat -> vget s k <> 0) ->
  derivable_pt_lim (fun t => vget (vp_residual (vp_V (basis (J t)) (J t) X) f (coef (J t))) a) 0
    (dot (pv_jac_row m nf n uc (map (fun col => vget col a) (vp_jac (basis (J 0)) (J 0) m X ys s zs (coef (J 0)) (vp_residual (vp_V (basis (J 0)) (J 0) X) f (coef (J 0)))))) (flat (length uc) ds)).
Proof.
  intros basis coef m uf uc us ds X f ys s zs a nf n J Ld FF FC FU FD FX Lf Ha NR SV SN. set (U := pv_join m uf uc us). set (D := lift m nf uc ds).
  assert (JE : forall t, J t = line U D t) by (intro t; unfold J, U, D, nf; apply pv_join_line; auto; lia). assert (LU : length U = (nf + n)%nat) by apply pv_join_len. assert (LD : length D = (nf + n)%nat) by (unfold D; rewrite lift_len; lia).
  assert (GU : Forall (fun u => length u = m) U) by (apply pv_join_dims; auto). assert (GD : Forall (fun u => length u = m) D) by (apply lift_dims; auto). assert (J0 : J 0 = U) by (rewrite JE; apply (line_0 m); auto; lia). rewrite J0 in *.
  set (JJ := vp_jac (basis U) U m X ys s zs (coef U) (vp_residual (vp_V (basis U) U X) f (coef U))).
  assert (LS0 : ls_opt (length (indices (basis U))) (vp_V (basis U) U X) f (coef U)) by (destruct NR as [d [Hd H]]; specialize (H 0 ltac:(rewrite Rabs_R0; auto)); rewrite J0 in H; tauto). pose proof LS0 as [Lc _].
  assert (LJ : length JJ = (m * (nf + n))%nat) by (unfold JJ; rewrite vp_jac_len, LU; auto). assert (FJ : Forall (fun v => length v = length X) JJ) by (apply vp_jac_cols; auto; unfold vp_residual; rewrite vsub_length; rewrite ?mv_length, ?vp_V_len; auto).
  eapply d_ext; [| |apply (varpro_jacobian_correct basis coef m (nf + n) U D X f ys s zs a)]; auto.
  - intro t. cbv zeta. rewrite JE. reflexivity.
  - fold JJ. rewrite <- Ld at 1. rewrite (fixed_chain m nf uc ds) by (auto; rewrite map_length; lia). fold D. rewrite MatLib.lincomb_get by (auto; rewrite flat_len; lia). rewrite (dot_rs (length JJ)) by (rewrite ?map_length, ?flat_len; lia). apply rsum_ext. intros i Hi. rewrite (mapr_get _ _ JJ i []) by auto. ring.
  - revert NR. apply near_imp. intros t. cbv zeta. rewrite JE. auto.
Qed.
(** the columns passed on are an orthonormal basis containing the fixed subspace *)
Theorem fixed_join : forall m uf uc us, Forall (fun u => length u = m) uf -> Forall (fun u => length u = m) uc -> orthonormal (uf ++ uc) -> Forall (fun u => length u = length uc) us -> orthonormal us ->
  orthonormal (pv_join m uf uc us) /\ (forall x, spans m uf x -> spans m (pv_join m uf uc us) x).
Proof.
  intros m uf uc us FF FC O FU OU. set (nf := length uf). assert (LC : length (uf ++ uc) = (nf + length uc)%nat) by (apply app_length).
  assert (OF : forall a b, (a < nf)%nat -> (b < nf)%nat -> dot (nth a uf []) (nth b uf []) = if Nat.eqb a b then 1 else 0) by (intros a b Ha Hb; rewrite <- (O a b) by lia; rewrite !app_nth1 by auto; auto).
  assert (OC : orthonormal uc). { intros a b Ha Hb. specialize (O (nf + a)%nat (nf + b)%nat ltac:(lia) ltac:(lia)). rewrite !app_nth2 in O by (unfold nf; lia). replace (nf + a - length uf)%nat with a in O by (unfold nf; lia). replace (nf + b - length uf)%nat with b in O by (unfold nf; lia). rewrite O. destruct (Nat.eqb_spec a b); destruct (Nat.eqb_spec (nf + a) (nf + b)); auto; lia. }
  assert (OX : forall a b, (a < nf)%nat -> (b < length uc)%nat -> dot (nth a uf []) (nth b uc []) = 0). { intros a b Ha Hb. specialize (O a (nf + b)%nat ltac:(lia) ltac:(lia)). rewrite app_nth1, app_nth2 in O by (unfold nf in *; lia). replace (nf + b - length uf)%nat with b in O by (unfold nf; lia). rewrite O. destruct (Nat.eqb_spec a (nf + b)); auto; lia. }
  assert (LU : forall k, (k < length us)%nat -> length (nth k us []) = length uc) by (intros k Hk; rewrite Forall_forall in FU; apply FU, nth_In; auto).
  assert (X0 : forall a b, (a < nf)%nat -> (b < length us)%nat -> dot (nth a uf []) (lincomb m uc (nth b us [])) = 0) by (intros a b Ha Hb; rewrite (dot_lincomb_r m) by auto; apply rsum_zero; intros k Hk; rewrite OX by auto; ring).
  split.
  - intros a b Ha Hb. rewrite pv_join_len in Ha, Hb. fold nf in Ha, Hb. unfold pv_join. destruct (lt_dec a nf) as [A|A]; destruct (lt_dec b nf) as [C|C].
    + rewrite !app_nth1 by auto. apply OF; auto.
    + rewrite app_nth1, app_nth2 by (fold nf; lia). fold nf. rewrite map_lin_nth by lia. rewrite X0 by lia. destruct (Nat.eqb_spec a b); auto; lia.
    + rewrite app_nth2, app_nth1 by (fold nf; lia). fold nf. rewrite map_lin_nth by lia. rewrite dot_comm, X0 by lia. destruct (Nat.eqb_spec a b); auto; lia.
    + rewrite !app_nth2 by (fold nf; lia). fold nf. rewrite !map_lin_nth by lia. rewrite (dot_lincomb2 m) by (auto; apply LU; lia). rewrite OU by lia. destruct (Nat.eqb_spec a b); destruct (Nat.eqb_spec (a - nf) (b - nf)); auto; lia.
  - intros x [c [Lc ->]]. exists (c ++ vzero (length us)). split; [rewrite app_length, pv_join_len; unfold vzero; rewrite repeat_length; lia|].
    assert (LJ : length (c ++ vzero (length us)) = length (pv_join m uf uc us)) by (rewrite app_length, pv_join_len; unfold vzero; rewrite repeat_length; lia). assert (FJ : Forall (fun u => length u = m) (pv_join m uf uc us)) by (apply pv_join_dims; auto).
    apply vec_ext; [rewrite !lincomb_length; auto|]. intros i Hi. rewrite lincomb_length in Hi by auto. rewrite !MatLib.lincomb_get by auto. rewrite pv_join_len, rsum_app. fold nf. rewrite (rsum_zero (length us)).
    + rewrite Rplus_0_r. apply rsum_ext. intros k Hk. unfold pv_join. rewrite app_nth1 by auto. unfold vget at 3. rewrite app_nth1 by lia. auto.
    + intros k Hk. unfold vget at 1. rewrite app_nth2 by lia. unfold vzero. rewrite nth_repeat. ring.
Qed.
