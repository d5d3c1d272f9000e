(** Polynomial ridge functions (polyridge.py 23-87): chain rule and invariance. *)
Require Import Reals Lra Lia List Bool Arith.
From Verif Require Import RVec Num Sums DomModel DomMoreModel SweepProofs HullProofs Deriv BasisModel IndexProofs PolyProofs MatLib GrassLib LipModel RidgeModel.
Import ListNotations.
Local Open Scope R_scope.

Lemma d_prodn : forall n (f : nat -> R -> R) (df : nat -> R) x, (forall i, (i < n)%nat -> derivable_pt_lim (f i) x (df i)) ->
  derivable_pt_lim (fun t => prodn n (fun i => f i t)) x (rsum n (fun k => prodn n (fun i => if Nat.eqb i k then df i else f i x))).
Proof.
  induction n as [|n IH]; intros f df x H; simpl; [apply d_const|].
  eapply d_ext; [intros t; reflexivity| |apply d_mult; [apply IH; intros; apply H; lia|apply H; lia]].
  rewrite Nat.eqb_refl. f_equal.
  - rewrite <- rsum_scal_r. apply rsum_ext. intros k Hk. destruct (Nat.eqb_spec n k); [lia|]. auto.
  - f_equal. apply prodn_ext. intros i Hi. destruct (Nat.eqb_spec i n); [lia|auto].
Qed.
Lemma prodn_scale : forall n k f a, (k < n)%nat -> prodn n (fun i => if Nat.eqb i k then f i * a else f i) = a * prodn n f.
Proof.
  intros n k f a Hk. rewrite (prodn_split n k) by auto. rewrite (prodn_split n k f) by auto. rewrite Nat.eqb_refl.
  rewrite (prodn_ext n _ (fun i => if Nat.eqb i k then 1 else f i)) by (intros i Hi; destruct (Nat.eqb i k); auto). ring.
Qed.
Lemma sc_dir : forall B x v t q, length x = length v -> (q < length x)%nat -> sc B (vadd x (vscale t v)) q = sc B x q + t * (vget v q * dscale (tb_scale B) q).
Proof. intros B x v t q L Hq. unfold sc. rewrite vadd_get by (rewrite vscale_length; lia). rewrite vscale_get, scale_affine. ring. Qed.

(** derivatives of the columns of V and DV in any direction *)
Lemma V_dir : forall B x v j, fam_ok (tb_fam B) -> length x = tb_dim B -> length v = tb_dim B -> (1 <= tb_dim B)%nat -> (j < length (indices B))%nat ->
  derivable_pt_lim (fun t => vget (Vrow B (vadd x (vscale t v))) j) 0 (dot (nth j (DVrow B x) []) v).
Proof.
  intros B x v j FO Lx Lv Hd Hj. set (al := nth j (indices B) []). set (d := tb_dim B) in *.
  eapply d_ext; [intros t; symmetry; apply Vrow_nth; auto| |].
  2:{ unfold psi. apply (d_prodn d (fun k t => phi (tb_fam B) (ith al k) (sc B (vadd x (vscale t v)) k)) (fun k => d1 B (ith al k) (sc B x k) * (vget v k * dscale (tb_scale B) k))).
      intros k Hk. eapply d_ext; [intros t; symmetry; rewrite sc_dir by lia; reflexivity|reflexivity|]. apply (move_deriv (phi (tb_fam B) (ith al k))). intro y. apply (phi_deriv B FO). }
  assert (L : length (nth j (DVrow B x) []) = d) by (unfold DVrow; rewrite (nth_indep _ [] (map (DVent B x []) (seq 0 (tb_dim B)))) by (rewrite map_length; auto); rewrite (map_nth (fun al => map (DVent B x al) (seq 0 (tb_dim B)))), map_length, seq_length; auto).
  rewrite dot_rsum by lia. rewrite L. apply rsum_ext. intros k Hk. rewrite (DVrow_nth B FO) by auto. unfold dpsi. fold d. fold al.
  set (g := fun q => if Nat.eqb q k then d1 B (ith al q) (sc B x q) else phi (tb_fam B) (ith al q) (sc B x q)).
  transitivity (prodn d (fun i => if Nat.eqb i k then g i * (vget v i * dscale (tb_scale B) i) else g i)).
  - apply prodn_ext. intros i Hi. unfold g. rewrite sc_dir by lia. destruct (Nat.eqb_spec i k); auto. f_equal. ring.
  - rewrite (prodn_ext d _ (fun i => if Nat.eqb i k then g i * (vget v k * dscale (tb_scale B) k) else g i)) by (intros i Hi; destruct (Nat.eqb_spec i k); subst; auto). rewrite prodn_scale by auto. ring.
Qed.
Lemma DV_dir : forall B x v j k, fam_ok (tb_fam B) -> length x = tb_dim B -> length v = tb_dim B -> (j < length (indices B))%nat -> (k < tb_dim B)%nat ->
  derivable_pt_lim (fun t => vget (nth j (DVrow B (vadd x (vscale t v))) []) k) 0 (dot (nth k (nth j (DDVrow B x) []) []) v).
Proof.
  intros B x v j k FO Lx Lv Hj Hk. set (al := nth j (indices B) []). set (d := tb_dim B) in *.
  eapply d_ext; [intros t; symmetry; apply (DVrow_nth B FO); auto; lia| |].
  2:{ unfold dpsi. eapply d_ext; [intros t; apply Rmult_comm|reflexivity|]. apply d_scal.
      apply (d_prodn d (fun q t => if Nat.eqb q k then d1 B (ith al q) (sc B (vadd x (vscale t v)) q) else phi (tb_fam B) (ith al q) (sc B (vadd x (vscale t v)) q))
        (fun q => (if Nat.eqb q k then d2 B (ith al q) (sc B x q) else d1 B (ith al q) (sc B x q)) * (vget v q * dscale (tb_scale B) q))).
      intros q Hq. destruct (Nat.eqb q k); (eapply d_ext; [intros t; symmetry; rewrite sc_dir by lia; reflexivity|reflexivity|]).
      - apply (move_deriv (d1 B (ith al q))). intro y. apply (d1_deriv B FO).
      - apply (move_deriv (phi (tb_fam B) (ith al q))). intro y. apply (phi_deriv B FO). }
  assert (L : length (nth k (nth j (DDVrow B x) []) []) = d).
  { unfold DDVrow. rewrite (nth_indep _ [] (map (fun k => map (DDVent B x [] k) (seq 0 (tb_dim B))) (seq 0 (tb_dim B)))) by (rewrite map_length; auto).
    rewrite (map_nth (fun al => map (fun k => map (DDVent B x al k) (seq 0 (tb_dim B))) (seq 0 (tb_dim B)))). rewrite nth_map_seq by auto. rewrite map_length, seq_length. auto. }
  rewrite dot_rsum by lia. rewrite L. rewrite <- rsum_scal_l. apply rsum_ext. intros l Hl. rewrite (DDVrow_nth B FO) by (auto; lia). unfold ddpsi. fold d. fold al.
  set (g := fun q => if Nat.eqb q k && Nat.eqb k l then d2 B (ith al q) (sc B x q) else if Nat.eqb q k || Nat.eqb q l then d1 B (ith al q) (sc B x q) else phi (tb_fam B) (ith al q) (sc B x q)).
  transitivity (dscale (tb_scale B) k * prodn d (fun i => if Nat.eqb i l then g i * (vget v l * dscale (tb_scale B) l) else g i)).
  - f_equal. apply prodn_ext. intros i Hi. unfold g. rewrite sc_dir by lia. rewrite Rmult_0_l, Rplus_0_r.
    destruct (Nat.eqb_spec i l) as [e1|e1]; destruct (Nat.eqb_spec i k) as [e2|e2]; destruct (Nat.eqb_spec k l) as [e3|e3]; simpl; try lia; try reflexivity; subst; auto.
  - rewrite prodn_scale by auto. ring.
Qed.
Lemma poly_dir : forall B c x v, fam_ok (tb_fam B) -> length x = tb_dim B -> length v = tb_dim B -> (1 <= tb_dim B)%nat -> length c = length (indices B) ->
  derivable_pt_lim (fun t => poly_eval B c (vadd x (vscale t v))) 0 (dot (poly_grad B c x) v).
Proof.
  intros B c x v FO Lx Lv Hd Lc. set (N := length (indices B)) in *.
  apply d_ext with (f := fun t => rsum N (fun j => vget c j * vget (Vrow B (vadd x (vscale t v))) j)) (l := rsum N (fun j => vget c j * dot (nth j (DVrow B x) []) v)).
  - intro t. unfold poly_eval. rewrite dot_comm, dot_rsum by (unfold Vrow; rewrite map_length; auto). rewrite Lc. auto.
  - assert (Lg : length (poly_grad B c x) = tb_dim B) by (unfold poly_grad; rewrite map_length, seq_length; auto). rewrite dot_rsum by lia. rewrite Lg.
    assert (LD : forall j, (j < N)%nat -> length (nth j (DVrow B x) []) = tb_dim B) by (intros j Hj; unfold DVrow; rewrite (nth_indep _ [] (map (DVent B x []) (seq 0 (tb_dim B)))) by (rewrite map_length; auto); rewrite (map_nth (fun al => map (DVent B x al) (seq 0 (tb_dim B)))), map_length, seq_length; auto).
    rewrite (rsum_ext N _ (fun j => rsum (tb_dim B) (fun k => vget c j * vget (nth j (DVrow B x) []) k * vget v k))).
    + rewrite rsum_swap. apply rsum_ext. intros k Hk. unfold poly_grad. rewrite vget_map_seq by auto. rewrite dot_comm, dot_rsum by (unfold DVrow; rewrite !map_length; auto). rewrite Lc. rewrite <- rsum_scal_r. apply rsum_ext. intros j Hj. f_equal. f_equal.
      unfold vget at 2. rewrite nth_indep with (l := map _ _) (d' := vget [] k) by (unfold DVrow; rewrite !map_length; auto). rewrite (map_nth (fun row => vget row k)). auto.
    + intros j Hj. rewrite dot_rsum by (rewrite LD; auto). rewrite LD by auto. rewrite <- rsum_scal_l. apply rsum_ext. intros; ring.
  - apply (d_rsum N (fun j t => vget c j * vget (Vrow B (vadd x (vscale t v))) j)). intros j Hj. apply d_scal. apply V_dir; auto.
Qed.
Lemma poly_grad_dir : forall B c x v k, fam_ok (tb_fam B) -> length x = tb_dim B -> length v = tb_dim B -> (k < tb_dim B)%nat -> length c = length (indices B) ->
  derivable_pt_lim (fun t => vget (poly_grad B c (vadd x (vscale t v))) k) 0 (dot (nth k (poly_hess B c x) []) v).
Proof.
  intros B c x v k FO Lx Lv Hk Lc. set (N := length (indices B)) in *.
  assert (LD : forall j, (j < N)%nat -> length (nth k (nth j (DDVrow B x) []) []) = tb_dim B).
  { intros j Hj. unfold DDVrow. rewrite (nth_indep _ [] (map (fun k => map (DDVent B x [] k) (seq 0 (tb_dim B))) (seq 0 (tb_dim B)))) by (rewrite map_length; auto).
    rewrite (map_nth (fun al => map (fun k => map (DDVent B x al k) (seq 0 (tb_dim B))) (seq 0 (tb_dim B)))). rewrite nth_map_seq by auto. rewrite map_length, seq_length. auto. }
  apply d_ext with (f := fun t => rsum N (fun j => vget c j * vget (nth j (DVrow B (vadd x (vscale t v))) []) k)) (l := rsum N (fun j => vget c j * dot (nth k (nth j (DDVrow B x) []) []) v)).
  - intro t. unfold poly_grad. rewrite vget_map_seq by auto. rewrite dot_comm, dot_rsum by (unfold DVrow; rewrite !map_length; auto). rewrite Lc. apply rsum_ext. intros j Hj. f_equal.
    unfold vget at 2. rewrite nth_indep with (l := map _ _) (d' := vget [] k) by (unfold DVrow; rewrite !map_length; auto). rewrite (map_nth (fun row => vget row k)). auto.
  - assert (Lg : length (nth k (poly_hess B c x) []) = tb_dim B) by (unfold poly_hess; rewrite nth_map_seq by auto; rewrite map_length, seq_length; auto). rewrite dot_rsum by lia. rewrite Lg.
    rewrite (rsum_ext N _ (fun j => rsum (tb_dim B) (fun l => vget c j * vget (nth k (nth j (DDVrow B x) []) []) l * vget v l))).
    + rewrite rsum_swap. apply rsum_ext. intros l Hl. unfold poly_hess. rewrite nth_map_seq by auto. rewrite vget_map_seq by auto. rewrite dot_comm, dot_rsum by (unfold DDVrow; rewrite !map_length; auto). rewrite Lc. rewrite <- rsum_scal_r. apply rsum_ext. intros j Hj. f_equal. f_equal.
      unfold vget at 2. rewrite nth_indep with (l := map _ _) (d' := vget (nth k [] []) l) by (unfold DDVrow; rewrite !map_length; auto). rewrite (map_nth (fun h => vget (nth k h []) l)). auto.
    + intros j Hj. rewrite dot_rsum by (rewrite LD; auto). rewrite LD by auto. rewrite <- rsum_scal_l. apply rsum_ext. intros; ring.
  - apply (d_rsum N (fun j t => vget c j * vget (nth j (DVrow B (vadd x (vscale t v))) []) k)). intros j Hj. apply d_scal. apply DV_dir; auto.
Qed.

(* ---------- ridge functions ---------- *)
Lemma mv_line : forall us x v t, length x = length v -> mv us (vadd x (vscale t v)) = vadd (mv us x) (vscale t (mv us v)).
Proof. intros us x v t L. rewrite mv_vadd by (rewrite vscale_length; auto). rewrite mv_vscale. auto. Qed.
Lemma poly_grad_len : forall B c x, length (poly_grad B c x) = tb_dim B. Proof. intros. unfold poly_grad. rewrite map_length, seq_length. auto. Qed.
(** constant along directions orthogonal to all columns of U, and so are gradient and Hessian *)
Theorem ridge_invariant : forall B c m us x v, length x = m -> length v = m -> (forall u, In u us -> dot u v = 0) ->
  ridge_eval B c us (vadd x v) = ridge_eval B c us x /\ ridge_grad B c m us (vadd x v) = ridge_grad B c m us x /\ ridge_hess B c m us (vadd x v) = ridge_hess B c m us x.
Proof.
  intros B c m us x v Lx Lv H. assert (E : mv us (vadd x v) = mv us x).
  { rewrite mv_vadd by lia. apply vec_ext; [rewrite vadd_length; rewrite !mv_length; auto|]. intros i Hi. rewrite vadd_length, mv_length in Hi by (rewrite !mv_length; auto). rewrite vadd_get by (rewrite !mv_length; auto). rewrite !mv_get by auto. rewrite (H (nth i us [])) by (apply nth_In; auto). ring. }
  unfold ridge_eval, ridge_grad, ridge_hess. rewrite E. auto.
Qed.
(** the gradient is the gradient, in every direction; it lies in the span of U with the profile gradient as coefficients *)
Theorem ridge_grad_correct : forall B c m us x v, fam_ok (tb_fam B) -> length us = tb_dim B -> Forall (fun u => length u = m) us -> (1 <= tb_dim B)%nat -> length c = length (indices B) -> length x = m -> length v = m ->
  length (ridge_grad B c m us x) = m /\ derivable_pt_lim (fun t => ridge_eval B c us (vadd x (vscale t v))) 0 (dot (ridge_grad B c m us x) v).
Proof.
  intros B c m us x v FO Lu FU Hd Lc Lx Lv. split; [unfold ridge_grad; apply lincomb_length; auto|].
  eapply d_ext; [intros t; symmetry; unfold ridge_eval; rewrite mv_line by lia; reflexivity| |apply (poly_dir B c (mv us x) (mv us v)); auto; rewrite mv_length; auto].
  unfold ridge_grad. rewrite (dot_comm (lincomb m us _)), (dot_lincomb_r m) by (auto; rewrite poly_grad_len; auto). rewrite dot_rsum by (rewrite poly_grad_len, mv_length; auto). rewrite poly_grad_len, Lu. apply rsum_ext. intros k Hk. rewrite mv_get by lia. f_equal. apply dot_comm.
Qed.
Lemma hess_len : forall B c x, length (poly_hess B c x) = tb_dim B /\ forall k, (k < tb_dim B)%nat -> length (nth k (poly_hess B c x) []) = tb_dim B.
Proof. intros. unfold poly_hess. split; [rewrite map_length, seq_length; auto|]. intros k Hk. rewrite nth_map_seq by auto. rewrite map_length, seq_length. auto. Qed.
(** the Hessian is symmetric and is the derivative of the gradient, in every direction *)
Theorem ridge_hess_correct : forall B c m us x v, fam_ok (tb_fam B) -> length us = tb_dim B -> Forall (fun u => length u = m) us -> (1 <= tb_dim B)%nat -> length c = length (indices B) -> length x = m -> length v = m ->
  length (ridge_hess B c m us x) = m /\
  (forall i, (i < m)%nat -> length (nth i (ridge_hess B c m us x) []) = m /\
    derivable_pt_lim (fun t => vget (ridge_grad B c m us (vadd x (vscale t v))) i) 0 (dot (nth i (ridge_hess B c m us x) []) v)) /\
  forall i j, (i < m)%nat -> (j < m)%nat -> vget (nth i (ridge_hess B c m us x) []) j = vget (nth j (ridge_hess B c m us x) []) i.
Proof.
  intros B c m us x v FO Lu FU Hd Lc Lx Lv. set (H := poly_hess B c (mv us x)). destruct (hess_len B c (mv us x)) as [LH LHk]. fold H in LH, LHk.
  assert (SY : forall k l, (k < tb_dim B)%nat -> (l < tb_dim B)%nat -> vget (nth k H []) l = vget (nth l H []) k) by (intros k l Hk Hl; apply (poly_hess_correct B c (mv us x) k l); auto; rewrite mv_length; auto).
  assert (ENT : forall j i, (j < m)%nat -> (i < m)%nat -> vget (nth j (ridge_hess B c m us x) []) i = rsum (tb_dim B) (fun k => rsum (tb_dim B) (fun l => vget (nth k H []) l * vget (nth l us []) j) * vget (nth k us []) i)).
  { intros j i Hj Hi. unfold ridge_hess. rewrite nth_map_seq by auto. rewrite vget_map_seq by auto. fold H. rewrite Lu. auto. }
  assert (SYM : forall i j, (i < m)%nat -> (j < m)%nat -> vget (nth i (ridge_hess B c m us x) []) j = vget (nth j (ridge_hess B c m us x) []) i).
  { intros i j Hi Hj. rewrite !ENT by auto.
    rewrite (rsum_ext (tb_dim B) _ (fun k => rsum (tb_dim B) (fun l => vget (nth k H []) l * vget (nth l us []) i * vget (nth k us []) j))) by (intros; rewrite rsum_scal_r; auto).
    rewrite rsum_swap. apply rsum_ext. intros l Hl. rewrite <- rsum_scal_r. apply rsum_ext. intros k Hk. rewrite (SY k l) by auto. ring. }
  split; [unfold ridge_hess; rewrite map_length, seq_length; auto|]. split; auto.
  intros i Hi. assert (LI : length (nth i (ridge_hess B c m us x) []) = m) by (unfold ridge_hess; rewrite nth_map_seq by auto; rewrite map_length, seq_length; auto). split; auto.
  apply d_ext with (f := fun t => rsum (tb_dim B) (fun k => vget (nth k us []) i * vget (poly_grad B c (vadd (mv us x) (vscale t (mv us v)))) k)) (l := rsum (tb_dim B) (fun k => vget (nth k us []) i * dot (nth k H []) (mv us v))).
  - intros t. unfold ridge_grad. rewrite mv_line by lia. rewrite MatLib.lincomb_get by (auto; rewrite poly_grad_len; auto). rewrite Lu. apply rsum_ext. intros; ring.
  - rewrite dot_rsum by lia. rewrite LI.
    rewrite (rsum_ext m _ (fun j => rsum (tb_dim B) (fun k => rsum (tb_dim B) (fun l => vget (nth k H []) l * vget (nth l us []) j * vget (nth k us []) i * vget v j)))).
    + rewrite rsum_swap. apply rsum_ext. intros k Hk. rewrite rsum_swap. rewrite dot_rsum by (rewrite LHk, mv_length; auto). rewrite LHk by auto. rewrite <- rsum_scal_l. apply rsum_ext. intros l Hl. rewrite mv_get by lia.
      assert (LUl : length (nth l us []) = m) by (rewrite Forall_forall in FU; apply FU, nth_In; lia). rewrite dot_rsum by lia. rewrite LUl. rewrite <- !rsum_scal_l. apply rsum_ext. intros; ring.
    + intros j Hj. rewrite (SYM i j) by auto. rewrite ENT by auto. rewrite <- rsum_scal_r. apply rsum_ext. intros k Hk. rewrite <- !rsum_scal_r. auto.
  - apply (d_rsum (tb_dim B) (fun k t => vget (nth k us []) i * vget (poly_grad B c (vadd (mv us x) (vscale t (mv us v)))) k)). intros k Hk. apply d_scal. apply poly_grad_dir; auto; rewrite mv_length; auto.
Qed.
(** a quadratic Legendre profile of two variables on a plane in three dimensions, and a direction orthogonal to the plane *)
Example ridge_case : exists B us (x v : vec), fam_ok (tb_fam B) /\ length us = tb_dim B /\ Forall (fun u : vec => length u = 3%nat) us /\ (1 <= tb_dim B)%nat /\ length (repeat 1 6) = length (indices B) /\ length x = 3%nat /\ length v = 3%nat /\ (forall u, In u us -> dot u v = 0) /\ v <> vzero 3.
Proof.
  exists (mkTB legendre 2 2 NoScale), [[1; 0; 0]; [0; 3/5; 4/5]], [1; 2; 3], [0; 4; -3]. split; [apply legendre_ok|]. split; auto. split; [repeat constructor|]. split; [simpl; auto|]. split; [reflexivity|]. split; auto. split; auto.
  split; [|unfold vzero; simpl; intro E; injection E; lra]. intros u [<-|[<-|[]]]; rewrite !dot_cons, dot_nil_l; lra.
Qed.
