(** Directions in which the projected samples move by an affine function of themselves: the variable projection Jacobian vanishes. *)
Require Import Reals Lra Lia List Bool Arith.
From Verif Require Import RVec Num Sums DomModel DomMoreModel SweepProofs HullProofs Deriv BasisModel IndexProofs PolyProofs MatLib SpecProofs GrassLib LipModel LipFitProofs SubModel RidgeModel RidgeProofs TrajProofs PolySpan VarproLib VarproProofs.
Import ListNotations.
Local Open Scope R_scope.

Definition affdir (m : nat) (us : list vec) (X : mat) (ds : list vec) : Prop :=
  length ds = length us /\ Forall (fun d => length d = m) ds /\ exists (be : vec) (A : list vec), forall b l, (b < length X)%nat -> (l < length us)%nat ->
    dot (nth b X []) (nth l ds []) = vget be l + rsum (length us) (fun q => vget (nth l A []) q * vget (mv us (nth b X [])) q).
Lemma within_affdir : forall m us X ds, Forall (fun u => length u = m) us -> Forall (fun x => length x = m) X -> within m us ds -> affdir m us X ds.
Proof.
  intros m us X ds FU FX [Ld W]. split; auto. split; [apply Forall_forall; intros d I; destruct (W d I) as [a [La ->]]; apply lincomb_length; auto|].
  destruct (list_choice (length us) (fun k a => length a = length us /\ nth k ds [] = lincomb m us a)) as [A [LA HA]]; [intros k Hk; apply W, nth_In; lia|].
  exists (vzero (length us)), A. intros b l Hb Hl. destruct (HA l Hl) as [Ll El]. rewrite vzero_get, Rplus_0_l. assert (LX : length (nth b X []) = m) by (rewrite Forall_forall in FX; apply FX, nth_In; auto). rewrite El, (dot_lincomb_r m) by auto. apply rsum_ext. intros q Hq. rewrite mv_get by auto. rewrite (dot_comm (nth b X [])). ring.
Qed.
Lemma pspan_d : forall B, (1 <= tb_dim B)%nat -> forall al k, In al (indices B) -> (k < tb_dim B)%nat -> pspan B (tb_deg B) (fun x => dpsi B al k x).
Proof.
  intros B Hd al k I Hk. apply index_set_in in I; [|auto]. destruct I as [La Ha]. set (a := ith al k). set (d := tb_dim B) in *.
  apply (pspan_ext _ _ (fun x => rsum a (fun b => (dscale (tb_scale B) k * dco (tb_fam B) a b) * psi B (upd al k b) x))).
  - intros x Hx. unfold dpsi. fold d. rewrite (prodn_split d k) by auto. rewrite Nat.eqb_refl. fold a. unfold d1.
    rewrite (prodn_ext d _ (fun i => if Nat.eqb i k then 1 else phi (tb_fam B) (ith al i) (sc B x i))) by (intros i Hi; destruct (Nat.eqb i k); auto). set (P := prodn d _).
    rewrite <- !rsum_scal_r. apply rsum_ext. intros b Hb. rewrite psi_upd by auto. fold d. fold P. ring.
  - apply (pspan_rsum _ _ a (fun b x => (dscale (tb_scale B) k * dco (tb_fam B) a b) * psi B (upd al k b) x)). intros b Hb. apply pspan_scal. pose proof (upd_sum al k b ltac:(lia)) as S1. fold a in S1. apply pspan_psi; auto; [rewrite upd_len; auto|lia].
Qed.
Theorem jac_kernel_affine : forall B m n us ds X ys s zs c r, basis_ok B n -> length us = n -> Forall (fun u => length u = m) us -> Forall (fun x => length x = m) X -> affdir m us X ds ->
  svd_mat (length X) (length (indices B)) (vp_V B us X) ys s zs -> length c = length (indices B) -> length r = length X -> (forall e, length e = length (indices B) -> dot r (mv (vp_V B us X) e) = 0) ->
  lincomb (length X) (vp_jac B us m X ys s zs c r) (flat m ds) = vzero (length X).
Proof.
  intros B m n us ds X ys s zs c r [FO [F3 [Dn [Hn DN]]]] Lu FU FX (Ld & FD & be & A & HA) SV Lc Lr NR. set (N := length (indices B)) in *. set (M := length X) in *.
  assert (LX : forall b, (b < M)%nat -> length (nth b X []) = m) by (intros b Hb; rewrite Forall_forall in FX; apply FX, nth_In; auto).
  destruct (svd_mat_index _ _ _ _ _ _ (vp_V_len B us X) SV) as [Ly [FY [Lz [FZ [Ls [YO [ZR [ZC VE]]]]]]]]. fold M in YO, VE.
  apply vec_ext; [unfold vzero; rewrite repeat_length; apply lincomb_length; apply vp_jac_cols; auto|]. intros a Ha. rewrite lincomb_length in Ha by (apply vp_jac_cols; auto). rewrite vzero_get.
  rewrite MatLib.lincomb_get by first [apply vp_jac_cols; assumption | rewrite flat_len, vp_jac_len; lia | assumption]. rewrite vp_jac_len.
  rewrite (vp_jac_dir B us m X ys s zs c r ds a SV Lc Lr Ld Ha). fold N M.
  set (g := fun j y => rsum (length us) (fun l => vget be l * dpsi B (nth j (indices B) []) l y + rsum (length us) (fun p => vget (nth l A []) p * (vget y p * dpsi B (nth j (indices B) []) l y)))).
  assert (PG : forall j, (j < N)%nat -> exists T, length T = N /\ forall y, length y = tb_dim B -> g j y = dot T (Vrow B y)).
  { intros j Hj. apply (pspan_V B ltac:(lia)). unfold g. apply (pspan_rsum B (tb_deg B) (length us) (fun l y => vget be l * dpsi B (nth j (indices B) []) l y + rsum (length us) (fun p => vget (nth l A []) p * (vget y p * dpsi B (nth j (indices B) []) l y)))). intros l Hl. apply pspan_add; [apply pspan_scal; apply pspan_d; [lia|apply nth_In; auto|lia]|].
    apply (pspan_rsum B (tb_deg B) (length us) (fun p y => vget (nth l A []) p * (vget y p * dpsi B (nth j (indices B) []) l y))). intros p Hp. apply pspan_scal. apply pspan_xd; auto; try lia; [rewrite Dn; auto|]. apply nth_In. auto. }
  destruct (list_choice _ _ PG) as [T [LT HT]].
  assert (E : forall b j, (b < M)%nat -> (j < N)%nat -> rsum (length us) (fun l => vget (nth j (DVrow B (mv us (nth b X []))) []) l * rsum m (fun k => vget (nth b X []) k * ent ds l k)) = rsum N (fun i => ent T j i * ent (vp_V B us X) b i)).
  { intros b j Hb Hj. destruct (HT j Hj) as [LTj HTj]. transitivity (dot (nth j T []) (Vrow B (mv us (nth b X [])))).
    - rewrite <- HTj by (rewrite mv_length; lia). unfold g. apply rsum_ext. intros l Hl. rewrite (DVrow_nth B FO) by (auto; lia). unfold ent. rewrite <- (dot_rs m) by (auto; rewrite Forall_forall in FD; apply FD, nth_In; lia). rewrite HA by auto. rewrite Rmult_plus_distr_l. f_equal; [ring|].
      rewrite <- rsum_scal_l. apply rsum_ext. intros p Hp. ring.
    - rewrite (dot_rs N) by (auto; apply Vrow_len). apply rsum_ext. intros i Hi. unfold ent. rewrite vp_V_nth by auto. auto. }
  assert (NI : forall i, (i < N)%nat -> rsum M (fun b => ent (vp_V B us X) b i * vget r b) = 0).
  { intros i Hi. assert (LV : length (vp_V B us X) = M) by apply vp_V_len. rewrite <- LV at 1. unfold ent. rewrite <- (normal_index N) by first [assumption | apply vp_V_rows | lia]. apply NR. apply unitv_len. }
  rewrite (rsum_ext M _ (fun b => rsum N (fun j => rsum N (fun i => ent T j i * vget c j * (vQ N (ent ys) a b * ent (vp_V B us X) b i) + ent T j i * vR N (ent ys) (vget s) (ent zs) a j * (ent (vp_V B us X) b i * vget r b))))) by (intros b Hb; apply rsum_ext; intros j Hj; rewrite E by auto; rewrite <- rsum_scal_r; apply rsum_ext; intros; ring).
  rewrite rsum_swap. rewrite rsum_zero; [ring|]. intros j Hj. rewrite rsum_swap. apply rsum_zero. intros i Hi. rewrite rsum_plus, !rsum_scal_l. rewrite NI by auto. rewrite (QV M N (ent (vp_V B us X)) (ent ys) (vget s) (ent zs) YO VE) by auto. ring.
Qed.
