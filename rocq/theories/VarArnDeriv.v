(** The Jacobian of the Arnoldi branch is the derivative of its residual (C135). *)
Require Import Reals Lra Lia List Bool Arith Wf_nat.
From Verif Require Import RVec Num Sums DomModel DomMoreModel SweepProofs HullProofs Deriv BasisModel IndexProofs PolyProofs MatLib SpecProofs GrassLib LipModel LipFitProofs SubModel RidgeModel RidgeProofs TrajProofs PolySpan VarproLib VarproProofs ArnoldiProofs ArnoldiMoreProofs PolyfitModel PolyfitProofs LsqAlg ProjGradProofs VarArnModel VarArnProofs.
Import ListNotations.
Local Open Scope R_scope.

Section DER.
  Variables (p m : nat) (us : list vec) (X : mat) (f : vec).
  Let n := length us.
  Let Y := map (mv us) X.
  Let idx := index_set p n.
  Let N := length idx.
  Let M := length X.
  Notation lk := (fun _ : nat => index_set p n).
  Hypothesis Hn : (1 <= n)%nat.
  Hypothesis NE : X <> [].
  Hypothesis FU : Forall (fun u => length u = m) us.
  Hypothesis FX : Forall (fun x => length x = m) X.
  Hypothesis Lf : length f = length X.
  Variables (Q : list vec) (Rs : list (vec * R)).
  Hypothesis FR : frame p n Y Q Rs.
  Variable ds : list vec.
  Hypothesis Ld : length ds = n.
  Hypothesis FD : Forall (fun u => length u = m) ds.
  Lemma x_len : forall b, (b < M)%nat -> length (nth b X []) = m.
  Proof. intros b Hb. apply (proj1 (Forall_forall _ _) FX). apply nth_In. auto. Qed.
  (** the frozen basis along the line *)
  Definition wt (t : R) (b j : nat) : R := wval p n lk Rs (mv (line us ds t) (nth b X [])) j.
  Lemma wt_deriv : forall b j, (b < M)%nat -> (j < N)%nat -> derivable_pt_lim (fun t => wt t b j) 0 (dirV p m us X Q Rs ds b j).
  Proof.
    pose proof FR as (_ & WF & LQ & FQ & _ & _ & WV). intros b j Hb Hj. assert (Yb : nth b Y [] = mv us (nth b X [])) by (apply Y_nth; auto).
    assert (EW : arnoldi_X lk idx Rs (mv us (nth b X [])) = Some (row_of Q b)).
    { destruct (arnoldi_X_spec p n Hn lk (look_all p n Hn) Rs (mv us (nth b X [])) WF) as (W & E & LW & _). unfold idx. rewrite E. f_equal. apply vec_ext; [unfold row_of; rewrite map_length; rewrite LW; auto|].
      intros k Hk. rewrite LW in Hk. unfold row_of. rewrite (map_get _ (fun q => vget q b) Q k []) by (rewrite LQ; exact Hk). rewrite <- WV by (auto; unfold Y; rewrite map_length; auto). unfold wval. rewrite Yb. rewrite E. reflexivity. }
    eapply d_ext; [intro t; unfold wt; rewrite (line_mv m) by (auto; apply x_len; auto); reflexivity| |].
    2:{ apply (arn_dir p n Hn Rs WF (mv us (nth b X [])) (mv ds (nth b X [])) (row_of Q b) (dv p us X Q Rs b)); auto; rewrite ?mv_length; auto.
        intros l Hl. rewrite <- Yb. apply (dv_some p us X Hn Q Rs FR b l Hl). }
    unfold dirV. fold n. apply rsum_ext. intros l Hl. f_equal. rewrite mv_get by lia. rewrite (dot_rs m) by (try apply x_len; auto; apply (proj1 (Forall_forall _ _) FD); apply nth_In; lia). apply rsum_ext. intros k Hk. unfold ent. ring.
  Qed.
  Lemma wt_0 : forall b j, (b < M)%nat -> (j < N)%nat -> wt 0 b j = ent Q j b.
  Proof. pose proof FR as (_ & _ & _ & _ & _ & _ & WV). intros b j Hb Hj. unfold wt. rewrite (line_0 m) by auto. rewrite <- (Y_nth us X b Hb). apply WV; auto. unfold Y. rewrite map_length. auto. Qed.
  (** the columns of Q, and the identity, as a singular value decomposition *)
  Lemma svdQ : (forall i j, (i < N)%nat -> (j < N)%nat -> rsum M (fun b => ent Q i b * ent Q j b) = kron i j) /\
    (forall i j, (i < N)%nat -> (j < N)%nat -> rsum N (fun k => ent (eye N) i k * ent (eye N) j k) = kron i j) /\
    (forall i j, (i < N)%nat -> (j < N)%nat -> rsum N (fun k => ent (eye N) k i * ent (eye N) k j) = kron i j) /\
    (forall b j, (b < M)%nat -> (j < N)%nat -> ent Q j b = rsum N (fun k => ent Q k b * vget (repeat 1 N) k * ent (eye N) k j)) /\
    (forall k, (k < N)%nat -> vget (repeat 1 N) k <> 0).
  Proof.
    pose proof FR as (_ & _ & LQ & FQ & OR & _). assert (ML : length Y = M) by (unfold Y; apply map_length). split; [|split; [|split; [|split]]].
    - intros i j Hi Hj. unfold kron. rewrite <- (OR i j) by auto. symmetry. apply dot_rs; rewrite <- ML; apply (proj1 (Forall_forall _ _) FQ); apply nth_In; rewrite LQ; auto.
    - intros i j Hi Hj. rewrite (rsum_ext N _ (fun k => kron i k * kron j k)) by (intros k Hk; rewrite !eye_ent by auto; auto). rewrite kron_sum by auto. apply kron_sym.
    - intros i j Hi Hj. rewrite (rsum_ext N _ (fun k => kron i k * kron k j)) by (intros k Hk; rewrite !eye_ent by auto; rewrite (kron_sym k i); auto). apply (kron_sum N i (fun k => kron k j)); auto.
    - intros b j Hb Hj. rewrite (rsum_ext N _ (fun k => kron j k * ent Q k b)) by (intros k Hk; rewrite eye_ent, repeat_get by auto; rewrite (kron_sym k j); ring). symmetry. apply (kron_sum N j (fun k => ent Q k b)); auto.
    - intros k Hk. rewrite repeat_get by auto. lra.
  Qed.
  (** degenerate samples are not met near a unisolvent one *)
  Lemma uni_near : near (fun t => unisolvent p n (map (mv (line us ds t)) X)).
  Proof.
    pose proof FR as (_ & WF & LQ & FQ & OR & NZ & _). destruct svdQ as (YO & ZR & ZC & VE & SN).
    set (K := rsum M (fun b => rsum N (fun j => Rabs (vR N (ent Q) (vget (repeat 1 N)) (ent (eye N)) b j)))). assert (PK : 0 <= K) by (apply rsum_nonneg; intros; apply rsum_nonneg; intros; apply Rabs_pos).
    assert (PE : 0 < / (2 * (K + 1))) by (apply Rinv_0_lt_compat; lra).
    assert (C : near (fun t => forall b, (b < M)%nat -> forall j, (j < N)%nat -> Rabs (wt t b j - wt 0 b j) < / (2 * (K + 1)))).
    { apply near_all. intros b Hb. apply near_all. intros j Hj. apply (deriv_cont0 (fun t => wt t b j) _ (wt_deriv b j Hb Hj)). exact PE. }
    revert C. apply near_imp. intros t C c H k Hk.
    destruct (to_basis p n Hn lk (look_all p n Hn) Rs WF NZ c N (Nat.le_refl N)) as (e & E & EZ). apply EZ; [|exact Hk]. clear k Hk. intros k Hk.
    assert (Z0 : forall b, (b < M)%nat -> rsum N (fun j => wt t b j * e j) = 0).
    { intros b Hb. assert (Lb : length (mv (line us ds t) (nth b X [])) = n) by (rewrite mv_length, line_len by auto; reflexivity).
      rewrite (rsum_ext N _ (fun j => e j * wval p n lk Rs (mv (line us ds t) (nth b X [])) j)) by (intros; unfold wt; ring). rewrite <- E by auto. apply (H (mv (line us ds t) (nth b X []))). apply in_map. apply nth_In. auto. }
    assert (B := coef_bound M N (fun b j => ent Q j b) (ent Q) (vget (repeat 1 N)) (ent (eye N)) (fun _ => 0) YO ZC VE SN (wt t) e (fun _ => 0) (/ (2 * (K + 1)))).
    assert (S0 : rsum N (fun j => Rabs (e j)) <= 0).
    { eapply Rle_trans; [apply B|].
      - intros b Hb. rewrite Z0 by auto. ring.
      - intros j Hj. apply rsum_zero. intros; ring.
      - lra.
      - fold K. apply Rmult_le_reg_r with (2 * (K + 1)); [lra|]. rewrite Rmult_assoc, Rinv_l by lra. lra.
      - intros b j Hb Hj. rewrite <- wt_0 by auto. left. apply C; auto.
      - rewrite (rsum_zero M (fun b => 0 * 0)) by (intros; ring). rewrite sqrt_0. right. ring. }
    assert (T := rsum_term N k (fun j => Rabs (e j)) (fun i _ => Rabs_pos (e i)) Hk). cbv beta in T. assert (A := Rabs_pos (e k)). destruct (Req_dec (e k) 0) as [|NZk]; auto. apply Rabs_no_R0 in NZk. lra.
  Qed.
  Theorem va_derivative : forall a, (a < M)%nat ->
    derivable_pt_lim (fun t => match va_residual p (line us ds t) X f with Some r => vget r a | None => 0 end) 0 (vget (lincomb M (vjac p m us X f Q Rs) (flat m ds)) a).
  Proof.
    intros a Ha. pose proof FR as (_ & WF & LQ & FQ & OR & NZ & _). destruct svdQ as (YO & ZR & ZC & VE & SN). assert (ML : length Y = M) by (unfold Y; apply map_length).
    pose proof (vjac_dir p m us X f Hn NE Lf Q Rs FR ds a Ld Ha) as JD. fold n idx N M Y in JD. rewrite JD. clear JD.
    assert (LfY : length f = length Y) by lia. assert (FY : Forall (fun y => length y = n) Y) by apply Y_F.
    refine (vp_derivative M N (fun b j => ent Q j b) (ent Q) (vget (repeat 1 N)) (ent (eye N)) (vget f) (vget (mv Q f)) (vget (fres Y f Q)) YO ZR ZC VE SN _ _ (dirV p m us X Q Rs ds) wt
      (fun t b => match va_residual p (line us ds t) X f with Some r => vget r b | None => 0 end) a Ha _ _ _).
    - intros b Hb. rewrite (fres_get p n Y f Hn LfY Q Rs FR) by lia. f_equal. apply rsum_ext. intros k Hk. rewrite mv_get by (rewrite LQ; auto). reflexivity.
    - intros j Hj. rewrite <- ML. apply (fres_perp p n Y f Hn LfY Q Rs FR j Hj).
    - intros b j Hb Hj. apply wt_0; auto.
    - intros b j Hb Hj. apply wt_deriv; auto.
    - generalize uni_near. apply near_imp. intros t U. assert (LL : length (line us ds t) = n) by (apply line_len; auto).
      destruct (va_lsres p (line us ds t) X f) as (r & Er & (Lr & [c C] & PE)); [rewrite LL; auto|auto|auto|rewrite LL; auto|]. rewrite LL in *. rewrite Er. rewrite map_length in *. fold M in Lr, C, PE.
      destruct (to_basis p n Hn lk (look_all p n Hn) Rs WF NZ c N (Nat.le_refl N)) as (e & E & _). exists e.
      assert (YN : forall b, (b < M)%nat -> nth b (map (mv (line us ds t)) X) [] = mv (line us ds t) (nth b X [])) by (intros b Hb; apply (Y_nth (line us ds t) X b Hb)).
      assert (Lb : forall b, length (mv (line us ds t) (nth b X [])) = n) by (intro b; rewrite mv_length; auto). split.
      + intros b Hb. rewrite C by auto. f_equal. rewrite YN by auto. unfold poly_of. fold idx N. rewrite E by auto. apply rsum_ext. intros k Hk. unfold wt. ring.
      + intros j Hj. destruct (from_basis p n Hn lk (look_all p n Hn) Rs WF NZ (fun k => kron j k) N (Nat.le_refl N)) as [q Hq].
        rewrite <- (PE q). apply rsum_ext. intros b Hb. f_equal. rewrite YN by auto. unfold poly_of. fold idx N. rewrite <- Hq by auto. symmetry. unfold wt. apply (kron_sum N j (fun k => wval p n lk Rs (mv (line us ds t) (nth b X [])) k)); auto.
  Qed.
End DER.
