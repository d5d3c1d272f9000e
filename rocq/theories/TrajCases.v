(** Concrete cases for the trajectories. *)
Require Import Reals Lra Lia List Bool Arith.
From Verif Require Import RVec Num Sums DomModel SweepProofs HullProofs MatLib SpecProofs GrassLib LipModel SubModel DomMoreModel RidgeModel TrajProofs.
Import ListNotations.
Local Open Scope R_scope.

(** a QR factorization of an orthonormal matrix *)
Lemma qr_self : forall m us, Forall (fun u => length u = m) us -> orthonormal us -> qr_post m us us (map (unitv (length us)) (seq 0 (length us))).
Proof.
  intros m us FU OU. split; auto. split; auto. split; auto. split; [rewrite map_length, seq_length; auto|]. intros j Hj. rewrite nth_map_seq by auto. split; [apply unitv_len|]. split.
  - rewrite (lincomb_one m us (unitv (length us) j) j); auto.
    + rewrite unitv_get by auto. rewrite Nat.eqb_refl. apply vec_ext; [rewrite vscale_length; auto|]. intros i Hi. rewrite vscale_get. ring.
    + apply unitv_len.
    + intros i Hi Ni. rewrite unitv_get by auto. destruct (Nat.eqb_spec i j); [congruence|auto].
  - intros i Hi. destruct (lt_dec i (length us)) as [L|L]; [rewrite unitv_get by auto; destruct (Nat.eqb_spec i j); [lia|auto]|rewrite (vget_over (unitv (length us) j)) by (rewrite unitv_len; lia); auto].
Qed.
Definition tu : list vec := [[1; 0; 0]; [0; 1; 0]].
Definition td : list vec := [[0; 0; 0]; [0; 0; 1]].
Definition tsvd (_ : list vec) : list vec * vec * list vec := ([[0; 0; 1]; [1; 0; 0]], [1; 0], [[0; 1]; [1; 0]]).
Ltac two a := destruct a as [|[|a]]; [| |exfalso; cbn in *; lia].
Ltac orth2 := let a := fresh in let b := fresh in intros a b ? ?; two a; two b; cbn; rewrite !dot_cons, !dot_nil_l; lra.
Lemma tpre : traj_pre 3 tu td.
Proof. split; [repeat constructor|]. split; [orth2|]. split; auto. intros u d Iu Id. destruct Iu as [<-|[<-|[]]]; destruct Id as [<-|[<-|[]]]; rewrite !dot_cons, !dot_nil_l; lra. Qed.
Lemma tsvd_good : svd_good tsvd 3 td.
Proof. unfold svd_good, tsvd. split; auto. split; [repeat constructor|]. split; [orth2|]. split; auto. split; [split; auto; split; [repeat constructor|orth2]|]. intros c Hc. two c; unfold lincomb; cbn; unfold vget; cbn; repeat (apply f_equal2; [lra|]); reflexivity. Qed.
(** hypotheses of traj_orthonormal and traj_start at every t, with a step that moves the subspace *)
Example traj_case : traj_pre 3 tu td /\ svd_good tsvd 3 td /\ (forall t, exists qr : list vec -> list vec * mat, qr_post 3 (pv_traj tsvd 3 tu td t) (fst (qr (pv_traj tsvd 3 tu td t))) (snd (qr (pv_traj tsvd 3 tu td t)))) /\
  projector (pv_traj tsvd 3 tu td 1) 2 2 <> projector tu 2 2.
Proof.
  split; [apply tpre|]. split; [apply tsvd_good|]. split.
  - intro t. exists (fun us => (us, map (unitv (length us)) (seq 0 (length us)))). cbn [fst snd].
    pose proof tpre as [FU [OU [LD TG]]]. pose proof tsvd_good as SG. unfold svd_good, tsvd in SG. apply qr_self; unfold pv_traj, tsvd; [apply (geo_rows 3 tu td); auto|apply (geo_orthonormal 3 tu td); auto].
  - unfold projector, pv_traj, tsvd, geo_cols, tu, lincomb. cbn. unfold vget. cbn. rewrite !Rmult_0_l, !Rmult_1_l. rewrite sin_0. assert (0 < sin 1) by (apply sin_gt_0; [lra|pose proof PI2_1; unfold PI2 in *; lra]). nra.
Qed.
(** the trajectory does not return U itself at t = 0, only another basis of its span *)
Theorem traj_matrix_refuted : exists svd m us ds, traj_pre m us ds /\ svd_good svd m ds /\ pv_traj svd m us ds 0 <> us /\
  forall qr, qr_post m (pv_traj svd m us ds 0) (fst (qr (pv_traj svd m us ds 0))) (snd (qr (pv_traj svd m us ds 0))) -> pr_traj qr svd m us ds 0 <> us.
Proof.
  exists tsvd, 3%nat, tu, td. split; [apply tpre|]. split; [apply tsvd_good|].
  assert (NE : pv_traj tsvd 3 tu td 0 <> tu).
  { intro E. apply (f_equal (fun l => vget (nth 0 l []) 0)) in E. revert E. unfold pv_traj, tsvd, geo_cols, tu, lincomb. cbn. unfold vget. cbn. rewrite !Rmult_0_r, ?sin_0, ?cos_0. lra. }
  split; auto. intros qr Q. destruct (traj_orthonormal qr tsvd 3 tu td 0 tpre tsvd_good Q) as [-> _]. auto.
Qed.
(** hypotheses of orth_full_rank and alt_traj_orthonormal: a basis that is not orthonormal, a step that is not horizontal *)
Definition au : list vec := [[1; 0; 0]; [1; 1; 0]].
Definition aqr (_ : list vec) : list vec * mat := ([[1; 0; 0]; [0; 1; 0]], [[1; 0]; [1; 1]]).
Definition ad : list vec := [[0; 0; 1]; [1; 0; 0]].
Definition asvd (_ : list vec) : list vec * vec * list vec := ([[0; 0; 1]; [1; 0; 0]], [1; 0], [[1; 0]; [0; 1]]).
Example alt_case : independent 3 au /\ ~ orthonormal au /\ qr_post 3 au (fst (aqr au)) (snd (aqr au)) /\ length ad = length au /\ Forall (fun d : vec => length d = 3%nat) ad /\ svd_good asvd 3 (horiz 3 (orth aqr au) ad) /\ horiz 3 (orth aqr au) ad <> ad.
Proof.
  split; [|split; [|split; [|split; [|split; [|]]]]].
  - intros c Lc E. destruct c as [|a [|b [|]]]; try discriminate Lc. unfold lincomb, vzero in E. cbn in E. injection E. intros. unfold vzero. cbn. apply f_equal2; [lra|]. apply f_equal2; [lra|auto].
  - intro H. specialize (H 0%nat 1%nat ltac:(cbn; lia) ltac:(cbn; lia)). cbn in H. rewrite !dot_cons, !dot_nil_l in H. lra.
  - unfold aqr. cbn [fst snd]. split; auto. split; [repeat constructor|]. split; [orth2|]. split; auto. intros j Hj. two j; (split; [auto|]); (split; [unfold lincomb; cbn; repeat (apply f_equal2; [lra|]); reflexivity|]); intros i Hi; destruct i as [|[|[|i]]]; try lia; reflexivity.
  - auto.
  - repeat constructor.
  - assert (EH : horiz 3 (orth aqr au) ad = [[0; 0; 1]; [0; 0; 0]]).
    { unfold horiz, orth, aqr, scale_cols, ad. cbn. unfold vget. cbn. rewrite (sgn_unit 1) by ring. unfold mv, lincomb, vscale. cbn. rewrite ?dot_cons, ?dot_nil_l. unfold vsub. cbn. repeat (apply f_equal2; [repeat (apply f_equal2; [lra|]); reflexivity|]). reflexivity. }
    rewrite EH. split; [|unfold ad; intro E; injection E; lra]. unfold svd_good, asvd. split; auto. split; [repeat constructor|]. split; [orth2|]. split; auto. split; [split; auto; split; [repeat constructor|orth2]|]. intros c Hc. two c; unfold lincomb; cbn; unfold vget; cbn; repeat (apply f_equal2; [lra|]); reflexivity.
Qed.
