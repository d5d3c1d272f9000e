(** What the designs of sample/projection.py are: one point of the domain in each selected cell, for every metric. *)
Require Import Reals Lra Lia List Bool Arith ZArith Permutation.
From Verif Require Import RVec Num Sums DomModel DomSpec DomProofs DomOpsProofs DomMoreModel SweepProofs HullProofs PartialProofs MatLib LipModel LipProofs GeoModel GeoProofs SampModel LatinProofs BlockProofs ProjSatProofs SampMoreModel ProjModel ProjCellProofs ProjLineProofs ProjLhsProofs ProjSearch ProjSampleLoop ProjDesignLoop ProjCases.
Import ListNotations.
Local Open Scope R_scope.

(** ** projection_design *)
(** contract of is_empty / constrained_least_squares on the cells *)
Definition cell_of (d : dom) (Ls Ys : list mat) (c : list nat) (x : vec) : Prop := exists r, vc_rows (dim d) Ls Ys c = Some r /\ member (with_rows d r) x.
Definition cell_oracles (d : dom) (Ls Ys : list mat) (K M : nat) (empty : list nat -> bool) (pt : list nat -> vec) : Prop :=
  forall c, tuple_ok K M c -> (empty c = true <-> ~ exists x, cell_of d Ls Ys c x) /\
    (empty c = false -> cell_of d Ls Ys c (pt c) /\ forall z, cell_of d Ls Ys c z -> edist (mv (concat Ls) (pt c)) (vc_target Ys c) <= edist (mv (concat Ls) z) (vc_target Ys c)).
Lemma vc_rows_len : forall m Ls Ys c r, (forall i, (i < length Ls)%nat -> Forall (fun a => length a = m) (nth i Ls [])) -> length Ys = length Ls -> vc_rows m Ls Ys c = Some r -> Forall (fun q => length (fst q) = m) r.
Proof.
  intros m Ls Ys c r HL EY E. unfold vc_rows in E. set (f := flat_map _ _) in E. assert (F : Forall (fun q => length (fst q) = m) f).
  { apply Forall_forall. intros q I. unfold f in I. apply in_flat_map in I. destruct I as [i [Ii I]]. apply in_seq in Ii. rewrite EY, Nat.min_id in Ii. unfold vc_rows1 in I. apply in_flat_map in I. destruct I as [k [_ I]]. destruct (Nat.eqb _ k); [destruct I|]. destruct I as [<-|[]]. unfold vc_row. cbn [fst]. apply lincomb_length. apply HL. lia. }
  destruct f; [discriminate|]. injection E as <-. exact F.
Qed.
Theorem cell_of_iff : forall d M Ls Ys c x, dom_wf d -> proper d -> (1 <= length Ls)%nat -> (2 <= M)%nat -> vc_shapes (dim d) M Ls Ys c ->
  (cell_of d Ls Ys c x <-> member d x /\ forall i, (i < length Ls)%nat -> as_near (mv (nth i Ls []) x) (nth (nth i c O) (nth i Ys []) []) (nth i Ys [])).
Proof.
  intros d M Ls Ys c x W P HK HM HS. destruct (vc_rows_spec (dim d) M Ls Ys c HK HM HS) as [r [E H]]. assert (F : Forall (fun q => length (fst q) = dim d) r).
  { apply (vc_rows_len (dim d) Ls Ys c); auto; [intros i Hi; apply HS; auto|apply HS]. }
  unfold cell_of. split.
  - intros [r' [E' Q]]. rewrite E in E'. injection E' as <-. apply with_rows_member in Q; auto. destruct Q as [Q1 Q2]. split; auto. apply H. auto.
  - intros [Q1 Q2]. exists r. split; auto. apply with_rows_member; auto. split; auto. apply H. auto.
Qed.
Definition shapes (m M : nat) (Ls Ys : list mat) : Prop := length Ys = length Ls /\ forall i, (i < length Ls)%nat -> Forall (fun r => length r = m) (nth i Ls []) /\ length (nth i Ys []) = M /\
  Forall (fun y => length y = length (nth i Ls [])) (nth i Ys []).
(** the returned design: for every metric the projected samples are assigned one to one to the given points, and each one is
    nearest to its point among all given points *)
Theorem design_projects : forall d Ls Ys M maxiter use empty pt ord solve fuel s X, dom_wf d -> proper d -> (1 <= length Ls)%nat -> (2 <= M)%nat -> shapes (dim d) M Ls Ys ->
  let K := length Ls in cell_oracles d Ls Ys K M empty pt -> solver_ok K M solve ->
  pd_run fuel K M maxiter use empty pt ord solve = DReturn s -> dt_best s = Some X ->
  length X = M /\ exists p, perms_family K M p /\ forall o, (o < M)%nat -> member d (nth o X []) /\
    forall i, (i < K)%nat -> as_near (mv (nth i Ls []) (nth o X [])) (nth (p i o) (nth i Ys []) []) (nth i Ys []).
Proof.
  intros d Ls Ys M maxiter use empty pt ord solve fuel s X W P HK HM [EY SH] K OR HS E EB. destruct (design_best K M maxiter use empty pt ord solve fuel s HK HS E) as [_ B]. destruct (B X EB) as [p [HP [FE [EX _]]]].
  split; [rewrite EX; unfold cols; rewrite !map_length, seq_length; auto|]. exists p. split; auto. intros o Ho. set (c := map (fun m => p m o) (seq 0 K)).
  assert (IC : In c (cols K M p)) by (apply cols_in; exists o; auto). assert (EO : nth o X [] = pt c).
  { rewrite EX. rewrite nth_indep with (d' := pt []) by (unfold cols; rewrite !map_length, seq_length; auto). rewrite map_nth. f_equal. unfold cols. rewrite nth_indep with (d' := (fun o => map (fun m => p m o) (seq 0 K)) O) by (rewrite map_length, seq_length; auto).
    rewrite (map_nth (fun o => map (fun m => p m o) (seq 0 K))), seq_nth by auto. reflexivity. }
  pose proof (cols_tuple K M p c HP IC) as TC. destruct (OR c TC) as [_ O2]. destruct (O2 (FE c IC)) as [O3 _].
  apply (cell_of_iff d M) in O3; auto.
  - rewrite EO. destruct O3 as [O3 O4]. split; auto. intros i Hi. specialize (O4 i Hi). unfold c in O4 at 2. rewrite (col_nth K (fun m => p m o)) in O4 by auto. exact O4.
  - split; auto. split; [apply TC|]. intros i Hi. destruct (SH i Hi) as [A [B' C]]. repeat (split; auto). apply (tuple_nth K); auto.
Qed.
(** given points far from the domain: no combination with the far point has a point, so the search never ends *)
Definition far_dom : dom := box_of [0; 0] [1; 1].
Definition far_Ls : list mat := [[[1; 0]]; [[0; 1]]].
Definition far_Ys : list mat := [[[0]; [1]]; [[0]; [10]]].
Lemma far_shapes : shapes 2 2 far_Ls far_Ys.
Proof. split; [reflexivity|]. intros [|[|i]] Hi; [| |cbn in Hi; lia]; cbn; repeat constructor. Qed.
Lemma far_dom_ok : dom_wf far_dom /\ proper far_dom.
Proof. split; [|split; repeat constructor]. unfold far_dom, box_of, dom_wf. cbn. repeat split; auto; try constructor; intros; try discriminate. Qed.
Theorem design_far_hangs : forall use empty pt ord solve maxiter, cell_oracles far_dom far_Ls far_Ys 2 2 empty pt -> solver_ok 2 2 solve -> (0 < maxiter)%nat ->
  forall fuel, pd_run fuel 2 2 maxiter use empty pt ord solve = DRunning.
Proof.
  intros use empty pt ord solve maxiter OR HS HM fuel. apply design_infeasible_hangs; auto. intros p HP FE.
  assert (C : exists v, (v < 2)%nat /\ In [v; 1%nat] (cols 2 2 p)) by (destruct (family22 p HP) as [Q|Q]; rewrite Q; [exists 1%nat|exists O]; (split; [lia|simpl; tauto])).
  destruct C as [v [Hv I]]. pose proof (FE _ I) as EM. assert (T : tuple_ok 2 2 [v; 1%nat]) by (split; [reflexivity|apply Forall_cons; [lia|apply Forall_cons; [lia|constructor]]]). destruct (OR _ T) as [_ O2]. destruct (O2 EM) as [O3 _].
  destruct far_dom_ok as [W P]. apply (cell_of_iff far_dom 2) in O3; auto; [|cbn; lia|].
  - destruct O3 as [[LX [BD _]] NR]. specialize (NR 1%nat ltac:(cbn; lia)). cbn [nth far_Ls far_Ys] in NR. specialize (NR [0] ltac:(left; auto)). unfold far_dom in LX. cbn in LX. set (x := pt [v; 1%nat]) in *. destruct x as [|x0 [|x1 [|x2 x]]]; try discriminate.
    unfold mv in NR. cbn [map] in NR. rewrite !edist1 in NR. rewrite !dot_cons, !dot_nil_l in NR. destruct (BD 1%nat) as [_ B2]. specialize (B2 1 eq_refl). cbn in B2. apply near_mid in NR. nra.
  - split; [reflexivity|]. split; [reflexivity|]. intros i Hi. destruct (proj2 far_shapes i Hi) as [A [B C]]. repeat (split; auto). apply (tuple_nth 2); auto.
Qed.

(** ** projection_sample *)
(** a property of each row is kept by the sweeps *)
Lemma pf_row_keep : forall (Q : nat -> vec -> Prop) vv N s i, (forall j Xt x, (j < N)%nat -> Q j (vv j Xt x)) -> length (fst s) = N -> (i < N)%nat ->
  (forall j, (j < N)%nat -> Q j (nth j (fst s) [])) -> length (fst (pf_row vv s i)) = N /\ forall j, (j < N)%nat -> Q j (nth j (fst (pf_row vv s i)) []).
Proof.
  intros Q vv N s i HV L Hi H. unfold pf_row. cbn [fst]. split; [rewrite set_row_len; lia|]. intros j Hj. rewrite set_row_nth by lia. destruct (Nat.eqb_spec j i) as [->|]; auto.
Qed.
Lemma pf_sweep_keep : forall (Q : nat -> vec -> Prop) vv N X, (forall j Xt x, (j < N)%nat -> Q j (vv j Xt x)) -> length X = N -> (forall j, (j < N)%nat -> Q j (nth j X [])) ->
  length (fst (pf_sweep vv N X)) = N /\ forall j, (j < N)%nat -> Q j (nth j (fst (pf_sweep vv N X)) []).
Proof.
  intros Q vv N X HV L H. unfold pf_sweep. assert (G : forall n, (n <= N)%nat -> let r := fold_left (pf_row vv) (seq 0 n) (X, 0) in length (fst r) = N /\ forall j, (j < N)%nat -> Q j (nth j (fst r) [])).
  { induction n as [|n IH]; intro Hn; cbn zeta; [cbn; auto|]. rewrite seq_S, fold_left_app. cbn [fold_left]. destruct IH as [A B]; [lia|]. apply pf_row_keep; auto. }
  apply G. lia.
Qed.
Lemma pf_loop_keep : forall (Q : nat -> vec -> Prop) vv N n X, (forall j Xt x, (j < N)%nat -> Q j (vv j Xt x)) -> length X = N -> (forall j, (j < N)%nat -> Q j (nth j X [])) ->
  length (pf_loop n vv N X) = N /\ forall j, (j < N)%nat -> Q j (nth j (pf_loop n vv N X) []).
Proof.
  induction n as [|n IH]; intros X HV L H; cbn [pf_loop]; auto. destruct (pf_sweep_keep Q vv N X HV L H) as [A B]. destruct (Rltb _ _); auto.
Qed.
(** contracts: the least squares point lies in the subdomain; the filled-in points lie there too and have the same projections *)
Definition sub_of (d : dom) (cells : list (list rows)) (c : list nat) (x : vec) : Prop := member (with_rows d (ps_rows cells c)) x.
Definition sample_oracles (d : dom) (Lall : mat) (cells : list (list rows)) (K N : nat) (empty : list nat -> bool) (pt : list nat -> vec) (smp : list nat -> vec -> vec) (vv : list nat -> vec -> mat -> vec -> vec) : Prop :=
  forall c, tuple_ok K N c -> (empty c = true <-> ~ exists x, sub_of d cells c x) /\
    (empty c = false -> sub_of d cells c (pt c) /\ (sub_of d cells c (smp c (pt c)) /\ mv Lall (smp c (pt c)) = mv Lall (pt c)) /\
       forall Xt x, sub_of d cells c (vv c (pt c) Xt x) /\ mv Lall (vv c (pt c) Xt x) = mv Lall (pt c)).
Theorem ps_design_rows : forall d Lall cells K N empty pt smp vv fill C, sample_oracles d Lall cells K N empty pt smp vv -> length C = N -> (forall c, In c C -> tuple_ok K N c) -> feasible empty C ->
  length (ps_design fill pt smp vv C) = N /\ forall o, (o < N)%nat -> sub_of d cells (nth o C []) (nth o (ps_design fill pt smp vv C) []) /\ mv Lall (nth o (ps_design fill pt smp vv C) []) = mv Lall (pt (nth o C [])).
Proof.
  intros d Lall cells K N empty pt smp vv fill C OR LC TC FE.
  assert (O : forall o, (o < N)%nat -> let c := nth o C [] in sub_of d cells c (pt c) /\ (sub_of d cells c (smp c (pt c)) /\ mv Lall (smp c (pt c)) = mv Lall (pt c)) /\ forall Xt x, sub_of d cells c (vv c (pt c) Xt x) /\ mv Lall (vv c (pt c) Xt x) = mv Lall (pt c)).
  { intros o Ho c. assert (I : In c C) by (apply nth_In; lia). destruct (OR c (TC c I)) as [_ Q]. apply Q. apply FE. auto. }
  assert (PN : forall o, (o < N)%nat -> nth o (map pt C) [] = pt (nth o C [])) by (intros o Ho; rewrite nth_indep with (d' := pt []) by (rewrite map_length; lia); apply map_nth).
  unfold ps_design. destruct fill.
  - rewrite LC. apply (pf_loop_keep (fun o x => sub_of d cells (nth o C []) x /\ mv Lall x = mv Lall (pt (nth o C [])))).
    + intros j Xt x Hj. rewrite PN by auto. apply O; auto.
    + rewrite map_length. auto.
    + intros j Hj. rewrite nth_indep with (d' := (fun c => smp c (pt c)) []) by (rewrite map_length; lia). rewrite (map_nth (fun c => smp c (pt c))). apply O; auto.
  - split; [rewrite map_length; auto|]. intros o Ho. rewrite PN by auto. split; [apply O; auto|reflexivity].
Qed.
(** metrics of one row each, with the cells as built *)
Definition line_metrics (d : dom) (N : nat) (ls : list vec) (Xs : list mat) (Is : list (list nat)) (cells : list (list rows)) (tol : R) : Prop :=
  length Xs = length ls /\ length cells = length ls /\ forall i, (i < length ls)%nat ->
    length (nth i ls []) = dim d /\ length (nth i Xs []) = N /\ Forall (fun r => length r = dim d) (nth i Xs []) /\
    sorts (nth i Is []) (yv (nth i ls []) (nth i Xs [])) N /\ ps_metric d [nth i ls []] (nth i Xs []) (nth i Is []) tol = Some (nth i cells []).
Lemma ps_rows_holds : forall cells c x, holds (ps_rows cells c) x <-> forall i, (i < length cells)%nat -> holds (nth (nth i c O) (nth i cells []) []) x.
Proof.
  intros cells c x. unfold holds, ps_rows. split.
  - intros H i Hi a b I. apply H. apply in_concat. exists (nth (nth i c O) (nth i cells []) []). split; auto. apply in_map_iff. exists i. split; auto. apply in_seq. lia.
  - intros H a b I. apply in_concat in I. destruct I as [l [Il I]]. apply in_map_iff in Il. destruct Il as [i [<- Ii]]. apply in_seq in Ii. apply (H i); auto. lia.
Qed.
Theorem sub_of_iff : forall d N ls Xs Is cells tol c x, dom_wf d -> proper d -> dcls d <> Point -> (2 <= N)%nat -> 0 <= tol -> line_metrics d N ls Xs Is cells tol -> tuple_ok (length ls) N c ->
  (sub_of d cells c x <-> member d x /\ forall i k, (i < length ls)%nat -> (k < N)%nat ->
     Rabs (dot (nth i ls []) x - dot (nth i ls []) (nth (nth i c O) (nth i Xs []) [])) <= Rabs (dot (nth i ls []) x - dot (nth i ls []) (nth k (nth i Xs []) []))).
Proof.
  intros d N ls Xs Is cells tol c x W P NP HN Ht [EX [EC LM]] TC. 
  assert (CELL : forall i, (i < length ls)%nat -> (forall j, (j < N)%nat -> Forall (fun r => length (fst r) = dim d) (nth j (nth i cells []) [])) /\ forall j x, (j < N)%nat ->
     (holds (nth j (nth i cells []) []) x <-> forall k, (k < N)%nat -> Rabs (dot (nth i ls []) x - dot (nth i ls []) (nth j (nth i Xs []) [])) <= Rabs (dot (nth i ls []) x - dot (nth i ls []) (nth k (nth i Xs []) [])))).
  { intros i Hi. destruct (LM i Hi) as [L1 [L2 [L3 [L4 L5]]]]. set (l := nth i ls []) in *. set (X := nth i Xs []) in *. set (I := nth i Is []) in *. rewrite <- L2 in L4, HN.
    assert (NN : ps_metric d [l] X I tol <> None) by congruence. pose proof NN as AS. apply asserts_iff in AS; auto. destruct AS as [_ AS].
    assert (EC2 : ps_cells (dim d) [l] X I = Some (nth i cells [])). { unfold ps_metric in L5. destruct (ps_cells (dim d) [l] X I); [|discriminate]. destruct (forallb _ _); [congruence|discriminate]. }
    destruct (perm_facts _ _ (proj1 L4)) as [_ [B [IJ SJ]]]. split.
    - intros j Hj. destruct (cells_get _ l X I L1 HN L4) as [cs [E [LC G]]]. rewrite E in EC2. injection EC2 as <-. destruct (SJ j ltac:(lia)) as [a [Ha <-]]. rewrite G by auto. apply ps_cell_len. auto.
    - destruct (line_cells (dim d) l X I L1 L3 HN L4) as [cs [E [LC H]]].
      + assert (ST : forall a b, (a < b < length X)%nat -> yv l X (nth a I O) < yv l X (nth b I O)).
        { intros a b [Ha Hb]. pose proof (sorted_le _ l X I L1 HN L4) as SL. pose proof (SL a (S a) ltac:(lia)). pose proof (SL (S a) b ltac:(lia)). specialize (AS a ltac:(lia)). assert (yv l X (nth a I O) <> yv l X (nth (S a) I O)) by (intro Q; rewrite Q in AS; nra). lra. }
        intros j k Hj Hk Q. destruct (SJ j Hj) as [a [Ha <-]]. destruct (SJ k Hk) as [b [Hb <-]]. destruct (lt_eq_lt_dec a b) as [[C|C]|C]; [|congruence|]; [pose proof (ST a b ltac:(lia))|pose proof (ST b a ltac:(lia))]; lra.
      + rewrite E in EC2. injection EC2 as <-. intros j y Hj. rewrite H by lia. rewrite L2. reflexivity. }
  assert (FR : Forall (fun r => length (fst r) = dim d) (ps_rows cells c)).
  { apply Forall_forall. intros r Ir. unfold ps_rows in Ir. apply in_concat in Ir. destruct Ir as [l [Il Ir]]. apply in_map_iff in Il. destruct Il as [i [<- Ii]]. apply in_seq in Ii. assert (Hi : (i < length ls)%nat) by lia. destruct (CELL i Hi) as [F _]. specialize (F (nth i c O) (tuple_nth _ _ _ _ TC Hi)). rewrite Forall_forall in F. auto. }
  unfold sub_of. rewrite with_rows_member by auto. rewrite ps_rows_holds, EC. split; intros [A B]; (split; [auto|]).
  - intros i k Hi Hk. destruct (CELL i Hi) as [_ F]. apply (F (nth i c O) x (tuple_nth _ _ _ _ TC Hi)); auto.
  - intros i Hi. destruct (CELL i Hi) as [_ F]. apply (F (nth i c O) x (tuple_nth _ _ _ _ TC Hi)). auto.
Qed.
(** the returned sample: for every metric the samples are assigned one to one to the one-dimensional points, each nearest to its own *)
Theorem sample_projects : forall d N ls Xs Is cells tol maxiter empty pt smp vv fill ord solve fuel s X, dom_wf d -> proper d -> dcls d <> Point -> (1 <= length ls)%nat -> (2 <= N)%nat -> 0 <= tol ->
  line_metrics d N ls Xs Is cells tol -> let K := length ls in sample_oracles d ls cells K N empty pt smp vv -> solver_ok K N solve ->
  ps_run fuel K N maxiter empty (ps_design fill pt smp vv) ord solve = PReturn s -> st_best s = Some X ->
  length X = N /\ exists p, perms_family K N p /\ forall o, (o < N)%nat -> member d (nth o X []) /\ forall i k, (i < K)%nat -> (k < N)%nat ->
     Rabs (dot (nth i ls []) (nth o X []) - dot (nth i ls []) (nth (p i o) (nth i Xs []) [])) <= Rabs (dot (nth i ls []) (nth o X []) - dot (nth i ls []) (nth k (nth i Xs []) [])).
Proof.
  intros d N ls Xs Is cells tol maxiter empty pt smp vv fill ord solve fuel s X W P NP HK HN Ht LM K OR HS E EB.
  destruct (sample_best K N maxiter empty (ps_design fill pt smp vv) ord solve fuel s HK HS E) as [B _]. destruct (B X EB) as [p [HP [FE [EX _]]]].
  assert (LC : length (cols K N p) = N) by (unfold cols; rewrite map_length, seq_length; auto).
  destruct (ps_design_rows d ls cells K N empty pt smp vv fill (cols K N p) OR LC (fun c => cols_tuple K N p c HP) FE) as [LX R]. rewrite <- EX in LX, R. split; auto. exists p. split; auto. intros o Ho.
  assert (EO : nth o (cols K N p) [] = map (fun m => p m o) (seq 0 K)).
  { unfold cols. rewrite nth_indep with (d' := (fun o => map (fun m => p m o) (seq 0 K)) O) by (rewrite map_length, seq_length; auto). rewrite (map_nth (fun o => map (fun m => p m o) (seq 0 K))), seq_nth by auto. reflexivity. }
  destruct (R o Ho) as [SUB _]. rewrite EO in SUB. apply (sub_of_iff d N ls Xs Is cells tol) in SUB; auto.
  - destruct SUB as [A B']. split; auto. intros i k Hi Hk. specialize (B' i k Hi Hk). rewrite (col_nth K (fun m => p m o)) in B' by auto. exact B'.
  - apply (cols_tuple K N p); auto. apply cols_in. exists o. auto.
Qed.
(** Latin hypercube variant: in every coordinate direction each of the N equal slices of the extent holds a sample *)
Theorem sample_latin : forall d N ls c1s c2s Is cells tol maxiter empty pt smp vv fill ord solve fuel s X, dom_wf d -> proper d -> dcls d <> Point -> (1 <= length ls)%nat -> (2 <= N)%nat -> 0 <= tol ->
  line_metrics d N ls (map (fun i => lhs_points (nth i ls []) (nth i c1s []) (nth i c2s []) N) (seq 0 (length ls))) Is cells tol ->
  (forall i, (i < length ls)%nat -> dot (nth i ls []) (nth i ls []) = 1 /\ forall x, member d x -> lhs_lo (nth i ls []) (nth i c1s []) (nth i c2s []) <= dot (nth i ls []) x <= lhs_hi (nth i ls []) (nth i c1s []) (nth i c2s [])) ->
  let K := length ls in sample_oracles d ls cells K N empty pt smp vv -> solver_ok K N solve ->
  ps_run fuel K N maxiter empty (ps_design fill pt smp vv) ord solve = PReturn s -> st_best s = Some X ->
  length X = N /\ forall i v, (i < K)%nat -> (v < N)%nat -> let lo := lhs_lo (nth i ls []) (nth i c1s []) (nth i c2s []) in let h := (lhs_hi (nth i ls []) (nth i c1s []) (nth i c2s []) - lo) / INR N in
    exists o, (o < N)%nat /\ lo + INR v * h <= dot (nth i ls []) (nth o X []) <= lo + INR (S v) * h /\
      forall q, (q < N)%nat -> q <> o -> ~ (lo + INR v * h < dot (nth i ls []) (nth q X []) < lo + INR (S v) * h).
Proof.
  intros d N ls c1s c2s Is cells tol maxiter empty pt smp vv fill ord solve fuel s X W P NP HK HN Ht LM HU K OR HS E EB.
  destruct (sample_projects d N ls _ Is cells tol maxiter empty pt smp vv fill ord solve fuel s X W P NP HK HN Ht LM OR HS E EB) as [LX [p [HP HX]]]. split; auto. intros i v Hi Hv lo h.
  destruct LM as [_ [_ LM]]. destruct (LM i Hi) as [L1 [L2 [L3 [L4 L5]]]]. rewrite nth_map_seq in * by auto. destruct (HU i Hi) as [U1 U2]. set (l := nth i ls []) in *. set (c1 := nth i c1s []) in *. set (c2 := nth i c2s []) in *.
  assert (EC2 : ps_cells (dim d) [l] (lhs_points l c1 c2 N) (nth i Is []) = Some (nth i cells [])). { unfold ps_metric in L5. destruct (ps_cells (dim d) [l] _ _); [|discriminate]. destruct (forallb _ _); [congruence|discriminate]. }
  assert (NEQ : dot l c1 <> dot l c2).
  { intro Q. assert (NN : ps_metric d [l] (lhs_points l c1 c2 N) (nth i Is []) tol <> None) by congruence. apply NN. apply lhs_narrow_raises; auto; try lia. rewrite Q. unfold Rminus. rewrite Rplus_opp_r, Rabs_R0. unfold Rdiv. rewrite Rmult_0_l. lra. }
  assert (PI : Permutation (map (p i) (seq 0 N)) (seq 0 N)) by (destruct HP as [HP _]; apply HP; auto).
  destruct (lhs_cells (dim d) l c1 c2 N (nth i Is []) L1 U1 HN NEQ L4) as [cs [E2 [_ SL]]]. rewrite E2 in EC2. injection EC2 as EC2. 
  destruct (lhs_generalized (dim d) l c1 c2 N (nth i Is []) cs (p i) (fun o => nth o X []) L1 U1 HN NEQ L4 E2 PI) with (v := v) as [o [Ho [_ [A B]]]]; auto.
  - intros o Ho. destruct (HX o Ho) as [M N0]. split; [apply U2; auto|]. destruct (line_cells (dim d) l (lhs_points l c1 c2 N) (nth i Is []) L1 L3) as [cs' [E3 [_ H3]]].
    + rewrite lhs_points_len. auto.
    + rewrite lhs_points_len. auto.
    + rewrite lhs_points_len. intros j k Hj Hk Q. rewrite !lhs_yv in Q by auto. apply INR_eq. assert (HH : lhs_lo l c1 c2 < lhs_hi l c1 c2) by (unfold lhs_lo, lhs_hi, Rmin, Rmax; destruct (Rle_dec (dot l c1) (dot l c2)); lra).
      assert (0 < (lhs_hi l c1 c2 - lhs_lo l c1 c2) / INR N) by (apply Rdiv_lt_0_compat; [lra|apply lt_0_INR; lia]). nra.
    + rewrite E2 in E3. injection E3 as <-. apply H3; [rewrite lhs_points_len; apply perm_bound; auto|]. rewrite lhs_points_len. intros k Hk. specialize (N0 i k Hi Hk). rewrite nth_map_seq in N0 by auto. exact N0.
  - exists o. auto.
Qed.
