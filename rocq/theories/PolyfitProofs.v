(** polyfitA is the least-squares polynomial and reproduces polynomials; the Arnoldi constructions break down exactly on samples that are not unisolvent. *)
Require Import Reals Lra Lia List Bool Arith ZArith.
From Verif Require Import RVec Num Sums NormProofs DomMoreModel MatLib GrassLib BasisModel IndexProofs PolyProofs ArnoldiProofs ArnoldiMoreProofs SubModel PolyfitModel.
Import ListNotations.
Local Open Scope R_scope.

(** the polynomial with coefficients c in the monomials of total degree at most p *)
Definition poly_of (p m : nat) (c : nat -> R) (x : vec) : R := rsum (length (index_set p m)) (fun k => c k * mono (nth k (index_set p m) []) x).
(** only the zero polynomial vanishes on the samples *)
Definition unisolvent (p m : nat) (X : mat) : Prop :=
  forall c, (forall x, In x X -> poly_of p m c x = 0) -> forall k, (k < length (index_set p m))%nat -> c k = 0.

Section IDX2.
Variables p m : nat.
Hypothesis Hm : (1 <= m)%nat.
Let idx := index_set p m.
Let N := length idx.
Variable lookup : nat -> list (list nat).
Hypothesis LOOK : look_ok p m lookup.
Notation wv := (wval p m lookup).
Notation mon := (fun k x => mono (nth k idx []) x).
(** monomial k is a combination of the basis functions up to k, with a nonzero last coefficient *)
Lemma spans_back_nz : forall Rs, wfR p m Rs -> (forall k, (k < N)%nat -> rdiag Rs k <> 0) -> forall k, (k < N)%nat ->
  exists d, d k <> 0 /\ forall x, length x = m -> mon k x = rsum (S k) (fun l => d l * wv Rs x l).
Proof.
  intros Rs WF NZ. induction k as [k IH] using (well_founded_induction lt_wf). intro Hk. destruct (leading p m Hm lookup LOOK Rs WF NZ k Hk) as [c [C0 C]].
  assert (EARLY : forall n, (n <= k)%nat -> exists d, forall x, length x = m -> rsum n (fun l => c l * mon l x) = rsum k (fun l => d l * wv Rs x l)).
  { induction n as [|n IHn]; intro Hn.
    - exists (fun _ => 0). intros x Lx. simpl rsum at 1. rewrite rsum_zero; auto. intros. ring.
    - destruct (IHn ltac:(lia)) as [d1 D1]. destruct (IH n ltac:(lia) ltac:(lia)) as [d2 [_ D2]].
      exists (fun l => d1 l + c n * (if Nat.leb l n then d2 l else 0)). intros x Lx. cbn [rsum]. rewrite D1, D2 by auto.
      rewrite (rsum_ext k (fun l => (d1 l + c n * _) * wv Rs x l) (fun l => d1 l * wv Rs x l + c n * ((if Nat.leb l n then d2 l else 0) * wv Rs x l))) by (intros; ring).
      rewrite rsum_plus, rsum_scal_l. do 2 f_equal. symmetry. rewrite (rsum_trunc (S n) k).
      + apply rsum_ext. intros l Hl. destruct (Nat.leb_spec l n); [auto|lia].
      + lia.
      + intros l Hl. destruct (Nat.leb_spec l n); [lia|ring]. }
  destruct (EARLY k ltac:(lia)) as [d D]. exists (fun l => if Nat.eqb l k then / c k else - (d l / c k)). split; [rewrite Nat.eqb_refl; apply Rinv_neq_0_compat; auto|]. intros x Lx. cbn [rsum]. rewrite Nat.eqb_refl.
  rewrite (rsum_ext k _ (fun l => - / c k * (d l * wv Rs x l))) by (intros l Hl; destruct (Nat.eqb_spec l k); [lia|unfold Rdiv; ring]).
  rewrite rsum_scal_l, <- D by auto. rewrite C by auto. unfold M. fold idx. cbn [rsum]. field. auto.
Qed.
(** change of coefficients, from monomials to basis functions; the last nonzero coefficient stays nonzero *)
Lemma to_basis : forall Rs, wfR p m Rs -> (forall k, (k < N)%nat -> rdiag Rs k <> 0) -> forall c n, (n <= N)%nat ->
  exists e, (forall x, length x = m -> rsum n (fun k => c k * mon k x) = rsum n (fun k => e k * wv Rs x k)) /\ ((forall k, (k < n)%nat -> e k = 0) -> forall k, (k < n)%nat -> c k = 0).
Proof.
  intros Rs WF NZ c. induction n as [|n IH]; intro Hn; [exists (fun _ => 0); split; auto; intros; lia|].
  destruct (IH ltac:(lia)) as [e [E1 E2]]. destruct (spans_back_nz Rs WF NZ n ltac:(lia)) as [d [D0 D]].
  exists (fun k => if Nat.eqb k n then c n * d n else e k + c n * d k). split.
  - intros x Lx. cbn [rsum]. rewrite E1, D by auto. rewrite Nat.eqb_refl. cbn [rsum]. rewrite (rsum_ext n (fun k => (if Nat.eqb k n then c n * d n else e k + c n * d k) * wv Rs x k) (fun k => e k * wv Rs x k + c n * (d k * wv Rs x k))) by (intros k Hk; destruct (Nat.eqb_spec k n); [lia|ring]). rewrite rsum_plus, rsum_scal_l. ring.
  - intro Z. assert (CN : c n = 0). { specialize (Z n ltac:(lia)). rewrite Nat.eqb_refl in Z. apply Rmult_integral in Z. destruct Z; [auto|contradiction]. }
    intros k Hk. destruct (Nat.eq_dec k n) as [->|NE]; auto. apply E2; [|lia]. intros j Hj. specialize (Z j ltac:(lia)). destruct (Nat.eqb_spec j n); [lia|]. rewrite CN in Z. lra.
Qed.
Lemma from_basis : forall Rs, wfR p m Rs -> (forall k, (k < N)%nat -> rdiag Rs k <> 0) -> forall e n, (n <= N)%nat ->
  exists c, forall x, length x = m -> rsum n (fun k => e k * wv Rs x k) = rsum n (fun k => c k * mon k x).
Proof.
  intros Rs WF NZ e. induction n as [|n IH]; intro Hn; [exists (fun _ => 0); auto|].
  destruct (IH ltac:(lia)) as [c C]. destruct (leading p m Hm lookup LOOK Rs WF NZ n ltac:(fold idx; fold N; lia)) as [d [_ D]].
  exists (fun k => if Nat.eqb k n then e n * d n else c k + e n * d k). intros x Lx. cbn [rsum]. rewrite C, D by auto. rewrite Nat.eqb_refl. cbn [rsum]. rewrite (rsum_ext n (fun k => (if Nat.eqb k n then e n * d n else c k + e n * d k) * mono (nth k idx []) x) (fun k => c k * mono (nth k idx []) x + e n * (d k * mono (nth k idx []) x))) by (intros k Hk; destruct (Nat.eqb_spec k n); [lia|ring]). rewrite rsum_plus, rsum_scal_l. unfold M. fold idx. ring.
Qed.

(* ---------------- breakdown ---------------- *)
Variable X : mat.
Variable w : R.
Variables (Q : list vec) (Rs : list (vec * R)).
Hypothesis XL : Forall (fun x => length x = m) X.
Hypothesis Hw : 0 < w.
Hypothesis BU : built p m lookup X w Q Rs 1.
Hypothesis INIT : nth 0 Q [] = map (fun _ => 1 / snd (nth 0 Rs ([], 0))) X /\ fst (nth 0 Rs ([], 0)) = [].
Hypothesis R0 : rdiag Rs 0 <> 0.
Hypothesis D0 : dot (nth 0 Q []) (nth 0 Q []) = w.
Lemma row_len : forall s, (s < length X)%nat -> length (nth s X []) = m.
Proof. intros s Hs. apply (proj1 (Forall_forall _ _) XL). apply nth_In. auto. Qed.
Lemma Qk_len : forall k, (k < N)%nat -> length (nth k Q []) = length X.
Proof. intros k Hk. destruct BU as [B1 [_ [B3 _]]]. apply (proj1 (Forall_forall _ _) B3). apply nth_In. unfold N in Hk. unfold idx in Hk. lia. Qed.
Lemma wv_Q : forall s k, (s < length X)%nat -> (k < N)%nat -> wv Rs (nth s X []) k = vget (nth k Q []) s.
Proof.
  intros s k Hs Hk. apply (recurrence_unique p m Hm lookup LOOK Rs (nth s X []) (wv Rs (nth s X [])) (fun k => vget (nth k Q []) s)); auto.
  - apply wval_rec; auto. exact (built_wfR p m Hm lookup LOOK X w Q Rs BU INIT).
  - exact (built_rows p m Hm lookup LOOK X w Q Rs BU INIT s Hs).
Qed.
(** orthogonal columns are independent *)
Lemma orth_indep : orthw w Q N -> forall e, (forall s, (s < length X)%nat -> rsum N (fun k => e k * vget (nth k Q []) s) = 0) -> forall k, (k < N)%nat -> e k = 0.
Proof.
  intros OR e Z k Hk. assert (A : rsum (length X) (fun s => vget (nth k Q []) s * rsum N (fun j => e j * vget (nth j Q []) s)) = 0) by (apply rsum_zero; intros s Hs; rewrite Z by auto; ring).
  rewrite (rsum_ext (length X) _ (fun s => rsum N (fun j => e j * (vget (nth k Q []) s * vget (nth j Q []) s)))) in A by (intros s Hs; rewrite <- rsum_scal_l; apply rsum_ext; intros; ring).
  rewrite rsum_swap in A. rewrite (rsum_ext N _ (fun j => e j * (if Nat.eqb k j then w else 0))) in A.
  - rewrite (rsum_single N k) in A; auto; [rewrite Nat.eqb_refl in A; nra|]. intros j Hj Nj. destruct (Nat.eqb_spec k j); [lia|ring].
  - intros j Hj. rewrite rsum_scal_l. f_equal. rewrite <- (dot_rs (length X)) by (apply Qk_len; auto). apply OR; auto.
Qed.
Lemma nobreak_unisolvent : (forall k, (k < N)%nat -> rdiag Rs k <> 0) -> unisolvent p m X.
Proof.
  intros NZ c Z. pose proof (built_wfR p m Hm lookup LOOK X w Q Rs BU INIT) as WF. pose proof (orthogonal p m Hm lookup LOOK X w Q Rs BU Hw D0 NZ) as OR. fold idx N in OR.
  destruct (to_basis Rs WF NZ c N ltac:(lia)) as [e [E1 E2]]. apply E2. apply orth_indep; auto. intros s Hs. rewrite (rsum_ext N _ (fun k => e k * wv Rs (nth s X []) k)) by (intros k Hk; rewrite wv_Q by auto; auto).
  rewrite <- E1 by (apply row_len; auto). apply (Z (nth s X [])). apply nth_In. auto.
Qed.
(** Rs with the diagonal replaced by 1 from k on *)
Definition patch (k : nat) : list (vec * R) := map (fun l => (fst (nth l Rs ([], 0)), if Nat.ltb l k then rdiag Rs l else 1)) (seq 0 N).
Lemma patch_get : forall k l, (l < N)%nat -> rdiag (patch k) l = (if Nat.ltb l k then rdiag Rs l else 1) /\ fst (nth l (patch k) ([], 0)) = fst (nth l Rs ([], 0)).
Proof. intros k l Hl. unfold rdiag, patch. rewrite (nth_map_seq _ (fun l => (fst (nth l Rs ([], 0)), if Nat.ltb l k then snd (nth l Rs ([], 0)) else 1))) by auto. auto. Qed.
Lemma patch_wf : forall k, wfR p m (patch k).
Proof.
  intro k. pose proof (built_wfR p m Hm lookup LOOK X w Q Rs BU INIT) as [WL WR]. split; [unfold patch; rewrite map_length, seq_length; auto|]. intros l Hl. fold idx N in Hl. destruct (patch_get k l Hl) as [_ E]. rewrite E. apply WR. auto.
Qed.
Lemma patch_same : forall k x l, (k < N)%nat -> (l < k)%nat -> wv (patch k) x l = wv Rs x l.
Proof.
  intros k x l Hk. destruct (wval_rec p m Hm lookup LOOK (patch k) x (patch_wf k)) as [P0 PR]. destruct (wval_rec p m Hm lookup LOOK Rs x (built_wfR p m Hm lookup LOOK X w Q Rs BU INIT)) as [W0 WR].
  induction l as [l IH] using (well_founded_induction lt_wf). intro Hl. destruct (patch_get k l ltac:(lia)) as [E1 E2]. destruct (Nat.ltb_spec l k); [|lia]. destruct l as [|l].
  - rewrite P0, W0, E1. auto.
  - destruct (pick_ok p m lookup LOOK (S l) ltac:(fold idx; fold N; lia)) as [_ [_ [PK _]]]. rewrite PR, WR by (fold idx; fold N; lia). rewrite E1. rewrite (IH (snd (pick p m lookup (S l)))) by lia. f_equal. f_equal. apply rsum_ext. intros s Hs. unfold rcoef. rewrite E2, (IH s) by lia. auto.
Qed.
Lemma unisolvent_nobreak : unisolvent p m X -> forall k, (k < N)%nat -> rdiag Rs k <> 0.
Proof.
  intros US k. induction k as [k IH] using (well_founded_induction lt_wf). intros Hk Z. destruct k as [|k]; [auto|].
  assert (NZ : forall l, (l < N)%nat -> rdiag (patch (S k)) l <> 0). { intros l Hl. destruct (patch_get (S k) l Hl) as [E _]. rewrite E. destruct (Nat.ltb_spec l (S k)); [apply IH; lia|lra]. }
  destruct (leading p m Hm lookup LOOK (patch (S k)) (patch_wf (S k)) NZ (S k) Hk) as [c [C0 C]].
  apply C0. set (c' := fun l => if Nat.leb l (S k) then c l else 0). replace (c (S k)) with (c' (S k)) by (unfold c'; destruct (Nat.leb_spec (S k) (S k)); [auto|lia]).
  apply (US c'); auto. intros x Hx. destruct (In_nth X x [] Hx) as [s [Hs <-]]. unfold poly_of. fold idx. fold N. rewrite (rsum_trunc (S (S k)) N); [|lia|intros l Hl; unfold c'; destruct (Nat.leb_spec l (S k)); [lia|ring]].
  rewrite (rsum_ext (S (S k)) _ (fun l => c l * M p m l (nth s X []))) by (intros l Hl; unfold c'; destruct (Nat.leb_spec l (S k)); [auto|lia]).
  rewrite <- C by (apply row_len; auto). destruct (wval_rec p m Hm lookup LOOK (patch (S k)) (nth s X []) (patch_wf (S k))) as [_ PR]. rewrite PR by (fold idx; fold N; lia).
  destruct (patch_get (S k) (S k) Hk) as [E1 E2]. rewrite E1. destruct (Nat.ltb_spec (S k) (S k)); [lia|].
  destruct (pick_ok p m lookup LOOK (S k) ltac:(fold idx; fold N; lia)) as [_ [_ [PK _]]]. rewrite (patch_same (S k)) by lia. rewrite (rsum_ext (S k) _ (fun t => rcoef Rs (S k) t * vget (nth t Q []) s)) by (intros t Ht; unfold rcoef; rewrite E2, (patch_same (S k)) by lia; rewrite wv_Q by lia; auto). rewrite wv_Q by lia.
  destruct (built_col p m Hm lookup LOOK X w Q Rs BU (S k) ltac:(fold idx; fold N; lia)) as [LJ LF]. destruct BU as [B1 [B2 [B3 B4]]]. specialize (B4 (S k) ltac:(fold idx; fold N; lia)). unfold rdiag in Z. unfold rcoef. destruct (nth (S k) Rs ([], 0)) as [rs r]. cbn [fst snd] in *. subst r.
  unfold new_col in B4. assert (FF : Forall (fun u => length u = length X) (firstn (S k) Q)) by (apply firstn_Forall; auto). set (q := vmul (col X (fst (pick p m lookup (S k)))) (nth (snd (pick p m lookup (S k))) Q [])) in *.
  assert (Lq : length q = length X) by (unfold q; rewrite vmul_length; unfold col; rewrite map_length; auto). pose proof (mgs_vec w (length X) (firstn (S k) Q) q FF Lq) as [V1 V2]. destruct (mgs w (firstn (S k) Q) q) as [rs' q']. cbn [fst snd] in *. injection B4 as _ -> NR.
  assert (SW : 0 < sqrt w) by (apply sqrt_lt_R0; auto). assert (N0 : norm2 q' = 0). { apply (Rmult_eq_reg_r (/ sqrt w)); [|apply Rinv_neq_0_compat; lra]. unfold Rdiv in NR. lra. }
  assert (QZ : vget q' s = 0). { assert (N2 : norm2sq q' = 0) by (apply sqrt_eq_0; [apply norm2sq_nonneg|exact N0]). apply norm2sq_zero in N2. apply (proj1 (Forall_forall _ _) N2). apply nth_In. lia. }
  rewrite V2 in QZ by auto. rewrite LF in QZ. unfold q in QZ. rewrite vmul_get in QZ by (unfold col; rewrite map_length; auto). assert (CG : vget (col X (fst (pick p m lookup (S k)))) s = vget (nth s X []) (fst (pick p m lookup (S k)))) by (unfold col; rewrite (map_get _ _ X s []) by auto; auto). rewrite CG in QZ.
  rewrite (rsum_ext (S k) _ (fun t => vget rs t * vget (nth t Q []) s)) in QZ by (intros t Ht; rewrite firstn_nth by auto; auto). unfold Rdiv. rewrite Rinv_1. rewrite QZ. ring.
Qed.
Theorem breakdown_iff : no_breakdown Rs <-> unisolvent p m X.
Proof.
  pose proof BU as [_ [B2 _]]. split.
  - intro NB. apply nobreak_unisolvent. intros k Hk. apply NB. unfold N, idx in Hk. lia.
  - intros US k Hk. apply (unisolvent_nobreak US). unfold N, idx. lia.
Qed.
End IDX2.

(* ---------------- the two constructions ---------------- *)
Lemma arn_built : forall X p m, (1 <= m)%nat -> X <> [] -> exists Q Rs, arnoldi X (index_set p m) = Some (Q, Rs) /\ built p m (fun _ => index_set p m) X 1 Q Rs 1 /\
  (nth 0 Q [] = map (fun _ => 1 / snd (nth 0 Rs ([], 0))) X /\ fst (nth 0 Rs ([], 0)) = []) /\ rdiag Rs 0 <> 0 /\ dot (nth 0 Q []) (nth 0 Q []) = 1.
Proof.
  intros X p m Hm NE. pose proof (look_all p m Hm) as LK. pose proof (idx_N p m Hm) as HN. assert (PX : 0 < INR (length X)) by (apply lt_0_INR; destruct X; [contradiction|simpl; lia]).
  assert (SM : 0 < sqrt (INR (length X))) by (apply sqrt_lt_R0; auto).
  set (v0 := map (fun _ : vec => 1 / sqrt (INR (length X))) X).
  destruct (arnoldi_loop_spec p m Hm (fun _ => index_set p m) LK X 1 (length (index_set p m) - 1) [v0] [([], sqrt (INR (length X)))]) as [Q' [R' [E BU]]].
  { cbn [length]. lia. } { reflexivity. } { constructor; [unfold v0; apply map_length|constructor]. } { cbn [length]. lia. }
  exists ([v0] ++ Q'), ([([], sqrt (INR (length X)))] ++ R'). split; [exact E|]. split; [exact BU|]. split; [split; reflexivity|]. split; [unfold rdiag; simpl; lra|].
  cbn [app nth]. unfold v0. rewrite const_dot. set (M := INR (length X)) in *. assert (SS : sqrt M * sqrt M = M) by (apply sqrt_sqrt; lra). rewrite <- SS at 1. field. lra.
Qed.
Lemma vand_built : forall X p m, (1 <= m)%nat -> X <> [] -> exists Q Rs, vandermonde_arnoldi X p m = Some (Q, Rs) /\ built p m (fun k => firstn k (index_set p m)) X (INR (length X)) Q Rs 1 /\
  (nth 0 Q [] = map (fun _ => 1 / snd (nth 0 Rs ([], 0))) X /\ fst (nth 0 Rs ([], 0)) = []) /\ rdiag Rs 0 <> 0 /\ dot (nth 0 Q []) (nth 0 Q []) = INR (length X).
Proof.
  intros X p m Hm NE. pose proof (look_prefix p m Hm) as LK. pose proof (idx_N p m Hm) as HN. assert (PX : 0 < INR (length X)) by (apply lt_0_INR; destruct X; [contradiction|simpl; lia]).
  assert (SM : 0 < sqrt (INR (length X))) by (apply sqrt_lt_R0; auto).
  assert (R1 : norm2 (map (fun _ : vec => 1) X) / sqrt (INR (length X)) = 1).
  { unfold norm2, norm2sq. rewrite const_dot. rewrite !Rmult_1_r. field. lra. }
  assert (NC : new_col (INR (length X)) [] (map (fun _ : vec => 1) X) = (map (fun _ : vec => 1) X, ([], 1))).
  { unfold new_col. simpl mgs. cbv zeta beta iota. rewrite R1. f_equal. rewrite Rinv_1. apply vec_ext; [apply vscale_length|]. intros i Hi. rewrite vscale_get. ring. }
  destruct (arnoldi_loop_spec p m Hm (fun k => firstn k (index_set p m)) LK X (INR (length X)) (length (index_set p m) - 1) [map (fun _ : vec => 1) X] [([], 1)]) as [Q' [R' [E BU]]].
  { cbn [length]. lia. } { reflexivity. } { constructor; [apply map_length|constructor]. } { cbn [length]. lia. }
  exists ([map (fun _ : vec => 1) X] ++ Q'), ([([], 1)] ++ R'). split; [unfold vandermonde_arnoldi; rewrite NC; exact E|]. split; [exact BU|]. split.
  - split; [|reflexivity]. simpl. apply map_ext. intro. field.
  - split; [unfold rdiag; simpl; lra|]. cbn [app nth]. rewrite const_dot. ring.
Qed.
(** both constructions divide by zero exactly on samples on which a nonzero polynomial of degree at most p vanishes *)
Theorem arnoldi_breakdown_iff : forall X p m Q Rs, (1 <= m)%nat -> X <> [] -> Forall (fun x => length x = m) X -> arnoldi X (index_set p m) = Some (Q, Rs) ->
  (no_breakdown Rs <-> unisolvent p m X).
Proof.
  intros X p m Q Rs Hm NE XL E. destruct (arn_built X p m Hm NE) as (Q' & Rs' & E' & BU & IN & R0 & D0). rewrite E in E'. injection E' as <- <-.
  apply (breakdown_iff p m Hm (fun _ => index_set p m) (look_all p m Hm) X 1 Q Rs XL ltac:(lra) BU IN R0 D0).
Qed.
Theorem vandermonde_breakdown_iff : forall X p m Q Rs, (1 <= m)%nat -> X <> [] -> Forall (fun x => length x = m) X -> vandermonde_arnoldi X p m = Some (Q, Rs) ->
  (no_breakdown Rs <-> unisolvent p m X).
Proof.
  intros X p m Q Rs Hm NE XL E. destruct (vand_built X p m Hm NE) as (Q' & Rs' & E' & BU & IN & R0 & D0). rewrite E in E'. injection E' as <- <-.
  assert (PX : 0 < INR (length X)) by (apply lt_0_INR; destruct X; [contradiction|simpl; lia]).
  apply (breakdown_iff p m Hm (fun k => firstn k (index_set p m)) (look_prefix p m Hm) X (INR (length X)) Q Rs XL PX BU IN R0 D0).
Qed.

(* ---------------- least squares with orthogonal columns ---------------- *)
(** sum of squared errors of values g at the samples *)
Definition sse (X : mat) (fX : vec) (g : vec -> R) : R := rsum (length X) (fun s => (g (nth s X []) - vget fX s) ^ 2).
Section LSQ.
  Variables (L N : nat) (w : R) (Q : list vec) (f : vec).
  Hypothesis Hw : 0 < w.
  Hypothesis LQ : length Q = N.
  Hypothesis FQ : Forall (fun q => length q = L) Q.
  Hypothesis OR : orthw w Q N.
  Hypothesis Lf : length f = L.
  Definition proj_coef : vec := map (fun q => dot q f / w) Q.
  Lemma Qlen : forall k, (k < N)%nat -> length (nth k Q []) = L.
  Proof. intros k Hk. apply (proj1 (Forall_forall _ _) FQ). apply nth_In. lia. Qed.
  Definition fitv (c : vec) (s : nat) : R := rsum N (fun k => vget (nth k Q []) s * vget c k).
  Lemma rows_mv : forall c s, length c = N -> (s < L)%nat -> vget (mv (rows_of L Q) c) s = fitv c s.
  Proof.
    intros c s Lc Hs. unfold rows_of. rewrite mv_get by (rewrite map_length, seq_length; auto). rewrite (nth_map_seq _ (fun s => map (fun q => vget q s) Q)) by auto. rewrite (dot_rs N) by (auto; rewrite map_length; auto).
    apply rsum_ext. intros k Hk. f_equal. apply (map_get _ (fun q => vget q s) Q k []). lia.
  Qed.
  Lemma resid_sum : forall c, length c = N -> norm2sq (vsub (mv (rows_of L Q) c) f) = rsum L (fun s => (fitv c s - vget f s) ^ 2).
  Proof.
    intros c Lc. assert (LM : length (mv (rows_of L Q) c) = L) by (rewrite mv_length; unfold rows_of; rewrite map_length, seq_length; auto). unfold norm2sq. rewrite (dot_rs L) by (rewrite vsub_length; lia). apply rsum_ext. intros s Hs. rewrite vsub_get by lia. rewrite rows_mv by auto. ring.
  Qed.
  (** Pythagoras *)
  Lemma pyth : forall c, length c = N -> rsum L (fun s => (fitv c s - vget f s) ^ 2) = rsum L (fun s => (fitv proj_coef s - vget f s) ^ 2) + w * rsum N (fun k => (vget c k - vget proj_coef k) ^ 2).
  Proof.
    intros c Lc. set (e := fun k => vget c k - vget proj_coef k). set (a := fun s => rsum N (fun k => vget (nth k Q []) s * e k)). set (b := fun s => fitv proj_coef s - vget f s).
    rewrite (rsum_ext L _ (fun s => b s ^ 2 + (2 * (a s * b s) + a s ^ 2))).
    2:{ intros s Hs. replace (fitv c s) with (a s + fitv proj_coef s); [unfold b; ring|]. unfold a, fitv, e. rewrite <- rsum_plus. apply rsum_ext. intros; ring. }
    rewrite !rsum_plus, rsum_scal_l.
    assert (QQ : forall k j, (k < N)%nat -> (j < N)%nat -> rsum L (fun s => vget (nth k Q []) s * vget (nth j Q []) s) = if Nat.eqb k j then w else 0) by (intros k j Hk Hj; rewrite <- (dot_rs L) by (apply Qlen; auto); apply OR; auto).
    assert (QB : forall k, (k < N)%nat -> rsum L (fun s => vget (nth k Q []) s * b s) = 0).
    { intros k Hk. rewrite (rsum_ext L _ (fun s => rsum N (fun j => vget proj_coef j * (vget (nth k Q []) s * vget (nth j Q []) s)) - vget (nth k Q []) s * vget f s)).
      2:{ intros s Hs. unfold b, fitv. rewrite Rmult_minus_distr_l, <- rsum_scal_l. f_equal. apply rsum_ext. intros; ring. }
      rewrite rsum_minus, rsum_swap. rewrite (rsum_ext N _ (fun j => vget proj_coef j * (if Nat.eqb k j then w else 0))) by (intros j Hj; rewrite rsum_scal_l, QQ by auto; auto).
      rewrite (rsum_single N k); [|auto|intros j Hj Nj; destruct (Nat.eqb_spec k j); [lia|ring]]. rewrite Nat.eqb_refl. rewrite <- (dot_rs L) by (auto; apply Qlen; auto).
      assert (PC : vget proj_coef k = dot (nth k Q []) f / w) by (unfold proj_coef; apply (map_get _ (fun q => dot q f / w) Q k []); lia). rewrite PC. field. lra. }
    assert (AB : rsum L (fun s => a s * b s) = 0).
    { rewrite (rsum_ext L _ (fun s => rsum N (fun k => e k * (vget (nth k Q []) s * b s)))) by (intros s Hs; unfold a; rewrite <- rsum_scal_r; apply rsum_ext; intros; ring). rewrite rsum_swap. apply rsum_zero. intros k Hk. rewrite rsum_scal_l, QB by auto. ring. }
    assert (AA : rsum L (fun s => a s ^ 2) = w * rsum N (fun k => e k ^ 2)).
    { rewrite (rsum_ext L _ (fun s => rsum N (fun k => rsum N (fun j => e k * e j * (vget (nth k Q []) s * vget (nth j Q []) s))))).
      2:{ intros s Hs. unfold a. simpl. rewrite Rmult_1_r. rewrite <- rsum_scal_r. apply rsum_ext. intros k Hk. rewrite <- rsum_scal_l. apply rsum_ext. intros; ring. }
      rewrite rsum_swap. rewrite <- rsum_scal_l. apply rsum_ext. intros k Hk. rewrite rsum_swap. rewrite (rsum_ext N _ (fun j => e k * e j * (if Nat.eqb k j then w else 0))) by (intros j Hj; rewrite rsum_scal_l, QQ by auto; auto).
      rewrite (rsum_single N k); [|auto|intros j Hj Nj; destruct (Nat.eqb_spec k j); [lia|ring]]. rewrite Nat.eqb_refl. ring. }
    rewrite AB, AA. unfold b, e. cbv beta. ring.
  Qed.
  Lemma proj_len : length proj_coef = N.
  Proof. unfold proj_coef. rewrite map_length. auto. Qed.
  Lemma sq_nonneg : forall n g, 0 <= rsum n (fun k => g k ^ 2).
  Proof. intros. apply rsum_nonneg. intros. apply pow2_ge_0. Qed.
  Lemma proj_post : lstsq_post N (rows_of L Q) f proj_coef.
  Proof. split; [apply proj_len|]. intros c Lc. rewrite !resid_sum by (auto; apply proj_len). rewrite (pyth c Lc). pose proof (sq_nonneg N (fun k => vget c k - vget proj_coef k)). nra. Qed.
  Lemma proj_unique : forall c, length c = N -> rsum L (fun s => (fitv c s - vget f s) ^ 2) <= rsum L (fun s => (fitv proj_coef s - vget f s) ^ 2) -> c = proj_coef.
  Proof.
    intros c Lc H. rewrite (pyth c Lc) in H. pose proof (sq_nonneg N (fun k => vget c k - vget proj_coef k)) as P. cbv beta in P. assert (Z : rsum N (fun k => (vget c k - vget proj_coef k) ^ 2) = 0) by nra.
    apply vec_ext; [rewrite proj_len; auto|]. intros k Hk. rewrite Lc in Hk.
    set (F := fun k => (vget c k - vget proj_coef k) ^ 2) in *. assert (PF : forall k, 0 <= F k) by (intro; apply pow2_ge_0).
    assert (G : forall d, rsum (S k) F <= rsum (S k + d) F).
    { induction d as [|d IH]; [rewrite Nat.add_0_r; lra|]. rewrite Nat.add_succ_r. pose proof (PF (S k + d)%nat). change (rsum (S (S k + d)) F) with (rsum (S k + d) F + F (S k + d)%nat). lra. }
    pose proof (G (N - S k)%nat) as GK. replace (S k + (N - S k))%nat with N in GK by lia. rewrite Z in GK. cbn [rsum] in GK. pose proof (rsum_nonneg k F (fun i _ => PF i)) as PK. pose proof (PF k) as PFK. assert (E : (vget c k - vget proj_coef k) ^ 2 = 0) by (unfold F in *; lra). assert (ZZ : vget c k - vget proj_coef k = 0) by (apply Rsqr_0_uniq; unfold Rsqr; rewrite <- E; ring). lra.
  Qed.
End LSQ.

Lemma polyvalA_val : forall p m d Rs fuel x, (1 <= m)%nat -> wfR p m Rs -> length d = length (index_set p m) -> (p < fuel)%nat ->
  polyvalA fuel m d Rs x = Some (rsum (length (index_set p m)) (fun k => vget d k * wval p m (fun k => firstn k (index_set p m)) Rs x k)).
Proof.
  intros p m d Rs fuel x Hm [WL WR] Ld HF.
  assert (FD : find_degree fuel m (length d) 0 = Some p).
  { rewrite Ld, index_set_length by auto. rewrite (Nat.add_comm p m). replace (choose (m + p) m) with (choose (m + p) p); [apply find_degree_correct; lia|].
    pose proof (choose_fact p m) as A. pose proof (choose_fact m p) as B. rewrite (Nat.add_comm p m) in A.
    pose proof (lt_O_fact p). pose proof (lt_O_fact m). assert (0 < fact m * fact p)%nat by (apply Nat.mul_pos_pos; auto).
    rewrite (Nat.mul_comm (fact p)) in A. apply Nat.mul_cancel_r with (p := (fact m * fact p)%nat); [lia|]. congruence. }
  unfold polyvalA. rewrite FD. cbv zeta. rewrite WL, Nat.eqb_refl. destruct (arnoldi_X_spec p m Hm (fun k => firstn k (index_set p m)) (look_prefix p m Hm) Rs x (conj WL WR)) as [W [EW [LW _]]]. unfold wval. rewrite EW. f_equal.
  rewrite (dot_rs (length (index_set p m))) by auto. apply rsum_ext. intros; ring.
Qed.
Theorem polyfitA_best : forall lstsq X p m fX fuel, (1 <= m)%nat -> X <> [] -> Forall (fun x => length x = m) X -> length fX = length X -> unisolvent p m X ->
  lstsq_ok (length (index_set p m)) lstsq -> (p < fuel)%nat ->
  exists d H c, polyfitA lstsq X p m fX = Some (d, H) /\ (forall x, length x = m -> polyvalA fuel m d H x = Some (poly_of p m c x)) /\
    (forall c', sse X fX (poly_of p m c) <= sse X fX (poly_of p m c')) /\
    (forall c', sse X fX (poly_of p m c') <= sse X fX (poly_of p m c) -> forall k, (k < length (index_set p m))%nat -> c' k = c k).
Proof.
  intros lstsq X p m fX fuel Hm NE XL Lf US LS HF. destruct (vand_built X p m Hm NE) as (Q & Rs & E & BU & IN & R0 & D0).
  assert (PX : 0 < INR (length X)) by (apply lt_0_INR; destruct X; [contradiction|simpl; lia]).
  set (N := length (index_set p m)) in *. set (lookup := fun k => firstn k (index_set p m)) in *. pose proof (look_prefix p m Hm) as LK.
  pose proof (unisolvent_nobreak p m Hm lookup LK X (INR (length X)) Q Rs XL PX BU IN R0 US) as NZ. fold N in NZ.
  pose proof (built_wfR p m Hm lookup LK X (INR (length X)) Q Rs BU IN) as WF. pose proof (orthogonal p m Hm lookup LK X (INR (length X)) Q Rs BU PX D0 NZ) as OR. fold N in OR.
  pose proof BU as [B1 [_ [B3 _]]]. fold N in B1.
  pose proof (proj_post (length X) N (INR (length X)) Q fX PX B1 B3 OR Lf) as PP. destruct (LS _ _ (ex_intro _ _ PP)) as (d & Ed & Ld & Md).
  set (d0 := proj_coef (INR (length X)) Q fX) in *. assert (L0 : length d0 = N) by (apply PP).
  assert (DD : d = d0). { apply (proj_unique (length X) N (INR (length X)) Q fX PX B1 B3 OR Lf d Ld). rewrite <- !resid_sum by auto. apply Md. apply PP. }
  subst d. destruct (from_basis p m Hm lookup LK Rs WF NZ (vget d0) N ltac:(fold N; lia)) as [c C]. fold N in C. exists d0, Rs, c. split; [unfold polyfitA; rewrite E, Ed; auto|]. split.
  - intros x Lx. rewrite (polyvalA_val p m d0 Rs fuel x Hm WF Ld HF). fold N. fold lookup. rewrite C by auto. reflexivity.
  - assert (SS : forall c' e, (forall x, length x = m -> rsum N (fun k => c' k * mono (nth k (index_set p m) []) x) = rsum N (fun k => e k * wval p m lookup Rs x k)) -> sse X fX (poly_of p m c') = rsum (length X) (fun s => (fitv N Q (map e (seq 0 N)) s - vget fX s) ^ 2)).
    { intros c' e H. unfold sse. apply rsum_ext. intros s Hs. f_equal. f_equal. unfold poly_of. fold N. rewrite H by (apply (row_len m X XL); auto). unfold fitv. apply rsum_ext. intros k Hk. rewrite (wv_Q p m Hm lookup LK X (INR (length X)) Q Rs BU IN s k Hs Hk). rewrite vget_map_seq by auto. ring. }
    assert (S0 : sse X fX (poly_of p m c) = rsum (length X) (fun s => (fitv N Q d0 s - vget fX s) ^ 2)).
    { rewrite (SS c (vget d0)) by (intros x Lx; symmetry; apply C; auto). apply rsum_ext. intros s Hs. f_equal. f_equal. apply rsum_ext. intros k Hk. rewrite vget_map_seq by auto. auto. }
    assert (ML : forall e : nat -> R, length (map e (seq 0 N)) = N) by (intro; rewrite map_length, seq_length; auto).
    split.
    + intro c'. destruct (to_basis p m Hm lookup LK Rs WF NZ c' N ltac:(fold N; lia)) as [e [E1 _]]. fold N in E1. rewrite (SS c' e E1), S0. rewrite <- !resid_sum by auto. apply PP. auto.
    + intros c' Hc. (* the difference of the two polynomials vanishes in the basis *)
      destruct (to_basis p m Hm lookup LK Rs WF NZ (fun k => c' k - c k) N ltac:(fold N; lia)) as [e [E1 E2]]. fold N in E1, E2.
      destruct (to_basis p m Hm lookup LK Rs WF NZ c' N ltac:(fold N; lia)) as [e' [E1' _]]. fold N in E1'. rewrite (SS c' e' E1'), S0 in Hc. apply (proj_unique (length X) N (INR (length X)) Q fX PX B1 B3 OR Lf _ (ML e')) in Hc. fold d0 in Hc.
      assert (Z : forall k, (k < N)%nat -> e k = 0).
      { apply (orth_indep p m Hm lookup X (INR (length X)) Q Rs PX BU OR). intros s Hs. fold N. rewrite (rsum_ext N _ (fun k => e k * wval p m lookup Rs (nth s X []) k)) by (intros k Hk; rewrite (wv_Q p m Hm lookup LK X (INR (length X)) Q Rs BU IN s k Hs Hk); auto).
        assert (Lx := row_len m X XL s Hs). rewrite <- E1 by auto. rewrite (rsum_ext N _ (fun k => c' k * mono (nth k (index_set p m) []) (nth s X []) - c k * mono (nth k (index_set p m) []) (nth s X []))) by (intros; ring). rewrite rsum_minus. rewrite E1' by auto. rewrite <- C by auto. rewrite <- rsum_minus. apply rsum_zero. intros k Hk. rewrite <- Hc. rewrite vget_map_seq by auto. ring. }
      intros k Hk. pose proof (E2 Z k Hk). lra.
Qed.
(** polynomials of degree at most p are reproduced everywhere *)
Theorem polyfitA_exact : forall lstsq X p m fX fuel c, (1 <= m)%nat -> X <> [] -> Forall (fun x => length x = m) X -> fX = map (poly_of p m c) X -> unisolvent p m X ->
  lstsq_ok (length (index_set p m)) lstsq -> (p < fuel)%nat ->
  exists d H, polyfitA lstsq X p m fX = Some (d, H) /\ forall x, length x = m -> polyvalA fuel m d H x = Some (poly_of p m c x).
Proof.
  intros lstsq X p m fX fuel c Hm NE XL Ef US LS HF. assert (Lf : length fX = length X) by (subst fX; apply map_length).
  destruct (polyfitA_best lstsq X p m fX fuel Hm NE XL Lf US LS HF) as (d & H & c0 & E & V & _ & UN). exists d, H. split; auto. intros x Lx. rewrite V by auto. f_equal. unfold poly_of. apply rsum_ext. intros k Hk. f_equal. symmetry. apply UN; auto.
  assert (Z : sse X fX (poly_of p m c) = 0). { unfold sse. apply rsum_zero. intros s Hs. subst fX. rewrite (map_get _ (poly_of p m c) X s []) by auto. ring. }
  rewrite Z. unfold sse. apply rsum_nonneg. intros. apply pow2_ge_0.
Qed.
