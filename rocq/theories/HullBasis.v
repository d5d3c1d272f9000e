(** The equality basis of a hull domain; constraints handed to the convex solvers. *)
Require Import Reals List Bool Arith ZArith Lia Lra Psatz.
From Verif Require Import RVec Num Sums DomModel DomSpec NormProofs DomOpsProofs DomMoreModel LipModel LipProofs SweepProofs HullProofs HullIneqProofs MatLib GrassLib SpecProofs ArnoldiMoreProofs ArnoldiCases PartialProofs VoronoiProofs GeoModel SampModel PigeonLib
  LocalLinProofs LinProg Spectral Decomp SolveMore Minkowski HullConvModel HullConvProofs HullConvMore.
Import ListNotations.
Local Open Scope R_scope.

(** * projections *)
(** contract of scipy.linalg.orth of the matrix with columns C: an orthonormal basis of their span, that is with the same orthogonal complement *)
Definition orth_sp (m : nat) (C Q : mat) : Prop :=
  Forall (fun q => length q = m) Q /\ orthonormal Q /\ forall w, length w = m -> ((forall c, In c C -> dot c w = 0) <-> (forall q, In q Q -> dot q w = 0)).
Lemma proj_out_perp : forall m Q p q, Forall (fun q => length q = m) Q -> orthonormal Q -> length p = m -> In q Q -> dot q (proj_out Q p) = 0.
Proof.
  intros m Q p q F OQ Lp Iq. apply In_nth with (d := []) in Iq. destruct Iq as (k & Hk & <-). unfold proj_out. rewrite Lp. rewrite dot_vsub_r by (rewrite lincomb_length; auto). rewrite dot_lincomb by auto. rewrite (dot_rs (length Q) (mv Q p)) by (rewrite mv_length; auto).
  rewrite (rsum_single (length Q) k) by first [assumption | intros j Hj N; rewrite !mv_get by auto; rewrite (OQ j k) by auto; destruct (Nat.eqb_spec j k); [congruence|ring]]. rewrite !mv_get by auto. rewrite (OQ k k), Nat.eqb_refl by auto. ring.
Qed.
Lemma proj_out_id : forall m Q p, Forall (fun q => length q = m) Q -> length p = m -> (forall q, In q Q -> dot q p = 0) -> proj_out Q p = p.
Proof.
  intros m Q p F Lp H. unfold proj_out. rewrite Lp. assert (E : forall i, vget (lincomb m Q (mv Q p)) i = 0).
  { intro i. rewrite (lc_get m) by (rewrite ?mv_length; auto). apply rsum_zero. intros k Hk. rewrite mv_get by auto. rewrite H by (apply nth_In; auto). ring. }
  apply vec_ext; [rewrite vsub_length by (rewrite lincomb_length; auto); auto|]. intros i Hi. rewrite vsub_get by (rewrite lincomb_length; auto). rewrite E. ring.
Qed.
Lemma proj_out_split : forall m C Q p, orth_sp m C Q -> length p = m -> (forall c, In c C -> dot c (proj_out Q p) = 0) /\ ((forall c, In c C -> dot c p = 0) -> proj_out Q p = p).
Proof.
  intros m C Q p (F & OQ & E) Lp. split.
  - apply E; [apply proj_out_length with (m := m); auto|]. intros q I. eapply proj_out_perp; eauto.
  - intro H. apply (proj_out_id m); auto. apply E; auto.
Qed.

(** * the directions of a hull *)
(** p is a combination of differences of points: it is orthogonal to every z constant on the points *)
Definition along_hull (m : nat) (X : mat) (p : vec) : Prop := forall z, length z = m -> (forall x y, In x X -> In y X -> dot z x = dot z y) -> dot z p = 0.
Lemma mean_dot : forall m X z, Forall (fun x => length x = m) X -> X <> [] -> length z = m -> dot (row_mean m X) z = rsum (length X) (fun c => dot (nth c X []) z) / INR (length X).
Proof.
  intros m X z F NX Lz. rewrite (dot_rs m) by (auto; apply row_mean_length). rewrite (rsum_ext m _ (fun i => rsum (length X) (fun c => vget (nth c X []) i * vget z i) * / INR (length X))).
  - rewrite rsum_scal_r. rewrite rsum_swap. unfold Rdiv. f_equal. apply rsum_ext. intros c Hc. rewrite (dot_rs m); auto. rewrite Forall_forall in F. apply F, nth_In. auto.
  - intros i Hi. unfold row_mean. rewrite vget_map_seq by auto. rewrite vsum_rsum, col_len. unfold Rdiv. rewrite Rmult_assoc, (Rmult_comm (/ _)), <- Rmult_assoc. f_equal. rewrite <- rsum_scal_r. apply rsum_ext. intros c Hc. rewrite col_get by auto. auto.
Qed.
Lemma const_centred : forall m X z r, Forall (fun x => length x = m) X -> length z = m -> (forall x y, In x X -> In y X -> dot z x = dot z y) -> In r (centred m X) -> dot r z = 0.
Proof.
  intros m X z r F Lz H I. apply in_map_iff in I. destruct I as (x & <- & Ix). assert (NX : X <> []) by (intro K; rewrite K in Ix; destruct Ix). rewrite dot_vsub_l by (rewrite row_mean_length; rewrite Forall_forall in F; auto). rewrite mean_dot by auto.
  rewrite (rsum_ext _ _ (fun _ => dot x z)) by (intros c Hc; rewrite (dot_comm _ z), (dot_comm x z); apply H; auto; apply nth_In; auto). rewrite rsum_const. field. apply not_0_INR. destruct X; [congruence|discriminate].
Qed.
Lemma orth_app : forall U W : mat, orthonormal U -> orthonormal W -> (forall u w, In u U -> In w W -> dot u w = 0) -> orthonormal (U ++ W).
Proof.
  intros U W OU OW H i j Hi Hj. rewrite app_length in Hi, Hj. destruct (Nat.lt_ge_cases i (length U)) as [Ii|Ii], (Nat.lt_ge_cases j (length U)) as [Ij|Ij].
  - rewrite !app_nth1 by auto. apply OU; auto.
  - rewrite app_nth1, app_nth2 by auto. rewrite H by (apply nth_In; lia). destruct (Nat.eqb_spec i j); [lia|auto].
  - rewrite app_nth2, app_nth1 by auto. rewrite dot_comm, H by (apply nth_In; lia). destruct (Nat.eqb_spec i j); [lia|auto].
  - rewrite !app_nth2 by auto. rewrite OW by lia. destruct (Nat.eqb_spec i j), (Nat.eqb_spec (i - length U) (j - length U)); try lia; auto.
Qed.
Lemma orth_skipn : forall k (U : mat), orthonormal U -> orthonormal (skipn k U).
Proof.
  intros k U OU i j Hi Hj. rewrite skipn_length in Hi, Hj. rewrite !split_nth. rewrite OU by lia. destruct (Nat.eqb_spec i j), (Nat.eqb_spec (k + i) (k + j)); try lia; auto.
Qed.
Lemma Forall_skipn' : forall (A : Type) (P : A -> Prop) n l, Forall P l -> Forall P (skipn n l).
Proof. intros A P n. induction n; intros [|a l] F; auto. inversion F; auto. apply IHn. auto. Qed.
Lemma onb_dot : forall m us z w, onb m us -> length z = m -> length w = m -> dot z w = rsum m (fun k => dot (nth k us []) z * dot (nth k us []) w).
Proof.
  intros m us z w OB Lz Lw. pose proof OB as (LU & FU & OU). rewrite <- (onb_expand m us w OB Lw) at 1. rewrite dot_lincomb by auto. rewrite (dot_rs m) by (rewrite mv_length; auto). apply rsum_ext. intros k Hk. rewrite !mv_get by lia. ring.
Qed.
Lemma perp_along : forall m X sv q w, Forall (fun x => length x = m) X -> svd_rows m (centred m X) sv -> sharp (fst sv) -> qr_ok m (big_rows (fst sv) (snd sv)) q -> length w = m ->
  ((forall p, In p (skipn (length (big_rows (fst sv) (snd sv))) q) -> dot p w = 0) <-> along_hull m X w).
Proof.
  intros m X sv q w F SV SH QR Lw. pose proof (perp_fixed m X sv q F SV SH QR) as FX. set (V := big_rows (fst sv) (snd sv)) in *. destruct QR as [(LQ & FQ & OQ) UT]. pose proof SV as (L1 & L2 & FV & OV & _).
  assert (LV : (length V <= m)%nat) by (pose proof (big_rows_sub _ _ L2); fold V in H; lia). split.
  - intros H z Lz HZ. assert (VZ : forall v, In v V -> dot v z = 0) by (intros v Iv; apply (big_inv m (centred m X) sv); auto; intros r Ir; apply (const_centred m X); auto).
    assert (OB : onb m (V ++ skipn (length V) q)).
    { split; [rewrite app_length, skipn_length; lia|]. split.
      - apply Forall_app. split; [|apply Forall_skipn'; auto]. apply Forall_forall. intros v Iv. unfold V in Iv. apply big_rows_in in Iv; auto. destruct Iv as (k & Hk & -> & _). rewrite Forall_forall in FV. apply FV, nth_In. lia.
      - apply orth_app; [apply orth_nodep; auto|apply orth_skipn; auto|]. intros u p Iu Ip. apply In_nth with (d := []) in Iu. destruct Iu as (k & Hk & <-). apply In_nth with (d := []) in Ip. destruct Ip as (j & Hj & <-). rewrite skipn_length in Hj. rewrite split_nth. apply UT; lia. }
    rewrite (onb_dot m _ z w OB Lz Lw). apply rsum_zero. intros k Hk. destruct (Nat.lt_ge_cases k (length V)) as [Hl|Hl]; [rewrite app_nth1 by auto; rewrite VZ by (apply nth_In; auto); ring|].
    rewrite app_nth2 by auto. rewrite H by (apply nth_In; rewrite skipn_length; lia). ring.
  - intros H p Ip. assert (Iq : In p q) by (rewrite <- (firstn_skipn (length V) q); apply in_or_app; auto). apply H; [rewrite Forall_forall in FQ; apply FQ; auto|]. intros x y Ix Iy. apply FX; auto.
Qed.
Lemma nth_repeat_lt : forall (n i : nat) (a b : R), (i < n)%nat -> nth i (repeat a n) b = a.
Proof. intros n. induction n; intros [|i] a b H; simpl; try lia; auto. apply IHn. lia. Qed.
(** without a zero singular value every direction is a direction of the hull *)
Lemma full_along : forall m X sv w, Forall (fun x => length x = m) X -> X <> [] -> svd_rows m (centred m X) sv -> Forall (fun a => np_close a 0 = false) (fst sv) -> length w = m -> along_hull m X w.
Proof.
  intros m X [s VT] w F NX SV NC Lw z Lz HZ. pose proof SV as (L1 & L2 & FV & OV & P & D & us & Lu & OU & FU & E). cbn [fst snd] in *. rewrite centred_length in L1.
  assert (NZ : forall k, (k < length s)%nat -> vget s k <> 0).
  { intros k Hk K. rewrite Forall_forall in NC. assert (C := NC (vget s k) (nth_In _ _ Hk)). rewrite K in C. unfold np_close in C. rewrite Rminus_0_r, Rabs_R0 in C. unfold Rleb in C. destruct (Rle_dec 0 (atol + rtol * 0)) as [C'|C']; [discriminate|]. apply C'. unfold atol, rtol. lra. }
  assert (VZ : forall v, In v VT -> dot v z = 0).
  { intros v Iv. apply (big_inv m (centred m X) (s, VT)); auto; [intros r Ir; apply (const_centred m X); auto|]. cbn [fst snd]. apply big_rows_in; auto. apply In_nth with (d := []) in Iv. destruct Iv as (k & Hk & <-). exists k. split; [lia|]. split; auto. unfold big. rewrite Forall_forall in NC. rewrite NC; auto. apply nth_In. lia. }
  destruct (Nat.le_gt_cases (length X) m) as [HN|HN].
  - exfalso. rewrite Nat.min_r in L1 by auto. set (N := length X) in *. assert (NP : (0 < N)%nat) by (unfold N; destruct X; [congruence|simpl; lia]).
    assert (OBU : onb N us) by (split; [lia|]; split; auto; eapply Forall_impl; [|exact FU]; simpl; intros u; rewrite centred_length; auto).
    assert (U1 : forall k, (k < N)%nat -> dot (nth k us []) (repeat 1 N) = 0).
    { intros k Hk. set (v := nth k VT []). assert (Lv : length v = m) by (rewrite Forall_forall in FV; apply FV, nth_In; lia). assert (S0 : rsum N (fun c => dot (nth c (centred m X) []) v) = 0).
      { rewrite (rsum_ext N _ (fun c => dot (nth c X []) v + - dot (row_mean m X) v)). rewrite rsum_plus, rsum_const, mean_dot by auto. fold N. field. apply not_0_INR. lia. intros c Hc. rewrite centred_get by auto. rewrite dot_vsub_l; [ring|]. rewrite row_mean_length. rewrite Forall_forall in F. apply F, nth_In. auto. }
      rewrite (rsum_ext N _ (fun c => vget s k * (vget (nth k us []) c * 1))) in S0.
      - rewrite rsum_scal_l in S0. apply Rmult_integral in S0. destruct S0 as [S0|S0]; [exfalso; apply (NZ k); auto; lia|]. rewrite (dot_rs N). rewrite <- S0. apply rsum_ext. intros c Hc. unfold vget at 2. rewrite nth_repeat_lt by auto. auto. rewrite Forall_forall in FU. rewrite (FU (nth k us [])) by (apply nth_In; lia). apply centred_length. apply repeat_length.
      - intros c Hc. rewrite E by (rewrite centred_length; auto). rewrite (dot_comm _ v), (dot_lincomb m) by auto. rewrite (dot_rs (length s)) by first [rewrite vmul_length by (rewrite col_len; lia); reflexivity | rewrite mv_length; lia].
        rewrite (rsum_single (length s) k). rewrite mv_get by lia. rewrite vmul_get by (rewrite col_len; lia). rewrite col_get by lia. unfold v. rewrite OV, Nat.eqb_refl by lia. ring. lia. intros j Hj Nj. rewrite mv_get by lia. unfold v. rewrite OV by lia. destruct (Nat.eqb_spec j k); [congruence|ring]. }
    pose proof (onb_dot N us (repeat 1 N) (repeat 1 N) OBU (repeat_length _ _) (repeat_length _ _)) as K. rewrite rsum_zero in K by (intros k Hk; rewrite U1 by auto; ring). rewrite (dot_rs N) in K by apply repeat_length.
    rewrite (rsum_ext N _ (fun _ => 1)) in K by (intros c Hc; unfold vget; rewrite nth_repeat_lt by auto; ring). rewrite rsum_const in K. apply lt_0_INR in NP. lra.
  - rewrite Nat.min_l in L1 by lia. assert (OB : onb m VT) by (split; auto). rewrite (onb_dot m VT z w) by auto. apply rsum_zero. intros k Hk. rewrite VZ by (apply nth_In; lia). ring.
Qed.

(** * the basis *)
Definition basis_ok (svd : mat -> vec * mat) (qr orth : mat -> mat) (m : nat) (Aeq X : mat) : Prop :=
  let sv := svd (centred m X) in let V := big_rows (fst sv) (snd sv) in
  svd_rows m (centred m X) sv /\ sharp (fst sv) /\ qr_ok m V (qr V) /\ (Aeq <> [] -> orth_sp m Aeq (orth Aeq)) /\
  let C := match Aeq with [] => [] | _ => orth Aeq end ++ skipn (length V) (qr V) in orth_sp m C (orth C).
Definition admissible (m : nat) (Aeq X : mat) (p : vec) : Prop := length p = m /\ (forall a, In a Aeq -> dot a p = 0) /\ along_hull m X p.
Lemma basis_split : forall svd qr orth m Aeq X, Forall (fun x => length x = m) X -> X <> [] -> Forall (fun a => length a = m) Aeq -> basis_ok svd qr orth m Aeq X ->
  Forall (fun q => length q = m) (hull_eq_basis svd qr orth m Aeq X) /\ orthonormal (hull_eq_basis svd qr orth m Aeq X) /\
  forall w, length w = m -> ((forall q, In q (hull_eq_basis svd qr orth m Aeq X) -> dot q w = 0) <-> (forall a, In a Aeq -> dot a w = 0) /\ along_hull m X w).
Proof.
  intros svd qr orth m Aeq X F NX FA (SV & SH & QR & OA & OC). unfold hull_eq_basis. set (sv := svd (centred m X)) in *. set (Qeq := match Aeq with [] => [] | _ => orth Aeq end) in *.
  assert (QE : orth_sp m Aeq Qeq).
  { unfold Qeq. destruct Aeq as [|a A]; [|apply OA; discriminate]. split; auto. split; [intros i j Hi; simpl in Hi; lia|]. intros w Lw. tauto. }
  pose proof (fun w => perp_along m X sv _ w F SV SH QR) as PA. pose proof (full_along m X sv) as FA'. destruct sv as [s VT]. cbn [fst snd] in *. destruct (existsb (fun a => np_close a 0) s) eqn:EX.
  - destruct OC as (G1 & G2 & G3). split; auto. split; auto. intros w Lw. rewrite <- (G3 w Lw). destruct QE as (_ & _ & E). rewrite (E w Lw), <- (PA w Lw). split.
    + intro H. split; intros c I; apply H, in_or_app; auto.
    + intros [H1 H2] c I. apply in_app_or in I. destruct I; auto.
  - destruct QE as (G1 & G2 & G3). split; auto. split; auto. intros w Lw. rewrite (G3 w Lw). split; [intro H; split; auto|intros [H _]; auto]. apply FA'; auto. apply Forall_forall. intros a I. destruct (np_close a 0) eqn:NC; auto. exfalso. assert (K : existsb (fun a => np_close a 0) s = true) by (apply existsb_exists; eauto). congruence.
Qed.
(** projecting off the basis is the orthogonal projection onto the directions the domain allows *)
Theorem hull_eq_basis_projects : forall svd qr orth m Aeq X p, Forall (fun x => length x = m) X -> X <> [] -> Forall (fun a => length a = m) Aeq -> basis_ok svd qr orth m Aeq X -> length p = m ->
  let p' := proj_out (hull_eq_basis svd qr orth m Aeq X) p in
  admissible m Aeq X p' /\ (forall w, admissible m Aeq X w -> dot (vsub p p') w = 0) /\ (admissible m Aeq X p -> p' = p).
Proof.
  intros svd qr orth m Aeq X p F NX FA BO Lp p'. destruct (basis_split _ _ _ _ _ _ F NX FA BO) as (G1 & G2 & G3). set (Q := hull_eq_basis svd qr orth m Aeq X) in *.
  assert (LP : length p' = m) by (apply proj_out_length; auto). split; [split; auto; apply G3; auto; intros q I; eapply proj_out_perp; eauto|]. split.
  - intros w (Lw & W). assert (QW : forall q, In q Q -> dot q w = 0) by (apply G3; auto). assert (E : vsub p p' = lincomb m Q (mv Q p)).
    { unfold p', proj_out. rewrite Lp. assert (LC : length (lincomb m Q (mv Q p)) = m) by (apply lincomb_length; auto). apply vec_ext; [rewrite !vsub_length by (rewrite ?vsub_length; lia); lia|]. intros i Hi. rewrite !vsub_get by (rewrite ?vsub_length; lia). ring. }
    rewrite E, dot_comm, (dot_lincomb m) by auto. rewrite (dot_rs (length Q)) by (rewrite mv_length; auto). apply rsum_zero. intros k Hk. rewrite !mv_get by auto. rewrite (QW (nth k Q [])) by (apply nth_In; auto). ring.
  - intros (_ & W). apply (proj_out_id m); auto. apply G3; auto.
Qed.
(** the difference of two points of the domain is an allowed direction *)
Lemma cc_along : forall m X x y, Forall (fun x => length x = m) X -> convex_comb X m x -> convex_comb X m y -> along_hull m X (vsub y x).
Proof.
  intros m X x y F Cx Cy z Lz H. assert (NX : X <> []) by (destruct Cx as (al & La & Fa & Sa & _); intro K; subst X; destruct al; [unfold vsum in Sa; simpl in Sa; lra|discriminate]).
  assert (FX : fixed_on X [z]) by (intros p a b [<-|[]] Ia Ib; apply H; auto).
  assert (G : forall w, convex_comb X m w -> dot z w = vsum (map (dot z) X) / INR (length X)) by (intros w Cw; apply (dot_cc m X [z] z w); auto; left; auto).
  assert (Lx := cc_length _ _ _ F Cx). assert (Ly := cc_length _ _ _ F Cy). rewrite dot_vsub_r by lia. rewrite (G x Cx), (G y Cy). ring.
Qed.

(** orth exists: Gram-Schmidt *)
Lemma proj_out_dot : forall m Q c w, Forall (fun q => length q = m) Q -> length c = m -> dot c w = dot (proj_out Q c) w + rsum (length Q) (fun k => dot (nth k Q []) c * dot (nth k Q []) w).
Proof.
  intros m Q c w F Lc. unfold proj_out. rewrite Lc. rewrite dot_vsub_l by (rewrite lincomb_length; auto). rewrite (dot_comm (lincomb _ _ _) w), (dot_lincomb m) by auto. rewrite (dot_rs (length Q) (mv Q c)) by (rewrite mv_length; auto).
  rewrite (rsum_ext (length Q) (fun k => vget (mv Q c) k * vget (mv Q w) k) (fun k => dot (nth k Q []) c * dot (nth k Q []) w)) by (intros k Hk; rewrite !mv_get by auto; auto). ring.
Qed.
Theorem orth_exists : forall m C, Forall (fun c => length c = m) C -> exists Q, orth_sp m C Q.
Proof.
  intros m C F. induction F as [|c C Lc F IH].
  - exists []. split; auto. split; [intros i j Hi; simpl in Hi; lia|]. intros w Lw. split; intros H q [].
  - destruct IH as (Q & FQ & OQ & E). set (r := proj_out Q c). assert (Lr : length r = m) by (apply proj_out_length; auto). assert (PR : forall q, In q Q -> dot q r = 0) by (intros q I; eapply proj_out_perp; eauto).
    destruct (Req_EM_T (dot r r) 0) as [Z|NZ].
    + exists Q. split; auto. split; auto. intros w Lw. rewrite <- (E w Lw). split; [intros H q I; apply H; right; auto|]. intros H q [<-|I]; [|auto]. assert (QW : forall q, In q Q -> dot q w = 0) by (apply E; auto). rewrite (proj_out_dot m Q c w) by auto. fold r.
      rewrite rsum_zero by (intros k Hk; rewrite (QW (nth k Q [])) by (apply nth_In; auto); ring). assert (R0 : forall i, vget r i = 0) by (intro i; apply LocalLinProofs.norm2sq_0_get; auto). rewrite (dot_rs m) by auto. rewrite rsum_zero by (intros i Hi; rewrite R0; ring). ring.
    + assert (P : 0 < dot r r) by (pose proof (norm2sq_nonneg r); unfold norm2sq in *; lra). set (n := sqrt (dot r r)). assert (NP : 0 < n) by (apply sqrt_lt_R0; auto). assert (NN : n * n = dot r r) by (apply sqrt_sqrt; lra). exists (Q ++ [vscale (/ n) r]). split; [apply Forall_app; split; auto; constructor; auto; rewrite vscale_length; auto|]. split.
      * apply orth_app; auto.
        { intros i j Hi Hj. simpl in Hi, Hj. assert (i = 0 /\ j = 0)%nat as [-> ->] by lia. cbn [nth Nat.eqb]. rewrite dot_vscale_l, dot_vscale_r, <- NN. field. lra. }
        { intros u v Iu [<-|[]]. rewrite dot_vscale_r, PR by auto. ring. }
      * intros w Lw. split.
        { intros H q I. assert (QW : forall q, In q Q -> dot q w = 0) by (apply E; auto; intros c' I'; apply H; right; auto). apply in_app_or in I. destruct I as [I|[<-|[]]]; auto. assert (K := H c (or_introl eq_refl)). rewrite (proj_out_dot m Q c w) in K by auto. fold r in K.
          rewrite rsum_zero in K by (intros k Hk; rewrite (QW (nth k Q [])) by (apply nth_In; auto); ring). rewrite dot_vscale_l. replace (dot r w) with 0 by lra. ring. }
        { intros H. assert (QW : forall q, In q Q -> dot q w = 0) by (intros q I; apply H, in_or_app; auto). intros c' [<-|I]; [|apply E; auto]. rewrite (proj_out_dot m Q c w) by auto. fold r. rewrite rsum_zero by (intros k Hk; rewrite (QW (nth k Q [])) by (apply nth_In; auto); ring).
          assert (K : dot (vscale (/ n) r) w = 0) by (apply H, in_or_app; right; left; auto). rewrite dot_vscale_l in K. apply Rmult_integral in K. destruct K as [K|K]; [exfalso; assert (0 < / n) by (apply Rinv_0_lt_compat; auto); lra|lra]. }
Qed.
(** the oracles of the basis exist for all points *)
Theorem basis_oracles_exist : forall m Aeq X, Forall (fun x => length x = m) X -> Forall (fun a => length a = m) Aeq -> exists svd qr orth,
  let sv := svd (centred m X) in let V := big_rows (fst sv) (snd sv) in
  svd_rows m (centred m X) sv /\ qr_ok m V (qr V) /\ (forall C, Forall (fun c => length c = m) C -> In C [Aeq; match Aeq with [] => [] | _ => orth Aeq end ++ skipn (length V) (qr V)] -> orth_sp m C (orth C)).
Proof.
  intros m Aeq X F FA. destruct (conv_oracles_exist m X F) as (svd & qr & _ & SV & QR & _). cbn zeta in *. set (V := big_rows (fst (svd (centred m X))) (snd (svd (centred m X)))) in *.
  destruct (orth_exists m Aeq FA) as (Q1 & O1). assert (FP : Forall (fun c => length c = m) (skipn (length V) (qr V))) by (apply Forall_skipn'; destruct QR as [(_ & G & _) _]; auto).
  destruct (orth_exists m (match Aeq with [] => [] | _ => Q1 end ++ skipn (length V) (qr V))) as (Q2 & O2); [apply Forall_app; split; auto; destruct Aeq; auto; apply O1|].
  set (orth := fun C : mat => if list_eq_dec (list_eq_dec Req_EM_T) C Aeq then Q1 else Q2). exists svd, qr, orth. fold V. split; auto. split; auto. intros C FC I.
  assert (EA : orth Aeq = Q1) by (unfold orth; destruct (list_eq_dec (list_eq_dec Req_EM_T) Aeq Aeq); congruence). destruct I as [<-|[<-|[]]]; [rewrite EA; auto|].
  rewrite EA. unfold orth. destruct (list_eq_dec (list_eq_dec Req_EM_T) _ Aeq) as [e|ne]; [rewrite e; auto|auto].
Qed.

(** * constraints handed to the solvers *)
Theorem build_lin_exact : forall d x, dom_wf d -> length x = dim d -> (build_lin d x <-> member d x).
Proof.
  intros d x (W1 & W2 & W3 & W4 & W5 & W6 & W7 & _) Lx. unfold build_lin, member, sat_bounds, sat_ineq, sat_eq0, sat_quad.
  assert (QE : forall q, In q (quads d) -> vsub (mv (qL q) x) (mv (qL q) (qy q)) = mv (qL q) (vsub x (qy q))).
  { intros q I. rewrite Forall_forall in W7. destruct (W7 q I) as (Q1 & Q2 & Q3). apply vec_ext; [rewrite vsub_length by (rewrite !mv_length; auto); rewrite !mv_length; auto|]. intros i Hi. rewrite vsub_length in Hi by (rewrite !mv_length; auto). rewrite mv_length in Hi. rewrite vsub_get by (rewrite !mv_length; auto). rewrite !mv_get by auto. rewrite dot_vsub_r by lia. auto. }
  split.
  - intros (B1 & B2 & B3 & B4 & B5). split; auto. split; [intro i; split; intros v H; [specialize (B1 i v H)|specialize (B2 i v H)]; lra|]. split; [|split].
    + intros k a c Ha Hc. assert (Hk : (k < length (dA d))%nat) by (apply nth_error_Some; congruence). assert (K := B3 ltac:(intro Z; rewrite Z in Hk; simpl in Hk; lia) k Hk). rewrite mv_get in K by auto. apply nth_error_nth with (d := []) in Ha. apply nth_error_nth with (d := 0) in Hc. unfold vget in K. rewrite Ha, Hc in K. lra.
    + intros k a c Ha Hc. assert (Hk : (k < length (dAeq d))%nat) by (apply nth_error_Some; congruence). assert (K := B4 ltac:(intro Z; rewrite Z in Hk; simpl in Hk; lia) k Hk). rewrite mv_get in K by auto. apply nth_error_nth with (d := []) in Ha. apply nth_error_nth with (d := 0) in Hc. unfold vget in K. rewrite Ha, Hc in K. lra.
    + intros q I. rewrite <- QE by auto. destruct (qL q) as [|r L] eqn:EL; [|rewrite <- EL; assert (K := B5 q I ltac:(rewrite EL; discriminate)); lra]. rewrite Forall_forall in W7. destruct (W7 q I) as (_ & _ & P). unfold norm2, norm2sq. unfold mv, vsub. cbn [map vmap2]. rewrite dot_nil_l, sqrt_0. lra.
  - intros (_ & B & B3 & B4 & B5). split; [intros i v H; destruct (B i) as [K _]; specialize (K v H); lra|]. split; [intros i v H; destruct (B i) as [_ K]; specialize (K v H); lra|]. split; [|split].
    + intros _ k Hk. rewrite mv_get by auto. assert (Hk' : (k < length (db d))%nat) by (rewrite <- W4; auto). assert (K := B3 k _ _ (nth_error_nth' (dA d) [] Hk) (nth_error_nth' (db d) 0 Hk')). unfold vget. lra.
    + intros _ k Hk. rewrite mv_get by auto. assert (Hk' : (k < length (dbeq d))%nat) by (rewrite <- W6; auto). assert (K := B4 k _ _ (nth_error_nth' (dAeq d) [] Hk) (nth_error_nth' (dbeq d) 0 Hk')). unfold vget. lra.
    + intros q I _. rewrite QE by auto. specialize (B5 q I). lra.
Qed.
Theorem build_tensor_exact : forall ds x, Forall dom_wf ds -> length x = fold_right (fun d n => (dim d + n)%nat) 0%nat ds ->
  (build_tensor (map (fun d => (dim d, build_lin d)) ds) x <-> exists xs, Forall2 member ds xs /\ x = concat xs).
Proof.
  intros ds. induction ds as [|d ds IH]; intros x F L.
  - simpl in L. destruct x; [|discriminate]. simpl. split; auto. intros _. exists []. split; auto.
  - inversion F as [|? ? Wd Wds]; subst. cbn [fold_right] in L. cbn [map build_tensor]. rewrite build_lin_exact by (auto; rewrite firstn_length; lia). rewrite IH by (auto; rewrite skipn_length; lia). split.
    + intros (M & xs & Fx & E). exists (firstn (dim d) x :: xs). split; [constructor; auto|]. cbn [concat]. rewrite <- E, firstn_skipn. auto.
    + intros (xs & Fx & E). inversion Fx as [|? y ? ys M Fy]; subst. cbn [concat]. assert (Ly : length y = dim d) by (destruct M; auto). rewrite firstn_app, skipn_app, Ly, Nat.sub_diag, firstn_O, app_nil_r. rewrite <- Ly, firstn_all, skipn_all. simpl. split; auto. exists ys. auto.
Qed.
(** the constraints of a hull: an exception unless there are as many points as coordinates *)
Theorem build_hull_raises : forall h, length (hX h) <> dim (hcon h) -> build_hull h = None.
Proof. intros h H. unfold build_hull. destruct (Nat.eqb_spec (length (hX h)) (dim (hcon h))); congruence. Qed.
Definition seg_hull : hull := mkHull [[0; 0]; [1; 0]] (mkDom LinQuad 2 [NInf; NInf] [PInf; PInf] [] [] [] [] []).
Lemma seg_wf : hull_wf seg_hull.
Proof. unfold hull_wf, seg_hull. cbn. split; [|split; [discriminate|repeat constructor]]. unfold dom_wf. cbn. repeat split; auto; try (intros [K|K]; discriminate); intros; try discriminate. Qed.
Theorem build_hull_refuted : exists h f, hull_wf h /\ build_hull h = Some f /\ (exists x, hull_member h x /\ ~ f x) /\ (exists x, f x /\ ~ hull_member h x).
Proof.
  exists seg_hull. eexists. split; [apply seg_wf|]. split; [reflexivity|]. assert (FM : forall x, length x = 2%nat -> member (hcon seg_hull) x).
  { intros x Lx. split; [auto|]. cbn. split; [intros [|[|[|i]]]; split; intros v H; discriminate|]. split; [intros k a c H; destruct k; discriminate|]. split; [intros k a c H; destruct k; discriminate|intros q []]. }
  split.
  - exists [1; 0]. split; [split; [|apply FM; auto]|].
    + exists [0; 1]. split; [reflexivity|]. split; [repeat constructor; lra|]. split; [unfold vsum; simpl; lra|]. cbn. unfold vadd, vscale, vzero. cbn. repeat (f_equal; try ring).
    + intros ((al & La & E & Pa & Sa) & _). cbn in E. destruct al as [|a [|b [|]]]; try discriminate La. unfold lincomb, vadd, vscale, vzero, col, vget in E. cbn in E. injection E as E1 E2. unfold vsum in Sa. cbn in Sa. inversion Pa as [|? ? P1 P2]; subst. inversion P2; subst. lra.
  - exists [0; 1]. split.
    + split; [|apply build_lin_exact; [apply seg_wf|auto|apply FM; auto]]. exists [1; 0]. cbn. split; auto. split; [unfold lincomb, vadd, vscale, vzero, col, vget; cbn; repeat (f_equal; try ring)|]. split; [repeat constructor; lra|unfold vsum; cbn; lra].
    + intros ((al & La & Pa & Sa & E) & _). cbn in E. destruct al as [|a [|b [|]]]; try discriminate La. unfold lincomb, vadd, vscale, vzero in E. cbn in E. injection E as E1 E2. lra.
Qed.
Theorem basis_keeps_differences : forall svd qr orth h x y, hull_wf h -> hX h <> [] -> basis_ok svd qr orth (dim (hcon h)) (dAeq (hcon h)) (hX h) -> hull_member h x -> hull_member h y ->
  proj_out (hull_eq_basis svd qr orth (dim (hcon h)) (dAeq (hcon h)) (hX h)) (vsub y x) = vsub y x.
Proof.
  intros svd qr orth h x y (W & _ & F) NX BO (Cx & Lx & _ & _ & Ex & _) (Cy & Ly & _ & _ & Ey & _). destruct W as (_ & _ & _ & _ & FA & LA & _).
  apply hull_eq_basis_projects; auto; [rewrite vsub_length; lia|]. split; [rewrite vsub_length; lia|]. split; [|apply cc_along; auto].
  intros a I. apply In_nth_error in I. destruct I as (k & Hk). assert (Hl : (k < length (dbeq (hcon h)))%nat) by (rewrite <- LA; apply nth_error_Some; congruence). pose proof (nth_error_nth' (dbeq (hcon h)) 0 Hl) as Hc.
  rewrite dot_vsub_r by lia. rewrite (Ex _ _ _ Hk Hc), (Ey _ _ _ Hk Hc). ring.
Qed.
