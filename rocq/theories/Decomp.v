(** Existence of the factorizations the code asks of numpy/scipy: svd (all the forms used), qr, and the eigenvectors of the Jacobi matrix. *)
Require Import Reals List Bool Arith Lia Lra Psatz.
From Verif Require Import RVec Num Sums DomMoreModel SweepProofs ArnoldiMoreProofs ArnoldiCases MatLib SpecProofs LipModel SdpProofs GrassLib GpProofs HullProofs Compact LinLs Spectral.
From Verif Require SubModel BlockProofs InitProofs.
Import ListNotations.
Local Open Scope R_scope.

Lemma onb_rev : forall m us, onb m us -> onb m (rev us).
Proof.
  intros m us (L & F & OR). split; [rewrite rev_length; auto|]. split; [apply Forall_rev; auto|]. intros i j Hi Hj. rewrite rev_length in Hi, Hj. rewrite !rev_nth by lia. rewrite OR by lia.
  destruct (Nat.eqb_spec (length us - S i) (length us - S j)), (Nat.eqb_spec i j); auto; lia.
Qed.
Definition gram (cols : list vec) : mat := map (fun i => map (fun j => dot (nth i cols []) (nth j cols [])) (seq 0 (length cols))) (seq 0 (length cols)).
Lemma nth_map_seq : forall (B : Type) (f : nat -> B) n i d, (i < n)%nat -> nth i (map f (seq 0 n)) d = f i.
Proof. intros B f n i d Hi. rewrite (nth_indep _ d (f 0%nat)) by (rewrite map_length, seq_length; auto). rewrite map_nth, seq_nth by auto. auto. Qed.
Lemma gram_get : forall cols i j, (i < length cols)%nat -> (j < length cols)%nat -> mget (gram cols) i j = dot (nth i cols []) (nth j cols []).
Proof. intros. unfold mget, gram, vget. rewrite nth_map_seq by auto. rewrite nth_map_seq by auto. auto. Qed.
Lemma gram_sq : forall cols, sq (length cols) (gram cols).
Proof. intro. split; [unfold gram; rewrite map_length, seq_length; auto|]. apply Forall_forall. intros r I. apply in_map_iff in I. destruct I as (i & <- & _). rewrite map_length, seq_length. auto. Qed.
Lemma gram_sym : forall cols, msym (length cols) (gram cols).
Proof. intros cols i j Hi Hj. rewrite !gram_get by auto. apply dot_comm. Qed.
Lemma gram_dot : forall m cols x y, Forall (fun c => length c = m) cols -> length x = length cols -> length y = length cols ->
  dot (lincomb m cols x) (lincomb m cols y) = dot x (mv (gram cols) y).
Proof.
  intros m cols x y F Lx Ly. rewrite dot_comm, (dot_lincomb m) by auto. f_equal. destruct (gram_sq cols) as [LG FG]. apply vec_ext; [rewrite !mv_length; auto|]. rewrite mv_length. intros i Hi. rewrite !mv_get by lia.
  rewrite (dot_lincomb_r m) by auto. rewrite (dot_rs (length cols)) by (auto; rewrite Forall_forall in FG; apply FG, nth_In; lia). apply rsum_ext. intros k Hk.
  change (vget (nth i (gram cols) []) k) with (mget (gram cols) i k). rewrite gram_get by auto. ring.
Qed.
(** a decreasing nonnegative sequence is positive up to some index and zero from there on *)
Lemma desc_split : forall N (w : nat -> R), (forall i, (i < N)%nat -> 0 <= w i) -> (forall i j, (i <= j < N)%nat -> w j <= w i) -> exists r, (r <= N)%nat /\ (forall i, (i < r)%nat -> 0 < w i) /\ forall i, (r <= i < N)%nat -> w i = 0.
Proof.
  induction N as [|N IH]; intros w P D; [exists 0%nat; repeat split; intros; lia|]. destruct (IH w) as (r & Hr & A & B); [intros; apply P; lia|intros; apply D; lia|].
  destruct (Rle_lt_or_eq_dec 0 (w N) (P N ltac:(lia))) as [H|H].
  - exists (S N). split; [lia|]. split; [|intros; lia]. intros i Hi. specialize (D i N ltac:(lia)). lra.
  - exists r. split; [lia|]. split; auto. intros i Hi. destruct (Nat.eq_dec i N) as [->|]; auto. apply B. lia.
Qed.
Lemma firstn_get : forall (x : vec) k i, (i < k)%nat -> vget (firstn k x) i = vget x i.
Proof. intros x k i H. unfold vget. revert k i H. induction x as [|a x IH]; intros [|k] [|i] H; simpl; auto; try lia. apply IH. lia. Qed.
Lemma firstn_nthv : forall (x : list vec) k i, (i < k)%nat -> nth i (firstn k x) [] = nth i x [].
Proof. intros x k i. revert k i. induction x as [|a x IH]; intros [|k] [|i] H; simpl; auto; try lia. apply IH. lia. Qed.
Lemma Forall_firstn' : forall (A : Type) (P : A -> Prop) k l, Forall P l -> Forall P (firstn k l).
Proof. intros A P k l H. revert k. induction H; intros [|k]; simpl; auto. Qed.
Lemma orth_firstn : forall us k, orthonormal us -> orthonormal (firstn k us).
Proof. intros us k OR i j Hi Hj. rewrite firstn_length in Hi, Hj. rewrite !firstn_nthv by lia. apply OR; lia. Qed.

(** * the full singular value decomposition *)
Theorem svd_full_exists : forall m cols, Forall (fun c => length c = m) cols -> exists us s vs, SubModel.svd_full m cols us s vs.
Proof.
  intros m cols F. set (N := length cols). destruct (eig_all N (gram cols) N (gram_sq cols) (gram_sym cols) (le_n N)) as (w0 & e0 & L0 & Lw0 & F0 & OR0 & EV0 & SO0 & _).
  set (es := rev e0). assert (OE : onb N es) by (apply onb_rev; split; auto). pose proof OE as (LE & FE & OE').
  set (w := fun k => vget w0 (N - 1 - k)).
  assert (LK : forall k, (k < N)%nat -> length (nth k es []) = N) by (intros k Hk; apply onb_row; auto).
  assert (EV : forall k, (k < N)%nat -> mv (gram cols) (nth k es []) = vscale (w k) (nth k es [])).
  { intros k Hk. unfold es, w. rewrite rev_nth by lia. rewrite L0. replace (N - S k)%nat with (N - 1 - k)%nat by lia. apply EV0. lia. }
  set (C := fun x => lincomb m cols x). assert (LC : forall x, length (C x) = m) by (intro; apply lincomb_length; auto).
  assert (CD : forall i j, (i < N)%nat -> (j < N)%nat -> dot (C (nth i es [])) (C (nth j es [])) = if Nat.eqb i j then w j else 0).
  { intros i j Hi Hj. unfold C. rewrite gram_dot by (auto; apply LK; auto). rewrite EV by auto. rewrite dot_vscale_r, OE' by lia. destruct (Nat.eqb i j); ring. }
  assert (WP : forall k, (k < N)%nat -> 0 <= w k). { intros k Hk. pose proof (CD k k Hk Hk) as Q. rewrite Nat.eqb_refl in Q. rewrite <- Q. apply norm2sq_nonneg. }
  assert (WD : forall i j, (i <= j < N)%nat -> w j <= w i) by (intros i j H; unfold w; apply SO0; lia).
  destruct (desc_split N w WP WD) as (r & Hr & RP & RZ).
  set (u0 := map (fun k => vscale (/ sqrt (w k)) (C (nth k es []))) (seq 0 r)).
  assert (Lu0 : length u0 = r) by (unfold u0; rewrite map_length, seq_length; auto).
  assert (Gu0 : forall k, (k < r)%nat -> nth k u0 [] = vscale (/ sqrt (w k)) (C (nth k es []))) by (intros k Hk; unfold u0; apply nth_map_seq; auto).
  assert (Fu0 : Forall (fun u => length u = m) u0) by (apply Forall_forall; intros u I; apply in_map_iff in I; destruct I as (k & <- & _); rewrite vscale_length; auto).
  assert (Ou0 : orthonormal u0).
  { intros i j Hi Hj. rewrite Lu0 in Hi, Hj. rewrite !Gu0 by auto. rewrite dot_vscale_l, dot_vscale_r, CD by lia. destruct (Nat.eqb_spec i j) as [->|NE]; [|ring]. specialize (RP j Hj). pose proof (sqrt_sqrt (w j) (Rlt_le _ _ RP)) as S2. pose proof (sqrt_lt_R0 _ RP).
    rewrite <- S2 at 3. field. lra. }
  assert (Rm : (r <= m)%nat) by (rewrite <- Lu0; apply (orth_count 1); [lra|auto|exact Ou0]).
  destruct (extend_to m m u0 Fu0 Ou0 ltac:(lia)) as (u1 & Lu & Fu & Ou). set (us := u0 ++ u1) in *.
  set (k0 := Nat.min m N). set (s := map (fun i => sqrt (w i)) (seq 0 k0)).
  assert (Ls : length s = k0) by (unfold s; rewrite map_length, seq_length; auto). assert (Gs : forall i, (i < k0)%nat -> vget s i = sqrt (w i)) by (intros i Hi; unfold s, vget; apply nth_map_seq; auto).
  exists us, s, es. split; [split; auto|]. split; [exact OE|]. split; [exact Ls|]. split; [apply Forall_forall; intros a I; apply in_map_iff in I; destruct I as (i & <- & _); apply sqrt_pos|]. split.
  { intros i j H. rewrite Ls in H. rewrite !Gs by lia. apply sqrt_le_1_alt, WD. lia. }
  intros c Hc. fold N in Hc. rewrite Ls.
  assert (Lf : length (firstn k0 us) = k0) by (rewrite firstn_length; lia). assert (Lfc : length (firstn k0 (col es c)) = k0) by (rewrite firstn_length, col_len; lia).
  apply vec_ext; [rewrite lincomb_length by (apply Forall_firstn'; auto); rewrite Forall_forall in F; apply F, nth_In; auto|]. intros p Hp.
  rewrite (lc_get m) by (try (apply Forall_firstn'; auto); rewrite vmul_length; lia). rewrite Lf.
  assert (CE : forall k, (k < k0)%nat -> C (nth k es []) = vscale (sqrt (w k)) (nth k us [])).
  { intros k Hk. destruct (lt_dec k r) as [H|H].
    - unfold us. rewrite app_nth1 by lia. rewrite Gu0 by auto. pose proof (sqrt_lt_R0 _ (RP k H)). apply vec_ext; [rewrite !vscale_length; auto|]. intros i Hi. rewrite !vscale_get. field. lra.
    - rewrite RZ by lia. rewrite sqrt_0. assert (Z : norm2sq (C (nth k es [])) = 0) by (unfold norm2sq; rewrite CD, Nat.eqb_refl by lia; apply RZ; lia). apply norm2sq_zero in Z. rewrite Forall_forall in Z.
      assert (Lk : length (nth k us []) = m) by (rewrite Forall_forall in Fu; apply Fu, nth_In; lia).
      apply vec_ext; [rewrite vscale_length, LC, Lk; auto|]. intros i Hi. rewrite vscale_get. rewrite (Z (vget (C (nth k es [])) i)) by (apply nth_In; auto). ring. }
  assert (CZ : forall k, (k0 <= k < N)%nat -> forall i, vget (C (nth k es [])) i = 0).
  { intros k Hk i. assert (Z : norm2sq (C (nth k es [])) = 0) by (unfold norm2sq; rewrite CD, Nat.eqb_refl by lia; apply RZ; lia). apply norm2sq_zero in Z. rewrite Forall_forall in Z.
    destruct (lt_dec i (length (C (nth k es [])))); [apply Z, nth_In; auto|unfold vget; apply nth_overflow; lia]. }
  transitivity (rsum N (fun k => vget (nth k es []) c * vget (C (nth k es [])) p)).
  - assert (E : vget (nth c cols []) p = rsum N (fun q => rsum N (fun k => vget (nth k es []) c * vget (nth k es []) q) * vget (nth q cols []) p)).
    { assert (CC : forall a b, (a < N)%nat -> (b < N)%nat -> rsum N (fun k => vget (nth k es []) a * vget (nth k es []) b) = if Nat.eqb a b then 1 else 0).
      { intros a b Ha Hb. rewrite <- (onb_cols N es a b OE Ha Hb). rewrite (dot_rs N) by (rewrite col_len; auto). apply rsum_ext. intros. rewrite !col_get by lia. auto. }
      rewrite (rsum_single N c).
      - rewrite CC, Nat.eqb_refl by auto. ring.
      - auto.
      - intros q Hq NE. rewrite CC by auto. destruct (Nat.eqb_spec c q); [congruence|ring]. }
    rewrite E. rewrite (rsum_ext N _ (fun q => rsum N (fun k => vget (nth k es []) c * (vget (nth k es []) q * vget (nth q cols []) p)))).
    2:{ intros q Hq. rewrite <- rsum_scal_r. apply rsum_ext. intros. ring. }
    rewrite rsum_swap. apply rsum_ext. intros k Hk. rewrite rsum_scal_l. f_equal. unfold C. rewrite (lc_get m) by (auto; apply LK; auto). auto.
  - replace N with (k0 + (N - k0))%nat at 1 by lia. rewrite rsum_app. rewrite (rsum_zero (N - k0)) by (intros j Hj; rewrite CZ by lia; ring). rewrite Rplus_0_r. apply rsum_ext. intros k Hk. rewrite CE by auto. rewrite vscale_get, vmul_get by lia. rewrite Gs by auto.
    rewrite firstn_nthv by auto. rewrite firstn_get by auto. rewrite col_get by lia. ring.
Qed.

Lemma col_firstn : forall vs c k, col (firstn k vs) c = firstn k (col vs c).
Proof. intros vs c k. unfold col. rewrite firstn_map. auto. Qed.
(** * scipy.linalg.svd(A, full_matrices = False) *)
Theorem svd_thin_exists : forall m cols, Forall (fun c => length c = m) cols -> exists us, InitProofs.svd_thin m cols us.
Proof.
  intros m cols F. destruct (svd_full_exists m cols F) as (us & s & vs & (LU & FU & OU) & (LV & FV & OV) & Ls & P & D & E). exists (firstn (length s) us), s, (firstn (length s) vs).
  rewrite !firstn_length. replace (Nat.min (length s) (length us)) with (length s) by lia. replace (Nat.min (length s) (length vs)) with (length s) by lia.
  split; [auto|]. split; [apply Forall_firstn'; auto|]. split; [apply orth_firstn; auto|]. split; auto. split; auto. split; [apply orth_firstn; auto|]. split; [apply Forall_firstn'; auto|]. split; auto. split; auto.
  intros c Hc. rewrite col_firstn. apply E. auto.
Qed.
(** * the thin form for tall matrices, grassmann.py and polyridge.py *)
Theorem svd_post_exists : forall m ds, Forall (fun c => length c = m) ds -> (length ds <= m)%nat ->
  exists ys s zs, svd_post m ds ys s zs /\ Forall (fun a => 0 <= a) s /\ forall i j, (i <= j < length s)%nat -> vget s j <= vget s i.
Proof.
  intros m ds F L. destruct (svd_full_exists m ds F) as (us & s & vs & (LU & FU & OU) & OV & Ls & P & D & E). exists (firstn (length s) us), s, vs. split; [|split; auto]. pose proof OV as (LV & _ & _).
  split; [rewrite firstn_length; lia|]. split; [apply Forall_firstn'; auto|]. split; [apply orth_firstn; auto|]. split; [lia|]. split; auto. intros c Hc. rewrite E by auto. f_equal. f_equal. apply firstn_all2. rewrite col_len. lia.
Qed.
(** * the row form, lipschitz low_rank_L *)
Theorem svd_rows_exists : forall p m L, length L = p -> Forall (fun r => length r = m) L -> exists us s VT, BlockProofs.svd_full p m L us s VT /\ length s = Nat.min m p.
Proof.
  intros p m L LL F. destruct (svd_full_exists m L F) as (us & s & vs & (LU & FU & OU) & (LV & FV & OV) & Ls & P & D & E). rewrite LL in *. exists (firstn (length s) vs), s, us. split; auto.
  split; [rewrite firstn_length; lia|]. split; [apply Forall_firstn'; auto|]. split; [apply orth_firstn; auto|]. split; [split; auto|]. split; [lia|]. split.
  { intros i j H. split; auto. rewrite Forall_forall in P. apply P, nth_In. lia. }
  split; auto. split; auto. intros x Lx. assert (FF : Forall (fun u => length u = p) (firstn (length s) vs)) by (apply Forall_firstn'; auto).
  apply vec_ext; [rewrite mv_length, lincomb_length; auto|]. rewrite mv_length. intros c Hc. rewrite mv_get by auto. rewrite (lc_get p) by (auto; rewrite firstn_length, map_length, seq_length; lia).
  rewrite firstn_length. replace (Nat.min (length s) (length vs)) with (length s) by lia. rewrite E by lia. rewrite dot_comm.
  rewrite (dot_lincomb_r m) by (try (apply Forall_firstn'; auto); rewrite vmul_length; rewrite ?firstn_length, ?col_len; lia). rewrite firstn_length. replace (Nat.min (length s) (length us)) with (length s) by lia.
  apply rsum_ext. intros k Hk. rewrite vmul_get by (rewrite ?firstn_length, ?col_len; lia). rewrite firstn_get by auto. rewrite !firstn_nthv by auto. rewrite col_get by lia. unfold vget at 3. rewrite nth_map_seq by auto. rewrite (dot_comm x). ring.
Qed.

(** * qr *)
Lemma lc_snoc : forall m q u c, Forall (fun v => length v = m) q -> length u = m -> length c = m -> lincomb m (q ++ [u]) (mv (q ++ [u]) c) = vadd (lincomb m q (mv q c)) (vscale (dot u c) u).
Proof.
  intros m q u c F Lu Lc. assert (F' : Forall (fun v => length v = m) (q ++ [u])) by (apply Forall_app; auto). assert (LL : length (lincomb m q (mv q c)) = m) by (apply lincomb_length; auto).
  apply vec_ext; [rewrite lincomb_length, vadd_length; rewrite ?vscale_length; auto; lia|]. intros i Hi. rewrite lincomb_length in Hi by auto. rewrite vadd_get by (rewrite ?vscale_length; lia).
  rewrite !(lc_get m) by (auto; rewrite mv_length; auto). rewrite app_length. simpl. rewrite Nat.add_1_r. simpl. rewrite vscale_get. f_equal.
  - apply rsum_ext. intros k Hk. rewrite !mv_get by (rewrite ?app_length; simpl; lia). rewrite app_nth1 by auto. auto.
  - rewrite mv_get by (rewrite ?app_length; simpl; lia). rewrite app_nth2, Nat.sub_diag by lia. simpl. auto.
Qed.
Lemma gs_exists : forall m cols, Forall (fun c => length c = m) cols -> (length cols <= m)%nat ->
  exists q, length q = length cols /\ Forall (fun v => length v = m) q /\ orthonormal q /\
    forall j, (j < length cols)%nat -> nth j cols [] = lincomb m q (mv q (nth j cols [])) /\ forall i, (j < i < length cols)%nat -> dot (nth i q []) (nth j cols []) = 0.
Proof.
  intros m cols. induction cols as [|c cols IH] using rev_ind; intros F L.
  - exists []. split; auto. split; auto. split; [intros a b Ha; simpl in Ha; lia|]. intros j Hj. simpl in Hj. lia.
  - apply Forall_app in F. destruct F as [F Fc]. assert (Lc : length c = m) by (inversion Fc; auto). rewrite app_length in L. simpl in L. destruct (IH F ltac:(lia)) as (q & Lq & Fq & Oq & E).
    set (r := vsub c (lincomb m q (mv q c))). assert (LL : length (lincomb m q (mv q c)) = m) by (apply lincomb_length; auto). assert (Lr : length r = m) by (unfold r; rewrite vsub_length; lia).
    assert (RO : forall k, (k < length q)%nat -> dot (nth k q []) r = 0) by (intros; apply (orth_resid m); auto).
    assert (U : exists u, length u = m /\ dot u u = 1 /\ (forall k, (k < length q)%nat -> dot (nth k q []) u = 0) /\ vscale (dot u c) u = r).
    { assert (D : forall u, length u = m -> (forall k, (k < length q)%nat -> dot (nth k q []) u = 0) -> dot u c = dot u r).
      { intros u Lu Ou. unfold r. rewrite dot_vsub_r by lia. rewrite (dot_lincomb_r m) by (auto; rewrite mv_length; auto). rewrite (rsum_zero (length q)); [ring|]. intros k Hk. rewrite (dot_comm u), Ou by auto. ring. }
      destruct (Req_dec (norm2sq r) 0) as [Z|NZ].
      - destruct (unit_orth m q Fq Oq ltac:(lia)) as (u & Lu & U1 & Ou). exists u. split; auto. split; auto. split; auto. rewrite D by auto. apply norm2sq_zero in Z. rewrite Forall_forall in Z.
        assert (ZR : forall i, vget r i = 0) by (intro i; destruct (lt_dec i (length r)); [apply Z, nth_In; auto|unfold vget; apply nth_overflow; lia]).
        assert (dot u r = 0) as -> by (rewrite (dot_rs m) by auto; apply rsum_zero; intros; rewrite ZR; ring). apply vec_ext; [rewrite vscale_length; lia|]. intros. rewrite vscale_get, ZR. ring.
      - assert (NR : norm2 r <> 0) by (intro Q; apply NZ; rewrite <- norm2_sq, Q; ring). pose proof (norm2_sq r) as Q. unfold norm2sq in Q.
        exists (vscale (/ norm2 r) r). split; [rewrite vscale_length; auto|]. split; [rewrite dot_vscale_l, dot_vscale_r, <- Q; field; auto|]. assert (OO : forall k, (k < length q)%nat -> dot (nth k q []) (vscale (/ norm2 r) r) = 0) by (intros k Hk; rewrite dot_vscale_r, RO by auto; ring).
        split; auto. rewrite D by (auto; rewrite vscale_length; auto). rewrite dot_vscale_l, <- Q. apply vec_ext; [rewrite !vscale_length; auto|]. intros. rewrite !vscale_get. field. auto. }
    destruct U as (u & Lu & U1 & Ou & Eu). destruct (orth_snoc m q u Fq Oq Lu U1 Ou) as [F' O']. exists (q ++ [u]). split; [rewrite !app_length; simpl; lia|]. split; auto. split; auto.
    assert (UZ : forall j, (j < length cols)%nat -> dot u (nth j cols []) = 0).
    { intros j Hj. destruct (E j Hj) as [E1 _]. rewrite E1. rewrite (dot_lincomb_r m) by (auto; rewrite mv_length; auto). apply rsum_zero. intros k Hk. rewrite (dot_comm u), Ou by auto. ring. }
    rewrite app_length. simpl. intros j Hj. destruct (Nat.eq_dec j (length cols)) as [->|NJ].
    + rewrite app_nth2, Nat.sub_diag by lia. simpl. split; [|intros; lia]. rewrite lc_snoc by auto. rewrite Eu. apply vec_ext; [rewrite vadd_length; lia|]. intros i Hi. rewrite vadd_get by lia. unfold r. rewrite vsub_get by lia. ring.
    + assert (Hj' : (j < length cols)%nat) by lia. rewrite app_nth1 by auto. destruct (E j Hj') as [E1 E2]. assert (Ln : length (nth j cols []) = m) by (rewrite Forall_forall in F; apply F, nth_In; auto). split.
      * rewrite lc_snoc by auto. rewrite UZ by auto. rewrite <- E1. apply vec_ext; [rewrite vadd_length; rewrite ?vscale_length; lia|]. intros i Hi. rewrite vadd_get by (rewrite ?vscale_length; lia). rewrite vscale_get. ring.
      * intros i Hi. destruct (Nat.eq_dec i (length cols)) as [->|NI]; [rewrite app_nth2, Lq, Nat.sub_diag by lia; simpl; auto|]. rewrite app_nth1 by lia. apply E2. lia.
Qed.
Theorem qr_exists : forall m cols, Forall (fun c => length c = m) cols -> (length cols <= m)%nat -> exists q r, SubModel.qr_post m cols q r.
Proof.
  intros m cols F L. destruct (gs_exists m cols F L) as (q & Lq & Fq & Oq & E). exists q, (map (fun c => mv q c) cols). split; auto. split; auto. split; auto. split; [apply map_length|].
  assert (G : forall j, (j < length cols)%nat -> nth j (map (fun c => mv q c) cols) [] = mv q (nth j cols [])) by (intros j Hj; rewrite (nth_indep _ [] (mv q [])) by (rewrite map_length; auto); rewrite (map_nth (fun c => mv q c)); auto).
  intros j Hj. rewrite G by auto. destruct (E j Hj) as [E1 E2]. split; [rewrite mv_length; auto|]. split; auto. intros i Hi. destruct (lt_dec i (length cols)) as [H|H]; [rewrite mv_get by lia; apply E2; lia|unfold vget; apply nth_overflow; rewrite mv_length; lia].
Qed.
(** full qr of at most m columns *)
Theorem qr_full_exists : forall m us, Forall (fun c => length c = m) us -> (length us <= m)%nat ->
  exists q, onb m q /\ (forall k j, (k < length us)%nat -> (k < j < m)%nat -> dot (nth k us []) (nth j q []) = 0) /\ forall k, (k < length us)%nat -> nth k us [] = lincomb m q (mv q (nth k us [])).
Proof.
  intros m us F L. destruct (gs_exists m us F L) as (q & Lq & Fq & Oq & E). destruct (extend_to m m q Fq Oq ltac:(lia)) as (v & A & B & C). exists (q ++ v). assert (OB : onb m (q ++ v)) by (split; auto). split; auto. split.
  - intros k j Hk Hj. destruct (E k Hk) as [E1 E2]. destruct (lt_dec j (length us)) as [H|H]; [rewrite app_nth1 by lia; rewrite dot_comm; apply E2; lia|].
    rewrite E1, dot_comm, (dot_lincomb_r m) by (auto; rewrite mv_length; auto). apply rsum_zero. intros i Hi. pose proof (C j i ltac:(lia) ltac:(lia)) as Z. rewrite (app_nth1 q v [] Hi) in Z. destruct (Nat.eqb_spec j i); [lia|]. rewrite Z. ring.
  - intros k Hk. symmetry. apply onb_expand; auto. rewrite Forall_forall in F. apply F, nth_In. auto.
Qed.
(** * eigh of the Jacobi matrix, quadrature.py 36-38, and of any symmetric matrix *)
Theorem eigh_contract_exists : forall n T, (1 <= n)%nat -> sq n T -> msym n T -> exists ew ev, eigh_contract n T ew ev.
Proof.
  intros n T H ST MT. destruct (eig_all n T n ST MT (le_n n)) as (w & us & L & Lw & F & OR & EV & _). exists w, us. split; [lia|]. split; auto. split; auto. split.
  - intros j Hj. split; [rewrite (OR j j) by lia; rewrite Nat.eqb_refl; auto|apply EV; lia].
  - assert (OB : onb n us) by (split; auto). pose proof (onb_cols n us 0 0 OB ltac:(lia) ltac:(lia)) as Q. rewrite Nat.eqb_refl in Q. rewrite <- Q. unfold col. clear. induction us as [|u us IH]; [unfold vsum; rewrite dot_nil_l; reflexivity|]. cbn [map]. rewrite dot_cons, <- IH. unfold vsum. simpl. reflexivity.
Qed.
Lemma jacobi_sq : forall n, sq n (jacobi n).
Proof. intro n. split; [unfold jacobi; rewrite map_length, seq_length; auto|]. apply Forall_forall. intros r I. apply in_map_iff in I. destruct I as (i & <- & _). rewrite map_length, seq_length. auto. Qed.
Lemma jacobi_sym : forall n, msym n (jacobi n).
Proof.
  intros n i j Hi Hj. unfold mget, jacobi, vget. rewrite !nth_map_seq by auto. destruct (Nat.eqb_spec j (S i)), (Nat.eqb_spec i (S j)); auto; lia.
Qed.
Theorem gauss_solvable : forall n, (1 <= n)%nat -> exists ew ev, eigh_contract n (jacobi n) ew ev.
Proof. intros. apply eigh_contract_exists; auto; [apply jacobi_sq|apply jacobi_sym]. Qed.
