(** Variable projection (polyridge.py 448-505, polyridge_vec.py 30-89): the residual is a function of the subspace alone, the
    Jacobian is its derivative, and rotations within the subspace are in its kernel. *)
Require Import Reals Lra Lia List Bool Arith.
From Verif Require Import RVec Num Sums DomModel DomMoreModel SweepProofs HullProofs Deriv BasisModel IndexProofs PolyProofs MatLib SpecProofs GrassLib LipModel LipFitProofs SubModel RidgeModel RidgeProofs TrajProofs PolySpan VarproLib.
Import ListNotations.
Local Open Scope R_scope.

(** specification: exact least squares *)
Definition ls_opt (N : nat) (V : mat) (f c : vec) : Prop := length c = N /\ forall c', length c' = N -> norm2 (vsub f (mv V c)) <= norm2 (vsub f (mv V c')).
(** a basis without division by zero in its scaling *)
Definition basis_ok (B : tbasis) (n : nat) : Prop := fam_ok (tb_fam B) /\ fam3 (tb_fam B) /\ tb_dim B = n /\ (1 <= n)%nat /\ forall k, (k < n)%nat -> dscale (tb_scale B) k <> 0.

Lemma list_choice : forall n (P : nat -> vec -> Prop), (forall j, (j < n)%nat -> exists v, P j v) -> exists L, length L = n /\ forall j, (j < n)%nat -> P j (nth j L []).
Proof.
  induction n as [|n IH]; intros P H; [exists []; split; auto; intros; lia|]. destruct (IH P ltac:(intros; apply H; lia)) as [L [LL HL]]. destruct (H n ltac:(lia)) as [v Hv]. exists (L ++ [v]). split; [rewrite app_length; simpl; lia|].
  intros j Hj. destruct (Nat.eq_dec j n) as [->|]; [rewrite app_nth2 by lia; rewrite LL, Nat.sub_diag; auto|]. rewrite app_nth1 by lia. apply HL. lia.
Qed.
Lemma Vrow_len : forall B x, length (Vrow B x) = length (indices B). Proof. intros. unfold Vrow. apply map_length. Qed.
Lemma vp_V_len : forall B us X, length (vp_V B us X) = length X. Proof. intros. unfold vp_V. apply map_length. Qed.
Lemma vp_V_nth : forall B us X b, (b < length X)%nat -> nth b (vp_V B us X) [] = Vrow B (mv us (nth b X [])).
Proof. intros B us X b Hb. unfold vp_V. rewrite (nth_indep _ [] (Vrow B (mv us []))) by (rewrite map_length; auto). rewrite (map_nth (fun x => Vrow B (mv us x))). auto. Qed.
Lemma vp_V_rows : forall B us X, Forall (fun v => length v = length (indices B)) (vp_V B us X).
Proof. intros. apply Forall_forall. intros v I. unfold vp_V in I. apply in_map_iff in I. destruct I as [x [<- _]]. apply Vrow_len. Qed.

(* ---------- least squares ---------- *)
Lemma quad_min : forall a b, 0 <= a -> (forall t, 0 <= a * (t * t) - 2 * b * t) -> b = 0.
Proof.
  intros a b Ha H. specialize (H (b / (a + 1))). destruct (Req_dec b 0) as [|N]; auto. exfalso.
  assert (E : a * (b / (a + 1) * (b / (a + 1))) - 2 * b * (b / (a + 1)) = - ((a + 2) * ((b / (a + 1)) * (b / (a + 1))))) by (field; lra). rewrite E in H.
  assert (Q : b / (a + 1) <> 0) by (intro Q; apply N; apply (Rmult_eq_reg_r (/ (a + 1))); [unfold Rdiv in Q; lra|apply Rinv_neq_0_compat; lra]).
  assert (0 < b / (a + 1) * (b / (a + 1))) by nra. nra.
Qed.
Lemma norm2_le_sq : forall a b, norm2 a <= norm2 b -> norm2sq a <= norm2sq b.
Proof. intros a b H. rewrite <- !norm2_sq. pose proof (norm2_nonneg a). apply Rmult_le_compat; auto. Qed.
Lemma ls_normal : forall N V f c e, Forall (fun v => length v = N) V -> length f = length V -> ls_opt N V f c -> length e = N -> dot (vsub f (mv V c)) (mv V e) = 0.
Proof.
  intros N V f c e FV Lf [Lc H] Le. set (r := vsub f (mv V c)). assert (Lr : length r = length V) by (unfold r; rewrite vsub_length; rewrite ?mv_length; auto).
  apply (quad_min (dot (mv V e) (mv V e))); [apply (norm2sq_nonneg (mv V e))|]. intro t.
  assert (LE : length c = length (vscale t e)) by (rewrite vscale_length; lia).
  specialize (H (vadd c (vscale t e)) ltac:(rewrite vadd_length; auto)). apply norm2_le_sq in H. rewrite mv_vadd in H by auto. rewrite mv_vscale in H.
  assert (E : vsub f (vadd (mv V c) (vscale t (mv V e))) = vsub r (vscale t (mv V e))).
  { assert (L1 : length (mv V c) = length (vscale t (mv V e))) by (rewrite vscale_length, !mv_length; auto). assert (L2 : length f = length (mv V c)) by (rewrite mv_length; auto).
    apply vec_ext; [unfold r; rewrite !vsub_length; rewrite ?vadd_length, ?vsub_length, ?vscale_length, ?mv_length; auto|]. intros i Hi. unfold r. rewrite !vsub_get, vadd_get by (rewrite ?vadd_length, ?vsub_length, ?vscale_length, ?mv_length; auto). ring. }
  rewrite E in H. fold r in H. unfold norm2sq in H. rewrite dot_vsub_l in H by (rewrite vscale_length, mv_length; auto). rewrite !dot_vsub_r in H by (rewrite vscale_length, mv_length; auto). rewrite !dot_vscale_l, !dot_vscale_r in H. rewrite (dot_comm (mv V e) r) in H. lra.
Qed.
Lemma normal_index : forall N V r j, Forall (fun v => length v = N) V -> length r = length V -> (j < N)%nat -> dot r (mv V (unitv N j)) = rsum (length V) (fun b => vget (nth b V []) j * vget r b).
Proof.
  intros N V r j FV Lr Hj. rewrite (dot_rs (length V)) by (auto; apply mv_length). apply rsum_ext. intros b Hb. rewrite mv_get by auto. rewrite dot_unitv by (auto; rewrite Forall_forall in FV; apply FV, nth_In; auto). ring.
Qed.

(* ---------- the residual depends on the subspace only ---------- *)
Lemma V_change : forall B B' m n n' us us' X, basis_ok B n -> basis_ok B' n' -> (tb_deg B' <= tb_deg B)%nat -> length us = n -> length us' = n' -> Forall (fun u => length u = m) us -> (forall u, In u us' -> spans m us u) ->
  Forall (fun x => length x = m) X ->
  exists T, length T = length (indices B') /\ Forall (fun v => length v = length (indices B)) T /\ forall x, In x X -> Vrow B' (mv us' x) = mv T (Vrow B (mv us x)).
Proof.
  intros B B' m n n' us us' X [FO [F3 [Dn [Hn DN]]]] [FO' [F3' [Dn' [Hn' DN']]]] HD Lu Lu' FU SP FX. subst n n'.
  destruct (list_choice (length us') (fun k a => length a = length us /\ nth k us' [] = lincomb m us a)) as [A [LA HA]]; [intros k Hk; apply SP, nth_In; lia|].
  assert (EX : forall j, (j < length (indices B'))%nat -> exists T, length T = length (indices B) /\ forall x, In x X -> psi B' (nth j (indices B') []) (mv us' x) = dot T (Vrow B (mv us x))).
  { intros j Hj. set (al := nth j (indices B') []). assert (I : In al (indices B')) by (apply nth_In; auto). apply index_set_in in I; [|lia]. destruct I as [La Sa].
    set (g := fun y => prodn (tb_dim B') (fun k => phi (tb_fam B') (ith al k) (scale (tb_scale B') k 0 + dot (vscale (dscale (tb_scale B') k) (nth k A [])) y))).
    assert (PG : pspan B (tb_deg B) g).
    { apply (pspan_mono B Hn (nsum (map (ith al) (seq 0 (tb_dim B'))))); [rewrite <- La, ith_map; lia|]. apply (pspan_prod B F3 DN Hn (tb_fam B')); auto. intros k Hk. rewrite vscale_length. destruct (HA k ltac:(lia)) as [-> _]. lia. }
    destruct (pspan_V B Hn g PG) as [T [LT ET]]. exists T. split; auto. intros x Ix. assert (Lx : length x = m) by (rewrite Forall_forall in FX; auto). rewrite <- ET by (rewrite mv_length; lia). unfold psi, g. apply prodn_ext. intros k Hk. f_equal. unfold sc.
    destruct (HA k ltac:(lia)) as [Lk Ek]. rewrite mv_get by lia. rewrite Ek. rewrite (dot_comm _ x), (dot_lincomb_r m) by auto. rewrite dot_vscale_l. rewrite (dot_rs (length us)) by (auto; apply mv_length).
    replace (rsum (length us) (fun k0 => vget (nth k A []) k0 * dot x (nth k0 us []))) with (0 + rsum (length us) (fun k0 => vget (nth k A []) k0 * dot x (nth k0 us []))) by ring. rewrite scale_affine. rewrite Rmult_comm. f_equal. f_equal. apply rsum_ext. intros l Hl. rewrite mv_get by auto. rewrite (dot_comm x). auto. }
  destruct (list_choice _ _ EX) as [T [LT HT]]. exists T. split; auto. split; [apply Forall_forall; intros v I; apply (In_nth _ _ []) in I; destruct I as [j [Hj <-]]; apply HT; lia|].
  intros x Ix. apply vec_ext; [rewrite mv_length, Vrow_len; auto|]. intros j Hj. rewrite Vrow_len in Hj. rewrite Vrow_nth by (auto; lia). rewrite mv_get by lia. apply HT; auto.
Qed.
(** V' c' = V e *)
Lemma V_change_mv : forall B B' m n n' us us' X, basis_ok B n -> basis_ok B' n' -> (tb_deg B' <= tb_deg B)%nat -> length us = n -> length us' = n' -> Forall (fun u => length u = m) us -> (forall u, In u us' -> spans m us u) ->
  Forall (fun x => length x = m) X -> forall c', length c' = length (indices B') -> exists e, length e = length (indices B) /\ mv (vp_V B' us' X) c' = mv (vp_V B us X) e.
Proof.
  intros B B' m n n' us us' X OB OB' HD Lu Lu' FU SP FX c' Lc. destruct (V_change B B' m n n' us us' X OB OB' HD Lu Lu' FU SP FX) as [T [LT [FT HT]]].
  exists (lincomb (length (indices B)) T c'). split; [apply lincomb_length; auto|]. apply vec_ext; [rewrite !mv_length, !vp_V_len; auto|]. intros b Hb. rewrite mv_length, vp_V_len in Hb. rewrite !mv_get by (rewrite vp_V_len; auto). rewrite !vp_V_nth by auto.
  rewrite HT by (apply nth_In; auto). rewrite (dot_lincomb_r (length (indices B))) by (auto; lia). rewrite (dot_rs (length T)) by (rewrite ?mv_length; lia). apply rsum_ext. intros k Hk. rewrite mv_get by auto. rewrite (dot_comm (nth k T [])). ring.
Qed.
Lemma span_members : forall m us vs, Forall (fun u => length u = m) us -> same_span m us vs -> forall u, In u us -> spans m vs u.
Proof. intros m us vs F S u I. apply (In_nth _ _ []) in I. destruct I as [k [Hk <-]]. apply S. apply spans_col; auto. Qed.
Theorem varpro_subspace : forall B B' m n n' us us' X f c c', basis_ok B n -> basis_ok B' n' -> tb_deg B' = tb_deg B -> length us = n -> length us' = n' -> Forall (fun u => length u = m) us -> Forall (fun u => length u = m) us' ->
  same_span m us us' -> Forall (fun x => length x = m) X -> length f = length X -> ls_opt (length (indices B)) (vp_V B us X) f c -> ls_opt (length (indices B')) (vp_V B' us' X) f c' ->
  vp_residual (vp_V B us X) f c = vp_residual (vp_V B' us' X) f c'.
Proof.
  intros B B' m n n' us us' X f c c' OB OB' HD Lu Lu' FU FU' SS FX Lf LS LS'. unfold vp_residual. set (V := vp_V B us X) in *. set (V' := vp_V B' us' X) in *.
  assert (LV : length V = length X) by apply vp_V_len. assert (LV' : length V' = length X) by apply vp_V_len. pose proof LS as [Lc _]. pose proof LS' as [Lc' _].
  destruct (V_change_mv B B' m n n' us us' X OB OB' ltac:(lia) Lu Lu' FU (span_members m us' us FU' (fun x => iff_sym (SS x))) FX c' Lc') as [e [Le Ee]]. fold V V' in Ee.
  destruct (V_change_mv B' B m n' n us' us X OB' OB ltac:(lia) Lu' Lu FU' (span_members m us us' FU SS) FX (vsub c e) ltac:(rewrite vsub_length; lia)) as [e2 [Le2 Ee2]]. fold V V' in Ee2.
  set (r := vsub f (mv V c)). set (r' := vsub f (mv V' c')).
  assert (Lr : length r = length X) by (unfold r; rewrite vsub_length; rewrite ?mv_length; lia). assert (Lr' : length r' = length X) by (unfold r'; rewrite vsub_length; rewrite ?mv_length; lia).
  assert (W : vsub r' r = mv V (vsub c e)).
  { rewrite mv_vsub by lia. rewrite <- Ee. unfold r, r'. apply vec_ext; [rewrite !vsub_length; rewrite ?vsub_length; rewrite ?mv_length; lia|]. intros i Hi. rewrite !vsub_get by (rewrite ?vsub_length; rewrite ?mv_length; lia). ring. }
  assert (N1 : dot r (mv V (vsub c e)) = 0) by (apply (ls_normal (length (indices B))); auto; [apply vp_V_rows|lia|rewrite vsub_length; lia]).
  assert (N2 : dot r' (mv V (vsub c e)) = 0) by (rewrite Ee2; apply (ls_normal (length (indices B'))); auto; [apply vp_V_rows|lia]).
  assert (Z : dot (vsub r' r) (vsub r' r) = 0) by (rewrite W at 2; rewrite dot_vsub_l by lia; lra).
  assert (Z' : forall i, (i < length X)%nat -> vget r' i = vget r i).
  { intros i Hi. assert (LZ : length (vsub r' r) = length X) by (rewrite vsub_length; lia). rewrite (dot_rs (length X)) in Z by auto. pose proof (rsum_term (length X) i (fun i => vget (vsub r' r) i * vget (vsub r' r) i) ltac:(intros; nra) Hi) as T. cbv beta in T. rewrite Z in T. rewrite vsub_get in T by lia. nra. }
  apply vec_ext; [lia|]. intros i Hi. symmetry. apply Z'. lia.
Qed.

(* ---------- the Jacobian ---------- *)
Lemma mapr_get : forall (A : Type) (g : A -> R) (l : list A) k d, (k < length l)%nat -> vget (map g l) k = g (nth k l d).
Proof. intros A g l k d Hk. unfold vget. rewrite nth_indep with (d' := g d) by (rewrite map_length; auto). apply map_nth. Qed.
Lemma rsum_grid : forall m n g, rsum (m * n) g = rsum m (fun k => rsum n (fun l => g (k * n + l)%nat)).
Proof. induction m; intros n g; [reflexivity|]. replace (S m * n)%nat with (m * n + n)%nat by lia. rewrite rsum_app, IHm. reflexivity. Qed.
Definition ent (A : list vec) (p b : nat) : R := vget (nth p A []) b.
Lemma vp_col_get : forall M N ys s zs dV c r a, length ys = N -> Forall (fun y => length y = M) ys -> length zs = N -> Forall (fun z => length z = N) zs -> length dV = M -> Forall (fun v => length v = N) dV -> length c = N -> length r = M -> (a < M)%nat ->
  length (vp_col M N ys s zs dV c r) = M /\
  vget (vp_col M N ys s zs dV c r) a = - rsum M (fun b => rsum N (fun j => ent dV b j * (vQ N (ent ys) a b * vget c j + vR N (ent ys) (vget s) (ent zs) a j * vget r b))).
Proof.
  intros M N ys s zs dV c r a Ly FY Lz FZ LV FV Lc Lr Ha. unfold vp_col, vp_proj, vp_pinvT.
  assert (L1 : length (mv dV c) = M) by (rewrite mv_length; auto). assert (L2 : length (lincomb M ys (mv ys (mv dV c))) = M) by (apply lincomb_length; auto). assert (L3 : length (vsub (mv dV c) (lincomb M ys (mv ys (mv dV c)))) = M) by (rewrite vsub_length; lia).
  set (w := map (fun p => / vget s p * dot (nth p zs []) (mtv N dV r)) (seq 0 (length ys))). assert (Lw : length w = length ys) by (unfold w; rewrite map_length, seq_length; auto). assert (L4 : length (lincomb M ys w) = M) by (apply lincomb_length; auto).
  split; [rewrite vscale_length, vadd_length; lia|]. rewrite vscale_get, vadd_get, vsub_get by lia. rewrite !MatLib.lincomb_get by (auto; apply mv_length). rewrite Ly. rewrite mv_get by lia.
  assert (DM : forall b, (b < M)%nat -> dot (nth b dV []) c = rsum N (fun j => ent dV b j * vget c j)) by (intros b Hb; apply dot_rs; auto; rewrite Forall_forall in FV; apply FV, nth_In; lia).
  assert (T1 : dot (nth a dV []) c - rsum N (fun p => vget (mv ys (mv dV c)) p * vget (nth p ys []) a) = rsum M (fun b => vQ N (ent ys) a b * dot (nth b dV []) c)).
  { unfold vQ. rewrite (rsum_ext M _ (fun b => kron a b * dot (nth b dV []) c - rsum N (fun p => ent ys p a * (ent ys p b * dot (nth b dV []) c)))) by (intros b Hb; rewrite Rmult_minus_distr_r; f_equal; rewrite <- rsum_scal_r; apply rsum_ext; intros; ring).
    rewrite rsum_minus, (kron_sum M a (fun b => dot (nth b dV []) c)) by auto. f_equal. rewrite rsum_swap. apply rsum_ext. intros p Hp. rewrite rsum_scal_l. rewrite mv_get by lia. rewrite (dot_rs M) by (auto; rewrite Forall_forall in FY; apply FY, nth_In; lia). rewrite Rmult_comm. f_equal. apply rsum_ext. intros b Hb. rewrite mv_get by lia. auto. }
  assert (T2 : rsum N (fun p => vget w p * vget (nth p ys []) a) = rsum N (fun j => vR N (ent ys) (vget s) (ent zs) a j * rsum M (fun b => ent dV b j * vget r b))).
  { unfold vR. rewrite (rsum_ext N (fun j => rsum N (fun p => ent ys p a * / vget s p * ent zs p j) * rsum M (fun b => ent dV b j * vget r b)) (fun j => rsum N (fun p => ent ys p a * / vget s p * (ent zs p j * rsum M (fun b => ent dV b j * vget r b))))) by (intros; rewrite <- rsum_scal_r; apply rsum_ext; intros; ring). rewrite rsum_swap. apply rsum_ext. intros p Hp. rewrite rsum_scal_l. unfold w. rewrite Ly, vget_map_seq by auto.
    assert (E : dot (nth p zs []) (mtv N dV r) = rsum N (fun j => ent zs p j * rsum M (fun b => ent dV b j * vget r b))).
    { rewrite (dot_rs N) by (try (unfold mtv; apply lincomb_length; auto); rewrite Forall_forall in FZ; apply FZ, nth_In; lia). apply rsum_ext. intros j Hj. unfold ent at 1. f_equal. unfold mtv. rewrite MatLib.lincomb_get by (auto; lia). rewrite LV. apply rsum_ext. intros b Hb. unfold ent. ring. }
    rewrite E. change (vget (nth p ys []) a) with (ent ys p a). ring. }
  rewrite T1, T2. rewrite (rsum_ext M (fun b => vQ N (ent ys) a b * dot (nth b dV []) c) (fun b => rsum N (fun j => ent dV b j * (vQ N (ent ys) a b * vget c j)))) by (intros b Hb; rewrite DM by auto; rewrite <- rsum_scal_l; apply rsum_ext; intros; ring).
  rewrite (rsum_ext N (fun j => vR N (ent ys) (vget s) (ent zs) a j * _) (fun j => rsum M (fun b => ent dV b j * (vR N (ent ys) (vget s) (ent zs) a j * vget r b)))) by (intros j Hj; rewrite <- rsum_scal_l; apply rsum_ext; intros; ring).
  rewrite (rsum_swap N M). rewrite <- rsum_plus. rewrite (rsum_ext M (fun i => _ + _) (fun b => rsum N (fun j => ent dV b j * (vQ N (ent ys) a b * vget c j + vR N (ent ys) (vget s) (ent zs) a j * vget r b)))); [ring|]. intros b Hb. rewrite <- rsum_plus. apply rsum_ext. intros; ring.
Qed.
(** the columns of V *)
Definition cols (N : nat) (V : mat) : list vec := map (col V) (seq 0 N).
Definition svd_mat (M N : nat) (V : mat) (ys : list vec) (s : vec) (zs : list vec) : Prop := svd_post M (cols N V) ys s zs.
Lemma cols_len : forall N V, length (cols N V) = N. Proof. intros. unfold cols. rewrite map_length, seq_length. auto. Qed.
Lemma svd_mat_index : forall M N V ys s zs, length V = M -> svd_mat M N V ys s zs ->
  length ys = N /\ Forall (fun y => length y = M) ys /\ length zs = N /\ Forall (fun z => length z = N) zs /\ length s = N /\
  (forall p q, (p < N)%nat -> (q < N)%nat -> rsum M (fun b => ent ys p b * ent ys q b) = kron p q) /\
  (forall p q, (p < N)%nat -> (q < N)%nat -> rsum N (fun b => ent zs p b * ent zs q b) = kron p q) /\
  (forall i j, (i < N)%nat -> (j < N)%nat -> rsum N (fun p => ent zs p i * ent zs p j) = kron i j) /\
  forall b j, (b < M)%nat -> (j < N)%nat -> ent V b j = rsum N (fun p => ent ys p b * vget s p * ent zs p j).
Proof.
  intros M N V ys s zs LV [Ly [FY [OY [Ls [OZ E]]]]]. rewrite cols_len in *. pose proof OZ as [Lz [FZ ORZ]]. split; auto. split; auto. split; auto. split; [exact FZ|]. split; auto.
  assert (LY : forall p, (p < N)%nat -> length (nth p ys []) = M) by (intros p Hp; rewrite Forall_forall in FY; apply FY, nth_In; lia).
  assert (LZ : forall p, (p < N)%nat -> length (nth p zs []) = N) by (intros p Hp; apply (onb_row N); auto).
  split; [intros p q Hp Hq; unfold ent; rewrite <- (dot_rs M) by auto; apply OY; lia|]. split; [intros p q Hp Hq; unfold ent; rewrite <- (dot_rs N) by auto; apply ORZ; lia|]. split.
  - intros i j Hi Hj. pose proof (onb_cols N zs i j OZ Hi Hj) as H. rewrite (dot_rs N) in H by (rewrite col_len; auto). unfold kron. rewrite <- H. apply rsum_ext. intros k Hk. rewrite !col_get by lia. auto.
  - intros b j Hb Hj. specialize (E j Hj). unfold cols in E. rewrite nth_map_seq in E by auto. apply (f_equal (fun v => vget v b)) in E. rewrite col_get in E by lia. unfold ent at 1. rewrite E. rewrite MatLib.lincomb_get by (auto; unfold vmul; rewrite vmap2_length by (rewrite col_len; lia); lia). rewrite Ly. apply rsum_ext. intros k Hk. rewrite vmul_get by (rewrite col_len; lia). rewrite col_get by lia. unfold ent. ring.
Qed.
Lemma vp_dv_nth : forall B us X k l b, (b < length X)%nat -> nth b (vp_dv B us X k l) [] = map (fun row => vget (nth b X []) k * vget row l) (DVrow B (mv us (nth b X []))).
Proof. intros B us X k l b Hb. unfold vp_dv. rewrite (nth_indep _ [] (map (fun row => vget [] k * vget row l) (DVrow B (mv us [])))) by (rewrite map_length; auto). rewrite (map_nth (fun x => map (fun row => vget x k * vget row l) (DVrow B (mv us x)))). auto. Qed.
Lemma DVrow_len : forall B x, length (DVrow B x) = length (indices B). Proof. intros. unfold DVrow. apply map_length. Qed.
Lemma vp_dv_ent : forall B us X k l b j, (b < length X)%nat -> (j < length (indices B))%nat -> ent (vp_dv B us X k l) b j = vget (nth b X []) k * vget (nth j (DVrow B (mv us (nth b X []))) []) l.
Proof. intros B us X k l b j Hb Hj. unfold ent. rewrite vp_dv_nth by auto. rewrite (mapr_get _ _ _ j []) by (rewrite DVrow_len; auto). auto. Qed.
Lemma vp_dv_rows : forall B us X k l, length (vp_dv B us X k l) = length X /\ Forall (fun v => length v = length (indices B)) (vp_dv B us X k l).
Proof. intros. unfold vp_dv. split; [apply map_length|]. apply Forall_forall. intros v I. apply in_map_iff in I. destruct I as [x [<- _]]. rewrite map_length. apply DVrow_len. Qed.
Lemma flat_len : forall m us, length (flat m us) = (m * length us)%nat. Proof. intros. unfold flat. rewrite map_length, seq_length. auto. Qed.
Lemma flat_get : forall m us k l, (k < m)%nat -> (l < length us)%nat -> vget (flat m us) (k * length us + l) = ent us l k.
Proof.
  intros m us k l Hk Hl. unfold flat. assert (H : (k * length us + l < m * length us)%nat) by nia. rewrite vget_map_seq by auto. rewrite Nat.add_comm, Nat.mod_add, Nat.mod_small, Nat.div_add, Nat.div_small by lia. auto.
Qed.
Lemma vp_jac_len : forall B us m X ys s zs c r, length (vp_jac B us m X ys s zs c r) = (m * length us)%nat. Proof. intros. unfold vp_jac. rewrite map_length, seq_length. auto. Qed.
Lemma vp_jac_nth : forall B us m X ys s zs c r k l, (k < m)%nat -> (l < length us)%nat -> nth (k * length us + l) (vp_jac B us m X ys s zs c r) [] = vp_col (length X) (length (indices B)) ys s zs (vp_dv B us X k l) c r.
Proof.
  intros B us m X ys s zs c r k l Hk Hl. unfold vp_jac. assert (H : (k * length us + l < m * length us)%nat) by nia. rewrite nth_map_seq by auto. rewrite (Nat.add_comm (k * length us)), Nat.mod_add, Nat.mod_small, Nat.div_add, Nat.div_small by lia. auto.
Qed.
(** J flat(D), for any direction D: the columns are linear in the derivative of V *)
Lemma vp_jac_dir : forall B us m X ys s zs c r ds a, svd_mat (length X) (length (indices B)) (vp_V B us X) ys s zs -> length c = length (indices B) -> length r = length X -> length ds = length us -> (a < length X)%nat ->
  rsum (m * length us) (fun i => vget (flat m ds) i * vget (nth i (vp_jac B us m X ys s zs c r) []) a) =
  - rsum (length X) (fun b => rsum (length (indices B)) (fun j => rsum (length us) (fun l => vget (nth j (DVrow B (mv us (nth b X []))) []) l * rsum m (fun k => vget (nth b X []) k * ent ds l k)) * (vQ (length (indices B)) (ent ys) a b * vget c j + vR (length (indices B)) (ent ys) (vget s) (ent zs) a j * vget r b))).
Proof.
  intros B us m X ys s zs c r ds a SV Lc Lr Ld Ha. destruct (svd_mat_index _ _ _ _ _ _ (vp_V_len B us X) SV) as [Ly [FY [Lz [FZ [Ls _]]]]]. set (N := length (indices B)) in *. set (M := length X) in *.
  set (G := fun b j => vQ N (ent ys) a b * vget c j + vR N (ent ys) (vget s) (ent zs) a j * vget r b). rewrite rsum_grid.
  rewrite (rsum_ext m _ (fun k => rsum (length us) (fun l => - rsum M (fun b => rsum N (fun j => ent ds l k * (vget (nth b X []) k * vget (nth j (DVrow B (mv us (nth b X []))) []) l) * G b j))))).
  - rewrite (rsum_ext m _ (fun k => - rsum M (fun b => rsum N (fun j => rsum (length us) (fun l => ent ds l k * (vget (nth b X []) k * vget (nth j (DVrow B (mv us (nth b X []))) []) l) * G b j))))).
    + rewrite rsum_opp. f_equal. rewrite rsum_swap. apply rsum_ext. intros b Hb. rewrite rsum_swap. apply rsum_ext. intros j Hj. rewrite rsum_swap. fold (G b j). rewrite <- rsum_scal_r. apply rsum_ext. intros l Hl. rewrite rsum_scal_r. f_equal. rewrite <- rsum_scal_l. apply rsum_ext. intros; ring.
    + intros k Hk. rewrite rsum_opp. f_equal. rewrite rsum_swap. apply rsum_ext. intros b Hb. rewrite rsum_swap. auto.
  - intros k Hk. apply rsum_ext. intros l Hl. rewrite <- Ld at 1. rewrite flat_get by lia. rewrite vp_jac_nth by auto. fold M N. destruct (vp_dv_rows B us X k l) as [D1 D2]. destruct (vp_col_get M N ys s zs (vp_dv B us X k l) c r a Ly FY Lz FZ D1 D2 Lc Lr Ha) as [_ ->].
    rewrite Ropp_mult_distr_r_reverse. f_equal. rewrite <- rsum_scal_l. apply rsum_ext. intros b Hb. rewrite <- rsum_scal_l. apply rsum_ext. intros j Hj. rewrite vp_dv_ent by auto. fold (G b j). ring.
Qed.
(** the line U + t D *)
Definition line (us ds : list vec) (t : R) : list vec := zipw (fun u d => vadd u (vscale t d)) us ds.
Lemma line_len : forall us ds t, length us = length ds -> length (line us ds t) = length us. Proof. intros. unfold line. apply zipw_length; auto. Qed.
Lemma line_nth : forall us ds t k, length us = length ds -> (k < length us)%nat -> nth k (line us ds t) [] = vadd (nth k us []) (vscale t (nth k ds [])).
Proof. intros. unfold line. rewrite (zipw_nth _ _ _ _ us ds k [] [] []) by lia. auto. Qed.
Lemma line_dims : forall m us ds t, length us = length ds -> Forall (fun u => length u = m) us -> Forall (fun u => length u = m) ds -> Forall (fun u => length u = m) (line us ds t).
Proof.
  intros m us ds t L FU FD. apply Forall_forall. intros v I. apply (In_nth _ _ []) in I. destruct I as [k [Hk <-]]. rewrite line_len in Hk by auto. rewrite line_nth by auto.
  assert (length (nth k us []) = m) by (rewrite Forall_forall in FU; apply FU, nth_In; lia). assert (length (nth k ds []) = m) by (rewrite Forall_forall in FD; apply FD, nth_In; lia). rewrite vadd_length; rewrite ?vscale_length; lia.
Qed.
Lemma line_mv : forall m us ds t x, length us = length ds -> Forall (fun u => length u = m) us -> Forall (fun u => length u = m) ds -> length x = m -> mv (line us ds t) x = vadd (mv us x) (vscale t (mv ds x)).
Proof.
  intros m us ds t x L FU FD Lx. apply vec_ext; [rewrite vadd_length; rewrite ?vscale_length, ?mv_length, ?line_len; auto|]. intros k Hk. rewrite mv_length, line_len in Hk by auto.
  rewrite vadd_get by (rewrite vscale_length, !mv_length; auto). rewrite vscale_get, !mv_get by (rewrite ?line_len; lia). rewrite line_nth by auto.
  assert (length (nth k us []) = m) by (rewrite Forall_forall in FU; apply FU, nth_In; lia). assert (length (nth k ds []) = m) by (rewrite Forall_forall in FD; apply FD, nth_In; lia). rewrite dot_vadd_l by (rewrite vscale_length; lia). rewrite dot_vscale_l. auto.
Qed.
Lemma line_0 : forall m us ds, length us = length ds -> Forall (fun u => length u = m) us -> Forall (fun u => length u = m) ds -> line us ds 0 = us.
Proof.
  intros m us ds L FU FD. apply (nth_ext _ _ [] []); [apply line_len; auto|]. intros k Hk. rewrite line_len in Hk by auto. rewrite line_nth by auto.
  assert (length (nth k us []) = m) by (rewrite Forall_forall in FU; apply FU, nth_In; lia). assert (length (nth k ds []) = m) by (rewrite Forall_forall in FD; apply FD, nth_In; lia).
  apply vec_ext; [rewrite vadd_length; rewrite ?vscale_length; lia|]. intros i Hi. rewrite vadd_get, vscale_get by (rewrite vscale_length; lia). ring.
Qed.
Lemma DVrow_row_len : forall B x j, (j < length (indices B))%nat -> length (nth j (DVrow B x) []) = tb_dim B.
Proof.
  intros B x j Hj. assert (I : In (nth j (DVrow B x) []) (DVrow B x)) by (apply nth_In; rewrite DVrow_len; auto). unfold DVrow in I. apply in_map_iff in I. destruct I as [al [E _]]. unfold DVrow. rewrite <- E. rewrite map_length, seq_length. auto.
Qed.
Lemma vp_jac_cols : forall B us m X ys s zs c r, svd_mat (length X) (length (indices B)) (vp_V B us X) ys s zs -> length c = length (indices B) -> length r = length X -> Forall (fun v => length v = length X) (vp_jac B us m X ys s zs c r).
Proof.
  intros B us m X ys s zs c r SV Lc Lr. destruct (svd_mat_index _ _ _ _ _ _ (vp_V_len B us X) SV) as [Ly [FY [Lz [FZ [Ls _]]]]]. apply Forall_forall. intros v I. unfold vp_jac in I. apply in_map_iff in I. destruct I as [i [<- _]].
  destruct (vp_dv_rows B us X (i / length us) (i mod length us)) as [D1 D2]. unfold vp_col, vp_proj, vp_pinvT. assert (L1 : length (lincomb (length X) ys (mv ys (mv (vp_dv B us X (i / length us) (i mod length us)) c))) = length X) by (apply lincomb_length; auto).
  assert (L2 : length (mv (vp_dv B us X (i / length us) (i mod length us)) c) = length X) by (rewrite mv_length; auto).
  assert (L3 : length (vsub (mv (vp_dv B us X (i / length us) (i mod length us)) c) (lincomb (length X) ys (mv ys (mv (vp_dv B us X (i / length us) (i mod length us)) c)))) = length X) by (rewrite vsub_length; lia).
  rewrite vscale_length, vadd_length; [exact L3|]. rewrite L3. rewrite lincomb_length; auto.
Qed.
(** the derivative of the residual along U + t D is J flat(D); the basis may depend on U in any way (its scaling follows the data) *)
Theorem varpro_jacobian_correct : forall (basis : list vec -> tbasis) (coef : list vec -> vec) m n us ds X f ys s zs a,
  length us = n -> length ds = n -> Forall (fun u => length u = m) us -> Forall (fun u => length u = m) ds -> Forall (fun x => length x = m) X -> length f = length X -> (a < length X)%nat ->
  near (fun t => let U := line us ds t in basis_ok (basis U) n /\ tb_deg (basis U) = tb_deg (basis us) /\ ls_opt (length (indices (basis U))) (vp_V (basis U) U X) f (coef U)) ->
  svd_mat (length X) (length (indices (basis us))) (vp_V (basis us) us X) ys s zs -> (forall k, (k < length s)%nat -> vget s k <> 0) ->
  derivable_pt_lim (fun t => let U := line us ds t in vget (vp_residual (vp_V (basis U) U X) f (coef U)) a) 0
    (vget (lincomb (length X) (vp_jac (basis us) us m X ys s zs (coef us) (vp_residual (vp_V (basis us) us X) f (coef us))) (flat m ds)) a).
Proof.
  intros basis coef m n us ds X f ys s zs a Lu Ld FU FD FX Lf Ha NR SV SN. assert (L : length us = length ds) by lia. set (B := basis us) in *. set (N := length (indices B)) in *. set (M := length X) in *.
  assert (N0 : basis_ok B n /\ ls_opt N (vp_V B us X) f (coef us)). { destruct NR as [d [Hd H]]. specialize (H 0 ltac:(rewrite Rabs_R0; auto)). cbv zeta in H. rewrite (line_0 m) in H by auto. tauto. }
  destruct N0 as [OB LS0]. pose proof LS0 as [Lc _]. pose proof OB as [FO [F3 [Dn [Hn DN]]]].
  assert (LX : forall b, (b < M)%nat -> length (nth b X []) = m) by (intros b Hb; rewrite Forall_forall in FX; apply FX, nth_In; auto).
  set (r := vp_residual (vp_V B us X) f (coef us)). assert (Lr : length r = M) by (unfold r, vp_residual; rewrite vsub_length; rewrite ?mv_length, ?vp_V_len; auto).
  rewrite MatLib.lincomb_get by first [apply vp_jac_cols; assumption | rewrite flat_len, vp_jac_len; lia | assumption]. rewrite vp_jac_len.
  rewrite (vp_jac_dir B us m X ys s zs (coef us) r ds a SV Lc Lr (eq_sym L) Ha). fold N M.
  destruct (svd_mat_index _ _ _ _ _ _ (vp_V_len B us X) SV) as [Ly [FY [Lz [FZ [Ls [YO [ZR [ZC VE]]]]]]]].
  assert (NEQ : forall U c, length U = n -> Forall (fun u => length u = m) U -> basis_ok (basis U) n -> tb_deg (basis U) = tb_deg B -> ls_opt (length (indices (basis U))) (vp_V (basis U) U X) f c ->
    exists e, length e = N /\ (forall b, (b < M)%nat -> vget (vp_residual (vp_V (basis U) U X) f c) b = vget f b - rsum N (fun j => ent (vp_V B U X) b j * vget e j)) /\
    forall j, (j < N)%nat -> rsum M (fun b => ent (vp_V B U X) b j * vget (vp_residual (vp_V (basis U) U X) f c) b) = 0).
  { intros U c LU FU' OU DU LS. pose proof LS as [Lc' _]. assert (SP : forall u, In u U -> spans m U u) by (intros u I; apply (In_nth _ _ []) in I; destruct I as [k [Hk <-]]; apply spans_col; auto).
    destruct (V_change_mv B (basis U) m n n U U X OB OU ltac:(lia) LU LU FU' SP FX c Lc') as [e [Le Ee]]. exists e. split; auto.
    assert (LR : length (vp_residual (vp_V (basis U) U X) f c) = M) by (unfold vp_residual; rewrite vsub_length; rewrite ?mv_length, ?vp_V_len; auto).
    assert (LV : length (vp_V B U X) = M) by apply vp_V_len. pose proof (vp_V_rows B U X) as FV. fold N in FV. split.
    - intros b Hb. unfold vp_residual. rewrite Ee. rewrite vsub_get by (rewrite mv_length; lia). f_equal. rewrite mv_get by lia. apply (dot_rs N); auto. rewrite Forall_forall in FV. apply FV, nth_In. lia.
    - intros j Hj. unfold ent. rewrite <- LV at 1. rewrite <- (normal_index N) by (auto; lia). destruct (V_change_mv (basis U) B m n n U U X OU OB ltac:(lia) LU LU FU' SP FX (unitv N j) (unitv_len N j)) as [e2 [Le2 E2]]. rewrite E2. apply (ls_normal (length (indices (basis U)))); auto; [apply vp_V_rows|rewrite vp_V_len; auto]. }
  cbv zeta. refine (vp_derivative M N (ent (vp_V B us X)) (ent ys) (vget s) (ent zs) (vget f) (vget (coef us)) (vget r) YO ZR ZC VE _ _ _
    (fun b j => rsum (length us) (fun l => vget (nth j (DVrow B (mv us (nth b X []))) []) l * rsum m (fun k => vget (nth b X []) k * ent ds l k)))
    (fun t => ent (vp_V B (line us ds t) X)) (fun t => vget (vp_residual (vp_V (basis (line us ds t)) (line us ds t) X) f (coef (line us ds t)))) a Ha _ _ _).
  - intros p Hp. apply SN. lia.
  - intros b Hb. unfold r, vp_residual. rewrite vsub_get by (rewrite mv_length, vp_V_len; auto). f_equal. rewrite mv_get by (rewrite vp_V_len; auto). apply (dot_rs N); auto. pose proof (vp_V_rows B us X) as FV. rewrite Forall_forall in FV. apply FV, nth_In. rewrite vp_V_len. auto.
  - intros j Hj. unfold ent. assert (LV : length (vp_V B us X) = M) by apply vp_V_len. rewrite <- LV at 1. rewrite <- (normal_index N) by first [assumption | apply vp_V_rows | lia]. apply (ls_normal N); auto; [apply vp_V_rows|rewrite vp_V_len; auto|apply unitv_len].
  - intros b j Hb Hj. rewrite (line_0 m) by auto. auto.
  - intros b j Hb Hj. assert (E : rsum (length us) (fun l => vget (nth j (DVrow B (mv us (nth b X []))) []) l * rsum m (fun k => vget (nth b X []) k * ent ds l k)) = dot (nth j (DVrow B (mv us (nth b X []))) []) (mv ds (nth b X []))).
    { symmetry. rewrite (dot_rs (length us)) by (rewrite ?mv_length; try lia; rewrite DVrow_row_len by auto; lia). apply rsum_ext. intros l Hl. f_equal. rewrite mv_get by lia. rewrite (dot_rs m) by (auto; rewrite Forall_forall in FD; apply FD, nth_In; lia). apply rsum_ext. intros; unfold ent; ring. }
    rewrite E. eapply d_ext; [|reflexivity|apply (V_dir B (mv us (nth b X [])) (mv ds (nth b X [])) j FO); rewrite ?mv_length; try lia].
    intros t. symmetry. unfold ent. rewrite vp_V_nth by auto. rewrite (line_mv m) by auto. reflexivity.
  - revert NR. apply near_imp. intros t. cbv zeta. intros [OU [DU LS]]. destruct (NEQ (line us ds t) (coef (line us ds t))) as [e [Le [E1 E2]]]; auto; [rewrite line_len; auto|apply line_dims; auto|]. exists (vget e). auto.
Qed.

(* ---------- directions within the subspace ---------- *)
(** D = U A for some A: U + t D spans (generically) the same subspace *)
Definition within (m : nat) (us ds : list vec) : Prop := length ds = length us /\ forall d, In d ds -> spans m us d.
Theorem jac_kernel : forall B m n us ds X ys s zs c r, basis_ok B n -> length us = n -> Forall (fun u => length u = m) us -> Forall (fun x => length x = m) X -> within m us ds ->
  svd_mat (length X) (length (indices B)) (vp_V B us X) ys s zs -> length c = length (indices B) -> length r = length X -> (forall e, length e = length (indices B) -> dot r (mv (vp_V B us X) e) = 0) ->
  lincomb (length X) (vp_jac B us m X ys s zs c r) (flat m ds) = vzero (length X).
Proof.
  intros B m n us ds X ys s zs c r [FO [F3 [Dn [Hn DN]]]] Lu FU FX [Ld W] SV Lc Lr NR. set (N := length (indices B)) in *. set (M := length X) in *.
  assert (LX : forall b, (b < M)%nat -> length (nth b X []) = m) by (intros b Hb; rewrite Forall_forall in FX; apply FX, nth_In; auto).
  destruct (list_choice (length us) (fun k a => length a = length us /\ nth k ds [] = lincomb m us a)) as [A [LA HA]]; [intros k Hk; apply W, nth_In; lia|].
  assert (FD : Forall (fun d => length d = m) ds) by (apply Forall_forall; intros d I; destruct (W d I) as [a [La ->]]; apply lincomb_length; auto).
  destruct (svd_mat_index _ _ _ _ _ _ (vp_V_len B us X) SV) as [Ly [FY [Lz [FZ [Ls [YO [ZR [ZC VE]]]]]]]]. fold M in YO, VE.
  apply vec_ext; [unfold vzero; rewrite repeat_length; apply lincomb_length; apply vp_jac_cols; auto|]. intros a Ha. rewrite lincomb_length in Ha by (apply vp_jac_cols; auto). rewrite vzero_get.
  rewrite MatLib.lincomb_get by first [apply vp_jac_cols; assumption | rewrite flat_len, vp_jac_len; lia | assumption]. rewrite vp_jac_len.
  rewrite (vp_jac_dir B us m X ys s zs c r ds a SV Lc Lr Ld Ha). fold N M.
  set (g := fun j y => rsum (length us) (fun l => rsum (length us) (fun p => vget (nth l A []) p * (vget y p * dpsi B (nth j (indices B) []) l y)))).
  assert (PG : forall j, (j < N)%nat -> exists T, length T = N /\ forall y, length y = tb_dim B -> g j y = dot T (Vrow B y)).
  { intros j Hj. apply (pspan_V B ltac:(lia)). unfold g. apply (pspan_rsum B (tb_deg B) (length us) (fun l y => rsum (length us) (fun p => vget (nth l A []) p * (vget y p * dpsi B (nth j (indices B) []) l y)))). intros l Hl.
    apply (pspan_rsum B (tb_deg B) (length us) (fun p y => vget (nth l A []) p * (vget y p * dpsi B (nth j (indices B) []) l y))). intros p Hp. apply pspan_scal. apply pspan_xd; auto; try lia; [rewrite Dn; auto|]. apply nth_In. auto. }
  destruct (list_choice _ _ PG) as [T [LT HT]].
  assert (E : forall b j, (b < M)%nat -> (j < N)%nat -> rsum (length us) (fun l => vget (nth j (DVrow B (mv us (nth b X []))) []) l * rsum m (fun k => vget (nth b X []) k * ent ds l k)) = rsum N (fun i => ent T j i * ent (vp_V B us X) b i)).
  { intros b j Hb Hj. destruct (HT j Hj) as [LTj HTj]. transitivity (dot (nth j T []) (Vrow B (mv us (nth b X [])))).
    - rewrite <- HTj by (rewrite mv_length; lia). unfold g. apply rsum_ext. intros l Hl. rewrite (DVrow_nth B FO) by (auto; lia). destruct (HA l Hl) as [Ll El]. unfold ent. rewrite <- (dot_rs m) by (auto; rewrite Forall_forall in FD; apply FD, nth_In; lia). rewrite El, (dot_lincomb_r m) by auto.
      rewrite <- rsum_scal_l. apply rsum_ext. intros p Hp. rewrite mv_get by lia. rewrite (dot_comm (nth b X [])). ring.
    - rewrite (dot_rs N) by (auto; apply Vrow_len). apply rsum_ext. intros i Hi. unfold ent. rewrite vp_V_nth by auto. auto. }
  assert (NI : forall i, (i < N)%nat -> rsum M (fun b => ent (vp_V B us X) b i * vget r b) = 0).
  { intros i Hi. assert (LV : length (vp_V B us X) = M) by apply vp_V_len. rewrite <- LV at 1. unfold ent. rewrite <- (normal_index N) by first [assumption | apply vp_V_rows | lia]. apply NR. apply unitv_len. }
  rewrite (rsum_ext M _ (fun b => rsum N (fun j => rsum N (fun i => ent T j i * vget c j * (vQ N (ent ys) a b * ent (vp_V B us X) b i) + ent T j i * vR N (ent ys) (vget s) (ent zs) a j * (ent (vp_V B us X) b i * vget r b))))) by (intros b Hb; apply rsum_ext; intros j Hj; rewrite E by auto; rewrite <- rsum_scal_r; apply rsum_ext; intros; ring).
  rewrite rsum_swap. rewrite rsum_zero; [ring|]. intros j Hj. rewrite rsum_swap. apply rsum_zero. intros i Hi. rewrite rsum_plus, !rsum_scal_l. rewrite NI by auto. rewrite (QV M N (ent (vp_V B us X)) (ent ys) (vget s) (ent zs) YO VE) by auto. ring.
Qed.
