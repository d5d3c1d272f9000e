(** Further contracts of solvers that can be met: enclosing balls, convex hulls, nonlinearity measure, shadow envelope, polynomial fits. *)
Require Import Reals List Bool Arith ZArith Lia Lra Psatz.
From Verif Require Import RVec Num Sums DomModel DomSpec NormProofs DomMoreModel SweepProofs ArnoldiMoreProofs HullProofs HullIneqProofs MatLib GrassLib LipModel LipConstProofs
  BasisModel RidgeModel SubModel LocalLinProofs NonlinProofs ShadowProofs MiniModel MiniProofs LloydProofs ChebProofs LinProg Compact LinLs Spectral SolveFit SolveDom.
Import ListNotations.
Local Open Scope R_scope.

(** * largest distance *)
Lemma cts_fold_max : forall (T : Type) n (g : T -> vec -> R) l (a : vec -> R), cts n a -> (forall t, In t l -> cts n (g t)) -> cts n (fun w => fold_left Rmax (map (fun t => g t w) l) (a w)).
Proof.
  intros T n g l. induction l as [|t l IH]; intros a Ca H; simpl; auto. apply (IH (fun w => Rmax (a w) (g t w))); [apply cts_Rmax; [auto|apply H; left; auto]|]. intros t' I. apply H. right. auto.
Qed.
Lemma cts_vmax : forall (T : Type) n (g : T -> vec -> R) l, (forall t, In t l -> cts n (g t)) -> cts n (fun w => vmax (map (fun t => g t w) l)).
Proof.
  intros T n g [|t l] H; simpl; [apply cts_const|]. apply (cts_fold_max T n g l (g t)); [apply H; left; auto|intros; apply H; right; auto].
Qed.
(** the point of a polyhedron with the smallest distance to the farthest of finitely many points, in any seminorm |L .| *)
Theorem ball_attained : forall n S L V, rect n S -> Forall (fun r => length r = n) L -> V <> [] -> Forall (fun p => length p = n) V -> (exists z, length z = n /\ holds S z) ->
  exists y, length y = n /\ holds S y /\ forall z, length z = n -> holds S z -> vmax (map (fun p => norm2 (vsub (mv L y) (mv L p))) V) <= vmax (map (fun p => norm2 (vsub (mv L z) (mv L p))) V).
Proof.
  intros n S L V RS FL NV FV (z0 & Lz0 & H0). destruct (image_polyhedron n S L RS FL) as (T & RT & HT). destruct V as [|p0 V]; [congruence|].
  destruct (coercive_attained (length L) (holds T) (mv L p0) (fun w => vmax (map (fun p => norm2 (vsub w (mv L p))) (p0 :: V))) (mv_length L p0) (holds_closed _ _ RT)) as (w & Lw & Hw & Mw).
  - apply (cts_vmax vec (length L) (fun p w => norm2 (vsub w (mv L p)))). intros p _. apply (cts_norm2_fun (length L) (length L) (fun w => vsub w (mv L p))); [intros; rewrite vsub_length; rewrite ?mv_length; auto|]. intros. apply cts_shift, mv_length.
  - intros w i Lw Hi. rewrite <- vsub_get by (rewrite ?mv_length; auto). apply Rle_trans with (norm2 (vsub w (mv L p0))); [apply LatinProofs.abs_le_norm2; rewrite vsub_length; rewrite ?mv_length; lia|].
    destruct (vmax_spec (map (fun p => norm2 (vsub w (mv L p))) (p0 :: V))) as [A _]; [discriminate|]. apply A. left. auto.
  - exists (mv L z0). split; [apply mv_length|]. apply HT; [apply mv_length|]. eauto.
  - apply HT in Hw; auto. destruct Hw as (y & Ly & Hy & ->). exists y. split; auto. split; auto. intros z Lz Hz. apply Mw; [apply mv_length|]. apply HT; [apply mv_length|]. eauto.
Qed.
(** miniball, miniball.py *)
Theorem miniball_solvable : forall m L X, Forall (fun r => length r = m) L -> X <> [] -> Forall (fun p => length p = m) X -> exists c, length c = m /\ forall y, length y = m -> mb_obj L X c <= mb_obj L X y.
Proof.
  intros m L X FL NX FX. destruct (ball_attained m [] L X ltac:(intros ? ? []) FL NX FX) as (y & Ly & _ & My); [exists (vzero m); split; [apply repeat_length|intros ? ? []]|].
  assert (E : forall z, length z = m -> mb_obj L X z = vmax (map (fun p => norm2 (vsub (mv L z) (mv L p))) X)) by (intros z Lz; unfold mb_obj; apply f_equal; apply map_ext_in; intros p I; rewrite Forall_forall in FX; specialize (FX p I); rewrite mv_vsub by lia; reflexivity).
  exists y. split; auto. intros z Lz. rewrite !E by auto. apply My; auto. intros ? ? [].
Qed.
(** the centre of a Voronoi cell in minimax_lloyd.py 121-126, over a domain without ellipsoids *)
Theorem lloyd_solvable : forall d L V, dom_wf d -> quads d = [] -> (exists x, member d x) -> Forall (fun r => length r = dim d) L -> V <> [] -> Forall (member d) V ->
  exists c, member d c /\ forall z, member d z -> radius L V c <= radius L V z.
Proof.
  intros d L V W Q (x0 & M0) FL NV FV. assert (FV' : Forall (fun p => length p = dim d) V) by (eapply Forall_impl; [|exact FV]; intros a H; apply H).
  destruct (ball_attained (dim d) (dom_rows d) L V (dom_rows_rect d W) FL NV FV') as (y & Ly & Hy & My).
  - exists x0. assert (L0 : length x0 = dim d) by apply M0. split; auto. apply dom_rows_spec; auto.
  - exists y. split; [apply dom_rows_spec; auto|]. intros z Mz. assert (Lz : length z = dim d) by apply Mz. unfold radius, Ldist. apply My; auto. apply dom_rows_spec; auto.
Qed.

(** * convex hulls *)
Definition nonneg_rows (n : nat) : list (vec * R) := map (fun i => (vscale (-1) (unit_row_ n i), 0)) (seq 0 n).
Lemma nonneg_rows_spec : forall n z, length z = n -> (holds (nonneg_rows n) z <-> Forall (fun a => 0 <= a) z).
Proof.
  intros n z L. split.
  - intro H. apply Forall_forall. intros a I. apply In_nth with (d := 0) in I. destruct I as (i & Hi & <-). assert (K : dot (vscale (-1) (unit_row_ n i)) z <= 0) by (apply H; apply in_map_iff; exists i; split; auto; apply in_seq; lia).
    rewrite dot_vscale_l, dot_unit_get in K by lia. unfold vget in K. lra.
  - intros F r c I. apply in_map_iff in I. destruct I as (i & Q & I). injection Q as <- <-. apply in_seq in I. rewrite dot_vscale_l, dot_unit_get by lia. rewrite Forall_forall in F. assert (0 <= vget z i) by (apply F, nth_In; lia). lra.
Qed.
Lemma nonneg_rows_rect : forall n, rect n (nonneg_rows n).
Proof. intros n r c I. apply in_map_iff in I. destruct I as (i & Q & _). injection Q as <- <-. rewrite vscale_length. apply unit_row_length. Qed.
Lemma norm2sq_app : forall a b, norm2sq (a ++ b) = norm2sq a + norm2sq b.
Proof. intros. unfold norm2sq. apply dot_app2. auto. Qed.
Lemma vsub_app : forall a b c d, length a = length c -> vsub (a ++ b) (c ++ d) = vsub a c ++ vsub b d.
Proof. induction a as [|x a IH]; intros b [|y c] d L; try discriminate L; auto. unfold vsub in *. simpl. rewrite IH by (injection L; auto). auto. Qed.
Lemma lincomb_mv : forall m X al, Forall (fun x => length x = m) X -> length al = length X -> lincomb m X al = mv (map (fun i => col X i) (seq 0 m)) al.
Proof.
  intros m X al F L. apply vec_ext; [rewrite lincomb_length, mv_length, map_length, seq_length; auto|]. intros i Hi. rewrite lincomb_length in Hi by auto. rewrite (lc_get m) by auto. rewrite mv_get by (rewrite map_length, seq_length; auto).
  rewrite (nth_indep _ [] (col X 0)) by (rewrite map_length, seq_length; auto). rewrite map_nth, seq_nth by auto. rewrite (dot_rs (length X)) by (rewrite ?col_len; auto). apply rsum_ext. intros k Hk. rewrite col_get by auto. simpl. ring.
Qed.
Lemma dot_ones : forall n z, length z = n -> dot (repeat 1 n) z = vsum z.
Proof. intros n z <-. induction z as [|a z IH]; [reflexivity|]. cbn [length repeat]. rewrite dot_cons, IH. unfold vsum. simpl. ring. Qed.
(** scipy.optimize.nnls, convexhull.py 203-211 *)
Theorem nnls_exists : forall h x, Forall (fun p => length p = dim (hcon h)) (hX h) -> length x = dim (hcon h) -> exists al, nnls_contract h x al.
Proof.
  intros h x F Lx. set (m := dim (hcon h)) in *. set (Xn := map (normalize (hull_nlb h) (hull_nub h)) (hX h)). set (xn := normalize (hull_nlb h) (hull_nub h) x).
  assert (NL : forall p, length (normalize (hull_nlb h) (hull_nub h) p) = m) by (intro p; rewrite normalize_length; rewrite ?hull_nlb_length, ?hull_nub_length; auto).
  assert (FXn : Forall (fun p => length p = m) Xn) by (apply Forall_forall; intros p I; apply in_map_iff in I; destruct I as (q & <- & _); auto). assert (LXn : length Xn = length (hX h)) by (unfold Xn; apply map_length).
  set (n := length (hX h)) in *. set (B := map (fun i => col Xn i) (seq 0 m) ++ [repeat 1 n]).
  assert (FB : Forall (fun r => length r = n) B) by (apply Forall_app; split; [apply Forall_forall; intros r I; apply in_map_iff in I; destruct I as (i & <- & _); rewrite col_len; auto|constructor; auto; apply repeat_length]).
  destruct (ls_attained n (nonneg_rows n) B (xn ++ [1]) (nonneg_rows_rect n) FB) as (y & Ly & Hy & My).
  - unfold B. rewrite !app_length, map_length, seq_length. unfold xn. rewrite NL. auto.
  - exists (vzero n). split; [apply repeat_length|]. apply nonneg_rows_spec; [apply repeat_length|]. apply Forall_forall. intros a I. apply repeat_spec in I. lra.
  - assert (E : forall z, length z = n -> norm2sq (vsub (mv B z) (xn ++ [1])) = hull_res h x z).
    { intros z Lz. unfold B, hull_res. fold Xn. fold xn. fold m. rewrite (lincomb_mv m Xn z) by (auto; lia). unfold mv. rewrite map_app. fold (mv (map (fun i => col Xn i) (seq 0 m)) z). rewrite vsub_app by (rewrite mv_length, map_length, seq_length; symmetry; apply NL). rewrite norm2sq_app. f_equal.
      simpl map. rewrite dot_ones by auto. unfold vsub, norm2sq. simpl vmap2. rewrite dot_cons, dot_nil_l. ring. }
    exists y. split; auto. split; [apply (nonneg_rows_spec n); auto|]. intros be Lbe Fbe. rewrite <- !E by auto. apply My; auto. apply nonneg_rows_spec; auto.
Qed.
(** the step length of convexhull.py 66-96 *)
Definition eq_rows (S : list (vec * R)) : list (vec * R) := S ++ map (fun rc => (vscale (-1) (fst rc), - snd rc)) S.
Lemma eq_rows_spec : forall S z, holds (eq_rows S) z <-> forall r c, In (r, c) S -> dot r z = c.
Proof.
  intros S z. unfold eq_rows. split.
  - intros H r c I. assert (dot r z <= c) by (apply H, in_app_iff; auto). assert (K : dot (vscale (-1) r) z <= - c) by (apply H, in_app_iff; right; apply in_map_iff; exists (r, c); auto). rewrite dot_vscale_l in K. lra.
  - intros H r c I. apply in_app_iff in I. destruct I as [I|I]; [rewrite (H _ _ I); lra|]. apply in_map_iff in I. destruct I as ([r' c'] & Q & I). injection Q as <- <-. simpl. rewrite dot_vscale_l, (H _ _ I). lra.
Qed.
Lemma eq_rows_rect : forall n S, rect n S -> rect n (eq_rows S).
Proof. intros n S H r c I. apply in_app_iff in I. destruct I as [I|I]; [eauto|]. apply in_map_iff in I. destruct I as ([r' c'] & Q & I). injection Q as <- <-. simpl. rewrite vscale_length. eauto. Qed.
Lemma split_last : forall n (z : vec), length z = (n + 1)%nat -> exists x r, z = x ++ [r] /\ length x = n.
Proof.
  intros n z Lz. exists (firstn n z), (nth n z 0). split; [|rewrite firstn_length; lia]. rewrite <- (firstn_skipn n z) at 1. f_equal. assert (Ls : length (skipn n z) = 1%nat) by (rewrite skipn_length; lia).
  rewrite <- (firstn_skipn n z) at 2. rewrite app_nth2; rewrite firstn_length; [|lia]. replace (n - Nat.min n (length z))%nat with 0%nat by lia. destruct (skipn n z) as [|a [|]]; try discriminate Ls. reflexivity.
Qed.
Lemma holds_app : forall S T z, holds (S ++ T) z <-> holds S z /\ holds T z.
Proof. intros S T z. split; [intro H; split; intros r c I; apply H, in_app_iff; auto|intros [A B] r c I; apply in_app_iff in I; destruct I; auto]. Qed.
Lemma dot_zero_app : forall n x r, length x = n -> dot (vzero n ++ [1]) (x ++ [r]) = r.
Proof. intros n x r <-. rewrite dot_app2 by (unfold vzero; apply repeat_length). rewrite dot_cons, dot_nil_l. replace (dot (vzero (length x)) x) with 0; [ring|]. symmetry. unfold vzero. induction x as [|a x IH]; simpl; [apply dot_nil_l|]. rewrite dot_cons, IH. ring. Qed.
Theorem hull_extent_exists : forall h x p, Forall (fun q => length q = dim (hcon h)) (hX h) -> length x = dim (hcon h) -> length p = dim (hcon h) -> (exists k, vget p k <> 0) ->
  norm_feasible (hull_nlb h) (hull_nub h) (hcon h) (normalize (hull_nlb h) (hull_nub h) x) -> (exists beta, hull_step h x p beta) -> exists e, hull_extent_returns h x p e.
Proof.
  intros h x p F Lx Lp (k0 & Hk0) NF (be0 & al0 & La0 & P0 & S0 & E0). set (m := dim (hcon h)) in *. set (N := normalize (hull_nlb h) (hull_nub h)) in *. set (Xn := map N (hX h)) in *. set (n := length (hX h)) in *.
  assert (LB : length (hull_nlb h) = m) by apply hull_nlb_length. assert (UB : length (hull_nub h) = m) by apply hull_nub_length.
  assert (NL : forall q, length (N q) = m) by (intro q; unfold N; rewrite normalize_length; lia).
  assert (FXn : Forall (fun q => length q = m) Xn) by (apply Forall_forall; intros q I; apply in_map_iff in I; destruct I as (q' & <- & _); auto). assert (LXn : length Xn = n) by (unfold Xn; apply map_length).
  set (q := vsub (N (vadd x p)) (N x)). assert (Lq : length q = m) by (unfold q; rewrite vsub_length; rewrite !NL; auto).
  assert (KM : (k0 < m)%nat) by (destruct (lt_dec k0 m); auto; exfalso; apply Hk0; unfold vget; apply nth_overflow; lia).
  assert (Q0 : vget q k0 <> 0).
  { unfold q. rewrite vsub_get by (rewrite !NL; auto). unfold N. rewrite !normalize_get by (rewrite ?vadd_length; lia). rewrite vadd_get by lia. intro Z. pose proof (slopes_inv (nth k0 (hull_nlb h) NaN) (nth k0 (hull_nub h) NaN)) as SI.
    assert (Z' : nslope (nth k0 (hull_nlb h) NaN) (nth k0 (hull_nub h) NaN) * vget p k0 = 0) by lra. apply Rmult_integral in Z'. destruct Z' as [Z'|Z']; [rewrite Z' in SI; lra|auto]. }
  set (S := map (fun rc => (fst rc ++ [0], snd rc)) (nonneg_rows n) ++ eq_rows ((repeat 1 n ++ [0], 1) :: map (fun i => (col Xn i ++ [- vget q i], vget (N x) i)) (seq 0 m))).
  assert (SP : forall al be, length al = n -> (holds S (al ++ [be]) <-> Forall (fun a => 0 <= a) al /\ vsum al = 1 /\ lincomb m Xn al = vadd (vscale be q) (N x))).
  { intros al be La. unfold S. rewrite holds_app, eq_rows_spec. assert (D : forall r t, length r = n -> dot (r ++ [t]) (al ++ [be]) = dot r al + t * be) by (intros r t Lr; rewrite dot_app2 by lia; rewrite dot_cons, dot_nil_l; ring).
    assert (A1 : holds (map (fun rc => (fst rc ++ [0], snd rc)) (nonneg_rows n)) (al ++ [be]) <-> Forall (fun a => 0 <= a) al).
    { rewrite <- (nonneg_rows_spec n) by auto. split.
      - intros H r c I. assert (K : dot (r ++ [0]) (al ++ [be]) <= c) by (apply H; apply in_map_iff; exists (r, c); auto). rewrite D in K by (eapply nonneg_rows_rect; eauto). lra.
      - intros H r c I. apply in_map_iff in I. destruct I as ([r' c'] & Q & I). injection Q as <- <-. simpl. rewrite D by (eapply nonneg_rows_rect; eauto). specialize (H _ _ I). lra. }
    rewrite A1. split.
    - intros [H1 H2]. split; auto. split.
      + specialize (H2 _ _ (or_introl eq_refl)). rewrite D, dot_ones in H2 by (auto; apply repeat_length). lra.
      + rewrite lincomb_mv by (auto; lia). apply vec_ext; [rewrite mv_length, map_length, seq_length, vadd_length; rewrite ?vscale_length, ?NL; lia|]. intros i Hi. rewrite mv_length, map_length, seq_length in Hi.
        assert (K : dot (col Xn i ++ [- vget q i]) (al ++ [be]) = vget (N x) i) by (apply H2; right; apply in_map_iff; exists i; split; auto; apply in_seq; lia). rewrite D in K by (rewrite col_len; auto).
        rewrite mv_get by (rewrite map_length, seq_length; auto). rewrite (nth_indep _ [] (col Xn 0)) by (rewrite map_length, seq_length; auto). rewrite map_nth, seq_nth by auto. rewrite vadd_get by (rewrite vscale_length, NL; auto). rewrite vscale_get. simpl. lra.
    - intros (H1 & H2 & H3). split; auto. intros r c [I|I].
      + injection I as <- <-. rewrite D, dot_ones by (auto; apply repeat_length). lra.
      + apply in_map_iff in I. destruct I as (i & Q & I). injection Q as <- <-. apply in_seq in I. rewrite D by (rewrite col_len; auto). assert (K : vget (lincomb m Xn al) i = vget (vadd (vscale be q) (N x)) i) by (rewrite H3; auto).
        rewrite lincomb_mv in K by (auto; lia). rewrite mv_get in K by (rewrite map_length, seq_length; lia). rewrite (nth_indep _ [] (col Xn 0)) in K by (rewrite map_length, seq_length; lia). rewrite map_nth, seq_nth in K by lia. rewrite vadd_get in K by (rewrite vscale_length, NL; auto). rewrite vscale_get in K. simpl in K. lra. }
  assert (RS : rect (n + 1) S).
  { intros r c I. apply in_app_iff in I. destruct I as [I|I].
    - apply in_map_iff in I. destruct I as ([r' c'] & Q & I). injection Q as <- <-. simpl. rewrite app_length. simpl. f_equal. eapply nonneg_rows_rect; eauto.
    - revert r c I. apply eq_rows_rect. intros r c [I|I]; [injection I as <- <-; rewrite app_length, repeat_length; auto|]. apply in_map_iff in I. destruct I as (i & Q & _). injection Q as <- <-. rewrite app_length, col_len. simpl. lia. }
  set (M := cmax n (col Xn k0)).
  assert (BD : forall al be, length al = n -> holds S (al ++ [be]) -> be <= (M + Rabs (vget (N x) k0)) / Rabs (vget q k0)).
  { intros al be La H. apply SP in H; auto. destruct H as (H1 & H2 & H3). assert (K : vget (lincomb m Xn al) k0 = be * vget q k0 + vget (N x) k0) by (rewrite H3, vadd_get, vscale_get by (rewrite vscale_length, NL; auto); auto).
    rewrite (lc_get m) in K by (auto; lia). rewrite LXn in K.
    assert (B1 : Rabs (rsum n (fun k => vget al k * vget (nth k Xn []) k0)) <= M).
    { eapply Rle_trans; [apply rsum_abs|]. apply Rle_trans with (rsum n (fun k => vget al k * M)).
      - apply rsum_le. intros k Hk. assert (0 <= vget al k) by (rewrite Forall_forall in H1; apply H1, nth_In; lia). rewrite Rabs_mult, (Rabs_pos_eq (vget al k)) by auto. apply Rmult_le_compat_l; auto. rewrite <- col_get by lia. unfold M. apply cmax_ge. auto.
      - rewrite rsum_scal_r. rewrite <- La, <- vsum_rsum, H2. lra. }
    assert (QP : 0 < Rabs (vget q k0)) by (apply Rabs_pos_lt; auto). apply Rmult_le_reg_r with (Rabs (vget q k0)); auto. unfold Rdiv. rewrite Rmult_assoc, Rinv_l, Rmult_1_r by lra.
    apply Rle_trans with (Rabs (be * vget q k0)); [rewrite Rabs_mult; apply Rmult_le_compat_r; [lra|apply Rle_abs]|]. replace (be * vget q k0) with (rsum n (fun k => vget al k * vget (nth k Xn []) k0) + - vget (N x) k0) by lra.
    eapply Rle_trans; [apply Rabs_triang|]. rewrite Rabs_Ropp. lra. }
  destruct (lp_attained (n + 1) S (vzero n ++ [1]) ((M + Rabs (vget (N x) k0)) / Rabs (vget q k0)) RS ltac:(rewrite app_length; unfold vzero; rewrite repeat_length; auto)) as (y & Ly & Hy & My).
  - exists (al0 ++ [be0]). split; [rewrite app_length; simpl; lia|]. apply SP; auto.
  - intros z Lz Hz. destruct (split_last n z Lz) as (al & be & -> & La). rewrite dot_zero_app by auto. apply (BD al be La Hz).
  - destruct (split_last n y Ly) as (al & be & -> & La). exists be. split; auto. split.
    + exists al. fold N m Xn q. split; auto. apply SP; auto.
    + intros be' (al' & La' & H). rewrite <- (dot_zero_app n al be La), <- (dot_zero_app n al' be' La'). apply My; [rewrite app_length; simpl; lia|]. apply SP; auto.
Qed.

(** * measure_nonlinearity, nonlin.py 40-52 *)
Theorem nl_exists : forall m X fX, Forall (fun x => length x = m) X -> distinct X -> (2 <= length X)%nat -> exists a L, nl_solved m X fX a L.
Proof.
  intros m X fX FX DX H2. rewrite Forall_forall in FX. assert (LX : forall i, (i < length X)%nat -> length (nth i X []) = m) by (intros; apply FX, nth_In; auto).
  assert (LD : forall p d, In (p, d) (nl_diffs X fX) -> length p = m /\ 0 < norm2 p).
  { intros p d I. apply nl_in in I. destruct I as (i & j & H & -> & _). split; [rewrite vsub_length; rewrite !LX; lia|]. pose proof (DX i j H). pose proof (norm2_nonneg (vsub (nth i X []) (nth j X []))). lra. }
  set (S := flat_map (fun pd => [(fst pd ++ [- norm2 (fst pd)], - snd pd); (vscale (-1) (fst pd) ++ [- norm2 (fst pd)], snd pd)]) (nl_diffs X fX)).
  assert (SP : forall a L, length a = m -> (holds S (a ++ [L]) <-> nl_feasible X fX a L)).
  { intros a L La. assert (D : forall r t, length r = m -> dot (r ++ [t]) (a ++ [L]) = dot r a + t * L) by (intros r t Lr; rewrite dot_app2 by lia; rewrite dot_cons, dot_nil_l; ring). unfold S. split.
    - intros H p d I. destruct (LD p d I) as [Lp _]. assert (K1 : dot (p ++ [- norm2 p]) (a ++ [L]) <= - d) by (apply H, in_flat_map; exists (p, d); split; auto; left; auto). assert (K2 : dot (vscale (-1) p ++ [- norm2 p]) (a ++ [L]) <= d) by (apply H, in_flat_map; exists (p, d); split; auto; right; left; auto).
      rewrite D in K1 by auto. rewrite D, dot_vscale_l in K2 by (rewrite vscale_length; auto). split; lra.
    - intros H r c I. apply in_flat_map in I. destruct I as ([p d] & I & Q). destruct (LD p d I) as [Lp _]. destruct (H p d I). destruct Q as [Q|[Q|[]]]; injection Q as <- <-; cbn [fst snd]; rewrite D by (rewrite ?vscale_length; auto); rewrite ?dot_vscale_l; lra. }
  assert (RS : rect (m + 1) S) by (intros r c I; apply in_flat_map in I; destruct I as ([p d] & I & Q); destruct (LD p d I) as [Lp _]; destruct Q as [Q|[Q|[]]]; injection Q as <- <-; cbn [fst snd]; rewrite app_length, ?vscale_length; simpl; lia).
  assert (NE : nl_diffs X fX <> []) by (intro Z; assert (I : In (vsub (nth 0 X []) (nth 1 X []), vget fX 0 - vget fX 1) (nl_diffs X fX)) by (apply nl_in; exists 0%nat, 1%nat; repeat split; auto; lia); rewrite Z in I; auto).
  set (L0 := vmax (map (fun pd => Rabs (snd pd) / norm2 (fst pd)) (nl_diffs X fX))).
  assert (F0 : nl_feasible X fX (vzero m) L0).
  { intros p d I. destruct (LD p d I) as [Lp Pp]. rewrite dot_zero_r. destruct (vmax_spec (map (fun pd => Rabs (snd pd) / norm2 (fst pd)) (nl_diffs X fX))) as [A _]; [intro Z; apply map_eq_nil in Z; auto|]. fold L0 in A.
    assert (K : Rabs d / norm2 p <= L0) by (apply A, in_map_iff; exists (p, d); auto). apply Rmult_le_compat_r with (r := norm2 p) in K; [|lra]. unfold Rdiv in K. rewrite Rmult_assoc, Rinv_l, Rmult_1_r in K by lra. apply (proj2 (rabs_le _ _)) in K. lra. }
  destruct (lp_attained (m + 1) S (vscale (-1) (vzero m ++ [1])) 0 RS) as (y & Ly & Hy & My).
  - rewrite vscale_length, app_length. unfold vzero. rewrite repeat_length. auto.
  - exists (vzero m ++ [L0]). split; [rewrite app_length; unfold vzero; rewrite repeat_length; auto|]. apply SP; auto. apply repeat_length.
  - intros z Lz Hz. destruct (split_last m z Lz) as (a & L & -> & La). rewrite dot_vscale_l, dot_zero_app by auto. apply SP in Hz; auto. destruct (nl_diffs X fX) as [|[p d] l] eqn:ED; [congruence|].
    destruct (LD p d (or_introl eq_refl)) as [_ Pp]. destruct (Hz p d) as [K1 K2]; [rewrite ED; left; auto|]. nra.
  - destruct (split_last m y Ly) as (a & L & -> & La). exists a, L. split; auto. split; [apply SP; auto|]. intros a' L' La' F'. assert (K : dot (vscale (-1) (vzero m ++ [1])) (a' ++ [L']) <= dot (vscale (-1) (vzero m ++ [1])) (a ++ [L])) by (apply My; [rewrite app_length; simpl; lia|apply SP; auto]).
    rewrite !dot_vscale_l, !dot_zero_app in K by auto. lra.
Qed.

(** * shadow envelope: solvable when some nonnegative combination of the rows of A is the vector of ones *)
Lemma above_rows : forall (A : mat) f v, length f = length A -> (holds (combine (map (vscale (-1)) A) (vscale (-1) f)) v <-> se_above A f v).
Proof.
  intros A f v L. rewrite <- (fit_rows_spec Upper A f v L) || idtac. pose proof (fit_rows_spec Upper A f v L) as E. simpl in E. rewrite E. unfold fit_residual, se_above. split.
  - intros F i Hi. rewrite Forall_forall in F. assert (K : 0 <= vget (vsub (mv A v) f) i) by (apply F, nth_In; rewrite vsub_length; rewrite mv_length; lia). rewrite vsub_get, mv_get in K by (rewrite ?mv_length; lia). lra.
  - intro H. apply Forall_forall. intros t I. apply In_nth with (d := 0) in I. destruct I as (i & Hi & <-). rewrite vsub_length, mv_length in Hi by (rewrite mv_length; auto). change (0 <= vget (vsub (mv A v) f) i). rewrite vsub_get, mv_get by (rewrite ?mv_length; lia). specialize (H i Hi). lra.
Qed.
Definition balanced (n : nat) (A : mat) : Prop := exists lam, length lam = length A /\ Forall (fun a => 0 <= a) lam /\ forall k, (k < n)%nat -> rsum (length A) (fun i => vget lam i * vget (nth i A []) k) = 1.
Lemma balanced_sum : forall n A lam v, Forall (fun r => length r = n) A -> length v = n -> (forall k, (k < n)%nat -> rsum (length A) (fun i => vget lam i * vget (nth i A []) k) = 1) -> vsum v = rsum (length A) (fun i => vget lam i * dot (nth i A []) v).
Proof.
  intros n A lam v F L H. rewrite vsum_rsum, L. rewrite (rsum_ext n (vget v) (fun k => rsum (length A) (fun i => vget lam i * vget (nth i A []) k) * vget v k)) by (intros k Hk; rewrite H by auto; ring).
  rewrite (rsum_ext n _ (fun k => rsum (length A) (fun i => vget lam i * vget (nth i A []) k * vget v k))) by (intros; rewrite <- rsum_scal_r; auto). rewrite rsum_swap. apply rsum_ext. intros i Hi.
  rewrite (dot_rs n) by (auto; rewrite Forall_forall in F; apply F, nth_In; auto). rewrite <- rsum_scal_l. apply rsum_ext. intros. ring.
Qed.
Theorem se_ub_exists : forall n A f e, Forall (fun r => length r = n) A -> length f = length A -> length e = n -> mv A e = repeat 1 (length A) -> balanced n A -> exists v, se_ub_ok n A f v.
Proof.
  intros n A f e F L Le E (lam & Ll & Pl & Hl).
  destruct (lp_attained n (combine (map (vscale (-1)) A) (vscale (-1) f)) (repeat (-1) n) (- rsum (length A) (fun i => vget lam i * vget f i))) as (y & Ly & Hy & My).
  - apply (fit_rows_rect n Upper A f F).
  - apply repeat_length.
  - destruct (const_feasible Upper n A f e L Le E) as (x & Lx & C). exists x. split; auto. apply (fit_rows_spec Upper A f x L). auto.
  - intros z Lz Hz. apply above_rows in Hz; auto. replace (dot (repeat (-1) n) z) with (- vsum z) by (rewrite <- (dot_ones n z Lz); replace (repeat (-1) n) with (vscale (-1) (repeat 1 n)) by (clear; induction n; simpl; auto; f_equal; [ring|auto]); rewrite dot_vscale_l; ring).
    rewrite (balanced_sum n A lam z) by auto. apply Ropp_le_contravar. apply rsum_le. intros i Hi. apply Rmult_le_compat_l; [rewrite Forall_forall in Pl; apply Pl, nth_In; lia|apply Hz; auto].
  - exists y. split; auto. split; [apply above_rows; auto|]. intros w Lw Hw. assert (K : dot (repeat (-1) n) w <= dot (repeat (-1) n) y) by (apply My; auto; apply above_rows; auto).
    assert (D : forall z, length z = n -> dot (repeat (-1) n) z = - vsum z) by (intros z Lz; rewrite <- (dot_ones n z Lz); replace (repeat (-1) n) with (vscale (-1) (repeat 1 n)) by (clear; induction n; simpl; auto; f_equal; [ring|auto]); rewrite dot_vscale_l; ring). rewrite !D in K by auto. lra.
Qed.
Lemma below_neg : forall (A : mat) f v, length f = length A -> (se_below A f v <-> se_above A (vscale (-1) f) (vscale (-1) v)).
Proof. intros A f v L. unfold se_below, se_above. split; intros H i Hi; specialize (H i Hi); rewrite ?vscale_get, ?dot_vscale_r in *; lra. Qed.
Theorem se_lb_exists : forall n A f e, Forall (fun r => length r = n) A -> length f = length A -> length e = n -> mv A e = repeat 1 (length A) -> balanced n A -> exists v, se_lb_ok n A f v.
Proof.
  intros n A f e F L Le E B. destruct (se_ub_exists n A (vscale (-1) f) e F ltac:(rewrite vscale_length; auto) Le E B) as (v & Lv & Av & Mv). exists (vscale (-1) v).
  assert (NN : forall w, vscale (-1) (vscale (-1) w) = w) by (intro w; unfold vscale; rewrite map_map; rewrite <- (map_id w) at 2; apply map_ext; intro; ring).
  split; [rewrite vscale_length; auto|]. split; [apply below_neg; auto; rewrite NN; auto|]. intros w Lw Hw. apply below_neg in Hw; auto. apply Mv in Hw; [|rewrite vscale_length; auto]. rewrite vsum_vscale in *. lra.
Qed.
(** the matrix of the shadow envelope: constants are reproduced, so the programs are feasible *)
Theorem envelope_solvable : forall y n f, (2 <= n)%nat -> vmin y < vmax y -> length f = length y -> balanced n (se_A y n) -> (exists v, se_ub_ok n (se_A y n) f v) /\ exists v, se_lb_ok n (se_A y n) f v.
Proof.
  intros y n f Hn Hy L B. assert (LA : length (se_A y n) = length y) by (unfold se_A; apply map_length).
  assert (NY : y <> []) by (intros ->; unfold vmin, vmax in Hy; lra). destruct (vmax_spec y NY) as [MX _]. destruct (vmin_spec y NY) as [MN _].
  assert (R : forall i, (i < length y)%nat -> length (nth i (se_A y n) []) = n /\ vsum (nth i (se_A y n) []) = 1).
  { intros i Hi. rewrite se_row_eq by auto. assert (I : In (vget y i) y) by (apply nth_In; auto). destruct (rows_partition (vmin y) (vmax y) n (vget y i) Hy Hn (conj (MN _ I) (MX _ I))) as (A1 & _ & A2 & _). auto. }
  assert (F : Forall (fun r => length r = n) (se_A y n)) by (apply Forall_forall; intros r I; apply In_nth with (d := []) in I; destruct I as (i & Hi & <-); apply R; lia).
  assert (E : mv (se_A y n) (repeat 1 n) = repeat 1 (length (se_A y n))).
  { apply vec_ext; [rewrite mv_length, repeat_length; auto|]. intros i Hi. rewrite mv_length in Hi. rewrite mv_get by auto. rewrite dot_comm, dot_ones by (apply R; lia). rewrite (proj2 (R i ltac:(lia))). unfold vget. rewrite (nth_indep _ 0 1) by (rewrite repeat_length; auto). rewrite nth_repeat. auto. }
  split; [eapply se_ub_exists|eapply se_lb_exists]; eauto; try lia; apply repeat_length.
Qed.

(** * polynomial fits: the first basis function is constant *)
Lemma Vrow_unit : forall B x, (forall t, phi (tb_fam B) 0 t = 1) -> length (Vrow B x) = length (indices B) /\ dot (Vrow B x) (unit_row_ (length (indices B)) 0) = 1.
Proof.
  intros B x H. split; [unfold Vrow; apply map_length|]. rewrite dot_comm, dot_unit_get by (try (unfold Vrow; apply map_length); unfold indices, index_set; rewrite map_length; simpl; lia).
  unfold Vrow, indices, index_set. simpl map. unfold vget at 1. simpl nth. assert (Z : forall k, ith (rev (repeat 0%nat (tb_dim B))) k = 0%nat).
  { intro k. unfold ith. destruct (lt_dec k (length (rev (repeat 0%nat (tb_dim B))))); [|apply nth_overflow; lia]. apply (repeat_spec (tb_dim B) 0%nat). apply in_rev. apply nth_In. auto. }
  assert (V : forall k, vget (vcoord B x k) 0 = 1) by (intro k; unfold vcoord; simpl; unfold vget; simpl; apply H).
  generalize (tb_dim B) at 1. induction n as [|n IH]; simpl; auto. rewrite IH, Z, V. ring.
Qed.
Theorem poly_fit_exists : forall B p bd X fX, (forall t, phi (tb_fam B) 0 t = 1) -> length fX = length X -> exists c, length c = length (indices B) /\ linear_fit_returns p bd (map (Vrow B) X) fX c.
Proof.
  intros B p bd X fX H L. apply (linear_fit_const p bd _ _ _ (unit_row_ (length (indices B)) 0)).
  - apply Forall_forall. intros r I. apply in_map_iff in I. destruct I as (x & <- & _). apply (Vrow_unit B x H).
  - rewrite map_length. auto.
  - apply unit_row_length.
  - rewrite map_length. unfold mv. rewrite map_map. rewrite (map_ext _ (fun _ => 1)) by (intro x; apply (Vrow_unit B x H)). clear. induction X; simpl; auto. f_equal. auto.
Qed.
Theorem ridge_coef_exists : forall B us p bd X f, (forall t, phi (tb_fam B) 0 t = 1) -> length f = length X -> exists c, coef_returns p bd (length (indices B)) (vp_V B us X) f c.
Proof.
  intros B us p bd X f H L. apply (coef_exists p bd _ _ _ (unit_row_ (length (indices B)) 0)).
  - apply Forall_forall. intros r I. apply in_map_iff in I. destruct I as (x & <- & _). apply (Vrow_unit B _ H).
  - unfold vp_V. rewrite map_length. auto.
  - apply unit_row_length.
  - unfold vp_V. rewrite map_length. unfold mv at 1. rewrite map_map. rewrite (map_ext _ (fun _ => 1)) by (intro x; apply (Vrow_unit B _ H)). clear. induction X; simpl; auto. f_equal. auto.
Qed.
