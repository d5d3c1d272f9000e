(** The optimization problems of the domains have solutions (corner, closest point, constrained least squares, Chebyshev centre). *)
Require Import Reals List Bool Arith Lia Lra Psatz.
From Verif Require Import RVec Num Sums DomModel DomSpec NormProofs DomOpsProofs DomMoreModel ArnoldiMoreProofs CvxProofs ChebProofs MatLib GrassLib LinProg Compact LinLs SolveFit.
From Verif Require BasisModel.
Import ListNotations.
Local Open Scope R_scope.

Definition quadless (d : dom) : dom := mkDom (dcls d) (dim d) (lb d) (ub d) (dA d) (db d) (dAeq d) (dbeq d) [].
Lemma quadless_wf : forall d, dom_wf d -> dom_wf (quadless d).
Proof. intros d (A & B & C & D & E & F & G & H & I & J). unfold quadless, dom_wf. simpl. repeat (split; auto). Qed.
Lemma quadless_member : forall d x, member d x <-> member (quadless d) x /\ sat_quad (quads d) 0 x.
Proof. intros d x. unfold member. simpl. split; [intros (A & B & C & D & E); repeat (split; auto); intros q []|intros [(A & B & C & D & _) E]; auto]. Qed.
(** the linear constraints as rows *)
Definition dom_rows (d : dom) : list (vec * R) :=
  combine (A_aug d) (b_aug d) ++ combine (dAeq d) (dbeq d) ++ map (fun rc => (vscale (-1) (fst rc), - snd rc)) (combine (dAeq d) (dbeq d)).
Lemma combine_nth : forall (A : mat) (b : vec) r c, In (r, c) (combine A b) <-> exists k, nth_error A k = Some r /\ nth_error b k = Some c.
Proof.
  induction A as [|r A IH]; intros [|c b] r' c'; simpl; split; try tauto; try (intros ([|k] & H1 & H2); discriminate).
  - intros [Q|I]; [injection Q as <- <-; exists 0%nat; auto|]. apply IH in I. destruct I as (k & H). exists (S k). auto.
  - intros ([|k] & H1 & H2); simpl in *; [left; congruence|right; apply IH; exists k; auto].
Qed.
Lemma dom_rows_spec : forall d x, dom_wf d -> quads d = [] -> length x = dim d -> (holds (dom_rows d) x <-> member d x).
Proof.
  intros d x W Q L. rewrite (aug_member d x W Q L). unfold dom_rows. split.
  - intro H. split.
    + intros k a c H1 H2. apply H. apply in_app_iff. left. apply combine_nth. eauto.
    + intros k a c H1 H2. assert (I : In (a, c) (combine (dAeq d) (dbeq d))) by (apply combine_nth; eauto).
      assert (dot a x <= c) by (apply H; rewrite !in_app_iff; auto). assert (dot (vscale (-1) a) x <= - c) by (apply H; rewrite !in_app_iff; right; right; apply in_map_iff; exists (a, c); auto). rewrite dot_vscale_l in *. lra.
  - intros [H E] r c I. rewrite !in_app_iff in I. destruct I as [I|[I|I]].
    + apply combine_nth in I. destruct I as (k & H1 & H2). eauto.
    + apply combine_nth in I. destruct I as (k & H1 & H2). rewrite (E k r c H1 H2). lra.
    + apply in_map_iff in I. destruct I as ([r' c'] & Q' & I). injection Q' as <- <-. apply combine_nth in I. destruct I as (k & H1 & H2). simpl. rewrite dot_vscale_l, (E k r' c' H1 H2). lra.
Qed.
Lemma dom_rows_rect : forall d, dom_wf d -> rect (dim d) (dom_rows d).
Proof.
  intros d W r c I. assert (F : Forall (fun r => length r = dim d) (dAeq d)) by apply W. rewrite Forall_forall in F. unfold dom_rows in I. rewrite !in_app_iff in I. destruct I as [I|[I|I]].
  - apply combine_nth in I. destruct I as (k & H1 & _). eapply aug_width; eauto.
  - apply in_combine_l in I. auto.
  - apply in_map_iff in I. destruct I as ([r' c'] & Q' & I). injection Q' as <- <-. simpl. rewrite vscale_length. apply in_combine_l in I. auto.
Qed.
Lemma closed_ext : forall n (K K' : vec -> Prop), (forall x, length x = n -> (K x <-> K' x)) -> closed_set n K -> closed_set n K'.
Proof.
  intros n K K' E H x Lx N. destruct (H x Lx) as (d & D0 & D); [intro Q; apply N, E; auto|]. exists d. split; auto. intros y Hy Ky. apply (D y Hy). apply E; auto. apply Hy.
Qed.
Lemma cts_norm2_mv : forall n L y, Forall (fun r => length r = n) L -> length y = n -> cts n (fun x => norm2 (mv L (vsub x y))).
Proof.
  intros n L y F Ly. apply (cts_norm2_fun n (length L) (fun x => mv L (vsub x y))); [intros; apply mv_length|]. intros i Hi.
  assert (LR : length (nth i L []) = n) by (rewrite Forall_forall in F; apply F, nth_In; auto).
  apply cts_ext with (fun x => dot (nth i L []) x - dot (nth i L []) y); [intros x Lx; rewrite mv_get, dot_vsub_r by (auto; lia); auto|]. apply cts_minus; [apply cts_dot; auto|apply cts_const].
Qed.
(** the set of members is closed *)
Lemma member_closed : forall d, dom_wf d -> closed_set (dim d) (member d).
Proof.
  intros d W. apply closed_ext with (fun x => holds (dom_rows (quadless d)) x /\ forall q, In q (quads d) -> norm2 (mv (qL q) (vsub x (qy q))) <= qrho q + 0).
  - intros x Lx. rewrite quadless_member. rewrite <- (dom_rows_spec (quadless d)) by (auto; apply quadless_wf; auto). reflexivity.
  - apply closed_and; [apply holds_closed; apply (dom_rows_rect (quadless d)), quadless_wf; auto|]. apply closed_all. intro q. 
    assert (QW : In q (quads d) -> quad_wf (dim d) q) by (intro I; destruct W as (_ & _ & _ & _ & _ & _ & F & _); rewrite Forall_forall in F; auto).
    intros x Lx N. apply Classical_Prop.imply_to_and in N. destruct N as [I N]. destruct (QW I) as (FL & Ly & _).
    destruct (closed_le (dim d) _ (qrho q + 0) (cts_norm2_mv (dim d) (qL q) (qy q) FL Ly) x Lx N) as (e & E0 & E). exists e. split; auto. intros y Hy K. apply (E y Hy). auto.
Qed.
(** * continuous functions over bounded domains *)
Definition bounded_dom (d : dom) : Prop := exists l u, length l = dim d /\ length u = dim d /\ forall x, member d x -> boxed l u x.
Lemma bounded_attained : forall d f, dom_wf d -> bounded_dom d -> (exists x, member d x) -> cts (dim d) f -> exists x, member d x /\ forall w, member d w -> f x <= f w.
Proof.
  intros d f W (l & u & Ll & Lu & B) (x0 & M0) C. destruct (min_attained (dim d) (member d) f l u Ll Lu (member_closed d W) (cts_lsc _ _ _ C)) as (x & Lx & Mx & Hx); auto.
  - exists x0. split; auto. apply M0.
  - exists x. split; auto. intros w Mw. apply Hx; auto. apply Mw.
Qed.
(** optimal members are what the routines return *)
Lemma argmin_back : forall nlb nub d (obj f : vec -> R) x, norm_ok nlb nub d -> (forall x, length x = dim d -> obj (normalize nlb nub x) = f x) -> member d x -> (forall w, member d w -> f x <= f w) ->
  exists z, argmin obj (norm_feasible nlb nub d) z /\ x = unnormalize nlb nub z.
Proof.
  intros nlb nub d obj f x OK E M H. pose proof OK as [W [H1 [H2 _]]]. assert (Lx : length x = dim d) by apply M. exists (normalize nlb nub x). rewrite unnormalize_normalize by congruence. split; auto. split.
  - apply norm_feasible_member; auto. rewrite normalize_length, unnormalize_normalize by congruence. auto.
  - intros w F. apply norm_feasible_member in F; auto. destruct F as [Lw F]. rewrite E by auto. rewrite <- (normalize_unnormalize nlb nub w) by congruence. rewrite E by (rewrite unnormalize_length; congruence). auto.
Qed.
(** * corner *)
Theorem corner_exists_bounded : forall nlb nub d p, norm_ok nlb nub d -> length p = dim d -> bounded_dom d -> (exists x, member d x) -> exists x, corner_returns nlb nub d p x.
Proof.
  intros nlb nub d p OK Lp B NE. pose proof OK as [W [H1 [H2 _]]].
  destruct (bounded_attained d (fun x => dot p (center nlb nub) - dot p x) W B NE) as (x & M & H); [apply cts_minus; [apply cts_const|apply cts_dot; auto]|].
  exists x. apply (argmin_back nlb nub d _ (fun x => dot p (center nlb nub) - dot p x)); auto.
  intros y Ly. unfold corner_obj. rewrite mv_diag by (rewrite uslopes_length; congruence).
  replace (vmul (uslopes nlb nub) p) with (vmul p (uslopes nlb nub)).
  - pose proof (row_norm nlb nub p y ltac:(congruence) ltac:(congruence) ltac:(congruence)). lra.
  - unfold vmul. clear. revert p. induction (uslopes nlb nub) as [|a u IH]; destruct p; simpl; auto. f_equal; [ring|auto].
Qed.
(** without ellipsoids only the objective needs a bound *)
Theorem corner_exists_linear : forall nlb nub d p, norm_ok nlb nub d -> length p = dim d -> quads d = [] -> (exists x, member d x) -> (exists c, forall x, member d x -> dot p x <= c) -> exists x, corner_returns nlb nub d p x.
Proof.
  intros nlb nub d p OK Lp Q (x0 & M0) (c & B). pose proof OK as [W [H1 [H2 _]]].
  destruct (lp_attained (dim d) (dom_rows d) p c (dom_rows_rect d W) Lp) as (x & Lx & Hx & Mx).
  - exists x0. assert (L0 : length x0 = dim d) by apply M0. split; auto. apply dom_rows_spec; auto.
  - intros z Lz Hz. apply B. apply dom_rows_spec; auto.
  - exists x. apply (argmin_back nlb nub d _ (fun x => dot p (center nlb nub) - dot p x)); auto.
    + intros y Ly. unfold corner_obj. rewrite mv_diag by (rewrite uslopes_length; congruence).
      replace (vmul (uslopes nlb nub) p) with (vmul p (uslopes nlb nub)).
      * pose proof (row_norm nlb nub p y ltac:(congruence) ltac:(congruence) ltac:(congruence)). lra.
      * unfold vmul. clear. revert p. induction (uslopes nlb nub) as [|a u IH]; destruct p; simpl; auto. f_equal; [ring|auto].
    + apply dom_rows_spec; auto.
    + intros w Mw. assert (Lw : length w = dim d) by apply Mw. assert (dot p w <= dot p x) by (apply Mx; auto; apply dom_rows_spec; auto). lra.
Qed.
(** and an objective without a bound has no corner *)
Theorem corner_unbounded : forall nlb nub d p, norm_ok nlb nub d -> length p = dim d -> (forall c, exists x, member d x /\ c < dot p x) -> ~ exists x, corner_returns nlb nub d p x.
Proof.
  intros nlb nub d p OK Lp U (x & C). destruct (corner_correct nlb nub d p x OK Lp C) as [_ H]. destruct (U (dot p x)) as (w & Mw & Hw). specialize (H w Mw). lra.
Qed.
(** * least squares over a domain without ellipsoids (bounded or not), or over a bounded one *)
Lemma norm_ls_attained : forall d A b, dom_wf d -> Forall (fun r => length r = dim d) A -> length b = length A -> quads d = [] \/ bounded_dom d -> (exists x, member d x) ->
  exists x, member d x /\ forall w, member d w -> norm2 (vsub (mv A x) b) <= norm2 (vsub (mv A w) b).
Proof.
  intros d A b W F Lb [Q|B] (x0 & M0).
  - destruct (fit_attained BasisModel.N2 (dim d) (dom_rows d) A b (dom_rows_rect d W) F Lb) as (x & Lx & Hx & Mx).
    + exists x0. assert (L0 : length x0 = dim d) by apply M0. split; auto. apply dom_rows_spec; auto.
    + exists x. split; [apply dom_rows_spec; auto|]. intros w Mw. assert (Lw : length w = dim d) by apply Mw. apply Mx; auto. apply dom_rows_spec; auto.
  - apply bounded_attained; eauto. apply (cts_norm2_fun (dim d) (length A) (fun x => vsub (mv A x) b)); [intros; rewrite vsub_length; rewrite mv_length; auto|]. intros i Hi.
    assert (LR : length (nth i A []) = dim d) by (rewrite Forall_forall in F; apply F, nth_In; auto).
    apply cts_ext with (fun x => dot (nth i A []) x - vget b i); [intros x Lx; rewrite vsub_get, mv_get by (rewrite ?mv_length; auto); auto|]. apply cts_minus; [apply cts_dot; auto|apply cts_const].
Qed.
Theorem cls_exists : forall nlb nub d A b, norm_ok nlb nub d -> Forall (fun r => length r = dim d) A -> length b = length A -> quads d = [] \/ bounded_dom d -> (exists x, member d x) -> exists x, cls_returns nlb nub d A b x.
Proof.
  intros nlb nub d A b OK F Lb QB NE. pose proof OK as [W [H1 [H2 _]]]. assert (LC : length (mv A (center nlb nub)) = length A) by apply mv_length.
  destruct (norm_ls_attained d A (vadd b (vscale 2 (mv A (center nlb nub)))) W F) as (x & M & H); auto; [vlen|].
  exists x. apply (argmin_back nlb nub d _ (fun x => norm2 (vsub (mv A x) (vadd b (vscale 2 (mv A (center nlb nub))))))); auto.
  intros y Ly. unfold cls_obj. rewrite A_norm_mv by (try rewrite H1; congruence || auto). f_equal. apply vec_ext; [vlen|]. intros i _. repeat first [rewrite vsub_get by vlen|rewrite vadd_get by vlen|rewrite vscale_get]. ring.
Qed.
Theorem closest_exists : forall nlb nub d tol L x0, norm_ok nlb nub d -> Forall (fun r => length r = dim d) L -> length x0 = dim d -> quads d = [] \/ bounded_dom d -> (exists x, member d x) -> exists x, closest_returns nlb nub d tol L x0 x.
Proof.
  intros nlb nub d tol L x0 OK F L0 QB NE. pose proof OK as [W [H1 [H2 _]]]. unfold closest_returns. destruct (inside1 d x0 tol); [exists x0; auto|].
  destruct (norm_ls_attained d L (mv L x0) W F (mv_length L x0) QB NE) as (x & M & H).
  exists x. apply (argmin_back nlb nub d _ (fun x => norm2 (vsub (mv L x) (mv L x0)))); auto.
  intros y Ly. unfold cp_obj. rewrite !A_norm_mv by (try rewrite H1; congruence || auto). f_equal. apply vec_ext; [vlen|]. intros i _. repeat first [rewrite vsub_get by vlen|rewrite vadd_get by vlen|rewrite vscale_get]. ring.
Qed.
(** * Chebyshev centre *)
Definition cheb_rows (d : dom) : list (vec * R) :=
  map (fun rc => (fst rc ++ [norm2 (fst rc)], snd rc)) (combine (A_aug d) (b_aug d)) ++ map (fun rc => (fst rc ++ [0], snd rc)) (combine (dAeq d) (dbeq d)) ++ map (fun rc => (vscale (-1) (fst rc) ++ [0], - snd rc)) (combine (dAeq d) (dbeq d)).
Lemma cheb_rows_spec : forall d x r, dom_wf d -> length x = dim d -> (holds (cheb_rows d) (x ++ [r]) <-> cheb_feasible d x r).
Proof.
  intros d x r W L. assert (FE : Forall (fun r => length r = dim d) (dAeq d)) by apply W. rewrite Forall_forall in FE.
  assert (D : forall a t, length a = dim d -> dot (a ++ [t]) (x ++ [r]) = dot a x + t * r) by (intros a t La; rewrite dot_app2 by lia; rewrite dot_cons, dot_nil_l; ring).
  unfold cheb_rows, cheb_feasible. split.
  - intro H. split; auto. split.
    + intros k a c H1 H2. rewrite <- D by (eapply aug_width; eauto). apply H. rewrite !in_app_iff. left. apply in_map_iff. exists (a, c). split; auto. apply combine_nth. eauto.
    + intros k a c H1 H2. assert (I : In (a, c) (combine (dAeq d) (dbeq d))) by (apply combine_nth; eauto). assert (La : length a = dim d) by (apply FE; eapply nth_error_In; eauto).
      assert (Q1 : dot (a ++ [0]) (x ++ [r]) <= c) by (apply H; rewrite !in_app_iff; right; left; apply in_map_iff; exists (a, c); auto).
      assert (Q2 : dot (vscale (-1) a ++ [0]) (x ++ [r]) <= - c) by (apply H; rewrite !in_app_iff; right; right; apply in_map_iff; exists (a, c); auto).
      rewrite D in Q1 by auto. rewrite D in Q2 by (rewrite vscale_length; auto). rewrite dot_vscale_l in Q2. lra.
  - intros [_ [H E]] a' c' I. rewrite !in_app_iff in I. destruct I as [I|[I|I]]; apply in_map_iff in I; destruct I as ([a c] & Q & I); injection Q as <- <-; cbn [fst snd]; apply combine_nth in I; destruct I as (k & H1 & H2).
    + rewrite D by (eapply aug_width; eauto). eauto.
    + assert (La : length a = dim d) by (apply FE; eapply nth_error_In; eauto). rewrite D by auto. rewrite (E k a c H1 H2). lra.
    + assert (La : length a = dim d) by (apply FE; eapply nth_error_In; eauto). rewrite D by (rewrite vscale_length; auto). rewrite dot_vscale_l, (E k a c H1 H2). lra.
Qed.
Lemma cheb_rows_rect : forall d, dom_wf d -> rect (dim d + 1) (cheb_rows d).
Proof.
  intros d W a' c' I. assert (FE : Forall (fun r => length r = dim d) (dAeq d)) by apply W. rewrite Forall_forall in FE. unfold cheb_rows in I. rewrite !in_app_iff in I.
  destruct I as [I|[I|I]]; apply in_map_iff in I; destruct I as ([a c] & Q & I); injection Q as <- <-; cbn [fst snd]; rewrite app_length, ?vscale_length; simpl length; f_equal.
  - apply combine_nth in I. destruct I as (k & H1 & _). eapply aug_width; eauto.
  - apply FE. apply in_combine_l in I. auto.
  - apply FE. apply in_combine_l in I. auto.
Qed.
Theorem cheb_exists : forall d, dom_wf d -> (exists x r, cheb_feasible d x r) -> (exists c, forall x r, cheb_feasible d x r -> r <= c) -> exists x r, cheb_returns d x r.
Proof.
  intros d W (x0 & r0 & F0) (c & B). assert (Lp : length (vzero (dim d) ++ [1]) = (dim d + 1)%nat) by (rewrite app_length; unfold vzero; rewrite repeat_length; auto).
  assert (SP : forall z : vec, length z = (dim d + 1)%nat -> exists x r, z = x ++ [r] /\ length x = dim d).
  { intros z Lz. exists (firstn (dim d) z), (nth (dim d) z 0). split; [|rewrite firstn_length; lia]. rewrite <- (firstn_skipn (dim d) z) at 1. f_equal. assert (Ls : length (skipn (dim d) z) = 1%nat) by (rewrite skipn_length; lia).
    rewrite <- (firstn_skipn (dim d) z) at 2. rewrite app_nth2; rewrite firstn_length; [|lia]. replace (dim d - Nat.min (dim d) (length z))%nat with 0%nat by lia. destruct (skipn (dim d) z) as [|a [|]]; try discriminate Ls. reflexivity. }
  assert (DP : forall x r, length x = dim d -> dot (vzero (dim d) ++ [1]) (x ++ [r]) = r).
  { intros x r Lx. rewrite dot_app2 by (unfold vzero; rewrite repeat_length; auto). rewrite dot_cons, dot_nil_l. replace (dot (vzero (dim d)) x) with 0; [ring|]. symmetry. rewrite <- Lx. clear. unfold vzero. induction x as [|a x IH]; simpl; [apply dot_nil_l|]. rewrite dot_cons, IH. ring. }
  destruct (lp_attained (dim d + 1) (cheb_rows d) (vzero (dim d) ++ [1]) c (cheb_rows_rect d W) Lp) as (y & Ly & Hy & My).
  - exists (x0 ++ [r0]). destruct F0 as [L0 F0']. split; [rewrite app_length; simpl; lia|]. apply cheb_rows_spec; auto. split; auto.
  - intros z Lz Hz. destruct (SP z Lz) as (x & r & -> & Lx). rewrite DP by auto. apply (B x r). apply cheb_rows_spec; auto.
  - destruct (SP y Ly) as (x & r & -> & Lx). exists x, r. split; [apply cheb_rows_spec; auto|]. intros w s Fw. assert (Lw : length w = dim d) by apply Fw.
    rewrite <- (DP x r Lx), <- (DP w s Lw). apply My; [rewrite app_length; simpl; lia|]. apply cheb_rows_spec; auto.
Qed.
(** nonempty domains without equality constraints that are bounded in some coordinate *)
Theorem cheb_exists_bounded : forall d, dom_wf d -> quads d = [] -> dAeq d = [] -> (exists x, member d x) -> (exists i l u, (i < dim d)%nat /\ forall x, member d x -> l <= vget x i <= u) -> exists x r, cheb_returns d x r.
Proof.
  intros d W Q E (x0 & M0) (i & l & u & Hi & B). apply cheb_exists; auto.
  - exists x0, 0. assert (L0 : length x0 = dim d) by apply M0. pose proof M0 as M1. apply aug_member in M1; auto. destruct M1 as [H1 H2]. split; auto. split; [intros k a c A1 A2; specialize (H1 k a c A1 A2); lra|]. auto.
  - exists ((u - l) / 2 + Rabs (u - l)). intros x r F. destruct (Rle_dec 0 r) as [R0|R0]; [|pose proof (Rabs_pos (u - l)); assert (l <= vget x0 i <= u) by auto; lra].
    assert (Lx : length x = dim d) by apply F.
    assert (G : forall s, Rabs s = r -> member d (vadd x (vscale s (unit_row_ (dim d) i)))).
    { intros s Hs. apply (cheb_ball d x r); auto.
      - split; [rewrite vadd_length; rewrite ?vscale_length, ?unit_row_length; lia|]. replace (vsub (vadd x (vscale s (unit_row_ (dim d) i))) x) with (vscale s (unit_row_ (dim d) i)).
        + rewrite norm2_vscale, unit_row_norm by auto. lra.
        + apply vec_ext; [rewrite vscale_length, vsub_length, vadd_length; rewrite ?vscale_length, ?unit_row_length; auto; rewrite vadd_length; rewrite ?vscale_length, ?unit_row_length; lia|].
          intros j Hj. rewrite vsub_get, vadd_get by (rewrite ?vadd_length, ?vscale_length, ?unit_row_length; auto; rewrite ?vscale_length, ?unit_row_length; lia). ring.
      - rewrite E. intros k a c A1. destruct k; discriminate. }
    assert (V : forall s, vget (vadd x (vscale s (unit_row_ (dim d) i))) i = vget x i + s).
    { intro s. rewrite vadd_get by (rewrite vscale_length, unit_row_length; auto). rewrite vscale_get. rewrite <- (dot_unit_get (dim d) i (unit_row_ (dim d) i)) by (auto; apply unit_row_length). pose proof (unit_row_norm (dim d) i Hi) as N. pose proof (norm2_sq (unit_row_ (dim d) i)) as N2. unfold norm2sq in N2. rewrite N in N2. rewrite <- N2. ring. }
    pose proof (B _ (G r ltac:(rewrite Rabs_pos_eq; lra))) as B1. pose proof (B _ (G (- r) ltac:(rewrite Rabs_Ropp, Rabs_pos_eq; lra))) as B2. rewrite V in B1, B2. pose proof (Rabs_pos (u - l)). lra.
Qed.
