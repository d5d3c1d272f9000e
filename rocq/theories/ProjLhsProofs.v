(** Cells as domains, the assertions of projection_sample and its Latin hypercube variant (sample/projection.py 57-108). *)
Require Import Reals Lra Lia List Bool Arith Permutation.
From Verif Require Import RVec Num Sums DomModel DomSpec DomProofs DomOpsProofs DomMoreModel SweepProofs HullProofs PartialProofs MatLib LipModel LipProofs GeoModel GeoProofs SampModel LatinProofs SampMoreModel ProjModel ProjCellProofs ProjLineProofs.
Import ListNotations.
Local Open Scope R_scope.

(** ** the domain with the rows added *)
Definition rows_dom (m : nat) (c : rows) : dom := mkDom LinIneq m (repeat NInf m) (repeat PInf m) (map fst c) (map snd c) [] [] [].
Lemma rows_dom_ok : forall m c, Forall (fun r => length (fst r) = m) c -> dom_wf (rows_dom m c) /\ proper (rows_dom m c).
Proof.
  intros m c H. split.
  - unfold dom_wf, rows_dom. cbn [dim lb ub dA db dAeq dbeq quads dcls]. rewrite !repeat_length, !map_length. split; auto. split; auto. split.
    { apply Forall_forall. intros r I. apply in_map_iff in I. destruct I as [q [<- Iq]]. rewrite Forall_forall in H. auto. }
    repeat split; auto; try constructor; intros; try congruence; destruct H0; discriminate.
  - unfold proper, rows_dom. cbn [lb ub]. split; apply Forall_forall; intros v I; apply repeat_spec in I; subst v; exact Logic.I.
Qed.
Lemma rows_ineq : forall (c : rows) x tol, sat_ineq (map fst c) (map snd c) tol x <-> forall a b, In (a, b) c -> dot a x <= b + tol.
Proof.
  intros c x tol. unfold sat_ineq. split.
  - intros H a b I. apply In_nth_error in I. destruct I as [k E]. apply (H k); rewrite nth_error_map, E; reflexivity.
  - intros H k a b E1 E2. rewrite nth_error_map in E1, E2. destruct (nth_error c k) as [[a' b']|] eqn:E; [|discriminate]. cbn in *. injection E1 as <-. injection E2 as <-. apply H. eapply nth_error_In; eauto.
Qed.
Lemma free_bounds : forall m tol x, sat_bounds (repeat NInf m) (repeat PInf m) tol x.
Proof. intros m tol x i. split; intros v E; apply nth_error_In, repeat_spec in E; discriminate. Qed.
Lemma rows_relaxed : forall m c x tol, relaxed (rows_dom m c) tol x <-> length x = m /\ forall a b, In (a, b) c -> dot a x <= b + tol.
Proof.
  intros m c x tol. unfold relaxed, rows_dom. cbn [dim lb ub dA db dAeq dbeq quads]. rewrite rows_ineq. split; [intros [A [_ [B _]]]; auto|].
  intros [A B]. split; auto. split; [apply free_bounds|]. split; auto. split; [intros k a b E; destruct k; discriminate|intros q []].
Qed.
Theorem with_rows_inside : forall d c x tol, dom_wf d -> proper d -> dcls d <> Point -> Forall (fun r => length (fst r) = dim d) c ->
  (inside1 (with_rows d c) x tol = true <-> inside1 d x tol = true /\ forall a b, In (a, b) c -> dot a x <= b + tol).
Proof.
  intros d c x tol W P NP HC. destruct (rows_dom_ok (dim d) c HC) as [W2 P2]. unfold with_rows. fold (rows_dom (dim d) c).
  rewrite add_constraints_inside by (auto; discriminate). rewrite andb_true_iff. rewrite (inside1_spec (rows_dom _ _)) by (auto; discriminate).
  rewrite rows_relaxed. split; [intros [A [_ B]]; auto|]. intros [A B]. split; auto. split; auto. apply inside1_spec in A; auto. apply A.
Qed.
Theorem with_rows_member : forall d c x, dom_wf d -> proper d -> Forall (fun r => length (fst r) = dim d) c ->
  (member (with_rows d c) x <-> member d x /\ holds c x).
Proof.
  intros d c x W P HC. destruct (rows_dom_ok (dim d) c HC) as [W2 P2]. unfold with_rows. fold (rows_dom (dim d) c).
  pose proof (add_constraints_fields d (rows_dom (dim d) c) W W2 eq_refl) as (G1 & G2 & G3 & G4 & G5 & G6 & G7 & G8 & _). cbn zeta in *.
  unfold member. rewrite G1, G2, G3, G4, G5, G6, G7, G8. rewrite sat_bounds_meet by auto. destruct W as [W3 [W4 [W5 [W6 _]]]].
  assert (RI : sat_ineq (dA d ++ dA (rows_dom (dim d) c)) (db d ++ db (rows_dom (dim d) c)) 0 x <-> sat_ineq (dA d) (db d) 0 x /\ sat_ineq (dA (rows_dom (dim d) c)) (db (rows_dom (dim d) c)) 0 x).
  { unfold sat_ineq. apply (nth_error_app_rows (dA d) _ (db d) _ (fun a c => dot a x <= c + 0)). auto. }
  rewrite RI. cbn [rows_dom dA db dAeq dbeq quads lb ub]. rewrite !app_nil_r, rows_ineq. unfold holds. split.
  - intros [A [[B _] [[C D] [E F]]]]. repeat (split; auto). intros a b I. specialize (D a b I). lra.
  - intros [[A [B [C [D E]]]] F]. repeat (split; auto). + apply free_bounds. + apply free_bounds. + intros a b I. specialize (F a b I). lra.
Qed.
Lemma ps_cell_len : forall m l X j neigh, length l = m -> Forall (fun r => length (fst r) = m) (ps_cell m [l] X j neigh).
Proof.
  intros m l X j neigh Hl. apply Forall_forall. intros r I. unfold ps_cell in I. apply in_map_iff in I. destruct I as [k [<- _]]. unfold ps_row. cbn [fst]. apply lincomb_length.
  - constructor; auto.
Qed.

(** ** the assertions, for one-row metrics *)
Lemma filter_one : forall (f : vec -> bool) (X : mat) j, (j < length X)%nat -> (forall k, (k < length X)%nat -> (f (nth k X []) = true <-> k = j)) -> length (filter f X) = 1%nat.
Proof.
  intros f X. induction X as [|x X IH]; intros j Hj H; [simpl in Hj; lia|]. simpl. destruct j as [|j].
  - assert (E : f x = true) by (apply (H O); auto). rewrite E. simpl. f_equal. assert (Z : forall Y, (forall k, (k < length Y)%nat -> f (nth k Y []) = false) -> length (filter f Y) = O).
    { induction Y as [|y Y IY]; intro HY; [reflexivity|]. simpl. assert (Q : f y = false) by (apply (HY O); simpl; lia). rewrite Q. apply IY. intros k Hk. apply (HY (S k)). simpl. lia. }
    apply Z. intros k Hk. destruct (f (nth k X [])) eqn:E2; auto. apply (H (S k)) in E2; [lia|simpl; lia].
  - assert (E : f x = false) by (destruct (f x) eqn:E; auto; apply (H O) in E; [lia|simpl; lia]). rewrite E. apply (IH j); [simpl in Hj; lia|]. intros k Hk. rewrite (H (S k)) by (simpl; lia). lia.
Qed.
Lemma filter_two : forall (f : vec -> bool) (X : mat) j k, (j < k < length X)%nat -> f (nth j X []) = true -> f (nth k X []) = true -> (2 <= length (filter f X))%nat.
Proof.
  intros f X. induction X as [|x X IH]; intros j k H A B; [simpl in H; lia|]. simpl. destruct j as [|j].
  - cbn in A. rewrite A. simpl. destruct k as [|k]; [lia|]. cbn in B. assert (I : In (nth k X []) (filter f X)) by (apply filter_In; split; auto; apply nth_In; simpl in H; lia).
    destruct (filter f X); [destruct I|simpl; lia].
  - destruct k as [|k]; [lia|]. cbn in A, B. assert (Q : (2 <= length (filter f X))%nat) by (apply (IH j k); auto; simpl in H; lia). destruct (f x); simpl; lia.
Qed.

(** the cells are built exactly when the points are in the domain and neighbouring projections differ by more than sqrt(2 tol) *)
Theorem asserts_iff : forall d l X I tol, dom_wf d -> proper d -> dcls d <> Point -> length l = dim d -> Forall (fun r => length r = dim d) X ->
  (2 <= length X)%nat -> 0 <= tol -> sorts I (yv l X) (length X) ->
  (ps_metric d [l] X I tol <> None <->
   (forall k, (k < length X)%nat -> inside1 d (nth k X []) tol = true) /\
   forall a, (S a < length X)%nat -> 2 * tol < (yv l X (nth (S a) I O) - yv l X (nth a I O)) * (yv l X (nth (S a) I O) - yv l X (nth a I O))).
Proof.
  intros d l X I tol W P NP Hl HX HN Ht HI. destruct (cells_get _ l X I Hl HN HI) as [cs [E [LC G]]]. unfold ps_metric. rewrite E.
  destruct (perm_facts _ _ (proj1 HI)) as [LI [B [IJ SJ]]]. set (v := fun b => yv l X (nth b I O)).
  assert (SL : forall p q, (p <= q < length X)%nat -> v p <= v q) by (apply (sorted_le _ l X I Hl HN HI)).
  assert (IN : forall a x, (a < length X)%nat -> (inside1 (with_rows d (nth (nth a I O) cs [])) x tol = true <-> inside1 d x tol = true /\
     forall b, (b = S a \/ S b = a) -> (b < length X)%nat -> (v b - v a) * (dot l x - (v a + v b) / 2) <= tol)).
  { intros a x Ha. rewrite G by auto. rewrite with_rows_inside by (auto using ps_cell_len). rewrite (cell_slack _ l X I Hl HX HN HI a x tol Ha). reflexivity. }
  assert (OWN : forall a, (a < length X)%nat -> inside1 d (nth (nth a I O) X []) tol = true -> inside1 (with_rows d (nth (nth a I O) cs [])) (nth (nth a I O) X []) tol = true).
  { intros a Ha D. apply IN; auto. split; auto. intros b _ Hb. change (dot l (nth (nth a I O) X [])) with (v a). pose proof (Rle_0_sqr (v b - v a)) as SQ. unfold Rsqr in SQ. nra. }
  split.
  - intro H. destruct (forallb _ _) eqn:F; [|congruence]. rewrite forallb_forall in F.
    assert (A : forall k, (k < length X)%nat -> inside1 d (nth k X []) tol = true).
    { intros k Hk. destruct (SJ k Hk) as [a [Ha <-]]. specialize (F (nth a I O)). assert (J : In (nth a I O) (seq 0 (length X))) by (apply in_seq; lia). apply F in J. unfold ps_asserts in J. apply andb_true_iff in J. destruct J as [J _]. apply IN in J; auto. apply J. }
    split; auto. intros a Ha. apply Rnot_le_lt. intro C. fold (v (S a)) in C. fold (v a) in C.
    specialize (F (nth a I O)). assert (J : In (nth a I O) (seq 0 (length X))) by (apply in_seq; specialize (B a ltac:(lia)); lia). apply F in J. unfold ps_asserts in J. apply andb_true_iff in J. destruct J as [_ J]. apply Nat.eqb_eq in J.
    assert (T1 := OWN a ltac:(lia) (A _ (B a ltac:(lia)))).
    assert (T2 : inside1 (with_rows d (nth (nth a I O) cs [])) (nth (nth (S a) I O) X []) tol = true).
    { apply IN; [lia|]. split; [apply A, B; auto|]. intros b Hb Hb2. change (dot l (nth (nth (S a) I O) X [])) with (v (S a)). destruct Hb as [->|Hb]; [nra|]. pose proof (SL b a ltac:(lia)). pose proof (SL a (S a) ltac:(lia)). nra. }
    assert (NE : nth a I O <> nth (S a) I O) by (intro Q; apply IJ in Q; lia). destruct (Nat.lt_ge_cases (nth a I O) (nth (S a) I O)) as [L|L].
    + pose proof (filter_two (fun x => inside1 (with_rows d (nth (nth a I O) cs [])) x tol) X (nth a I O) (nth (S a) I O) (conj L (B _ Ha)) T1 T2). lia.
    + pose proof (filter_two (fun x => inside1 (with_rows d (nth (nth a I O) cs [])) x tol) X (nth (S a) I O) (nth a I O) ltac:(split; [lia|apply B; lia]) T2 T1). lia.
  - intros [A C]. assert (F : forallb (fun j => ps_asserts d (nth j cs []) X j tol) (seq 0 (length X)) = true); [|rewrite F; discriminate].
    apply forallb_forall. intros j J. apply in_seq in J. destruct (SJ j ltac:(lia)) as [a [Ha <-]]. unfold ps_asserts. rewrite OWN by auto. apply Nat.eqb_eq. apply (filter_one _ X (nth a I O)); [apply B; auto|].
    intros k Hk. destruct (SJ k Hk) as [b [Hb <-]]. rewrite IN by auto. change (dot l (nth (nth b I O) X [])) with (v b). split; [|intro Q; apply IJ in Q; auto; subst b; split; [auto|intros c _ Hc; pose proof (Rle_0_sqr (v c - v a)) as SQ; unfold Rsqr in SQ; nra]].
    intros [_ H]. destruct (lt_eq_lt_dec a b) as [[L|L]|L]; [exfalso| |exfalso].
    + specialize (H (S a) (or_introl eq_refl) ltac:(lia)). specialize (C a ltac:(lia)). fold (v (S a)) in C. fold (v a) in C. pose proof (SL (S a) b ltac:(lia)). pose proof (SL a (S a) ltac:(lia)). nra.
    + subst; auto.
    + destruct a as [|a']; [lia|]. specialize (H a' (or_intror eq_refl) ltac:(lia)). specialize (C a' ltac:(lia)). fold (v (S a')) in C. fold (v a') in C. pose proof (SL b a' ltac:(lia)). pose proof (SL a' (S a') ltac:(lia)). nra.
Qed.

(** ** the Latin hypercube variant *)
Lemma lhs_points_len : forall l c1 c2 N, length (lhs_points l c1 c2 N) = N.
Proof. intros. unfold lhs_points. rewrite map_length. apply lhs_coords_len. Qed.
Lemma lhs_points_get : forall l c1 c2 N k, (k < N)%nat -> nth k (lhs_points l c1 c2 N) [] = vscale (vget (lhs_coords (lhs_lo l c1 c2) (lhs_hi l c1 c2) N) k) l.
Proof.
  intros l c1 c2 N k Hk. unfold lhs_points. rewrite nth_indep with (d' := vscale 0 l) by (rewrite map_length, lhs_coords_len; auto).
  rewrite (map_nth (fun a => vscale a l)). reflexivity.
Qed.
Lemma lhs_points_dim : forall l c1 c2 N, Forall (fun r => length r = length l) (lhs_points l c1 c2 N).
Proof. intros. apply Forall_forall. intros r I. unfold lhs_points in I. apply in_map_iff in I. destruct I as [a [<- _]]. unfold vscale. apply map_length. Qed.
Lemma lhs_yv : forall l c1 c2 N k, dot l l = 1 -> (k < N)%nat ->
  yv l (lhs_points l c1 c2 N) k = lhs_lo l c1 c2 + (INR k + / 2) * ((lhs_hi l c1 c2 - lhs_lo l c1 c2) / INR N).
Proof. intros l c1 c2 N k H Hk. unfold yv. rewrite lhs_points_get by auto. rewrite dot_vscale_r, H, Rmult_1_r. apply lhs_coords_get. auto. Qed.
Lemma lhs_sorts : forall l c1 c2 N, dot l l = 1 -> sorts (seq 0 N) (yv l (lhs_points l c1 c2 N)) N.
Proof.
  intros l c1 c2 N H. split; [apply Permutation_refl|]. intros a b Hab. rewrite !seq_nth by lia. rewrite !Nat.add_0_l, !lhs_yv by (auto; lia).
  assert (Q : INR a <= INR b) by (apply le_INR; lia). assert (0 <= (lhs_hi l c1 c2 - lhs_lo l c1 c2) / INR N).
  { apply Rmult_le_pos; [unfold lhs_hi, lhs_lo; pose proof (Rmin_l (dot l c1) (dot l c2)); pose proof (Rmax_l (dot l c1) (dot l c2)); lra|]. apply Rlt_le, Rinv_0_lt_compat, lt_0_INR. lia. }
  nra.
Qed.
(** the cells are the equal slices of the extent along l *)
Theorem lhs_cells : forall m l c1 c2 N I, length l = m -> dot l l = 1 -> (2 <= N)%nat -> dot l c1 <> dot l c2 ->
  let X := lhs_points l c1 c2 N in sorts I (yv l X) N ->
  let lo := Rmin (dot l c1) (dot l c2) in let hi := Rmax (dot l c1) (dot l c2) in let h := (hi - lo) / INR N in
  exists cs, ps_cells m [l] X I = Some cs /\ length cs = N /\
    forall j x, (j < N)%nat -> lo <= dot l x <= hi -> (holds (nth j cs []) x <-> lo + INR j * h <= dot l x <= lo + INR (S j) * h).
Proof.
  intros m l c1 c2 N I Hl Hu HN HC X HI lo hi h. assert (LX : length X = N) by apply lhs_points_len.
  assert (HLT : lo < hi) by (unfold lo, hi, Rmin, Rmax; destruct (Rle_dec (dot l c1) (dot l c2)); lra).
  assert (NP : 0 < INR N) by (apply lt_0_INR; lia). assert (Hh : 0 < h) by (unfold h; apply Rdiv_lt_0_compat; lra).
  assert (Y : forall k, (k < N)%nat -> yv l X k = lo + (INR k + / 2) * h) by (intros k Hk; apply lhs_yv; auto).
  destruct (line_cells m l X I Hl) as [cs [E [LC H]]].
  - unfold X. rewrite <- Hl. apply lhs_points_dim.
  - lia.
  - rewrite LX. auto.
  - rewrite LX. intros j k Hj Hk Q. rewrite !Y in Q by auto. apply INR_eq. nra.
  - exists cs. split; auto. split; [lia|]. intros j x Hj Hx. rewrite H by lia. rewrite LX. set (t := dot l x) in *.
    assert (YY : forall k, (k < N)%nat -> dot l (nth k X []) = lo + (INR k + / 2) * h) by (intros k Hk; apply Y; auto).
    assert (EN : INR N * h = hi - lo) by (unfold h; field; lra).
    split.
    + intro A. rewrite S_INR. split.
      * destruct j as [|j]; [simpl; lra|]. specialize (A j ltac:(lia)). rewrite !YY in A by lia. apply near_mid in A. rewrite S_INR in *. nra.
      * destruct (Nat.eq_dec (S j) N) as [Q|Q]; [rewrite <- S_INR, Q; lra|]. specialize (A (S j) ltac:(lia)). rewrite !YY in A by lia. apply near_mid in A. rewrite S_INR in *. nra.
    + intros [A B] k Hk. rewrite !YY by auto. apply near_mid. rewrite S_INR in B. destruct (lt_eq_lt_dec k j) as [[L|L]|L].
      * assert (Q : INR k + 1 <= INR j) by (rewrite <- S_INR; apply le_INR; lia).
        assert (F1 : lo + (INR k + / 2) * h - (lo + (INR j + / 2) * h) <= 0) by nra.
        assert (F2 : 0 <= t - (lo + (INR j + / 2) * h + (lo + (INR k + / 2) * h)) / 2) by nra. nra.
      * subst k. nra.
      * assert (Q : INR j + 1 <= INR k) by (rewrite <- S_INR; apply le_INR; lia).
        assert (F1 : 0 <= lo + (INR k + / 2) * h - (lo + (INR j + / 2) * h)) by nra.
        assert (F2 : t - (lo + (INR j + / 2) * h + (lo + (INR k + / 2) * h)) / 2 <= 0) by nra. nra.
Qed.
(** a design with one point in the cell selected for each sample, the selections a permutation: every slice holds exactly
    one selected sample, and any other sample in it lies on the boundary *)
Theorem lhs_generalized : forall m l c1 c2 N I cs (p : nat -> nat) (x : nat -> vec), length l = m -> dot l l = 1 -> (2 <= N)%nat -> dot l c1 <> dot l c2 ->
  let X := lhs_points l c1 c2 N in sorts I (yv l X) N -> ps_cells m [l] X I = Some cs ->
  let lo := Rmin (dot l c1) (dot l c2) in let hi := Rmax (dot l c1) (dot l c2) in let h := (hi - lo) / INR N in
  Permutation (map p (seq 0 N)) (seq 0 N) -> (forall o, (o < N)%nat -> lo <= dot l (x o) <= hi /\ holds (nth (p o) cs []) (x o)) ->
  forall v, (v < N)%nat -> exists o, (o < N)%nat /\ p o = v /\ lo + INR v * h <= dot l (x o) <= lo + INR (S v) * h /\
    forall q, (q < N)%nat -> q <> o -> lo + INR v * h < dot l (x q) < lo + INR (S v) * h -> False.
Proof.
  intros m l c1 c2 N I cs p x Hl Hu HN HC X HI E lo hi h HP HX v Hv. destruct (lhs_cells m l c1 c2 N I Hl Hu HN HC HI) as [cs' [E' [_ S]]]. fold X in E'. rewrite E in E'. injection E' as <-. fold lo hi h in S.
  assert (HLT : lo < hi) by (unfold lo, hi, Rmin, Rmax; destruct (Rle_dec (dot l c1) (dot l c2)); lra). assert (Hh : 0 < h) by (unfold h; apply Rdiv_lt_0_compat; [lra|apply lt_0_INR; lia]).
  destruct (perm_facts (map p (seq 0 N)) N HP) as [_ [B [IJ SJ]]].
  assert (PN : forall o, (o < N)%nat -> nth o (map p (seq 0 N)) O = p o) by (intros; apply nth_map_seq; auto).
  assert (PB : forall o, (o < N)%nat -> (p o < N)%nat) by (intros o Ho; rewrite <- PN by auto; auto).
  destruct (SJ v Hv) as [o [Ho EO]]. rewrite PN in EO by auto. exists o. split; auto. split; auto. split.
  - destruct (HX o Ho) as [R C]. rewrite EO in C. apply S in C; auto.
  - intros q Hq NE [A D]. destruct (HX q Hq) as [R C]. apply S in C; auto. destruct C as [C1 C2]. assert (p q <> v) by (intro Q; apply NE, IJ; auto; rewrite !PN by auto; congruence).
    rewrite S_INR in *. destruct (Nat.lt_ge_cases (p q) v) as [L|L].
    + assert (INR (p q) + 1 <= INR v) by (rewrite <- S_INR; apply le_INR; lia). nra.
    + assert (INR v + 1 <= INR (p q)) by (rewrite <- S_INR; apply le_INR; lia). nra.
Qed.
(** the assertions fail in the Latin hypercube variant when some other coordinate is bounded away from zero *)
Theorem lhs_offset_raises : forall d l c1 c2 N I i b tol, dom_wf d -> proper d -> dcls d <> Point -> length l = dim d -> dot l l = 1 -> (1 <= N)%nat -> 0 <= tol ->
  let X := lhs_points l c1 c2 N in sorts I (yv l X) N -> vget l i = 0 -> nth_error (lb d) i = Some (Fin b) -> tol < b -> ps_metric d [l] X I tol = None.
Proof.
  intros d l c1 c2 N I i b tol W P NP Hl Hu HN Ht X HI Z EB HB. assert (LX : length X = N) by apply lhs_points_len. destruct (Nat.eq_dec N 1) as [EN|N1].
  - unfold ps_metric. rewrite neighbors_single by lia. reflexivity.
  - destruct (ps_metric d [l] X I tol) as [cs|] eqn:E; auto. exfalso. assert (Q : ps_metric d [l] X I tol <> None) by congruence.
    apply asserts_iff in Q; auto; [|rewrite <- Hl; apply lhs_points_dim|lia|rewrite LX; auto]. destruct Q as [A _]. specialize (A O ltac:(lia)). apply inside1_spec in A; auto. destruct A as [_ [A _]]. destruct (A i) as [A1 _]. specialize (A1 b EB).
    unfold X in A1. rewrite lhs_points_get in A1 by lia. unfold vget in A1 at 1. unfold vscale in A1. set (a := vget (lhs_coords (lhs_lo l c1 c2) (lhs_hi l c1 c2) N) 0) in *.
    assert (G : nth i (map (Rmult a) l) 0 = 0).
    { destruct (Nat.lt_ge_cases i (length l)) as [L|L]; [|apply nth_overflow; rewrite map_length; auto]. rewrite nth_indep with (d' := a * 0) by (rewrite map_length; auto). rewrite map_nth. fold (vget l i). rewrite Z. ring. }
    rewrite G in A1. lra.
Qed.
(** and when the slices are narrower than sqrt(2 tol) *)
Theorem lhs_narrow_raises : forall d l c1 c2 N I tol, dom_wf d -> proper d -> dcls d <> Point -> length l = dim d -> dot l l = 1 -> (1 <= N)%nat -> 0 <= tol ->
  let X := lhs_points l c1 c2 N in sorts I (yv l X) N -> let h := Rabs (dot l c2 - dot l c1) / INR N in h * h <= 2 * tol -> ps_metric d [l] X I tol = None.
Proof.
  intros d l c1 c2 N I tol W P NP Hl Hu HN Ht X HI h Hh. assert (LX : length X = N) by apply lhs_points_len. destruct (Nat.eq_dec N 1) as [EN|N1].
  - unfold ps_metric. rewrite neighbors_single by lia. reflexivity.
  - destruct (ps_metric d [l] X I tol) as [cs|] eqn:E; auto. exfalso. assert (Q : ps_metric d [l] X I tol <> None) by congruence.
    apply asserts_iff in Q; auto; [|rewrite <- Hl; apply lhs_points_dim|lia|rewrite LX; auto]. destruct Q as [_ A].
    destruct (perm_facts _ _ (proj1 HI)) as [LI [B [IJ SJ]]].
    assert (EH : (lhs_hi l c1 c2 - lhs_lo l c1 c2) / INR N = h). { unfold h, lhs_hi, lhs_lo, Rmax, Rmin. destruct (Rle_dec (dot l c1) (dot l c2)); [rewrite Rabs_right by lra; auto|rewrite Rabs_left by lra; f_equal; ring]. }
    assert (Y : forall k, (k < N)%nat -> yv l X k = lhs_lo l c1 c2 + (INR k + / 2) * h) by (intros k Hk; rewrite <- EH; apply lhs_yv; auto).
    assert (H0 : 0 <= h) by (unfold h; apply Rmult_le_pos; [apply Rabs_pos|apply Rlt_le, Rinv_0_lt_compat, lt_0_INR; lia]).
    assert (HP : h <> 0). { intro Z. specialize (A O ltac:(lia)). rewrite !Y in A by (apply B; lia). rewrite Z in A. nra. }
    (* the point after that of value 0 *)
    destruct (SJ O ltac:(lia)) as [a [Ha EA]]. destruct (SJ 1%nat ltac:(lia)) as [b [Hb EB]].
    assert (AB : (a < b)%nat). { destruct (lt_eq_lt_dec a b) as [[L|L]|L]; auto; [rewrite L in EA; congruence|]. pose proof (proj2 HI b a ltac:(lia)) as S. rewrite EA, EB, !Y in S by lia. simpl in S. lra. }
    assert (SA : S a = b).
    { destruct (Nat.eq_dec (S a) b); auto. exfalso. assert (C : (S a < N)%nat) by lia. pose proof (B (S a) C) as C2. pose proof (proj2 HI (S a) b ltac:(lia)) as SS. rewrite EB in SS. rewrite !Y in SS by lia. assert (Q : nth (S a) I O <> O) by (intro Q; assert (Q' : nth (S a) I O = nth a I O) by congruence; apply IJ in Q'; lia). assert (Q2 : nth (S a) I O <> 1%nat) by (intro Q2; assert (Q' : nth (S a) I O = nth b I O) by congruence; apply IJ in Q'; lia).
      assert (Q3 : 2 <= INR (nth (S a) I O)) by (change 2 with (INR 2); apply le_INR; lia). simpl in SS. nra. }
    specialize (A a ltac:(lia)). rewrite SA, EA, EB, !Y in A by lia. simpl in A. nra.
Qed.
