(** Concrete domains, refutation witnesses and small corollaries used by DomProps. *)
Require Import Reals Lra Lia List Bool.
From Verif Require Import RVec Num DomModel DomSpec DomProofs NormProofs DomOpsProofs.
Import ListNotations.
Local Open Scope R_scope.

(** decide comparisons of literals *)
Ltac rb1 :=
  match goal with
  | |- context [Rleb ?a ?b] =>
      first [ replace (Rleb a b) with true by (symmetry; apply Rleb_true; lra)
            | replace (Rleb a b) with false by (symmetry; apply Rleb_false; lra) ]
  | |- context [Rltb ?a ?b] =>
      first [ replace (Rltb a b) with true by (symmetry; apply Rltb_true; lra)
            | replace (Rltb a b) with false by (symmetry; apply Rltb_false; lra) ]
  | |- context [Reqb ?a ?b] =>
      first [ replace (Reqb a b) with true by (symmetry; apply Reqb_true; lra)
            | replace (Reqb a b) with false by (symmetry; apply Reqb_false; lra) ]
  | |- context [Req_EM_T ?a ?b] => destruct (Req_EM_T a b); try (exfalso; lra)
  | |- context [Rle_dec ?a ?b] => destruct (Rle_dec a b); try (exfalso; lra)
  | |- context [Rlt_dec ?a ?b] => destruct (Rlt_dec a b); try (exfalso; lra)
  end.
Ltac rb := repeat (rb1; simpl).

(** unfold vector arithmetic on concrete lists *)
Ltac vc := unfold norm2, norm2sq, mv, dot, vmul, vsub, vadd, vscale, vsum, vget in *; simpl in *.

(** prove a concrete constraint conjunction: rows of concrete lists *)
Ltac rows k := destruct k as [|[|[|k]]]; simpl in *; intros;
  repeat match goal with H : Some _ = Some _ |- _ => inversion H; clear H; subst end; try discriminate.

Ltac wf := unfold dom_wf, quad_wf; simpl; repeat split; intros; auto; try discriminate;
  repeat constructor; simpl; auto; try lra; try (exfalso; intuition congruence).

(* ---------------- corollaries ---------------- *)
Lemma inside1_mono : forall d t1 t2 x, dom_wf d -> dcls d <> Point -> t1 <= t2 ->
  inside1 d x t1 = true -> inside1 d x t2 = true.
Proof. intros d t1 t2 x W N H. rewrite !inside1_spec by auto. apply relaxed_mono; auto. Qed.

Lemma member_relaxed1 : forall d x tol, member d x -> 0 < tol -> relaxed d tol x.
Proof. intros d x tol M T. exact (proj1 (member_relaxed d x) M tol T). Qed.

Lemma member_inside1 : forall d x, dom_wf d -> dcls d <> Point ->
  (member d x <-> forall tol, 0 < tol -> inside1 d x tol = true).
Proof.
  intros d x W N. rewrite member_relaxed.
  split; intros H tol Ht; specialize (H tol Ht); apply inside1_spec; auto.
Qed.

Lemma isinside_wrong_dim : forall d x tol, length x <> dim d -> isinside d (Arr1 x) tol = Scalar false.
Proof. intros. simpl. destruct (Nat.eqb_spec (length x) (dim d)); congruence. Qed.

Lemma point_inside : forall d xp x tol, dcls d = Point -> dim d = length xp ->
  lb d = map Fin xp -> (inside1 d x tol = true <-> x = xp).
Proof.
  intros d xp x tol C D L. unfold inside1, isinside, isinside_rows. rewrite C.
  destruct (Nat.eqb_spec (length x) (dim d)) as [E|E].
  - simpl. rewrite andb_true_r. apply point_row_spec; auto. congruence.
  - split; [discriminate|]. intro; subst; congruence.
Qed.

Lemma inside1_false : forall d x tol, dom_wf d -> dcls d <> Point -> ~ relaxed d tol x -> inside1 d x tol = false.
Proof.
  intros d x tol W N H. destruct (inside1 d x tol) eqn:E; auto. exfalso. apply H. apply inside1_spec; auto.
Qed.

Lemma add_constraints_comm : forall d c tol x, dom_wf d -> dom_wf c -> dim c = dim d ->
  proper d -> proper c -> dcls d <> Point -> dcls c <> Point ->
  inside1 (add_constraints d c) x tol = inside1 (add_constraints c d) x tol.
Proof. intros. rewrite !add_constraints_inside by auto. apply andb_comm. Qed.

Lemma proper_add : forall d c, dom_wf d -> dom_wf c -> dim c = dim d -> proper d -> proper c ->
  proper (add_constraints d c).
Proof.
  intros d c W V E [P1 P2] [Q1 Q2]. pose proof (add_constraints_fields d c W V E) as F. cbn zeta in F.
  destruct F as [_ [F2 [F3 _]]]. unfold proper. rewrite F2, F3. clear - P1 P2 Q1 Q2. split.
  - revert P1 Q1. generalize (lb d) (lb c). intros l l0 P Q. revert l P.
    induction Q as [|a l0 Ha Q IH]; intros l P; simpl; auto.
    destruct P as [|b l Hb P]; auto. constructor; auto.
    destruct a; destruct b; simpl in *; auto; unfold nmax; simpl; auto. destruct (Rleb r r0); exact I.
  - revert P2 Q2. generalize (ub d) (ub c). intros l l0 P Q. revert l P.
    induction Q as [|a l0 Ha Q IH]; intros l P; simpl; auto.
    destruct P as [|b l Hb P]; auto. constructor; auto.
    destruct a; destruct b; simpl in *; auto; unfold nmin; simpl; auto. destruct (Rleb r r0); exact I.
Qed.

Lemma add_constraints_assoc : forall d c e tol x, dom_wf d -> dom_wf c -> dom_wf e -> dim c = dim d -> dim e = dim d ->
  proper d -> proper c -> proper e -> dcls d <> Point -> dcls c <> Point -> dcls e <> Point ->
  inside1 (add_constraints (add_constraints d c) e) x tol = inside1 (add_constraints d (add_constraints c e)) x tol.
Proof.
  intros d c e tol x W V U E1 E2 P Q S N1 N2 N3.
  assert (E3 : dim e = dim c) by congruence.
  destruct (add_constraints_fields d c W V E1) as [D1 [_ [_ [_ [_ [_ [_ [_ X1]]]]]]]].
  destruct (add_constraints_fields c e V U E3) as [D2 [_ [_ [_ [_ [_ [_ [_ X2]]]]]]]].
  rewrite (add_constraints_inside (add_constraints d c) e);
    auto using add_constraints_wf, proper_add; try congruence.
  rewrite (add_constraints_inside d (add_constraints c e));
    auto using add_constraints_wf, proper_add; try congruence.
  rewrite !add_constraints_inside by auto. symmetry. apply andb_assoc.
Qed.

Lemma normalize_get_fin : forall l u x i, length l = length u -> length x = length l -> (i < length l)%nat ->
  vget (normalize (map Fin l) (map Fin u) x) i =
  nslope (Fin (vget l i)) (Fin (vget u i)) * (vget x i - center_i (Fin (vget l i)) (Fin (vget u i))).
Proof.
  intros l u x i H Hx Hi. rewrite normalize_get by (rewrite ?map_length; auto).
  unfold vget at 3 4 5 6.
  assert (forall (w : vec), (i < length w)%nat -> nth i (map Fin w) NaN = Fin (vget w i)) as N.
  { intros w Hw. rewrite nth_indep with (d' := Fin 0) by (rewrite map_length; auto). rewrite map_nth. reflexivity. }
  rewrite !N by lia. reflexivity.
Qed.

Lemma unit_cube : forall l u x i, length l = length u -> length x = length l -> (i < length l)%nat ->
  vget l i < vget u i ->
  (vget l i <= vget x i <= vget u i <-> -1 <= vget (normalize (map Fin l) (map Fin u) x) i <= 1).
Proof. intros. rewrite normalize_get_fin by auto. apply normalize_unit_coord; auto. Qed.

Lemma unit_cube_ends : forall l u i, length l = length u -> (i < length l)%nat -> vget l i < vget u i ->
  vget (normalize (map Fin l) (map Fin u) l) i = -1 /\ vget (normalize (map Fin l) (map Fin u) u) i = 1.
Proof.
  intros l u i H Hi L. rewrite !normalize_get_fin by auto. unfold nslope, center_i.
  destruct (Req_EM_T (vget u i) (vget l i)); [lra|]. split; field; lra.
Qed.

Lemma extent_box : forall l u tol stol x p, length l = length u -> length p = length l -> 0 < tol -> 0 < stol ->
  length x = length l -> (forall i, (i < length l)%nat -> vget l i <= vget x i <= vget u i) ->
  exists e, extent (box_of l u) tol stol x p = Some e /\
    forall al, 0 <= al -> ((forall i, (i < length l)%nat -> vget l i <= vget x i + al * vget p i <= vget u i)
                           <-> nleb (Fin al) e = true).
Proof.
  intros l u tol stol x p H Hp Ht Hs Hx M.
  assert (P : proper (box_of l u)).
  { split; simpl; apply Forall_forall; intros v Hv; apply in_map_iff in Hv; destruct Hv as [r [E _]]; subst; exact I. }
  destruct (extent_correct (box_of l u) tol stol x p (box_of_wf l u H) P ltac:(discriminate) Ht Hs)
    as [e [E1 E2]]; auto.
  - apply box_member; auto.
  - intros a [].
  - intros k a c Ha. destruct k; discriminate.
  - intros q [].
  - exists e. split; auto. intros al Hal. rewrite <- E2 by auto. rewrite box_member by auto.
    assert (L : length (along x p al) = length l) by (rewrite along_length; congruence).
    split.
    + intro HH. split; auto. intros i Hi. rewrite along_get by congruence. auto.
    + intros [_ HH] i Hi. specialize (HH i Hi). rewrite along_get in HH by congruence. auto.
Qed.

(* ---------------- concrete domains ---------------- *)
Definition ex_dom : dom := mkDom LinQuad 2 [Fin 0; NInf] [Fin 1; PInf] [[1;1]] [2] [[1;-1]] [0]
  [mkQuad [[1;0];[0;1]] [0;0] 2].
Definition ex_ball : dom := mkDom LinQuad 2 [Fin 0; Fin 0] [Fin 2; Fin 4] [] [] [] []
  [mkQuad [[3;0];[0;4]] [1;2] 5].
Definition ex_half : dom := mkDom Box 2 [Fin 0; Fin 1] [PInf; PInf] [] [] [] [] [].

Lemma ex_dom_wf : dom_wf ex_dom.
Proof. wf. Qed.
Lemma ex_ball_wf : dom_wf ex_ball.
Proof. wf. Qed.
Lemma ex_half_wf : dom_wf ex_half.
Proof. wf. Qed.

Ltac bnd := match goal with |- sat_bounds _ _ _ _ => let i := fresh "i" in intro i; split; intros; rows i; vc; lra end.
Ltac irow := let k := fresh "k" in intro k; rows k; vc; try rewrite Rabs_pos_eq; lra.
Ltac qrow := let q := fresh in let H := fresh in intros q H; simpl in H;
  repeat (destruct H as [H|H]; [subst q; simpl; apply norm2_le_iff; [lra|vc; lra]|]); contradiction.
Ltac memb := unfold member, relaxed; simpl; split; [reflexivity|]; split; [bnd|]; split; [irow|]; split; [irow|qrow].

Lemma ex_dom_case : dom_wf ex_dom /\ dcls ex_dom <> Point /\
  inside1 ex_dom [1/2; 1/2] (1/100) = true /\ inside1 ex_dom [3/2; 3/2] (1/100) = false.
Proof.
  split; [apply ex_dom_wf|]. split; [discriminate|]. split.
  - apply inside1_spec; [apply ex_dom_wf|discriminate|]. apply member_relaxed1; [memb|lra].
  - apply inside1_false; [apply ex_dom_wf|discriminate|]. intros [_ [B _]]. destruct (B O) as [_ B2].
    specialize (B2 1 eq_refl). vc. lra.
Qed.

Lemma point_tol_refuted : exists d x tol, dom_wf d /\ 0 < tol /\ relaxed d tol x /\ inside1 d x tol = false.
Proof.
  exists (mkDom Point 1 [Fin 0] [Fin 0] [] [] [] [] []), [1/2], 1. repeat split; simpl; auto; try lra; try discriminate.
  - exists [0]. auto.
  - rows i; vc; lra.
  - rows i; vc; lra.
  - irow.
  - irow.
  - intros q [].
  - match goal with |- ?b = false => destruct b eqn:E; auto end.
    apply (point_inside _ [0] [1/2] 1) in E; auto. inversion E. lra.
Qed.

Lemma normalize_case : normalize [Fin 0; NInf; Fin 3] [Fin 4; PInf; Fin 3] [1; 7; 5] = [-1/2; 7; 2].
Proof.
  unfold normalize, nslopes, center. simpl. rb. vc. repeat (apply (f_equal2 (@cons R)); [field|]); reflexivity.
Qed.

Lemma unit_cube_case : normalize (map Fin [0; -1]) (map Fin [2; 3]) [2; -1] = [1; -1].
Proof. unfold normalize, nslopes, center. simpl. rb. vc. repeat (apply (f_equal2 (@cons R)); [field|]); reflexivity. Qed.

Lemma ex_ball_case : dom_wf ex_ball /\ uniform (lb ex_ball) /\ uniform (ub ex_ball) /\
  oriented [Fin 0; Fin 0] [Fin 2; Fin 4] /\ Forall (quad_centred [Fin 0; Fin 0] [Fin 2; Fin 4]) (quads ex_ball).
Proof.
  split; [apply ex_ball_wf|]. split; [left; exists [0;0]; reflexivity|]. split; [left; exists [2;4]; reflexivity|].
  split.
  - intros i v w. destruct i as [|[|i]]; simpl; intros H1 H2; try (inversion H1; inversion H2; subst; lra).
    destruct i; discriminate.
  - apply Forall_cons; [|apply Forall_nil]. intros i Hi. right. destruct i as [|[|i]]; simpl in *; [vc; lra|vc; lra|lia].
Qed.

Lemma normalized_domain_refuted : exists d x, dom_wf d /\ uniform (lb d) /\ uniform (ub d) /\
  oriented (lb d) (ub d) /\ length x = dim d /\ member d x /\
  inside1 (normalized_domain (lb d) (ub d) d) (normalize (lb d) (ub d) x) (1/10) = false.
Proof.
  exists (mkDom LinQuad 1 [Fin 0] [Fin 4] [] [] [] [] [mkQuad [[1]] [1] 1]), [2].
  split; [wf|]. split; [left; exists [0]; reflexivity|]. split; [left; exists [4]; reflexivity|]. split.
  { intros i v w. destruct i as [|[|i]]; simpl; intros H1 H2; inversion H1; inversion H2; subst; lra. }
  split; [reflexivity|]. split; [memb|].
  assert (E : normalize [Fin 0] [Fin 4] [2] = [0]).
  { unfold normalize, nslopes, center. simpl. rb. vc. f_equal. field. }
  simpl lb; simpl ub. rewrite E. unfold normalized_domain; simpl.
  apply inside1_false; [|discriminate|].
  - unfold dom_wf, quad_wf; simpl; repeat split; intros; auto; try discriminate; repeat constructor; simpl; auto; try lra;
      intuition congruence.
  - intros [_ [_ [_ [_ Q]]]]. specialize (Q _ (or_introl eq_refl)). simpl in Q.
    apply norm2_le_iff in Q; [|lra]. vc. destruct (Req_EM_T 4 0); [lra|]. lra.
Qed.

Lemma ex_proper : proper ex_dom /\ proper ex_ball.
Proof. unfold proper; simpl. repeat split; repeat constructor. Qed.

Lemma add_constraints_case : dom_wf ex_dom /\ proper ex_dom /\ dom_wf ex_ball /\ proper ex_ball /\ dim ex_ball = dim ex_dom /\
  inside1 (add_constraints ex_dom ex_ball) [1; 1] (1/100) = true /\
  inside1 (add_constraints ex_dom ex_ball) [0; 0] (1/100) = false.
Proof.
  destruct ex_proper as [P Q]. pose proof ex_dom_wf as W. pose proof ex_ball_wf as V.
  repeat (split; [assumption || reflexivity|]).
  rewrite !add_constraints_inside; auto; try discriminate. split.
  - apply andb_true_iff. split; (apply inside1_spec; [assumption|discriminate|]; apply member_relaxed1; [memb|lra]).
  - apply andb_false_iff. right. apply inside1_false; [assumption|discriminate|].
    intros [_ [_ [_ [_ H]]]]. specialize (H _ (or_introl eq_refl)). simpl in H. apply norm2_le_iff in H; [|lra]. vc. lra.
Qed.

Lemma sqrt_val : forall a b, 0 <= b -> b * b = a -> sqrt a = b.
Proof. intros a b H E. rewrite <- E. apply sqrt_square; auto. Qed.

Lemma extent_case : dom_wf ex_ball /\ proper ex_ball /\ member ex_ball [1; 2] /\ eq_kept ex_ball [1; 1] /\
  ineq_leaves_free ex_ball [1; 2] [1; 1] /\ quad_leaves_free ex_ball [1; 2] [1; 1] /\
  extent ex_ball (1/100) (1/100) [1; 2] [1; 1] = Some (Fin 1).
Proof.
  assert (W : dom_wf ex_ball) by apply ex_ball_wf.
  assert (M : member ex_ball [1;2]) by memb.
  destruct ex_proper as [_ P].
  split; auto. split; auto. split; auto. split; [intros a []|]. split; [intros k a c H; destruct k; discriminate|].
  split.
  - intros q [H|[]]; subst q. left. unfold qc. vc. lra.
  - unfold extent. replace (inside1 ex_ball [1; 2] (1 / 100)) with true.
    2:{ symmetry. apply inside1_spec; auto; [discriminate|]. apply member_relaxed1; auto; lra. }
    f_equal. unfold extent_; simpl.
    unfold extent_bounds, hits; simpl. rb. unfold extent_ineq; simpl. unfold extent_quad; simpl.
    unfold real_roots. vc. rb.
    rewrite (sqrt_val _ 50) by lra. unfold nmin; simpl. rb; f_equal; lra.
Qed.

Lemma extent_face_refuted : exists d x p, dom_wf d /\ proper d /\ dcls d = LinIneq /\ member d x /\
  extent d (1/1000) (1/1000) x p = Some PInf /\ inside1 d (along x p 1) (1/1000) = false.
Proof.
  exists (mkDom LinIneq 1 [NInf] [PInf] [[1]] [1] [] [] []), [1], [1].
  assert (W : dom_wf (mkDom LinIneq 1 [NInf] [PInf] [[1]] [1] [] [] [])) by wf.
  assert (M : member (mkDom LinIneq 1 [NInf] [PInf] [[1]] [1] [] [] []) [1]) by memb.
  split; auto. split; [unfold proper; simpl; repeat constructor|]. split; auto. split; auto. split.
  - unfold extent. match goal with |- context [inside1 ?d ?x ?t] => replace (inside1 d x t) with true end.
    2:{ symmetry. apply inside1_spec; auto; [discriminate|]. apply member_relaxed1; auto; lra. }
    f_equal. unfold extent_; simpl. unfold extent_bounds, hits, extent_ineq; simpl. vc. rb. reflexivity.
  - apply inside1_false; auto; [discriminate|]. intros [_ [_ [I _]]]. specialize (I O _ _ eq_refl eq_refl).
    unfold along in I. vc. lra.
Qed.

Lemma extent_tol_refuted : exists d x p, dom_wf d /\ proper d /\ dcls d = Box /\
  inside1 d x (1/1000) = true /\ extent d (1/1000) (1/1000) x p = Some PInf /\
  inside1 d (along x p 1) (1/1000) = false.
Proof.
  exists (mkDom Box 1 [Fin 0] [Fin 1] [] [] [] [] []), [1 + 1/2000], [1].
  assert (W : dom_wf (mkDom Box 1 [Fin 0] [Fin 1] [] [] [] [] [])) by wf.
  assert (M : inside1 (mkDom Box 1 [Fin 0] [Fin 1] [] [] [] [] []) [1 + 1/2000] (1/1000) = true).
  { apply inside1_spec; auto; [discriminate|]. memb. }
  split; auto. split; [unfold proper; simpl; repeat constructor|]. split; auto. split; auto. split.
  - unfold extent. rewrite M. f_equal. unfold extent_; simpl. unfold extent_bounds, hits; simpl. vc. rb. reflexivity.
  - apply inside1_false; auto; [discriminate|]. intros [_ [B _]]. destruct (B O) as [_ B2].
    specialize (B2 _ eq_refl). unfold along in B2. vc. lra.
Qed.

Lemma extent_eq_refuted : exists d x p, dom_wf d /\ proper d /\ dcls d = LinIneq /\ member d x /\
  extent d (1/1000) (1/1000) x p = Some PInf /\ inside1 d (along x p 1) (1/1000) = false.
Proof.
  exists (mkDom LinIneq 1 [NInf] [PInf] [] [] [[1]] [0] []), [0], [1].
  assert (W : dom_wf (mkDom LinIneq 1 [NInf] [PInf] [] [] [[1]] [0] [])) by wf.
  assert (M : member (mkDom LinIneq 1 [NInf] [PInf] [] [] [[1]] [0] []) [0]) by memb.
  split; auto. split; [unfold proper; simpl; repeat constructor|]. split; auto. split; auto. split.
  - unfold extent. match goal with |- context [inside1 ?d ?x ?t] => replace (inside1 d x t) with true end.
    2:{ symmetry. apply inside1_spec; auto; [discriminate|]. apply member_relaxed1; auto; lra. }
    f_equal. unfold extent_; simpl. unfold extent_bounds, hits, extent_ineq; simpl. vc. rb. reflexivity.
  - apply inside1_false; auto; [discriminate|]. intros [_ [_ [_ [I _]]]]. specialize (I O _ _ eq_refl eq_refl).
    unfold along in I. vc. apply Rabs_def2 in I. lra.
Qed.

Lemma extent_quad_refuted : exists d x p, dom_wf d /\ proper d /\ dcls d = LinQuad /\ member d x /\
  extent d (1/1000) (1/1000) x p = Some (Fin 0) /\ member d (along x p 1).
Proof.
  exists (mkDom LinQuad 1 [NInf] [PInf] [] [] [] [] [mkQuad [[1]] [0] 1]), [1], [-1].
  assert (W : dom_wf (mkDom LinQuad 1 [NInf] [PInf] [] [] [] [] [mkQuad [[1]] [0] 1])) by wf.
  assert (M : member (mkDom LinQuad 1 [NInf] [PInf] [] [] [] [] [mkQuad [[1]] [0] 1]) [1]) by memb.
  split; auto. split; [unfold proper; simpl; repeat constructor|]. split; auto. split; auto. split.
  - unfold extent. match goal with |- context [inside1 ?d ?x ?t] => replace (inside1 d x t) with true end.
    2:{ symmetry. apply inside1_spec; auto; [discriminate|]. apply member_relaxed1; auto; lra. }
    f_equal. unfold extent_; simpl. unfold extent_bounds, hits, extent_ineq, extent_quad, real_roots; simpl. vc. rb.
    rewrite (sqrt_val _ 2) by lra. rb. unfold nmin; simpl. rb; f_equal; lra.
  - unfold along. memb.
Qed.

Lemma box_corner_case : box_corner [0; -1] [2; 3] [-1; 5] (1/100) = Some [0; 3] /\ box_corner [0; 1] [1; 0] [1; 1] (1/100) = None.
Proof.
  split.
  - destruct (box_corner_optimal [0;-1] [2;3] [-1;5] (1/100) eq_refl eq_refl ltac:(lra)) as [x [E _]].
    + intros i Hi. destruct i as [|[|i]]; simpl in *; vc; try lra; lia.
    + rewrite E. f_equal. unfold box_corner in E. destruct (inside1 _ _ _) in E; inversion E. simpl. rb. reflexivity.
  - apply (box_corner_empty _ _ _ _ 1%nat); simpl; auto. vc. lra.
Qed.

Lemma half_infinite_refuted : exists d x, dom_wf d /\ proper d /\ dcls d = Box /\ length x = dim d /\
  inside1 d x 1 = false /\
  inside1 (normalized_domain (lb d) (ub d) d) (normalize (lb d) (ub d) x) 0 = true.
Proof.
  exists (mkDom Box 2 [Fin 0; NInf] [Fin 1; PInf] [] [] [] [] []), [-5; 0].
  assert (W : dom_wf (mkDom Box 2 [Fin 0; NInf] [Fin 1; PInf] [] [] [] [] [])) by wf.
  split; auto. split; [unfold proper; simpl; repeat constructor|]. split; auto. split; auto. split.
  - apply inside1_false; auto; [discriminate|]. intros [_ [B _]]. destruct (B O) as [B1 _].
    specialize (B1 _ eq_refl). vc. lra.
  - simpl lb; simpl ub. unfold normalized_domain, lb_norm, ub_norm, normalizeN, nslopes, center, ndot; simpl. rb.
    unfold inside1, isinside, isinside_rows, isinside_bounds; simpl. reflexivity.
Qed.

Lemma half_infinite_uniform : forall d x, dom_wf d -> dcls d = Box -> uniform (lb d) -> uniform (ub d) ->
  oriented (lb d) (ub d) -> length x = dim d ->
  (member (normalized_domain (lb d) (ub d) d) (normalize (lb d) (ub d) x) <-> member d x).
Proof.
  intros d x W C U1 U2 O H. pose proof W as W'. destruct W' as [W1 [W2 [_ [_ [_ [_ [_ [W8 _]]]]]]]].
  apply normalized_domain_member; auto. rewrite W8 by congruence. constructor.
Qed.

Lemma ex_half_case : dom_wf ex_half /\ dcls ex_half = Box /\ uniform (lb ex_half) /\ uniform (ub ex_half) /\
  oriented (lb ex_half) (ub ex_half).
Proof.
  split; [apply ex_half_wf|]. split; auto. split; [left; exists [0;1]; reflexivity|].
  split; [right; repeat constructor|]. intros i v w. destruct i as [|[|[|i]]]; simpl; discriminate.
Qed.
