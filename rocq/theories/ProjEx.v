(** Concrete cases for the projection designs. *)
Require Import Reals Lra Lia List Bool Arith ZArith Permutation Sorted.
From Verif Require Import RVec Num Sums DomModel DomSpec DomProofs DomOpsProofs DomMoreModel SweepProofs HullProofs PartialProofs MatLib LipModel LipProofs GeoModel GeoProofs SampModel LatinProofs BlockProofs ProjSatProofs SampMoreModel ProjModel ProjCellProofs ProjLineProofs ProjLhsProofs ProjSearch ProjSampleLoop ProjDesignLoop ProjCases ProjGeo.
Import ListNotations.
Local Open Scope R_scope.

(** ** when a design beats the zero score *)
Lemma tup_zeros : forall a, Forall (fun x => 0 <= x) a -> (tup_gt a (repeat 0 (length a)) = false <-> Forall (fun x => x = 0) a).
Proof.
  induction a as [|x a IH]; intro H; cbn [length repeat tup_gt]; [split; auto|]. inversion H as [|? ? H1 H2]; subst. destruct (Reqb x 0) eqn:E.
  - apply Reqb_true in E. rewrite (IH H2). split; intro Q; [constructor; auto|inversion Q; auto].
  - apply Reqb_false in E. split; intro Q; [apply Rltb_false in Q; exfalso; lra|inversion Q; exfalso; auto].
Qed.
(** the score does not beat zero iff every point coincides with another one *)
Theorem score_zero_iff : forall X, (2 <= length X)%nat -> (tup_gt (score_maximin X) (repeat 0 (length X)) = false <->
  forall j, (j < length X)%nat -> exists i, (i < length X)%nat /\ i <> j /\ edist (nth i X []) (nth j X []) = 0).
Proof.
  intros X H2. destruct (score_spec X H2) as [_ [P _]]. assert (LS : length (score_maximin X) = length X) by (rewrite (Permutation_length P); apply min_dists_len).
  assert (NN : forall j, (j < length X)%nat -> 0 <= vget (min_dists X) j). { intros j Hj. destruct (min_dists_spec X j H2 Hj) as [_ [i [_ [_ ->]]]]. apply norm2_nonneg. }
  assert (FN : Forall (fun x => 0 <= x) (score_maximin X)).
  { apply Forall_forall. intros x I. apply (Permutation_in _ P) in I. apply In_nth with (d := 0) in I. destruct I as [j [Hj <-]]. rewrite min_dists_len in Hj. apply NN. auto. }
  rewrite <- LS at 1. rewrite (tup_zeros _ FN). split.
  - intros F j Hj. destruct (min_dists_spec X j H2 Hj) as [_ [i [Hi [Hij E]]]]. exists i. split; auto. split; auto. unfold edist. rewrite <- E. rewrite Forall_forall in F. apply F. apply (Permutation_in _ (Permutation_sym P)). unfold vget. apply nth_In. rewrite min_dists_len. auto.
  - intros H. apply Forall_forall. intros x I. apply (Permutation_in _ P) in I. apply In_nth with (d := 0) in I. destruct I as [j [Hj <-]]. rewrite min_dists_len in Hj. destruct (H j Hj) as [i [Hi [Hij E]]]. destruct (min_dists_spec X j H2 Hj) as [L _]. specialize (L i Hi Hij). specialize (NN j Hj). unfold edist in E. unfold vget in *. lra.
Qed.
Corollary distinct_beats : forall X, (2 <= length X)%nat -> edist (nth 1 X []) (nth 0 X []) <> 0 -> (forall i, (2 <= i < length X)%nat -> edist (nth i X []) (nth 0 X []) <> 0) -> tup_gt (score_maximin X) (repeat 0 (length X)) = true.
Proof.
  intros X H2 H1 H. destruct (tup_gt _ _) eqn:E; auto. pose proof (proj1 (score_zero_iff X H2) E) as E2. destruct (E2 O ltac:(lia)) as [i [Hi [Hn E0]]]. exfalso. destruct i as [|[|i]]; [congruence|auto|]. apply (H (S (S i))); auto. lia.
Qed.
Lemma edist2 : forall a b c d, edist [a; b] [c; d] = 0 <-> a = c /\ b = d.
Proof.
  intros. unfold edist, norm2, vsub, norm2sq. cbn. rewrite !dot_cons, !dot_nil_l. pose proof (Rle_0_sqr (a - c)) as P. pose proof (Rle_0_sqr (b - d)) as Q. unfold Rsqr in *. split.
  - intro E. apply sqrt_eq_0 in E; [|lra]. assert ((a - c) * (a - c) = 0) by lra. assert ((b - d) * (b - d) = 0) by lra. nra.
  - intros [-> ->]. match goal with |- sqrt ?e = 0 => replace e with 0 by ring end. apply sqrt_0.
Qed.

(** ** projection_design on the unit square, given points in reach *)
Definition near_Ys : list mat := [[[0]; [1]]; [[0]; [1]]].
Definition corner_pt (c : list nat) : vec := [INR (nth 0 c O); INR (nth 1 c O)].
Lemma near_shapes : shapes 2 2 far_Ls near_Ys.
Proof. split; [reflexivity|]. intros [|[|i]] Hi; [| |cbn in Hi; lia]; cbn; repeat constructor. Qed.
Lemma tuples22 : forall c, tuple_ok 2 2 c -> In c [[0; 0]; [0; 1]; [1; 0]; [1; 1]]%nat.
Proof.
  intros c [L F]. destruct c as [|a [|b [|e c]]]; try discriminate. inversion F as [|? ? Ha F2]; subst. inversion F2 as [|? ? Hb _]; subst. destruct a as [|[|a]]; [| |lia]; (destruct b as [|[|b]]; [| |lia]); simpl; auto.
Qed.
Lemma unit_member : forall a b, member far_dom [a; b] <-> 0 <= a <= 1 /\ 0 <= b <= 1.
Proof.
  intros a b. unfold member, far_dom, box_of, sat_bounds, sat_ineq, sat_eq0, sat_quad. cbn. split.
  - intros (_ & B & _). pose proof (B 0%nat) as [B1 B2]. pose proof (B 1%nat) as [B3 B4]. specialize (B1 0 eq_refl). specialize (B2 1 eq_refl). specialize (B3 0 eq_refl). specialize (B4 1 eq_refl). cbn in *. lra.
  - intros [A B]. split; auto. split.
    + intros [|[|i]]; (split; intros v E; cbn in E; try (injection E as <-; cbn; lra)); destruct i; discriminate.
    + split; [intros [|k] ? ? E; discriminate|]. split; [intros [|k] ? ? E; discriminate|]. intros q [].
Qed.

Lemma near_oracles : cell_oracles far_dom far_Ls near_Ys 2 2 (fun _ => false) corner_pt.
Proof.
  destruct far_dom_ok as [W P]. intros c T. assert (SH : vc_shapes 2 2 far_Ls near_Ys c).
  { split; [reflexivity|]. split; [apply T|]. intros i Hi. destruct (proj2 near_shapes i Hi) as [A [B C]]. repeat (split; auto). apply (tuple_nth 2); auto. }
  assert (IN : cell_of far_dom far_Ls near_Ys c (corner_pt c)).
  { apply (cell_of_iff far_dom 2); auto; [cbn; lia|]. split.
    - apply unit_member. apply tuples22 in T. cbn [In] in T. destruct T as [<-|[<-|[<-|[<-|[]]]]]; cbn; lra.
    - intros i Hi y _. assert (Z : edist (mv (nth i far_Ls []) (corner_pt c)) (nth (nth i c O) (nth i near_Ys []) []) = 0).
      { destruct i as [|[|i]]; [| |cbn in Hi; lia]; apply tuples22 in T; cbn [In] in T; destruct T as [<-|[<-|[<-|[<-|[]]]]]; cbn [nth far_Ls near_Ys]; unfold mv, corner_pt; cbn [map nth INR]; rewrite edist1, !dot_cons, !dot_nil_l; rewrite Rabs_right by lra; ring. }
      rewrite Z. apply edist_nonneg. }
  split; [split; [discriminate|intro H; exfalso; apply H; eauto]|]. intros _. split; auto. intros z _.
  assert (Z : edist (mv (concat far_Ls) (corner_pt c)) (vc_target near_Ys c) = 0).
  { apply tuples22 in T. cbn [In] in T. destruct T as [<-|[<-|[<-|[<-|[]]]]]; unfold mv, corner_pt, vc_target, far_Ls, near_Ys; cbn [concat app map nth INR seq length]; apply edist2; rewrite !dot_cons, !dot_nil_l; split; ring. }
  rewrite Z. apply edist_nonneg.
Qed.
(** every solver: the search ends and yields two points, one nearest to each given value in each direction *)
Example design_near : forall solve use ord, solver_ok 2 2 solve -> exists s X, pd_run 7 2 2 2 use (fun _ => false) corner_pt ord solve = DReturn s /\ dt_best s = Some X /\
  length X = 2%nat /\ exists p, perms_family 2 2 p /\ forall o, (o < 2)%nat -> member far_dom (nth o X []) /\ forall i, (i < 2)%nat -> as_near (mv (nth i far_Ls []) (nth o X [])) (nth (p i o) (nth i near_Ys []) []) (nth i near_Ys []).
Proof.
  intros solve use ord HS. destruct far_dom_ok as [W P].
  destruct (design_terminates 2 2 2 use (fun _ => false) corner_pt ord solve 7 [dA2; dB2] ltac:(lia) HS ltac:(cbn; lia)) as [s E].
  - constructor; [intros [Q|[]]; discriminate|constructor; [intros []|constructor]].
  - auto.
  - intros C [<-|[<-|[]]]; (split; [intros c _; reflexivity|]); eexists; [split; [apply famA|symmetry; apply famA]|split; [apply famB|symmetry; apply famB]].
  - exists s. destruct (design_found 2 2 2 use (fun _ => false) corner_pt ord solve 7 s ltac:(lia) HS ltac:(lia)) as [X EX]; auto.
    + intros p HP _. destruct (family22 p HP) as [Q|Q]; rewrite Q; apply distinct_beats; cbn [map dA2 dB2 corner_pt nth length INR]; try lia; unfold corner_pt; cbn [nth INR]; intro E0; apply edist2 in E0; lra.
    + exists X. split; auto. split; auto. apply (design_projects far_dom far_Ls near_Ys 2 2 use (fun _ => false) corner_pt ord solve 7 s X); auto; [cbn; lia|apply near_shapes|apply near_oracles].
Qed.
(** the oracles of [design_far_hangs] *)
Lemma far_oracles : cell_oracles far_dom far_Ls far_Ys 2 2 (fun c => Nat.eqb (nth 1 c O) 1) (fun c => [INR (nth 0 c O); 0]).
Proof.
  destruct far_dom_ok as [W P]. intros c T. assert (SH : vc_shapes 2 2 far_Ls far_Ys c).
  { split; [reflexivity|]. split; [apply T|]. intros i Hi. destruct (proj2 far_shapes i Hi) as [A [B C]]. repeat (split; auto). apply (tuple_nth 2); auto. }
  assert (IFF := cell_of_iff far_dom 2 far_Ls far_Ys c). destruct (Nat.eqb_spec (nth 1 c O) 1) as [E1|E1].
  - split; [|discriminate]. split; auto. intros _ [x M]. apply IFF in M; auto; [|cbn; lia]. destruct M as [M NR]. specialize (NR 1%nat ltac:(cbn; lia)). rewrite E1 in NR. cbn [nth far_Ls far_Ys] in NR. specialize (NR [0] ltac:(left; auto)).
    pose proof M as [LX _]. cbn in LX. destruct x as [|x0 [|x1 [|x2 x]]]; try discriminate. apply unit_member in M. unfold mv in NR. cbn [map] in NR. rewrite !edist1, !dot_cons, !dot_nil_l in NR. apply near_mid in NR. nra.
  - assert (IN : cell_of far_dom far_Ls far_Ys c [INR (nth 0 c O); 0]).
    { apply IFF; auto; [cbn; lia|]. split.
      - apply unit_member. apply tuples22 in T. cbn [In] in T. destruct T as [<-|[<-|[<-|[<-|[]]]]]; cbn; lra.
      - intros i Hi y _. assert (Z : edist (mv (nth i far_Ls []) [INR (nth 0 c O); 0]) (nth (nth i c O) (nth i far_Ys []) []) = 0).
        { destruct i as [|[|i]]; [| |cbn in Hi; lia]; apply tuples22 in T; cbn [In] in T; destruct T as [<-|[<-|[<-|[<-|[]]]]]; try (exfalso; apply E1; reflexivity); cbn [nth far_Ls far_Ys]; unfold mv; cbn [map nth INR]; rewrite edist1, !dot_cons, !dot_nil_l; rewrite Rabs_right by lra; ring. }
        rewrite Z. apply edist_nonneg. }
    split; [split; [discriminate|intro H; exfalso; apply H; eauto]|]. intros _. split; auto. intros z _.
    assert (Z : edist (mv (concat far_Ls) [INR (nth 0 c O); 0]) (vc_target far_Ys c) = 0).
    { apply tuples22 in T. cbn [In] in T. destruct T as [<-|[<-|[<-|[<-|[]]]]]; try (exfalso; apply E1; reflexivity); unfold mv, vc_target, far_Ls, far_Ys; cbn [concat app map nth INR seq length]; apply edist2; rewrite !dot_cons, !dot_nil_l; split; ring. }
    rewrite Z. apply edist_nonneg.
Qed.
Example design_far_case : forall use ord, (forall fuel, pd_run fuel 2 2 5 use (fun c => Nat.eqb (nth 1 c O) 1) (fun c => [INR (nth 0 c O); 0]) ord (brute 2 2) = DRunning) /\ member far_dom [0; 1].
Proof. intros use ord. split; [|apply unit_member; lra]. intro fuel. apply design_far_hangs; [apply far_oracles|apply solver_exists|lia]. Qed.

(** ** projection_sample on [-1,1]^2, Latin hypercube variant, two samples *)
Definition sq : dom := box_of [-1; -1] [1; 1].
Definition e1 : vec := [1; 0].
Definition e2 : vec := [0; 1].
Definition up : vec := [1; 1].
Definition dn : vec := [-1; -1].
Lemma sq_ok : dom_wf sq /\ proper sq /\ dcls sq <> Point.
Proof. split; [|split; [split; repeat constructor|discriminate]]. unfold sq, box_of, dom_wf. cbn. repeat split; auto; try constructor; intros; try discriminate. Qed.
Lemma sq_relaxed : forall a b tol, -1 - tol <= a <= 1 + tol -> -1 - tol <= b <= 1 + tol -> relaxed sq tol [a; b].
Proof.
  intros a b tol A B. unfold relaxed, sq, box_of. cbn. split; auto. split.
  - intros [|[|i]]; (split; intros v E; cbn in E; try (injection E as <-; cbn; lra)); destruct i; discriminate.
  - split; [intros [|k] ? ? E; discriminate|]. split; [intros [|k] ? ? E; discriminate|]. intros q [].
Qed.
Lemma sq_member : forall a b, member sq [a; b] <-> -1 <= a <= 1 /\ -1 <= b <= 1.
Proof.
  intros a b. unfold member, sq, box_of. cbn. split.
  - intros (_ & B & _). pose proof (B 0%nat) as [B1 B2]. pose proof (B 1%nat) as [B3 B4]. specialize (B1 _ eq_refl). specialize (B2 _ eq_refl). specialize (B3 _ eq_refl). specialize (B4 _ eq_refl). cbn in *. lra.
  - intros [A B]. split; auto. split.
    + intros [|[|i]]; (split; intros v E; cbn in E; try (injection E as <-; cbn; lra)); destruct i; discriminate.
    + split; [intros [|k] ? ? E; discriminate|]. split; [intros [|k] ? ? E; discriminate|]. intros q [].
Qed.
Lemma lhs_bounds : forall l, l = e1 \/ l = e2 -> dot l l = 1 /\ lhs_lo l up dn = -1 /\ lhs_hi l up dn = 1.
Proof.
  intros l [->| ->]; unfold lhs_lo, lhs_hi, e1, e2, up, dn; rewrite !dot_cons, !dot_nil_l; (split; [ring|]); split; [rewrite Rmin_right by lra; ring|rewrite Rmax_left by lra; ring|rewrite Rmin_right by lra; ring|rewrite Rmax_left by lra; ring].
Qed.
Definition tol5 : R := / 100000.
(** the assertions pass and the cells are the two halves *)
Example lhs_metric_case : forall l, l = e1 \/ l = e2 -> exists cs, ps_metric sq [l] (lhs_points l up dn 2) (seq 0 2) tol5 = Some cs /\
  forall j x, (j < 2)%nat -> -1 <= dot l x <= 1 -> (holds (nth j cs []) x <-> -1 + INR j <= dot l x <= -1 + INR (S j)).
Proof.
  intros l Hl. destruct (lhs_bounds l Hl) as [U [LO HI]]. destruct sq_ok as [W [P NP]]. assert (LL : length l = dim sq) by (destruct Hl as [->| ->]; reflexivity).
  assert (SO := lhs_sorts l up dn 2 U). assert (T0 : 0 <= tol5 < / 10) by (unfold tol5; lra).
  assert (NE : dot l up <> dot l dn) by (destruct Hl as [->| ->]; unfold e1, e2, up, dn; rewrite !dot_cons, !dot_nil_l; lra).
  destruct (lhs_cells (dim sq) l up dn 2 (seq 0 2) LL U ltac:(lia) NE SO) as [cs [E [LC H]]].
  assert (EM : ps_metric sq [l] (lhs_points l up dn 2) (seq 0 2) tol5 <> None).
  { apply asserts_iff; auto; try (rewrite lhs_points_len; auto); [rewrite <- LL; apply lhs_points_dim|lra|]. split.
    - intros k Hk. apply inside1_spec; auto. rewrite lhs_points_get by auto. rewrite lhs_coords_get by auto. rewrite LO, HI. assert (-1 <= -1 + (INR k + / 2) * ((1 - -1) / INR 2) <= 1) by (destruct k as [|[|k]]; [| |lia]; cbn; lra).
      destruct Hl as [->| ->]; unfold e1, e2, vscale; cbn [map]; apply sq_relaxed; lra.
    - intros a Ha. rewrite !seq_nth by lia. cbn [Nat.add]. rewrite !lhs_yv by (auto; lia). rewrite LO, HI, S_INR. cbn [INR]. unfold tol5. lra. }
  destruct (ps_metric sq [l] (lhs_points l up dn 2) (seq 0 2) tol5) as [cs'|] eqn:E2; [|congruence]. exists cs'. split; auto.
  assert (cs' = cs). { unfold ps_metric in E2. rewrite E in E2. destruct (forallb _ _); congruence. } subst cs'. intros j x Hj Hx. fold (lhs_lo l up dn) in H. fold (lhs_hi l up dn) in H. rewrite LO, HI in H. rewrite H by auto. replace ((1 - -1) / INR 2) with 1 by (cbn; field). rewrite !Rmult_1_r. tauto.
Qed.
(** a box away from the origin raises, and so do too many samples *)
Example lhs_offset_case : forall tol, 0 <= tol < 1 -> ps_metric (box_of [0; 1] [1; 2]) [e1] (lhs_points e1 [1; 1] [0; 1] 2) (seq 0 2) tol = None.
Proof.
  intros tol Ht. apply (lhs_offset_raises _ e1 [1; 1] [0; 1] 2 (seq 0 2) 1%nat 1 tol); try lra; try lia; try reflexivity; try discriminate.
  all: try (apply lhs_sorts; unfold e1; rewrite !dot_cons, !dot_nil_l; ring).
  all: try (unfold box_of, dom_wf; cbn; repeat split; auto; try constructor; intros; discriminate).
  all: try (split; repeat constructor).
  all: try (unfold e1; rewrite !dot_cons, !dot_nil_l; ring).
Qed.
Definition mid (n : nat) : R := -1 + (INR n + / 2).
Definition mid_pt (c : list nat) : vec := [mid (nth 0 c O); mid (nth 1 c O)].
Lemma sample_case_data : exists cells, line_metrics sq 2 [e1; e2] (map (fun i => lhs_points (nth i [e1; e2] []) (nth i [up; up] []) (nth i [dn; dn] []) 2) (seq 0 2)) [seq 0 2; seq 0 2] cells tol5 /\
  sample_oracles sq [e1; e2] cells 2 2 (fun _ => false) mid_pt (fun _ x => x) (fun _ x _ _ => x).
Proof.
  destruct (lhs_metric_case e1 (or_introl eq_refl)) as [c1 [E1 H1]]. destruct (lhs_metric_case e2 (or_intror eq_refl)) as [c2 [E2 H2]]. exists [c1; c2].
  assert (LM : line_metrics sq 2 [e1; e2] (map (fun i => lhs_points (nth i [e1; e2] []) (nth i [up; up] []) (nth i [dn; dn] []) 2) (seq 0 2)) [seq 0 2; seq 0 2] [c1; c2] tol5).
  { split; [reflexivity|]. split; [reflexivity|]. intros i Hi. destruct i as [|[|i]]; [| |cbn in Hi; lia]; cbn [nth map seq]; (split; [reflexivity|]); (split; [apply lhs_points_len|]).
    - split; [apply (lhs_points_dim e1)|]. split; [exact (lhs_sorts e1 up dn 2 (proj1 (lhs_bounds e1 ltac:(auto))))|exact E1].
    - split; [apply (lhs_points_dim e2)|]. split; [exact (lhs_sorts e2 up dn 2 (proj1 (lhs_bounds e2 ltac:(auto))))|exact E2]. }
  split; auto. destruct sq_ok as [W [P NP]]. intros c T. assert (S0 : sub_of sq [c1; c2] c (mid_pt c)).
  { apply (sub_of_iff sq 2 [e1; e2] _ _ [c1; c2] tol5 c (mid_pt c)) in LM; auto; [|unfold tol5; lra]. apply LM. apply tuples22 in T. cbn [In] in T. split.
    - apply sq_member. destruct T as [<-|[<-|[<-|[<-|[]]]]]; unfold mid; cbn; lra.
    - intros i k Hi Hk. assert (Z : dot (nth i [e1; e2] []) (mid_pt c) - dot (nth i [e1; e2] []) (nth (nth i c O) (nth i (map (fun i => lhs_points (nth i [e1; e2] []) (nth i [up; up] []) (nth i [dn; dn] []) 2) (seq 0 2)) []) []) = 0).
      { rewrite nth_map_seq by auto. assert (CB : (nth i c O < 2)%nat) by (destruct T as [<-|[<-|[<-|[<-|[]]]]]; destruct i as [|[|i]]; cbn in *; lia).
        destruct i as [|[|i]]; [| |cbn in Hi; lia]; cbn [nth].
        - fold (yv e1 (lhs_points e1 up dn 2) (nth 0 c O)). destruct (lhs_bounds e1) as [U [LO HI]]; auto. rewrite lhs_yv, LO, HI by auto. unfold mid_pt, mid, e1. rewrite !dot_cons, dot_nil_l. cbn [INR]. field.
        - fold (yv e2 (lhs_points e2 up dn 2) (nth 1 c O)). destruct (lhs_bounds e2) as [U [LO HI]]; auto. rewrite lhs_yv, LO, HI by auto. unfold mid_pt, mid, e2. rewrite !dot_cons, dot_nil_l. cbn [INR]. field. }
      rewrite Z, Rabs_R0. apply Rabs_pos. }
  split; [split; [discriminate|intro Q; exfalso; apply Q; eauto]|]. intros _. auto.
Qed.
Example sample_latin_case : forall solve ord fill, solver_ok 2 2 solve -> exists cells s X, line_metrics sq 2 [e1; e2] (map (fun i => lhs_points (nth i [e1; e2] []) (nth i [up; up] []) (nth i [dn; dn] []) 2) (seq 0 2)) [seq 0 2; seq 0 2] cells tol5 /\
  sample_oracles sq [e1; e2] cells 2 2 (fun _ => false) mid_pt (fun _ x => x) (fun _ x _ _ => x) /\
  ps_run 15 2 2 10 (fun _ => false) (ps_design fill mid_pt (fun _ x => x) (fun _ x _ _ => x)) ord solve = PReturn s /\ st_best s = Some X /\ length X = 2%nat /\
  forall i, (i < 2)%nat -> exists o, (o < 2)%nat /\ -1 <= dot (nth i [e1; e2] []) (nth o X []) <= 0.
Proof.
  intros solve ord fill HS. destruct sample_case_data as [cells [LM OR]]. destruct sq_ok as [W [P NP]]. exists cells.
  assert (D : forall p, perms_family 2 2 p -> tup_gt (score_maximin (ps_design fill mid_pt (fun _ x => x) (fun _ x _ _ => x) (cols 2 2 p))) (repeat 0 2) = true).
  { intros p HP. assert (FE : feasible (fun _ => false) (cols 2 2 p)) by (intros c _; reflexivity). destruct (ps_design_rows sq [e1; e2] cells 2 2 (fun _ => false) mid_pt (fun _ x => x) (fun _ x _ _ => x) fill (cols 2 2 p) OR ltac:(unfold cols; rewrite map_length; auto) (fun c => cols_tuple 2 2 p c HP) FE) as [LX RX].
    set (X := ps_design _ _ _ _ _) in *. rewrite <- LX. apply distinct_beats; [lia| |intros; lia]. destruct (RX O ltac:(lia)) as [S0 R0]. destruct (RX 1%nat ltac:(lia)) as [S1 R1]. assert (T0 : (0 <= tol5)) by (unfold tol5; lra). assert (TT : forall o, (o < 2)%nat -> tuple_ok 2 2 (nth o (cols 2 2 p) [])) by (intros o Ho; apply (cols_tuple 2 2 p); auto; apply nth_In; unfold cols; rewrite map_length, seq_length; auto).
    apply (sub_of_iff sq 2 [e1; e2] _ _ cells tol5 _ _ W P NP ltac:(lia) T0 LM (TT O ltac:(lia))) in S0. apply (sub_of_iff sq 2 [e1; e2] _ _ cells tol5 _ _ W P NP ltac:(lia) T0 LM (TT 1%nat ltac:(lia))) in S1. destruct S0 as [[L0 _] _]. destruct S1 as [[L1 _] _]. cbn in L0, L1.
    destruct (nth 0 X []) as [|a0 [|a1 [|? ?]]]; try discriminate. destruct (nth 1 X []) as [|b0 [|b1 [|? ?]]]; try discriminate.
    intro Q. apply edist2 in Q. destruct Q as [-> ->]. rewrite R0 in R1. destruct (family22 p HP) as [Q|Q]; rewrite Q in R1; unfold mv, mid_pt, mid, e1, e2 in R1; cbn [map nth dA2 dB2 INR] in R1; rewrite !dot_cons, !dot_nil_l in R1; injection R1; intros; lra. }
  destruct (ps_run 15 2 2 10 (fun _ => false) (ps_design fill mid_pt (fun _ x => x) (fun _ x _ _ => x)) ord solve) as [|s|s] eqn:E.
  - exfalso. eapply sample_terminates; [| |cbn|exact E]; auto; cbn; lia.
  - exfalso. eapply sample_no_unbound; [| | |exact E]; auto.
  - exists s. destruct (sample_best 2 2 10 _ _ _ _ _ _ ltac:(lia) HS E) as [_ BN]. destruct (st_best s) as [X|] eqn:EB.
    2:{ exfalso. destruct (BN eq_refl) as [_ Q]. apply (Q ltac:(lia) _ (proj1 famA)). intros c _. reflexivity. }
    exists X. split; auto. split; auto. split; auto. split; auto.
    destruct (sample_latin sq 2 [e1; e2] [up; up] [dn; dn] [seq 0 2; seq 0 2] cells tol5 10 (fun _ => false) mid_pt (fun _ x => x) (fun _ x _ _ => x) fill ord solve 15 s X W P NP) as [LX H]; auto; try (cbn; lia); [unfold tol5; lra| |].
    + intros i Hi. destruct i as [|[|i]]; [| |cbn in Hi; lia]; cbn [nth].
      * destruct (lhs_bounds e1) as [U [LO HI]]; auto. split; auto. rewrite LO, HI. intros x M. pose proof M as [L _]. cbn in L. destruct x as [|a [|b [|? ?]]]; try discriminate. apply sq_member in M. unfold e1. rewrite !dot_cons, !dot_nil_l. lra.
      * destruct (lhs_bounds e2) as [U [LO HI]]; auto. split; auto. rewrite LO, HI. intros x M. pose proof M as [L _]. cbn in L. destruct x as [|a [|b [|? ?]]]; try discriminate. apply sq_member in M. unfold e2. rewrite !dot_cons, !dot_nil_l. lra.
    + split; auto. intros i Hi. destruct (H i O Hi ltac:(lia)) as [o [Ho [B _]]]. exists o. split; auto. assert (EB2 : lhs_lo (nth i [e1; e2] []) (nth i [up; up] []) (nth i [dn; dn] []) = -1 /\ lhs_hi (nth i [e1; e2] []) (nth i [up; up] []) (nth i [dn; dn] []) = 1).
      { destruct i as [|[|i]]; [| |lia]; cbn [nth]; apply lhs_bounds; auto. }
      destruct EB2 as [LO HI]. rewrite LO, HI in B. cbn [INR] in B. lra.
Qed.

(** ** projection_sample on the segment from (-1,-1) to (1,1): the cells of (0,1) and of (1,0) are the same single point, the
    design has zero score, and the variable [assumptions] is read before it is bound *)
Definition diag : dom := mkDom LinIneq 2 [Fin (-1); Fin (-1)] [Fin 1; Fin 1] [] [] [[1; -1]] [0] [].
Definition diag_X : mat := [dn; up].
Lemma diag_ok : dom_wf diag /\ proper diag /\ dcls diag <> Point.
Proof. split; [|split; [split; repeat constructor|discriminate]]. unfold diag, dom_wf. cbn. repeat split; auto; repeat constructor; intros; try discriminate; destruct H; discriminate. Qed.
Lemma diag_member : forall a b, member diag [a; b] <-> -1 <= a <= 1 /\ a = b.
Proof.
  intros a b. unfold member, diag. cbn. split.
  - intros (_ & B & _ & Q & _). pose proof (B 0%nat) as [B1 B2]. specialize (B1 _ eq_refl). specialize (B2 _ eq_refl). specialize (Q 0%nat _ _ eq_refl eq_refl). rewrite !dot_cons, !dot_nil_l in Q. cbn in *. lra.
  - intros [A <-]. split; auto. split.
    + intros [|[|i]]; (split; intros v E; cbn in E; try (injection E as <-; cbn; lra)); destruct i; discriminate.
    + split; [intros [|k] ? ? E; discriminate|]. split; [|intros q []]. intros [|k] r c E1 E2; cbn in E1, E2; [|destruct k; discriminate]. injection E1 as <-. injection E2 as <-. rewrite !dot_cons, !dot_nil_l. ring.
Qed.
Lemma diag_metric : forall l, l = e1 \/ l = e2 -> sorts (seq 0 2) (yv l diag_X) 2 /\ exists cs, ps_metric diag [l] diag_X (seq 0 2) tol5 = Some cs.
Proof.
  intros l Hl. assert (Y : yv l diag_X 0 = -1 /\ yv l diag_X 1 = 1) by (destruct Hl as [->| ->]; unfold yv, diag_X, e1, e2, up, dn; cbn [nth]; rewrite !dot_cons, !dot_nil_l; lra).
  assert (SO : sorts (seq 0 2) (yv l diag_X) 2). { split; [apply Permutation_refl|]. intros a b Hab. assert (a = O) by lia. assert (b = 1%nat) by lia. subst a b. cbn [seq nth]. destruct Y as [-> ->]. lra. }
  split; auto. destruct diag_ok as [W [P NP]]. assert (EM : ps_metric diag [l] diag_X (seq 0 2) tol5 <> None).
  { apply asserts_iff; auto.
    - destruct Hl as [->| ->]; reflexivity.
    - repeat constructor.
    - unfold tol5; lra.
    - split.
      + intros k Hk. apply inside1_spec; auto. assert (MR : forall x, member diag x -> relaxed diag tol5 x).
        { intros x (M1 & M2 & M3 & M4 & M5). assert (TP : 0 < tol5) by (unfold tol5; lra). split; auto. split; [intro i; destruct (M2 i) as [A B]; split; intros v E; [specialize (A v E)|specialize (B v E)]; lra|]. split; [intros i a c E E'; specialize (M3 i a c E E'); lra|]. split; [intros i a c E E'; rewrite (M4 i a c E E'); rewrite Rminus_eq_0, Rabs_R0; auto|intros q []]. }
        apply MR. destruct k as [|[|k]]; [| |cbn in Hk; lia]; cbn [nth diag_X]; apply diag_member; lra.
      + intros a Ha. cbn in Ha. assert (a = O) by lia. subst a. cbn [seq nth]. destruct Y as [-> ->]. unfold tol5. lra. }
  destruct (ps_metric diag [l] diag_X (seq 0 2) tol5) as [cs|]; [exists cs; auto|congruence].
Qed.
Definition diag_pt (c : list nat) : vec := if Nat.eqb (nth 0 c O) (nth 1 c O) then (if Nat.eqb (nth 0 c O) 0 then dn else up) else [0; 0].
Lemma diag_data : exists cells, line_metrics diag 2 [e1; e2] [diag_X; diag_X] [seq 0 2; seq 0 2] cells tol5 /\
  sample_oracles diag [e1; e2] cells 2 2 (fun _ => false) diag_pt (fun _ x => x) (fun _ x _ _ => x).
Proof.
  destruct (diag_metric e1 (or_introl eq_refl)) as [S1 [c1 E1]]. destruct (diag_metric e2 (or_intror eq_refl)) as [S2 [c2 E2]]. exists [c1; c2].
  assert (LM : line_metrics diag 2 [e1; e2] [diag_X; diag_X] [seq 0 2; seq 0 2] [c1; c2] tol5).
  { split; [reflexivity|]. split; [reflexivity|]. intros i Hi. destruct i as [|[|i]]; [| |cbn in Hi; lia]; cbn [nth]; (split; [reflexivity|]); (split; [reflexivity|]); (split; [repeat constructor|auto]). }
  split; auto. destruct diag_ok as [W [P NP]]. intros c T. assert (S0 : sub_of diag [c1; c2] c (diag_pt c)).
  { apply (sub_of_iff diag 2 [e1; e2] _ _ [c1; c2] tol5 c (diag_pt c)) in LM; auto; [|unfold tol5; lra]. apply LM. apply tuples22 in T. cbn [In] in T. split.
    - destruct T as [<-|[<-|[<-|[<-|[]]]]]; cbn; unfold up, dn; apply diag_member; lra.
    - intros i k Hi Hk. destruct i as [|[|i]]; [| |cbn in Hi; lia]; (destruct k as [|[|k]]; [| |lia]); destruct T as [<-|[<-|[<-|[<-|[]]]]]; cbn [nth diag_pt diag_X Nat.eqb]; unfold up, dn, e1, e2; rewrite !dot_cons, !dot_nil_l; unfold Rabs; repeat destruct Rcase_abs; lra. }
  split; [split; [discriminate|intro Q; exfalso; apply Q; eauto]|]. intros _. auto.
Qed.
(** a solver that tries one assignment first *)
Definition first_try (asg : nat -> bool) (K N : nat) : solver := fun i F seen asm =>
  if (satb asg F && negb (inb (solution_list asg (K * N * N)) seen) && forallb (litb asg) asm)%bool then Some (solution_list asg (K * N * N)) else brute K N i F seen asm.
Lemma first_try_ok : forall asg K N, solver_ok K N (first_try asg K N).
Proof.
  intros asg K N. destruct (solver_exists K N) as [B1 B2]. split.
  - intros i F seen asm sol E. unfold first_try in E. destruct (_ && _ && _)%bool eqn:Q; [|eapply B1; eauto]. injection E as <-. apply andb_true_iff in Q. destruct Q as [Q Q3]. apply andb_true_iff in Q. destruct Q as [Q1 Q2].
    exists asg. split; [apply satb_iff; auto|]. split; auto. split; [unfold inb in Q2; destruct (in_dec _ _ _); [discriminate|auto]|]. rewrite forallb_forall in Q3. intros l J. apply litb_iff. auto.
  - intros i F seen E. unfold first_try in E. destruct (_ && _ && _)%bool; [discriminate|]. eapply B2; eauto.
Qed.
Definition swapped (m o : nat) : nat := match m with O => o | _ => (1 - o)%nat end.
Theorem sample_unbound : exists cells solve, line_metrics diag 2 [e1; e2] [diag_X; diag_X] [seq 0 2; seq 0 2] cells tol5 /\
  sample_oracles diag [e1; e2] cells 2 2 (fun _ => false) diag_pt (fun _ x => x) (fun _ x _ _ => x) /\ solver_ok 2 2 solve /\
  forall ord maxiter fuel, exists s, ps_run (S fuel) 2 2 maxiter (fun _ => false) (ps_design false diag_pt (fun _ x => x) (fun _ x _ _ => x)) ord solve = PUnbound s.
Proof.
  destruct diag_data as [cells [LM OR]]. exists cells, (first_try (asg_of 2 swapped) 2 2). split; auto. split; auto. split; [apply first_try_ok|]. intros ord maxiter fuel.
  assert (SF : satisfies (asg_of 2 swapped) (geo_cnf 2 2)) by (apply cnf_complete; [lia|apply famB]).
  destruct (family_sat 2 2 (fun _ => false) _ [] swapped ltac:(lia) (cnf_init 2 2 (fun _ => false)) (proj1 famB) ltac:(intros c [])) as [_ EC].
  unfold ps_run. cbn [ps_loop st_calls st_cnf st_seen st_next ps_init]. unfold first_try at 1. rewrite (proj2 (satb_iff _ _) SF). cbn [inb in_dec list_rect list_rec sumbool_rec sumbool_rect negb andb forallb].
  unfold ps_body. rewrite EC. assert (FT : forallb (fun _ : list nat => true) (cols 2 2 swapped) = true) by reflexivity. cbn [negb]. rewrite FT.
  assert (G : tup_gt (score_maximin (ps_design false diag_pt (fun _ x => x) (fun _ x _ _ => x) (cols 2 2 swapped))) (st_score (ps_init 2 2)) = false); [|rewrite G; cbn [st_asm ps_init]; eexists; reflexivity].
  cbn [st_score ps_init]. set (X := ps_design _ _ _ _ _). assert (EX : X = [[0; 0]; [0; 0]]) by reflexivity. change (repeat 0 2) with (repeat 0 (length X)). apply score_zero_iff; [rewrite EX; cbn; lia|]. rewrite EX. cbn [length].
  intros j Hj. destruct j as [|[|j]]; [exists 1%nat|exists O|lia]; (split; [lia|]); (split; [lia|]); cbn [nth]; apply edist2; lra.
Qed.
