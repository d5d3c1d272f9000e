(** The constructors: which arguments are accepted, and the set they describe. *)
Require Import Reals Lra Lia List Bool Arith.
From Verif Require Import RVec Num DomModel DomSpec DomProofs DomOpsProofs CtorModel.
Import ListNotations.
Local Open Scope R_scope.

(* ---------------- specification, in terms of the arguments ---------------- *)
Definition bound_entry (a : option barg) (i : nat) : option num :=
  match a with Some (BNum v) => if Nat.eqb i 0 then Some v else None | Some (BVec l) => nth_error l i | None => None end.
Definition row_of (A : option marg) (k : nat) : option vec :=
  match A with Some (MVec v) => if Nat.eqb k 0 then Some v else None | Some (MMat _ rows) => nth_error rows k | None => None end.
Definition rhs_of (b : option rarg) (k : nat) : option R :=
  match b with Some (RNum r) => if Nat.eqb k 0 then Some r else None | Some (RVec1 v) => nth_error v k | _ => None end.
Definition mrows (M : marg) : mat := match M with MMat _ rows => rows | MVec v => [v] end.
Definition quad_of (a : cargs) (i : nat) (M : marg) (y : vec) (rho : R) : Prop :=
  exists Ls ys rhos, a_Ls a = Some Ls /\ a_ys a = Some ys /\ a_rhos a = Some rhos /\ nth_error Ls i = Some M /\ nth_error ys i = Some y /\ nth_error rhos i = Some rho.
(** x satisfies the constraints given as arguments up to [tol]; [eqr] is the test of the equations *)
Definition satisfies (eqr : R -> R -> Prop) (tol : R) (a : cargs) (x : vec) : Prop :=
  (forall i v, bound_entry (a_lb a) i = Some (Fin v) -> v - tol <= vget x i) /\
  (forall i v, bound_entry (a_ub a) i = Some (Fin v) -> vget x i <= v + tol) /\
  (forall k r c, row_of (a_A a) k = Some r -> rhs_of (a_b a) k = Some c -> dot r x <= c + tol) /\
  (forall k r c, row_of (a_Aeq a) k = Some r -> rhs_of (a_beq a) k = Some c -> eqr (dot r x) c) /\
  (forall i M y rho, quad_of a i M y rho -> norm2 (mv (mrows M) (vsub x y)) <= rho + tol).
Definition near (tol u c : R) : Prop := Rabs (u - c) < tol.
(** two-dimensional arguments are rectangular *)
Definition rect1 (M : marg) : Prop := match M with MMat k rows => Forall (fun r => length r = k) rows | MVec _ => True end.
Definition rect (a : cargs) : Prop :=
  (forall M, a_A a = Some M -> rect1 M) /\ (forall M, a_Aeq a = Some M -> rect1 M) /\ (forall Ls, a_Ls a = Some Ls -> Forall rect1 Ls).
(** shapes that fit dimension m *)
Definition rlen (r : rarg) : nat := match r with RNum _ => 1%nat | RVec1 v => length v | RMat => O end.
Definition lin_shape (m : nat) (A : option marg) (b : option rarg) : Prop :=
  (A = None /\ b = None) \/
  exists M r, A = Some M /\ b = Some r /\ r <> RMat /\ ((exists v, M = MVec v /\ length v = m /\ rlen r = 1%nat) \/ (exists rows, M = MMat m rows /\ length rows = rlen r)).
Definition quad_shape (m : nat) (M : marg) (y : vec) (rho : R) : Prop := (exists r rows, M = MMat m (r :: rows)) /\ length y = m /\ 0 < rho.
Definition quads_shape (m : nat) (a : cargs) : Prop :=
  (a_Ls a = None /\ a_ys a = None /\ a_rhos a = None) \/
  exists Ls ys rhos, a_Ls a = Some Ls /\ a_ys a = Some ys /\ a_rhos a = Some rhos /\ length Ls = length ys /\ length ys = length rhos /\
    forall i M y rho, nth_error Ls i = Some M -> nth_error ys i = Some y -> nth_error rhos i = Some rho -> quad_shape m M y rho.
Definition consistent (m : nat) (a : cargs) : Prop :=
  (forall l, a_lb a = Some l -> blen l = m) /\ (forall u, a_ub a = Some u -> blen u = m) /\
  lin_shape m (a_A a) (a_b a) /\ lin_shape m (a_Aeq a) (a_beq a) /\ quads_shape m a.
(** an argument tells the dimension: a bound, or else the first matrix given has rows *)
Definition has_rows (M : marg) : Prop := exists k r rows, M = MMat k (r :: rows).
Definition tells_dim (a : cargs) : Prop :=
  a_lb a <> None \/ a_ub a <> None \/
  match a_A a, a_Aeq a, a_Ls a with Some M, _, _ => has_rows M | None, Some M, _ => has_rows M | None, None, Some (M :: _) => has_rows M | _, _, _ => False end.

(* ---------------- the helpers ---------------- *)
Lemma bindr_ok : forall (A B : Type) (r : res A) (f : A -> res B) b, bindr r f = Ok b <-> exists a, r = Ok a /\ f a = Ok b.
Proof. intros A B [a|e] f b; simpl; split; [intro H; exists a; auto|intros [a' [E H]]; injection E as <-; auto|discriminate|intros [a' [E _]]; discriminate]. Qed.
Lemma cols0_ok : forall M k, cols0 M = Ok k <-> exists r rows, M = MMat k (r :: rows).
Proof.
  intros [[|a v]|k' [|r rows]] k; simpl; split; try discriminate; try (intros [r' [rows' E]]; discriminate).
  - intro E. injection E as <-. exists r, rows. auto.
  - intros [r' [rows' E]]. injection E as -> _ _. auto.
Qed.
Lemma blist_len : forall a, length (blist a) = blen a.
Proof. intros [v|l]; auto. Qed.
Lemma init_bound_ok : forall d m a l, init_bound d m a = Ok l <-> (a = None /\ l = repeat d m) \/ exists b, a = Some b /\ blen b = m /\ l = blist b.
Proof.
  intros d m [b|] l; simpl.
  - destruct (Nat.eqb_spec (length (blist b)) m) as [E|N]; rewrite blist_len in *; split.
    + intro H. injection H as <-. right. exists b. auto.
    + intros [[H _]|[b' [H [_ ->]]]]; [discriminate|]. injection H as <-. auto.
    + discriminate.
    + intros [[H _]|[b' [H [H2 _]]]]; [discriminate|]. injection H as <-. congruence.
  - split; [intro H; injection H as <-; auto|intros [[_ ->]|[b [H _]]]; [auto|discriminate]].
Qed.
Lemma blist_entry : forall b i, nth_error (blist b) i = bound_entry (Some b) i.
Proof. intros [v|l] i; simpl; auto. destruct i as [|[|i]]; auto. Qed.
Lemma init_bound_len : forall d m a l, init_bound d m a = Ok l -> length l = m.
Proof. intros d m a l H. apply init_bound_ok in H. destruct H as [[_ ->]|[b [_ [E ->]]]]; [apply repeat_length|rewrite blist_len; auto]. Qed.
Lemma init_bound_fin : forall d m a l i v, d <> Fin v -> init_bound d m a = Ok l -> nth_error l i = Some (Fin v) <-> bound_entry a i = Some (Fin v).
Proof.
  intros d m a l i v D H. apply init_bound_ok in H. destruct H as [[-> ->]|[b [-> [_ ->]]]]; [|rewrite blist_entry; tauto].
  simpl. split; [|discriminate]. intro E. apply nth_error_In in E. apply repeat_spec in E. congruence.
Qed.
Lemma init_lin_ok : forall m A b rows v, init_lin m A b = Ok (rows, v) ->
  length rows = length v /\ (forall k, nth_error rows k = row_of A k) /\ (forall k, nth_error v k = rhs_of b k) /\ lin_shape m A b /\ ((forall M, A = Some M -> rect1 M) -> Forall (fun r => length r = m) rows).
Proof.
  intros m A b rows v H. destruct A as [M|]; destruct b as [r|]; simpl in H; try discriminate.
  2:{ injection H as <- <-. split; auto. split; [intros [|k]; auto|]. split; [intros [|k]; auto|]. split; [left; auto|constructor]. }
  apply bindr_ok in H. destruct H as [v0 [E0 H]]. apply bindr_ok in H. destruct H as [[k0 rows0] [E1 H]]. simpl in H.
  destruct (Nat.eqb_spec k0 m) as [->|]; [|discriminate]. destruct (Nat.eqb_spec (length rows0) (length v0)) as [EL|]; [|discriminate]. injection H as <- <-.
  assert (RV : r <> RMat /\ rlen r = length v0 /\ forall k, nth_error v0 k = rhs_of (Some r) k). { destruct r as [r|v1|]; [| |discriminate]; injection E0 as <-; (split; [discriminate|]); split; auto. intros [|[|k]]; auto. }
  destruct RV as (R1 & R2 & R3). split; auto. destruct M as [w|k rows1].
  - destruct (Nat.eqb_spec (length v0) 1) as [E|]; [|discriminate]. injection E1 as <- <-. split; [intros [|[|k]]; auto|]. split; auto. split; [right; exists (MVec w), r; repeat (split; auto); left; exists w; repeat split; auto; congruence|]. intros _. repeat constructor.
  - injection E1 as -> ->. split; auto. split; auto. split; [right; exists (MMat m rows0), r; repeat (split; auto); right; exists rows0; split; auto; congruence|]. intro RC. apply (RC _ eq_refl).
Qed.
Lemma init_lin_total : forall m A b, lin_shape m A b -> exists r, init_lin m A b = Ok r.
Proof.
  intros m A b [[-> ->]|(M & r & -> & -> & N & H)]; [exists ([], []); auto|]. simpl.
  assert (exists v0, (match r with RNum r0 => Ok [r0] | RVec1 v => Ok v | RMat => Err EAssert end) = Ok v0 /\ rlen r = length v0) as [v0 [-> LV]] by (destruct r as [r|v|]; [exists [r]; auto|exists v; auto|congruence]).
  simpl. destruct H as [(v & -> & Lv & E)|(rows & -> & E)].
  - rewrite E in LV. rewrite <- LV. cbn [Nat.eqb bindr fst snd length]. rewrite Lv, Nat.eqb_refl. exists ([v], v0). auto.
  - cbn [bindr fst snd]. rewrite E, LV, !Nat.eqb_refl. exists (rows, v0). auto.
Qed.
Lemma init_quad1_ok : forall m M y rho q, init_quad1 m M y rho = Ok q <-> quad_shape m M y rho /\ q = mkQuad (mrows M) y rho.
Proof.
  intros m M y rho q. unfold init_quad1, quad_shape. rewrite bindr_ok. split.
  - intros [k [E H]]. apply cols0_ok in E. destruct (Nat.eqb_spec k m) as [->|]; [|discriminate]. destruct (Nat.eqb_spec (length y) m) as [Ly|]; [|discriminate]. destruct (Rltb 0 rho) eqn:P; [|discriminate]. apply Rltb_true in P. injection H as <-. auto.
  - intros [[[r [rows ->]] [Ly P]] ->]. exists m. split; [auto|]. rewrite Nat.eqb_refl, Ly, Nat.eqb_refl. destruct (Rltb 0 rho) eqn:Q; auto. apply Rltb_false in Q. lra.
Qed.
Lemma init_quads_ok : forall m Ls ys rhos qs, length Ls = length ys -> length ys = length rhos -> init_quads m Ls ys rhos = Ok qs ->
  forall i, match nth_error Ls i, nth_error ys i, nth_error rhos i with
            | Some M, Some y, Some rho => quad_shape m M y rho /\ nth_error qs i = Some (mkQuad (mrows M) y rho)
            | _, _, _ => nth_error qs i = None
            end.
Proof.
  induction Ls as [|M Ls IH]; intros [|y ys] [|rho rhos] qs L1 L2 H; try discriminate.
  - simpl in H. injection H as <-. intros [|i]; reflexivity.
  - simpl in H. apply bindr_ok in H. destruct H as [q [E1 H]]. apply bindr_ok in H. destruct H as [qs' [E2 H]]. injection H as <-. apply init_quad1_ok in E1. destruct E1 as [S ->].
    simpl in L1, L2. intros [|i]; [simpl; auto|]. cbn [nth_error]. apply IH; auto; lia.
Qed.
Lemma init_quads_total : forall m Ls ys rhos, length Ls = length ys -> length ys = length rhos ->
  (forall i M y rho, nth_error Ls i = Some M -> nth_error ys i = Some y -> nth_error rhos i = Some rho -> quad_shape m M y rho) -> exists qs, init_quads m Ls ys rhos = Ok qs.
Proof.
  induction Ls as [|M Ls IH]; intros [|y ys] [|rho rhos] L1 L2 H; try discriminate; [exists []; auto|].
  destruct (IH ys rhos) as [qs E]; [simpl in L1; lia|simpl in L2; lia|intros i; apply (H (S i))|]. exists (mkQuad (mrows M) y rho :: qs). simpl.
  assert (init_quad1 m M y rho = Ok (mkQuad (mrows M) y rho)) as -> by (apply init_quad1_ok; split; auto; apply (H O); auto). simpl. rewrite E. auto.
Qed.
Lemma init_quad_ok : forall m a qs, init_quad m (a_Ls a) (a_ys a) (a_rhos a) = Ok qs ->
  quads_shape m a /\ (forall q, In q qs <-> exists i M y rho, quad_of a i M y rho /\ q = mkQuad (mrows M) y rho) /\ ((forall Ls, a_Ls a = Some Ls -> Forall rect1 Ls) -> Forall (quad_wf m) qs).
Proof.
  intros m a qs H. unfold quads_shape, quad_of. destruct (a_Ls a) as [Ls|]; destruct (a_ys a) as [ys|]; destruct (a_rhos a) as [rhos|]; simpl in H; try discriminate.
  2:{ injection H as <-. split; [left; auto|]. split; [|constructor]. intro q. split; [intros []|intros (i & M & y & rho & (Ls & ys & rhos & E & _) & _); discriminate]. }
  destruct (Nat.eqb_spec (length Ls) (length ys)) as [L1|]; [|discriminate]. destruct (Nat.eqb_spec (length ys) (length rhos)) as [L2|]; [|discriminate]. simpl in H.
  pose proof (init_quads_ok m Ls ys rhos qs L1 L2 H) as Q.
  assert (QI : forall q, In q qs -> exists i M y rho, nth_error Ls i = Some M /\ nth_error ys i = Some y /\ nth_error rhos i = Some rho /\ quad_shape m M y rho /\ q = mkQuad (mrows M) y rho).
  { intros q I. apply In_nth_error in I. destruct I as [i Ei]. specialize (Q i). destruct (nth_error Ls i) as [M|] eqn:N1; [|congruence]. destruct (nth_error ys i) as [y|] eqn:N2; [|congruence]. destruct (nth_error rhos i) as [rho|] eqn:N3; [|congruence]. destruct Q as [S E]. exists i, M, y, rho. repeat (split; auto). congruence. }
  split; [|split].
  - right. exists Ls, ys, rhos. repeat (split; auto); intros; pose proof (Q i) as Qi; rewrite H0, H1, H2 in Qi; apply Qi.
  - intro q. split.
    + intro I. destruct (QI q I) as (i & M & y & rho & E1 & E2 & E3 & _ & E). exists i, M, y, rho. split; auto. exists Ls, ys, rhos. repeat (split; auto).
    + intros (i & M & y & rho & (Ls' & ys' & rhos' & E1 & E2 & E3 & N1 & N2 & N3) & ->). injection E1 as <-. injection E2 as <-. injection E3 as <-. specialize (Q i). rewrite N1, N2, N3 in Q. apply (nth_error_In qs i). apply Q.
  - intros RC. apply Forall_forall. intros q I. destruct (QI q I) as (i & M & y & rho & E1 & E2 & E3 & [(r & rows & ->) [Ly P]] & ->). split; [|auto]. simpl. specialize (RC Ls eq_refl). rewrite Forall_forall in RC. apply (RC (MMat m (r :: rows))). apply (nth_error_In Ls i). auto.
Qed.

(* ---------------- the claims ---------------- *)
Lemma init_all_ok : forall c m a d, init_all c m a = Ok d -> dcls d = c /\ dim d = m /\ consistent m a /\
  (rect a -> (c <> LinQuad -> a_Ls a = None) -> (c = Box \/ c = Point -> a_A a = None /\ a_Aeq a = None) -> (c = Point -> exists x, a_lb a = Some (BVec (map Fin x)) /\ a_ub a = Some (BVec (map Fin x))) -> dom_wf d) /\
  (forall x, member d x <-> length x = m /\ satisfies eq 0 a x) /\
  forall tol x, relaxed d tol x <-> length x = m /\ satisfies (near tol) tol a x.
Proof.
  intros c m a d H. unfold init_all in H. apply bindr_ok in H. destruct H as [l [El H]]. apply bindr_ok in H. destruct H as [u [Eu H]]. apply bindr_ok in H. destruct H as [[A b] [EA H]]. apply bindr_ok in H. destruct H as [[Ae be] [EAe H]].
  apply bindr_ok in H. destruct H as [qs [EQ H]]. injection H as <-. cbn [dcls dim fst snd]. split; auto. split; auto.
  destruct (init_lin_ok _ _ _ _ _ EA) as (A1 & A2 & A3 & A4 & A5). destruct (init_lin_ok _ _ _ _ _ EAe) as (B1 & B2 & B3 & B4 & B5). destruct (init_quad_ok _ _ _ EQ) as (Q1 & Q2 & Q3).
  split. { split; [|split; [|split; [auto|split; auto]]].
    - intros b0 E. rewrite E in El. apply init_bound_ok in El. destruct El as [[? _]|[b1 [E1 [E2 _]]]]; [discriminate|congruence].
    - intros b0 E. rewrite E in Eu. apply init_bound_ok in Eu. destruct Eu as [[? _]|[b1 [E1 [E2 _]]]]; [discriminate|congruence]. }
  split; [|split].
  - intros (R1 & R2 & R3) C1 C2 C3. unfold dom_wf. cbn [dcls dim lb ub dA db dAeq dbeq quads]. split; [apply (init_bound_len _ _ _ _ El)|]. split; [apply (init_bound_len _ _ _ _ Eu)|]. split; [auto|]. split; [auto|]. split; [auto|]. split; [auto|]. split; [auto|]. split; [|split].
    + intro N. specialize (C1 N). destruct qs as [|q qs]; auto. exfalso. destruct (proj1 (Q2 q) (or_introl eq_refl)) as (i & M & y & rho & (Ls & ys & rhos & E & _) & _). congruence.
    + intro N. destruct (C2 N) as [Z1 Z2]. split; [destruct A as [|r A]; auto; specialize (A2 O); rewrite Z1 in A2; discriminate|destruct Ae as [|r Ae]; auto; specialize (B2 O); rewrite Z2 in B2; discriminate].
    + intro N. destruct (C3 N) as [x [Z1 Z2]]. exists x. rewrite Z1 in El. rewrite Z2 in Eu. apply init_bound_ok in El. apply init_bound_ok in Eu. destruct El as [[? _]|[b1 [E1 [_ ->]]]]; [discriminate|]. destruct Eu as [[? _]|[b2 [E2 [_ ->]]]]; [discriminate|]. injection E1 as <-. injection E2 as <-. auto.
  - intro x. unfold member, satisfies. cbn [dim lb ub dA db dAeq dbeq quads]. split.
    + intros (Lx & SB & SI & SE & SQ). split; auto. split; [intros i v E; apply (SB i), (init_bound_fin NInf m (a_lb a) l); auto; discriminate|]. split; [intros i v E; apply (SB i), (init_bound_fin PInf m (a_ub a) u); auto; discriminate|].
      split; [intros k r c0 E1 E2; apply (SI k); congruence|]. split; [intros k r c0 E1 E2; apply (SE k); congruence|]. intros i M y rho Hq. apply (SQ (mkQuad (mrows M) y rho)). apply Q2. exists i, M, y, rho. auto.
    + intros (Lx & S1 & S2 & S3 & S4 & S5). split; auto. split; [intro i; split; intros v E; [apply S1, (init_bound_fin NInf m (a_lb a) l); auto; discriminate|apply S2, (init_bound_fin PInf m (a_ub a) u); auto; discriminate]|].
      split; [intros k r c0 E1 E2; apply (S3 k); congruence|]. split; [intros k r c0 E1 E2; apply (S4 k); congruence|]. intros q I. apply Q2 in I. destruct I as (i & M & y & rho & Hq & ->). apply (S5 i). auto.
  - intros tol x. unfold relaxed, satisfies, near. cbn [dim lb ub dA db dAeq dbeq quads]. split.
    + intros (Lx & SB & SI & SE & SQ). split; auto. split; [intros i v E; apply (SB i), (init_bound_fin NInf m (a_lb a) l); auto; discriminate|]. split; [intros i v E; apply (SB i), (init_bound_fin PInf m (a_ub a) u); auto; discriminate|].
      split; [intros k r c0 E1 E2; apply (SI k); congruence|]. split; [intros k r c0 E1 E2; apply (SE k); congruence|]. intros i M y rho Hq. apply (SQ (mkQuad (mrows M) y rho)). apply Q2. exists i, M, y, rho. auto.
    + intros (Lx & S1 & S2 & S3 & S4 & S5). split; auto. split; [intro i; split; intros v E; [apply S1, (init_bound_fin NInf m (a_lb a) l); auto; discriminate|apply S2, (init_bound_fin PInf m (a_ub a) u); auto; discriminate]|].
      split; [intros k r c0 E1 E2; apply (S3 k); congruence|]. split; [intros k r c0 E1 E2; apply (S4 k); congruence|]. intros q I. apply Q2 in I. destruct I as (i & M & y & rho & Hq & ->). apply (S5 i). auto.
Qed.
Lemma init_all_total : forall c m a, consistent m a -> exists d, init_all c m a = Ok d.
Proof.
  intros c m a (C1 & C2 & C3 & C4 & C5). unfold init_all.
  assert (exists l, init_bound NInf m (a_lb a) = Ok l) as [l ->]. { destruct (a_lb a) as [b|]; [|exists (repeat NInf m); auto]. exists (blist b). apply init_bound_ok. right. exists b. auto. }
  assert (exists u, init_bound PInf m (a_ub a) = Ok u) as [u ->]. { destruct (a_ub a) as [b|]; [|exists (repeat PInf m); auto]. exists (blist b). apply init_bound_ok. right. exists b. auto. }
  destruct (init_lin_total _ _ _ C3) as [Ab EA]. destruct (init_lin_total _ _ _ C4) as [Ae EE]. simpl bindr. rewrite EA, EE. simpl bindr.
  assert (exists qs, init_quad m (a_Ls a) (a_ys a) (a_rhos a) = Ok qs) as [qs ->].
  { destruct C5 as [(-> & -> & ->)|(Ls & ys & rhos & -> & -> & -> & L1 & L2 & HQ)]; [exists []; auto|]. unfold init_quad. rewrite L1, L2, !Nat.eqb_refl. simpl. apply init_quads_total; auto; congruence. }
  simpl. eexists. reflexivity.
Qed.
(** which arguments are accepted *)
Theorem new_accepts : forall c a, (exists d, linquad_new c a = Ok d) <-> tells_dim a /\ exists m, consistent m a.
Proof.
  intros c a. unfold linquad_new. split.
  - intros [d H]. apply bindr_ok in H. destruct H as [m [E H]]. destruct (init_all_ok c m a d H) as (_ & _ & C & _). split; [|exists m; auto]. unfold tells_dim. unfold init_dim in E. destruct (a_lb a); [left; discriminate|]. destruct (a_ub a); [right; left; discriminate|]. right; right.
    destruct (a_A a) as [M|]; [apply cols0_ok in E; exists m; auto|]. destruct (a_Aeq a) as [M|]; [apply cols0_ok in E; exists m; auto|]. destruct (a_Ls a) as [[|M Ls]|]; try discriminate. apply cols0_ok in E. exists m. auto.
  - intros [T [m C]]. assert (E : init_dim (a_lb a) (a_ub a) (a_A a) (a_Aeq a) (a_Ls a) = Ok m).
    { destruct C as (C1 & C2 & C3 & C4 & C5). unfold init_dim, tells_dim in *. destruct (a_lb a) as [l|]; [rewrite (C1 l eq_refl); auto|]. destruct (a_ub a) as [u|]; [rewrite (C2 u eq_refl); auto|]. destruct T as [T|[T|T]]; try congruence.
      destruct (a_A a) as [M|]. { destruct T as (k & r & rows & ->). destruct C3 as [[? _]|(M & r0 & E & _ & _ & [(v & E2 & _)|(rows' & E2 & _)])]; [discriminate| |]; injection E as <-; [discriminate|]. injection E2 as -> <-. auto. }
      destruct (a_Aeq a) as [M|]. { destruct T as (k & r & rows & ->). destruct C4 as [[? _]|(M & r0 & E & _ & _ & [(v & E2 & _)|(rows' & E2 & _)])]; [discriminate| |]; injection E as <-; [discriminate|]. injection E2 as -> <-. auto. }
      destruct (a_Ls a) as [[|M Ls]|] eqn:EL; try contradiction. destruct C5 as [(? & _)|(Ls' & ys & rhos & E1 & E2 & E3 & L1 & L2 & HQ)]; [congruence|]. rewrite EL in E1. injection E1 as <-. destruct ys as [|y ys]; [discriminate|]. destruct rhos as [|rho rhos]; [discriminate|].
      destruct (HQ O M y rho eq_refl eq_refl eq_refl) as [(r & rows & ->) _]. auto. }
    rewrite E. simpl. apply init_all_total; auto.
Qed.
(** an accepted domain is the set described by the arguments, and its arrays have the shapes every other method relies on *)
Theorem new_points : forall a d, rect a -> linquad_new LinQuad a = Ok d -> consistent (dim d) a /\ dom_wf d /\
  (forall x, member d x <-> length x = dim d /\ satisfies eq 0 a x) /\
  (forall tol x, inside1 d x tol = true <-> length x = dim d /\ satisfies (near tol) tol a x).
Proof.
  intros a d R H. unfold linquad_new in H. apply bindr_ok in H. destruct H as [m [E H]]. destruct (init_all_ok _ _ _ _ H) as (HC & HD & C & W & M & RX). rewrite HD. split; auto.
  assert (WD : dom_wf d). { apply W; auto; solve [congruence|discriminate|intros [?|?]; discriminate]. } split; auto. split; auto. intros tol x. rewrite inside1_spec by (auto; rewrite HC; discriminate). apply RX.
Qed.
Theorem linineq_points : forall A b l u Aeq beq d, (forall M, A = Some M -> rect1 M) -> (forall M, Aeq = Some M -> rect1 M) -> linineq_new A b l u Aeq beq = Ok d ->
  dom_wf d /\ quads d = [] /\ forall x, member d x <-> length x = dim d /\ satisfies eq 0 (mkArgs A b l u Aeq beq None None None) x.
Proof.
  intros A b l u Aeq beq d R1 R2 H. unfold linineq_new, linquad_new in H. apply bindr_ok in H. destruct H as [m [E H]]. destruct (init_all_ok _ _ _ _ H) as (HC & HD & C & W & M & RX). rewrite HD.
  assert (WD : dom_wf d). { apply W; auto; try (intros [?|?]; discriminate); try discriminate. split; [auto|]. split; [auto|]. discriminate. }
  split; auto. split; auto. apply WD. rewrite HC. discriminate.
Qed.
Theorem box_points : forall l u d, box_new l u = Ok d -> dom_wf d /\ forall x, member d x <-> length x = dim d /\
  (forall i v, bound_entry l i = Some (Fin v) -> v <= vget x i) /\ forall i v, bound_entry u i = Some (Fin v) -> vget x i <= v.
Proof.
  intros l u d H. unfold box_new, linquad_new in H. apply bindr_ok in H. destruct H as [m [E H]]. destruct (init_all_ok _ _ _ _ H) as (HC & HD & C & W & M & RX). rewrite HD. split.
  - apply W; auto; try discriminate. split; [|split]; discriminate.
  - intro x. rewrite M. unfold satisfies. cbn [a_lb a_ub a_A a_b a_Aeq a_beq]. split.
    + intros (Lx & S1 & S2 & _). split; auto. split; intros i v Ev; [specialize (S1 i v Ev); lra|specialize (S2 i v Ev); lra].
    + intros (Lx & S1 & S2). split; auto. split; [intros i v Ev; specialize (S1 i v Ev); lra|]. split; [intros i v Ev; specialize (S2 i v Ev); lra|]. split; [discriminate|]. split; [discriminate|]. intros i M0 y rho (Ls & ys & rhos & E1 & _). discriminate.
Qed.
Theorem point_points : forall x, exists d, point_new x = Ok d /\ dom_wf d /\ forall y, member d y <-> y = x.
Proof.
  intro x. unfold point_new, linquad_new. cbn [a_lb a_ub init_dim bindr blen].
  destruct (init_all_total Point (length (map Fin x)) (mkArgs None None (Some (BVec (map Fin x))) (Some (BVec (map Fin x))) None None None None None)) as [d H].
  { split; [intros l E; injection E as <-; auto|]. split; [intros l E; injection E as <-; auto|]. split; [left; auto|]. split; [left; auto|]. left. auto. }
  exists d. split; auto. destruct (init_all_ok _ _ _ _ H) as (HC & HD & C & W & M & RX). split.
  - apply W; auto; try discriminate. { split; [|split]; discriminate. } intros _. exists x. auto.
  - intro y. rewrite M. rewrite map_length. unfold satisfies. cbn [a_lb a_ub a_A a_b a_Aeq a_beq bound_entry]. split.
    + intros (Ly & S1 & S2 & _). apply (nth_ext y x 0 0); auto. intros i Hi. assert (Ex : nth_error (map Fin x) i = Some (Fin (nth i x 0))) by (rewrite nth_error_map, (nth_error_nth' x 0) by congruence; auto). specialize (S1 i _ Ex). specialize (S2 i _ Ex). unfold vget in *. lra.
    + intros ->. split; auto. assert (EN : forall i v, nth_error (map Fin x) i = Some (Fin v) -> vget x i = v). { intros i v E. rewrite nth_error_map in E. destruct (nth_error x i) eqn:N; [|discriminate]. injection E as <-. unfold vget. apply nth_error_nth. auto. }
      split; [intros i v E; rewrite (EN i v E); lra|]. split; [intros i v E; rewrite (EN i v E); lra|]. split; [discriminate|]. split; [discriminate|]. intros i M0 y rho (Ls & ys & rhos & E1 & _). discriminate.
Qed.
(** numbers stand for arrays with one entry *)
Definition vec_bound (a : option barg) : option barg := match a with Some (BNum v) => Some (BVec [v]) | a => a end.
Definition vec_rhs (b : option rarg) : option rarg := match b with Some (RNum r) => Some (RVec1 [r]) | b => b end.
Theorem new_scalars : forall c A b l u Ae be Ls ys rhos, linquad_new c (mkArgs A b l u Ae be Ls ys rhos) = linquad_new c (mkArgs A (vec_rhs b) (vec_bound l) (vec_bound u) Ae (vec_rhs be) Ls ys rhos).
Proof. intros c A b l u Ae be Ls ys rhos. destruct l as [[l|l]|]; destruct u as [[u|u]|]; destruct b as [[b|b|]|]; destruct be as [[be|be|]|]; reflexivity. Qed.
(** the constructor applied to the attributes of a domain gives it back *)
Lemma quads_again : forall m qs, Forall (quad_wf m) qs -> Forall (fun q => qL q <> []) qs -> init_quads m (map (fun q => MMat m (qL q)) qs) (map qy qs) (map qrho qs) = Ok qs.
Proof.
  induction qs as [|q qs IH]; intros W N; [auto|]. inversion W as [|? ? Wq Wqs]. inversion N as [|? ? Nq Nqs]. subst. cbn [map init_quads]. assert (init_quad1 m (MMat m (qL q)) (qy q) (qrho q) = Ok q) as ->.
  { apply init_quad1_ok. split; [|destruct q; auto]. destruct Wq as (_ & Ly & P). split; [|auto]. destruct (qL q) as [|r rows]; [congruence|]. exists r, rows. auto. }
  simpl. rewrite IH; auto.
Qed.
Theorem new_again : forall d, dom_wf d -> Forall (fun q => qL q <> []) (quads d) -> linquad_new (dcls d) (attributes d) = Ok d.
Proof.
  intros d (W1 & W2 & W3 & W4 & W5 & W6 & W7 & _) N. unfold linquad_new, attributes, init_all. cbn [a_lb a_ub a_A a_b a_Aeq a_beq a_Ls a_ys a_rhos init_dim blen bindr init_bound blist]. rewrite W1, Nat.eqb_refl, W2, Nat.eqb_refl. cbn [bindr init_lin fst snd]. rewrite Nat.eqb_refl, W4, W6, !Nat.eqb_refl. cbn [bindr init_quad].
  rewrite !map_length, !Nat.eqb_refl. cbn [andb]. rewrite quads_again by auto. cbn [bindr fst snd]. destruct d. auto.
Qed.
(** add_constraints keeps the points of the domain that satisfy the arguments *)
Definition proper_args (a : cargs) : Prop := (forall l, a_lb a = Some l -> Forall lower_ok (blist l)) /\ (forall u, a_ub a = Some u -> Forall upper_ok (blist u)).
Theorem add_args_points : forall d a e, dom_wf d -> proper d -> dcls d <> Point -> rect a -> proper_args a -> add_args d a = Ok e ->
  dim e = dim d /\ dom_wf e /\ forall tol x, inside1 e x tol = true <-> inside1 d x tol = true /\ satisfies (near tol) tol a x.
Proof.
  intros d a e WD PD ND R PA H. unfold add_args in H. apply bindr_ok in H. destruct H as [c [E H]]. injection H as <-. pose proof E as E'. destruct (init_all_ok _ _ _ _ E) as (HC & HD & C & W & M & RX).
  assert (WC : dom_wf c). { apply W; auto; solve [congruence|discriminate|intros [?|?]; discriminate]. }
  assert (PC : proper c). { unfold init_all in E'. apply bindr_ok in E'. destruct E' as [l [El H]]. apply bindr_ok in H. destruct H as [u [Eu H]]. apply bindr_ok in H. destruct H as [? [_ H]]. apply bindr_ok in H. destruct H as [? [_ H]]. apply bindr_ok in H. destruct H as [? [_ H]]. injection H as <-. destruct PA as [P1 P2].
    apply init_bound_ok in El. apply init_bound_ok in Eu. split; cbn [lb ub].
    - destruct El as [[_ ->]|[b [Eb [_ ->]]]]; auto. apply Forall_forall. intros z I. apply repeat_spec in I. subst. exact I.
    - destruct Eu as [[_ ->]|[b [Eb [_ ->]]]]; auto. apply Forall_forall. intros z I. apply repeat_spec in I. subst. exact I. }
  assert (NC : dcls c <> Point) by (rewrite HC; discriminate).
  split; [unfold add_constraints; destruct (quads d ++ quads c); [destruct (_ || _)%bool|]; auto|]. split; [apply add_constraints_wf; auto|]. intros tol x.
  rewrite (add_constraints_inside d c tol x WD WC HD PD PC ND NC). rewrite andb_true_iff. rewrite (inside1_spec c x tol WC NC), RX. split; [tauto|]. intros [I S]. split; auto. split; auto. apply inside1_spec in I; auto. apply I.
Qed.
(* ---------------- what fails ---------------- *)
(** a single inequality given as a vector is accepted beside bounds, but raises TypeError on its own *)
Theorem row_refuted : exists v r, (exists d, linineq_new (Some (MVec v)) (Some (RNum r)) (Some (BVec [NInf; NInf])) None None None = Ok d /\ forall x, member d x <-> length x = 2%nat /\ dot v x <= r) /\
  linineq_new (Some (MVec v)) (Some (RNum r)) None None None None = Err EType /\
  exists d, linineq_new (Some (MMat 2 [v])) (Some (RNum r)) None None None None = Ok d.
Proof.
  exists [1; 1], 1. split; [|split; [reflexivity|eexists; reflexivity]]. eexists. split; [reflexivity|].
  match goal with |- forall x, member ?d x <-> _ => destruct (linineq_points (Some (MVec [1; 1])) (Some (RNum 1)) (Some (BVec [NInf; NInf])) None None None d) as (_ & _ & P); [intros M E; injection E as <-; exact I|discriminate|reflexivity|] end.
  intro x. rewrite P. cbn [dim]. unfold satisfies. cbn [a_lb a_ub a_A a_b a_Aeq a_beq bound_entry row_of rhs_of]. split.
  - intros (Lx & _ & _ & S & _). split; auto. specialize (S O [1; 1] 1 eq_refl eq_refl). lra.
  - intros (Lx & S). split; auto. split; [intros [|[|[|i]]] v E; discriminate|]. split; [discriminate|]. split; [intros [|k] r c E1 E2; [injection E1 as <-; injection E2 as <-; lra|discriminate]|]. split; [discriminate|]. intros i M y rho (Ls & ys & rhos & E1 & _). discriminate.
Qed.
(** no inequalities, given as an array without rows: IndexError unless there are bounds; as an array np.array([]): IndexError beside bounds too *)
Theorem empty_refuted : forall m, linineq_new (Some (MMat m [])) (Some (RVec1 [])) None None None None = Err EIndex /\
  (exists d, linineq_new (Some (MMat m [])) (Some (RVec1 [])) (Some (BVec (repeat NInf m))) None None None = Ok d) /\
  linineq_new (Some (MVec [])) (Some (RVec1 [])) (Some (BVec (repeat NInf m))) None None None = Err EIndex.
Proof.
  intro m. split; [reflexivity|]. unfold linineq_new, linquad_new, init_all. cbn [a_lb a_ub a_A a_b a_Aeq a_beq a_Ls a_ys a_rhos init_dim blen bindr init_bound blist]. rewrite !repeat_length, !Nat.eqb_refl. cbn [bindr init_lin fst snd length Nat.eqb]. rewrite !Nat.eqb_refl. cbn [bindr]. split; [eexists; reflexivity|reflexivity].
Qed.
(** crossing bounds are accepted and describe no point; a ball of radius zero is not accepted *)
Theorem crossing_refuted : exists l u d, box_new (Some l) (Some u) = Ok d /\ forall x, ~ member d x.
Proof.
  exists (BNum (Fin 1)), (BNum (Fin 0)). eexists. split; [reflexivity|]. match goal with |- forall x, ~ member ?d x => destruct (box_points (Some (BNum (Fin 1))) (Some (BNum (Fin 0))) d eq_refl) as [_ P] end.
  intros x M. apply P in M. destruct M as (_ & S1 & S2). specialize (S1 O 1 eq_refl). specialize (S2 O 0 eq_refl). lra.
Qed.
Theorem degenerate_ball : forall c m a y, linquad_new c (mkArgs None None None None None None (Some [MMat m [a]]) (Some [y]) (Some [0])) = Err EAssert.
Proof.
  intros. unfold linquad_new, init_all. cbn. unfold init_quad1. cbn [cols0 bindr]. rewrite Nat.eqb_refl. destruct (Nat.eqb (length y) m); auto. destruct (Rltb 0 0) eqn:Q; auto. apply Rltb_true in Q. lra.
Qed.
(* ---------------- cases ---------------- *)
(** a disc cut by a half plane, with a lower bound on one coordinate *)
Definition disc_args : cargs := mkArgs (Some (MVec [1; 1])) (Some (RNum 1)) (Some (BVec [Fin 0; NInf])) None None None (Some [MMat 2 [[1; 0]; [0; 1]]]) (Some [[0; 0]]) (Some [2]).
Example disc_case : rect disc_args /\ tells_dim disc_args /\ consistent 2 disc_args /\ exists d, linquad_new LinQuad disc_args = Ok d.
Proof.
  assert (T : tells_dim disc_args) by (left; discriminate). assert (C : consistent 2 disc_args).
  { split; [intros l E; injection E as <-; auto|]. split; [discriminate|]. split; [right; exists (MVec [1; 1]), (RNum 1); repeat (split; [reflexivity || discriminate|]); left; exists [1; 1]; auto|]. split; [left; auto|].
    right. exists [MMat 2 [[1; 0]; [0; 1]]], [[0; 0]], [2]. repeat (split; [reflexivity|]). intros [|[|i]] M y rho E1 E2 E3; try discriminate. injection E1 as <-. injection E2 as <-. injection E3 as <-. split; [exists [1; 0], [[0; 1]]; auto|]. split; [auto|lra]. }
  split; [|split; [auto|split; [auto|apply new_accepts; split; auto; exists 2%nat; auto]]]. split; [intros M E; injection E as <-; exact I|]. split; [discriminate|]. intros Ls E. injection E as <-. repeat constructor.
Qed.
Example again_case : exists d, linquad_new LinQuad disc_args = Ok d /\ dom_wf d /\ Forall (fun q => qL q <> []) (quads d) /\ quads d <> [].
Proof.
  destruct disc_case as (R & _ & _ & [d H]). exists d. split; auto. destruct (new_points _ _ R H) as (_ & W & _). split; auto. unfold linquad_new, init_all in H. cbn in H. unfold init_quad1 in H. cbn in H. destruct (Rltb 0 2) eqn:Q; [|discriminate]. injection H as <-. cbn [quads]. split; [repeat constructor; discriminate|discriminate].
Qed.
Example add_case : exists d a e, dom_wf d /\ proper d /\ dcls d <> Point /\ rect a /\ proper_args a /\ add_args d a = Ok e /\ a_A a <> None.
Proof.
  destruct (box_new (Some (BVec [Fin 0; Fin 0])) (Some (BVec [Fin 1; PInf]))) as [d|] eqn:E; [|discriminate]. exists d, (mkArgs (Some (MVec [1; 1])) (Some (RNum 1)) None None None None None None None). eexists.
  destruct (box_points _ _ _ E) as [W _]. split; auto. injection E as <-. split; [split; repeat constructor; simpl; auto|]. split; [discriminate|]. split; [split; [intros M E; injection E as <-; exact I|split; discriminate]|]. split; [split; discriminate|]. split; [reflexivity|discriminate].
Qed.
Example linineq_case : exists d, linineq_new (Some (MMat 2 [[1; 1]; [1; -1]])) (Some (RVec1 [1; 0])) None None (Some (MVec [0; 1])) (Some (RNum 0)) = Ok d /\ (forall M, Some (MMat 2 [[1; 1]; [1; -1]]) = Some M -> rect1 M) /\ member d [-1; 0] /\ ~ member d [1; 0].
Proof.
  eexists. split; [reflexivity|]. assert (RC : forall M, Some (MMat 2 [[1; 1]; [1; -1]]) = Some M -> rect1 M) by (intros M E; injection E as <-; repeat constructor). split; auto.
  match goal with |- member ?d _ /\ _ => destruct (linineq_points (Some (MMat 2 [[1; 1]; [1; -1]])) (Some (RVec1 [1; 0])) None None (Some (MVec [0; 1])) (Some (RNum 0)) d) as (_ & _ & P); [auto|intros M E; injection E as <-; exact I|reflexivity|] end.
  split; rewrite P; unfold satisfies; cbn [dim a_lb a_ub a_A a_b a_Aeq a_beq bound_entry row_of rhs_of].
  - split; [auto|]. split; [discriminate|]. split; [discriminate|]. split; [intros [|[|[|k]]] r c E1 E2; try discriminate; injection E1 as <-; injection E2 as <-; rewrite !dot_cons, dot_nil_l; lra|].
    split; [intros [|k] r c E1 E2; try discriminate; injection E1 as <-; injection E2 as <-; rewrite !dot_cons, dot_nil_l; lra|]. intros i M y rho (Ls & ys & rhos & E1 & _). discriminate.
  - intros (_ & _ & _ & S & _). specialize (S 1%nat _ _ eq_refl eq_refl). rewrite !dot_cons, dot_nil_l in S. lra.
Qed.
Example box_case : exists d, box_new (Some (BNum (Fin (-1)))) (Some (BVec [Fin 2])) = Ok d /\ member d [1] /\ ~ member d [3].
Proof.
  eexists. split; [reflexivity|]. match goal with |- member ?d _ /\ _ => destruct (box_points (Some (BNum (Fin (-1)))) (Some (BVec [Fin 2])) d eq_refl) as [_ P] end.
  split; rewrite P; cbn [dim bound_entry]; unfold vget.
  - split; [auto|]. split; intros [|[|i]] v E; try discriminate; injection E as <-; simpl; lra.
  - intros (_ & _ & S). specialize (S O 2 eq_refl). simpl in S. lra.
Qed.
