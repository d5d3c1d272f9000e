(** Integrals of the densities of the random domains and the estimated volume. *)
Require Import Reals Lra Lia List Bool Arith.
From Verif Require Import RVec Num DomModel DomSpec DomProofs DomMoreModel QuadProofs RandModel DensModel.
Import ListNotations.
Local Open Scope R_scope.

(* ---------------- integrals ---------------- *)
Definition is_int (f : R -> R) (a b I : R) : Prop := exists pr : Riemann_integrable f a b, RiemannInt pr = I.
(** iterated integral over the box [l, u] *)
Fixpoint is_iint (l u : vec) (f : vec -> R) (I : R) : Prop :=
  match l, u with
  | a :: l', b :: u' => exists g, (forall t, a <= t <= b -> is_iint l' u' (fun x => f (t :: x)) (g t)) /\ is_int g a b I
  | _, _ => f [] = I
  end.
Lemma is_int_unique : forall f g a b I J, a <= b -> (forall x, a <= x <= b -> f x = g x) -> is_int f a b I -> is_int g a b J -> I = J.
Proof. intros f g a b I J AB E [p <-] [q <-]. apply RiemannInt_P18; auto. intros x Hx. apply E. lra. Qed.
Lemma is_iint_unique : forall l u f g I J, Forall2 Rle l u -> (forall x, Forall2 Rle l x -> Forall2 Rle x u -> f x = g x) -> is_iint l u f I -> is_iint l u g J -> I = J.
Proof.
  intros l u f g I J H. revert f g I J. induction H as [|a b l u AB H IH]; intros f g I J E HI HJ; cbn in HI, HJ.
  - rewrite <- HI, <- HJ. apply E; constructor.
  - destruct HI as (p & P & HI). destruct HJ as (q & Q & HJ). apply (is_int_unique p q a b); auto. intros t Ht. apply (IH (fun x => f (t :: x)) (fun x => g (t :: x))); auto. intros x H1 H2. apply E; constructor; tauto.
Qed.
Lemma is_int_const : forall c a b f, a <= b -> (forall x, a <= x <= b -> f x = c) -> is_int f a b (c * (b - a)).
Proof.
  intros c a b f AB E. assert (P : Riemann_integrable f a b).
  { refine (@Riemann_integrable_ext (fct_cte c) f a b _ (RiemannInt_P14 a b c)). intros x Hx. rewrite Rmin_left, Rmax_right in Hx by auto. symmetry. apply E. auto. }
  exists P. rewrite <- (RiemannInt_P15 (RiemannInt_P14 a b c)). apply RiemannInt_P18; auto. intros x Hx. apply E. lra.
Qed.
Definition widths (l u : vec) : vec := zipw (fun a b => b - a) l u.
Lemma is_iint_const : forall l u c f, Forall2 Rle l u -> (forall x, Forall2 Rle l x -> Forall2 Rle x u -> f x = c) -> is_iint l u f (c * vprod (widths l u)).
Proof.
  intros l u c f H. revert f. induction H as [|a b l u AB H IH]; intros f E.
  - cbn. rewrite E by constructor. ring.
  - cbn [is_iint widths zipw vprod fold_right]. exists (fun _ => c * vprod (widths l u)). split.
    + intros t Ht. apply IH. intros x H1 H2. apply E; constructor; tauto.
    + change (fold_right Rmult 1 (zipw (fun a b => b - a) l u)) with (vprod (widths l u)). replace (c * ((b - a) * vprod (widths l u))) with (c * vprod (widths l u) * (b - a)) by ring. apply is_int_const; auto.
Qed.
Lemma vprod_pos : forall l u, Forall2 Rlt l u -> 0 < vprod (widths l u).
Proof. intros l u H. induction H; cbn; [lra|]. apply Rmult_lt_0_compat; [lra|auto]. Qed.
Lemma f2_le : forall l u, Forall2 Rlt l u -> Forall2 Rle l u.
Proof. intros l u H. induction H; constructor; auto. lra. Qed.

(* ---------------- the uniform density ---------------- *)
Definition ubox (l u : vec) : dom := mkDom Box (length l) (map Fin l) (map Fin u) [] [] [] [] [].
Lemma box_sat : forall l u tol x, length u = length l -> length x = length l -> (sat_bounds (map Fin l) (map Fin u) tol x <-> Forall2 Rle (map (fun a => a - tol) l) x /\ Forall2 Rle x (map (fun b => b + tol) u)).
Proof.
  intros l u tol x Lu Lx. split.
  - intro S. revert u x Lu Lx S. induction l as [|a l IH]; intros [|b u] [|y x] Lu Lx S; try discriminate; cbn.
    + split; constructor.
    + injection Lu as Lu. injection Lx as Lx. destruct (IH u x Lu Lx) as [H1 H2].
      * intro i. exact (S (Datatypes.S i)).
      * destruct (S 0%nat) as [A B]. specialize (A a eq_refl). specialize (B b eq_refl). unfold vget in A, B. cbn in A, B. split; constructor; auto.
  - intros [A B] i. revert u x Lu Lx A B i. induction l as [|a l IH]; intros [|b u] [|y x] Lu Lx A B i; try discriminate.
    + split; intros v H; destruct i; discriminate.
    + inversion A as [|? ? ? ? A1 A2]; subst. inversion B as [|? ? ? ? B1 B2]; subst. destruct i as [|i]; cbn.
      * unfold vget. cbn. split; intros v H; injection H as <-; auto.
      * apply (IH u x); auto.
Qed.
Lemma ubox_inside : forall l u tol x, length u = length l -> length x = length l -> (inside1 (ubox l u) x tol = true <-> Forall2 Rle (map (fun a => a - tol) l) x /\ Forall2 Rle x (map (fun b => b + tol) u)).
Proof.
  intros l u tol x Lu Lx. assert (W : dom_wf (ubox l u)).
  { unfold dom_wf, ubox. cbn. rewrite !map_length. split; auto. split; auto. split; auto. split; auto. split; auto. split; auto. split; auto. split; auto. split; auto. discriminate. }
  rewrite inside1_spec by (auto; discriminate). rewrite <- box_sat by auto. unfold relaxed, ubox. cbn. split; [tauto|]. intro S. split; auto. split; auto. split; [intros k a c H; destruct k; discriminate|]. split; [intros k a c H; destruct k; discriminate|]. intros q [].
Qed.
Lemma f2_len : forall (R : R -> R -> Prop) l x, Forall2 R l x -> length x = length l.
Proof. intros R l x H. induction H; cbn; auto. Qed.
Lemma f2_shift : forall l x tol, 0 <= tol -> Forall2 Rle l x -> Forall2 Rle (map (fun a => a - tol) l) x.
Proof. intros l x tol H F. induction F; cbn; constructor; auto. lra. Qed.
Lemma f2_shift' : forall u x tol, 0 <= tol -> Forall2 Rle x u -> Forall2 Rle x (map (fun a => a + tol) u).
Proof. intros u x tol H F. induction F; cbn; constructor; auto. lra. Qed.
(** the density of a UniformDomain has integral one over the box *)
Theorem unif_integral : forall l u tol, Forall2 Rlt l u -> 0 <= tol -> is_iint l u (unif_pdf (ubox l u) l u tol) 1.
Proof.
  intros l u tol H T. pose proof (vprod_pos l u H) as P. replace 1 with (1 / vprod (widths l u) * vprod (widths l u)) by (field; lra). apply is_iint_const; [apply f2_le; auto|].
  intros x H1 H2. unfold unif_pdf. rewrite (proj2 (ubox_inside l u tol x (f2_len _ _ _ H) (f2_len _ _ _ H1))); [reflexivity|]. split; [apply f2_shift; auto|apply f2_shift'; auto].
Qed.
(** over the points isinside accepts it is more than one *)
Theorem unif_integral_tol : forall l u tol, Forall2 Rlt l u -> 0 <= tol ->
  is_iint (map (fun a => a - tol) l) (map (fun b => b + tol) u) (unif_pdf (ubox l u) l u tol) (vprod (widths (map (fun a => a - tol) l) (map (fun b => b + tol) u)) / vprod (widths l u)) /\
  (0 < tol -> l <> [] -> 1 < vprod (widths (map (fun a => a - tol) l) (map (fun b => b + tol) u)) / vprod (widths l u)) /\
  forall x, length x = length l -> ~ (Forall2 Rle (map (fun a => a - tol) l) x /\ Forall2 Rle x (map (fun b => b + tol) u)) -> unif_pdf (ubox l u) l u tol x = 0.
Proof.
  intros l u tol H T. pose proof (vprod_pos l u H) as P. assert (Lu : length u = length l) by (apply (f2_len _ _ _ H)). split; [|split].
  - replace (vprod (widths (map (fun a => a - tol) l) (map (fun b => b + tol) u)) / vprod (widths l u)) with (1 / vprod (widths l u) * vprod (widths (map (fun a => a - tol) l) (map (fun b => b + tol) u))) by (field; lra). apply is_iint_const.
    + clear P Lu. induction H; cbn; constructor; auto. lra.
    + intros x H1 H2. unfold unif_pdf. rewrite (proj2 (ubox_inside l u tol x Lu ltac:(rewrite (f2_len _ _ _ H1), map_length; auto))); [reflexivity|]. auto.
  - intros T0 NE. apply (Rmult_lt_reg_r (vprod (widths l u))); auto. replace (vprod (widths (map (fun a => a - tol) l) (map (fun b => b + tol) u)) / vprod (widths l u) * vprod (widths l u)) with (vprod (widths (map (fun a => a - tol) l) (map (fun b => b + tol) u))) by (field; lra). rewrite Rmult_1_l.
    assert (G : vprod (widths l u) <= vprod (widths (map (fun a => a - tol) l) (map (fun b => b + tol) u))).
    { clear P Lu NE. induction H as [|a b l u AB H IH]; cbn; [lra|]. pose proof (vprod_pos l u H) as P. unfold vprod, widths in *. apply Rmult_le_compat; try lra. }
    clear G. destruct H as [|a b l u AB H]; [contradiction|]. cbn. pose proof (vprod_pos l u H) as Q.
    assert (G : vprod (widths l u) <= vprod (widths (map (fun a => a - tol) l) (map (fun b => b + tol) u))).
    { clear Q P Lu NE. induction H as [|a' b' l u AB' H IH]; cbn; [lra|]. pose proof (vprod_pos l u H) as P. unfold vprod, widths in *. apply Rmult_le_compat; try lra. }
    unfold vprod, widths in *. nra.
  - intros x Lx N. unfold unif_pdf. destruct (inside1 (ubox l u) x tol) eqn:E; [|unfold Rdiv; ring]. apply ubox_inside in E; auto. contradiction.
Qed.
(** the divisor is zero exactly on boxes without interior *)
Theorem unif_divisor : forall l u, Forall2 Rle l u -> (vprod (widths l u) = 0 <-> exists i, (i < length l)%nat /\ vget l i = vget u i).
Proof.
  intros l u H. induction H as [|a b l u AB H IH]; cbn [widths zipw vprod fold_right].
  - split; [intro E; cbn in E; lra|intros (i & Hi & _); cbn in Hi; lia].
  - change (fold_right Rmult 1 (zipw (fun a b => b - a) l u)) with (vprod (widths l u)). split.
    + intro E. apply Rmult_integral in E. destruct E as [E|E]; [exists 0%nat; split; [cbn; lia|unfold vget; cbn; lra]|]. apply IH in E. destruct E as (i & Hi & E). exists (S i). split; [cbn; lia|exact E].
    + intros (i & Hi & E). destruct i as [|i]; [unfold vget in E; cbn in E; subst; ring|]. rewrite (proj2 IH); [ring|]. exists i. split; [cbn in Hi; lia|exact E].
Qed.

(* ---------------- antiderivatives ---------------- *)
Lemma int_antider : forall f G a b, a <= b -> (forall x, a <= x <= b -> continuity_pt f x) -> (forall x, a <= x <= b -> derivable_pt_lim G x (f x)) -> is_int f a b (G b - G a).
Proof.
  intros f G a b AB C D. pose proof (continuity_implies_RiemannInt AB C) as P. exists P. rewrite (RiemannInt_P20 AB (FTC_P1 AB C) P).
  assert (A1 : antiderivative f G a b) by (split; auto; intros x Hx; exists (exist _ (f x) (D x Hx)); reflexivity).
  assert (A2 : antiderivative f (primitive AB (FTC_P1 AB C)) a b) by (apply RiemannInt_P29).
  destruct (antiderivative_Ucte _ _ _ _ _ A1 A2) as [c E]. rewrite !E by lra. ring.
Qed.
Lemma int_has_antider : forall f a b I, a <= b -> (forall x, a <= x <= b -> continuity_pt f x) -> is_int f a b I -> exists G, (forall x, a <= x <= b -> derivable_pt_lim G x (f x)) /\ I = G b - G a.
Proof.
  intros f a b I AB C [pr <-]. exists (primitive AB (FTC_P1 AB C)). split; [intros x Hx; apply RiemannInt_P28; auto|]. apply RiemannInt_P20.
Qed.
Lemma int_scal : forall f a b I c, a <= b -> (forall x, a <= x <= b -> continuity_pt f x) -> is_int f a b I -> is_int (fun x => c * f x) a b (c * I).
Proof.
  intros f a b I c AB C HI. destruct (int_has_antider f a b I AB C HI) as (G & D & ->). replace (c * (G b - G a)) with ((mult_real_fct c G) b - (mult_real_fct c G) a) by (unfold mult_real_fct; ring). apply int_antider; auto.
  - intros x Hx. apply (continuity_pt_scal f c x). auto.
  - intros x Hx. apply derivable_pt_lim_scal. auto.
Qed.
