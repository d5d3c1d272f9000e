(** Boxes in R^n are compact; lower semicontinuous functions attain their minimum on closed bounded sets. *)
Require Import Reals List Bool Arith Lia Lra Classical_Prop Classical_Pred_Type.
From Verif Require Import RVec Num Sums.
Import ListNotations.
Local Open Scope R_scope.

Definition boxed (l u x : vec) : Prop := forall i, (i < length l)%nat -> vget l i <= vget x i <= vget u i.
Definition close (n : nat) (d : R) (x y : vec) : Prop := length y = n /\ forall i, (i < n)%nat -> Rabs (vget y i - vget x i) < d.
Lemma vget_S : forall a x i, vget (a :: x) (S i) = vget x i. Proof. reflexivity. Qed.
Lemma vget_O : forall a x, vget (a :: x) 0 = a. Proof. reflexivity. Qed.

(** a property of sets that passes to subsets and unions and holds near every point of a box holds for the box *)
Lemma cousin : forall n (P : (vec -> Prop) -> Prop),
  (forall A B : vec -> Prop, (forall x, length x = n -> A x -> B x) -> P B -> P A) -> P (fun _ => False) -> (forall A B, P A -> P B -> P (fun x => A x \/ B x)) ->
  forall l u, length l = n -> length u = n -> (forall x, length x = n -> boxed l u x -> exists d, 0 < d /\ P (close n d x)) -> P (boxed l u).
Proof.
  induction n as [|n IH]; intros P Mono Emp Uni l u Ll Lu Loc.
  - destruct l; [|discriminate]. destruct u; [|discriminate]. destruct (Loc []) as (d & D & H); [auto|intros i Hi; simpl in Hi; lia|]. apply Mono with (close 0 d []); auto. intros x Lx _. split; auto. intros; lia.
  - destruct l as [|l0 l]; [discriminate|]. destruct u as [|u0 u]; [discriminate|]. simpl in Ll, Lu. assert (Ll' : length l = n) by lia. assert (Lu' : length u = n) by lia.
    assert (BX : forall x, length x = S n -> (boxed (l0 :: l) (u0 :: u) x <-> l0 <= vget x 0 <= u0 /\ boxed l u (tl x))).
    { intros [|x0 x] Lx; [discriminate|]. unfold boxed. cbn [length tl]. split.
      - intro H. split; [apply (H 0%nat); lia|]. intros i Hi. apply (H (S i)). lia.
      - intros [H0 H] [|i] Hi; [exact H0|]. rewrite !vget_S. apply H. lia. }
    assert (Tube : forall t, l0 <= t <= u0 -> exists d, 0 < d /\ P (fun y => Rabs (vget y 0 - t) < d /\ boxed l u (tl y))).
    { intros t Ht. set (P' := fun S : vec -> Prop => exists d, 0 < d /\ P (fun y => Rabs (vget y 0 - t) < d /\ S (tl y))).
      change (P' (boxed l u)). apply IH; auto.
      - intros A B H (d & D & HB). exists d. split; auto. eapply Mono; [|exact HB]. intros [|y0 y] Ly [H1 H2]; [discriminate|]. split; auto.
      - exists 1. split; [lra|]. eapply Mono; [|exact Emp]. intros x Lx [_ []].
      - intros A B (d1 & D1 & H1) (d2 & D2 & H2). exists (Rmin d1 d2). split; [apply Rmin_glb_lt; auto|]. eapply Mono; [|exact (Uni _ _ H1 H2)]. intros x Lx [Hx [HA|HB]]; [left|right]; (split; [|auto]); pose proof (Rmin_l d1 d2); pose proof (Rmin_r d1 d2); lra.
      - intros x Lx Bx. destruct (Loc (t :: x)) as (d & D & H).
        + simpl. lia.
        + apply BX; [simpl; lia|]. split; auto.
        + exists d. split; auto. exists d. split; auto. eapply Mono; [|exact H]. intros [|y0 y] Ly [H1 [L2 H2]]; [discriminate|]. split; auto. intros [|i] Hi; [exact H1|]. rewrite !vget_S. apply H2. lia. }
    destruct (Rle_lt_dec l0 u0) as [LU|LU].
    2:{ eapply Mono; [|exact Emp]. intros x Lx H. apply BX in H; auto. lra. }
    set (E := fun t => l0 <= t <= u0 /\ P (fun y => l0 <= vget y 0 <= t /\ boxed l u (tl y))).
    assert (E0 : E l0).
    { split; [lra|]. destruct (Tube l0 ltac:(lra)) as (d & D & H). eapply Mono; [|exact H]. intros x Lx [H1 H2]. split; auto. apply Rabs_def1; lra. }
    destruct (completeness E) as [s [UB LB]]; [exists u0; intros t [Ht _]; lra|exists l0; auto|].
    assert (Hs : l0 <= s <= u0) by (split; [apply UB; auto|apply LB; intros t [Ht _]; lra]).
    destruct (Tube s Hs) as (d & D & H).
    assert (T : exists t, E t /\ s - d < t).
    { apply NNPP. intro N. assert (s <= s - d); [|lra]. apply LB. intros t Et. apply Rnot_lt_le. intro. apply N. eauto. }
    destruct T as (t & [Ht Et] & St).
    assert (E1 : E (Rmin u0 (s + d / 2))).
    { assert (l0 <= Rmin u0 (s + d / 2)) by (apply Rmin_glb; lra). split; [split; [auto|apply Rmin_l]|]. eapply Mono; [|exact (Uni _ _ Et H)]. intros x Lx [[H1 H2] HB].
      destruct (Rle_lt_dec (vget x 0) t) as [C|C]; [left; split; auto|right; split; auto]. pose proof (Rmin_r u0 (s + d / 2)). apply Rabs_def1; lra. }
    pose proof (UB _ E1) as U1. assert (Q : Rmin u0 (s + d / 2) = u0) by (unfold Rmin in *; destruct (Rle_dec u0 (s + d / 2)); auto; lra). rewrite Q in E1. destruct E1 as [_ E1].
    eapply Mono; [|exact E1]. intros x Lx Hx. apply BX in Hx; auto.
Qed.

Definition closed_set (n : nat) (K : vec -> Prop) : Prop := forall x, length x = n -> ~ K x -> exists d, 0 < d /\ forall y, close n d x y -> ~ K y.
Definition lsc (n : nat) (K : vec -> Prop) (f : vec -> R) : Prop := forall x, length x = n -> K x -> forall e, 0 < e -> exists d, 0 < d /\ forall y, close n d x y -> K y -> f x - e < f y.
Theorem min_attained : forall n (K : vec -> Prop) f l u, length l = n -> length u = n -> closed_set n K -> lsc n K f -> (forall x, length x = n -> K x -> boxed l u x) ->
  (exists x, length x = n /\ K x) -> exists x, length x = n /\ K x /\ forall y, length y = n -> K y -> f x <= f y.
Proof.
  intros n K f l u Ll Lu CK SF BK (x0 & Lx0 & Kx0).
  assert (LB : exists m, forall y, length y = n -> K y -> m <= f y).
  { assert (Q : (fun S : vec -> Prop => exists m, forall y, length y = n -> S y -> K y -> m <= f y) (boxed l u)).
    { apply cousin with (n := n); auto.
      - intros A B H [m Hm]. exists m. auto.
      - exists 0. tauto.
      - intros A B [m1 H1] [m2 H2]. exists (Rmin m1 m2). intros y Ly [HA|HB] Ky; [apply Rle_trans with m1; [apply Rmin_l|auto]|apply Rle_trans with m2; [apply Rmin_r|auto]].
      - intros x Lx _. destruct (classic (K x)) as [Kx|Nx].
        + destruct (SF x Lx Kx 1 ltac:(lra)) as (d & D & H). exists d. split; auto. exists (f x - 1). intros y Ly C Ky. apply Rlt_le, H; auto.
        + destruct (CK x Lx Nx) as (d & D & H). exists d. split; auto. exists 0. intros y Ly C Ky. exfalso. apply (H y C Ky). }
    destruct Q as [m Hm]. exists m. intros y Ly Ky. apply Hm; auto. }
  destruct LB as [m0 Hm0].
  destruct (completeness (fun v => forall y, length y = n -> K y -> v <= f y)) as [m [UB LB]]; [exists (f x0); intros v Hv; auto|exists m0; auto|].
  assert (Hm : forall y, length y = n -> K y -> m <= f y) by (intros y Ly Ky; apply LB; intros v Hv; auto).
  apply NNPP. intro N. assert (GT : forall y, length y = n -> K y -> m < f y).
  { intros y Ly Ky. destruct (Hm y Ly Ky) as [H|H]; auto. exfalso. apply N. exists y. split; auto. split; auto. intros z Lz Kz. rewrite <- H. auto. }
  assert (Q : (fun S : vec -> Prop => exists e, 0 < e /\ forall y, length y = n -> S y -> K y -> m + e <= f y) (boxed l u)).
  { apply cousin with (n := n); auto.
    - intros A B H (e & E & He). exists e. auto.
    - exists 1. split; [lra|tauto].
    - intros A B (e1 & E1 & H1) (e2 & E2 & H2). exists (Rmin e1 e2). split; [apply Rmin_glb_lt; auto|]. intros y Ly [HA|HB] Ky; [specialize (H1 y Ly HA Ky); pose proof (Rmin_l e1 e2)|specialize (H2 y Ly HB Ky); pose proof (Rmin_r e1 e2)]; lra.
    - intros x Lx _. destruct (classic (K x)) as [Kx|Nx].
      + specialize (GT x Lx Kx). destruct (SF x Lx Kx ((f x - m) / 2) ltac:(lra)) as (d & D & H). exists d. split; auto. exists ((f x - m) / 2). split; [lra|]. intros y Ly C Ky. specialize (H y C Ky). lra.
      + destruct (CK x Lx Nx) as (d & D & H). exists d. split; auto. exists 1. split; [lra|]. intros y Ly C Ky. exfalso. apply (H y C Ky). }
  destruct Q as (e & E & He). assert (m + e <= m); [|lra]. apply UB. intros y Ly Ky. apply He; auto.
Qed.

(* ------------------------------------------------------------------ continuity *)
Definition cts (n : nat) (f : vec -> R) : Prop := forall x, length x = n -> forall e, 0 < e -> exists d, 0 < d /\ forall y, close n d x y -> Rabs (f y - f x) < e.
Lemma close_le : forall n d d' x y, d <= d' -> close n d x y -> close n d' x y.
Proof. intros n d d' x y H [L C]. split; auto. intros i Hi. specialize (C i Hi). lra. Qed.
Lemma cts_lsc : forall n K f, cts n f -> lsc n K f.
Proof. intros n K f C x Lx _ e E. destruct (C x Lx e E) as (d & D & H). exists d. split; auto. intros y Cy _. specialize (H y Cy). apply Rabs_def2 in H. lra. Qed.
Lemma cts_const : forall n c, cts n (fun _ => c).
Proof. intros n c x Lx e E. exists 1. split; [lra|]. intros. rewrite Rminus_diag_eq, Rabs_R0; auto. Qed.
Lemma cts_coord : forall n i, cts n (fun x => vget x i).
Proof.
  intros n i x Lx e E. exists e. split; auto. intros y [Ly C]. destruct (Nat.lt_ge_cases i n); auto. unfold vget. rewrite !nth_overflow by lia. rewrite Rminus_diag_eq, Rabs_R0; auto.
Qed.
Lemma cts_plus : forall n f g, cts n f -> cts n g -> cts n (fun x => f x + g x).
Proof.
  intros n f g F G x Lx e E. destruct (F x Lx (e / 2) ltac:(lra)) as (d1 & D1 & H1). destruct (G x Lx (e / 2) ltac:(lra)) as (d2 & D2 & H2). exists (Rmin d1 d2). split; [apply Rmin_glb_lt; auto|].
  intros y C. specialize (H1 y (close_le _ _ _ _ _ (Rmin_l d1 d2) C)). specialize (H2 y (close_le _ _ _ _ _ (Rmin_r d1 d2) C)). replace (f y + g y - (f x + g x)) with ((f y - f x) + (g y - g x)) by ring. pose proof (Rabs_triang (f y - f x) (g y - g x)). lra.
Qed.
Lemma cts_comp : forall n f (h : R -> R), cts n f -> (forall x, length x = n -> continuity_pt h (f x)) -> cts n (fun x => h (f x)).
Proof.
  intros n f h F C x Lx e E. destruct (C x Lx e E) as (a & A & H). destruct (F x Lx a A) as (d & D & H'). exists d. split; auto. intros y Cy. specialize (H' y Cy).
  destruct (Req_dec (f y) (f x)) as [Q|Q]; [rewrite Q, Rminus_diag_eq, Rabs_R0; auto|]. apply (H (f y)). split; [split; [exact I|auto]|exact H'].
Qed.
Lemma cts_scal : forall n c f, cts n f -> cts n (fun x => c * f x).
Proof. intros n c f F. apply (cts_comp n f (fun t => c * t)); auto. intros. apply continuity_pt_scal. apply derivable_continuous_pt, derivable_pt_id. Qed.
Lemma cts_opp : forall n f, cts n f -> cts n (fun x => - f x).
Proof. intros n f F. apply (cts_comp n f Ropp); auto. intros. apply (continuity_pt_opp id), derivable_continuous_pt, derivable_pt_id. Qed.
Lemma cts_minus : forall n f g, cts n f -> cts n g -> cts n (fun x => f x - g x).
Proof. intros. unfold Rminus. apply cts_plus; auto. apply cts_opp; auto. Qed.
Lemma cts_ext : forall n f g, (forall x, length x = n -> f x = g x) -> cts n f -> cts n g.
Proof. intros n f g H F x Lx e E. destruct (F x Lx e E) as (d & D & H'). exists d. split; auto. intros y C. rewrite <- !H by (auto; apply C). auto. Qed.
Lemma cts_sq : forall n f, cts n f -> cts n (fun x => f x * f x).
Proof. intros n f F. apply (cts_comp n f (fun t => t * t)); auto. intros. apply (continuity_pt_mult id id); apply derivable_continuous_pt, derivable_pt_id. Qed.
Lemma cts_mult : forall n f g, cts n f -> cts n g -> cts n (fun x => f x * g x).
Proof.
  intros n f g F G. apply cts_ext with (fun x => / 4 * ((f x + g x) * (f x + g x)) + - / 4 * ((f x - g x) * (f x - g x))); [intros; field|].
  apply cts_plus; apply cts_scal, cts_sq; [apply cts_plus|apply cts_minus]; auto.
Qed.
Lemma cts_rsum : forall n k (f : nat -> vec -> R), (forall i, (i < k)%nat -> cts n (f i)) -> cts n (fun x => rsum k (fun i => f i x)).
Proof. intros n. induction k as [|k IH]; intros f H; simpl; [apply cts_const|]. apply (cts_plus n (fun x => rsum k (fun i => f i x)) (f k)); [apply IH; intros; apply H; lia|apply H; lia]. Qed.
Lemma cts_dot : forall n p, length p = n -> cts n (fun x => dot p x).
Proof. intros n p Lp. apply cts_ext with (fun x => rsum n (fun i => vget p i * vget x i)); [intros x Lx; rewrite dot_rsum, Lp by lia; auto|]. apply (cts_rsum n n (fun i x => vget p i * vget x i)). intros. apply cts_scal, cts_coord. Qed.
Lemma cts_sqrt : forall n f, cts n f -> (forall x, length x = n -> 0 <= f x) -> cts n (fun x => sqrt (f x)).
Proof. intros n f F P. apply (cts_comp n f sqrt); auto. intros. apply continuity_pt_sqrt; auto. Qed.
Lemma cts_Rmax : forall n f g, cts n f -> cts n g -> cts n (fun x => Rmax (f x) (g x)).
Proof.
  intros n f g F G. apply cts_ext with (fun x => / 2 * (f x + g x + Rabs (f x - g x))).
  - intros x _. unfold Rmax. destruct (Rle_dec (f x) (g x)); [rewrite Rabs_left1 by lra|rewrite Rabs_right by lra]; field.
  - apply cts_scal, cts_plus; [apply cts_plus; auto|]. apply (cts_comp n (fun x => f x - g x) Rabs); [apply cts_minus; auto|]. intros. apply Rcontinuity_abs.
Qed.
(** closed sets *)
Lemma closed_le : forall n f c, cts n f -> closed_set n (fun x => f x <= c).
Proof. intros n f c F x Lx N. destruct (F x Lx (f x - c) ltac:(lra)) as (d & D & H). exists d. split; auto. intros y C Hy. specialize (H y C). apply Rabs_def2 in H. lra. Qed.
Lemma closed_eq : forall n f c, cts n f -> closed_set n (fun x => f x = c).
Proof. intros n f c F x Lx N. destruct (F x Lx (Rabs (f x - c)) ltac:(apply Rabs_pos_lt; lra)) as (d & D & H). exists d. split; auto. intros y C Hy. specialize (H y C). rewrite Hy in H. rewrite Rabs_minus_sym in H. lra. Qed.
Lemma closed_all : forall n (T : Type) (K : T -> vec -> Prop), (forall t, closed_set n (K t)) -> closed_set n (fun x => forall t, K t x).
Proof. intros n T K H x Lx N. apply not_all_ex_not in N. destruct N as [t N]. destruct (H t x Lx N) as (d & D & Hd). exists d. split; auto. intros y C Hy. apply (Hd y C). auto. Qed.
Lemma closed_and : forall n (K1 K2 : vec -> Prop), closed_set n K1 -> closed_set n K2 -> closed_set n (fun x => K1 x /\ K2 x).
Proof.
  intros n K1 K2 H1 H2 x Lx N. apply not_and_or in N. destruct N as [N|N].
  - destruct (H1 x Lx N) as (d & D & Hd). exists d. split; auto. intros y C [Hy _]. apply (Hd y C Hy).
  - destruct (H2 x Lx N) as (d & D & Hd). exists d. split; auto. intros y C [_ Hy]. apply (Hd y C Hy).
Qed.
Lemma closed_imp : forall n (Q : Prop) (K : vec -> Prop), closed_set n K -> closed_set n (fun x => Q -> K x).
Proof. intros n Q K H x Lx N. apply imply_to_and in N. destruct N as [q N]. destruct (H x Lx N) as (d & D & Hd). exists d. split; auto. intros y C Hy. apply (Hd y C (Hy q)). Qed.
