(** Objects without solver options: every missing bound costs one exception (C140). *)
Require Import Reals Lra Lia List Bool Arith.
From Verif Require Import RVec Num DomModel DomMoreModel DomProofs NormProofs PredModel NbModel DemoModel ObjModel.
Import ListNotations.
Local Open Scope R_scope.

(** a bound that is not finite *)
Definition unfin (l : list num) : bool := negb (forallb is_fin l).
(** exceptions still to come: an object without self.kwargs owes one for norm_lb and one for norm_ub, if that bound is infinite somewhere
    and has not been read yet *)
Definition owes (l : list num) (c : option (list num)) : nat := match c with None => if unfin l then 1 else 0 | Some _ => 0 end.
Definition debt1 (o : obj) (st : nst) : nat := if o_kw o then 0 else (owes (o_lb o) (s_lb st) + owes (o_ub o) (s_ub st))%nat.
Definition debt (fs : list (obj * nst)) : nat := list_sum (map (fun p => debt1 (fst p) (snd p)) fs).
(** an object whose solver never reports an empty domain, with as many upper as lower bounds *)
Definition usable (o : obj) : Prop := length (o_ub o) = length (o_lb o) /\ (o_kw o = true -> forall nl nu p, o_cor o nl nu p <> EmptyExc).
(** the factor is not an UnboundedDomain *)
Definition scaled (o : obj) : Prop := o_kind o <> KIdent.

Lemma forallb_eq : forall {A} (f g : A -> bool) l, (forall a, In a l -> f a = g a) -> forallb f l = forallb g l.
Proof. intros A f g l. induction l as [|a l IH]; intro H; [reflexivity|]. cbn [forallb]. rewrite (H a) by (left; auto). rewrite IH; [reflexivity|]. intros b Hb. apply H. right; auto. Qed.
Lemma forallb_seq : forall (f : num -> bool) l k, forallb (fun i => f (nth (i - k) l NaN)) (seq k (length l)) = forallb f l.
Proof.
  intros f l. induction l as [|a l IH]; intro k; [reflexivity|]. cbn [length seq forallb]. rewrite Nat.sub_diag. cbn [nth]. f_equal.
  rewrite <- (IH (S k)). apply forallb_eq. intros i Hi. apply in_seq in Hi. replace (i - k)%nat with (S (i - S k)) by lia. reflexivity.
Qed.
Lemma forallb_seq0 : forall (f : num -> bool) l, forallb (fun i => f (nth i l NaN)) (seq 0 (length l)) = forallb f l.
Proof. intros. rewrite <- (forallb_seq f l 0). apply forallb_eq. intros i _. rewrite Nat.sub_0_r. reflexivity. Qed.

Lemma low_raises : forall l u is nl nu, fst (low_inner l u (fun _ _ _ => EmptyExc) is nl nu) = forallb (fun i => is_fin (nth i l NaN)) is.
Proof.
  intros l u is. induction is as [|i is IH]; intros nl nu; [reflexivity|]. cbn [low_inner forallb]. unfold low_given.
  destruct (nth i l NaN); cbn [is_fin andb low_found fst]; auto.
Qed.
Lemma up_raises : forall l u is nl nu, fst (up_inner l u (fun _ _ _ => EmptyExc) is nl nu) = forallb (fun i => is_fin (nth i u NaN)) is.
Proof.
  intros l u is. induction is as [|i is IH]; intros nl nu; [reflexivity|]. cbn [up_inner forallb]. unfold up_given.
  destruct (nth i u NaN); cbn [is_fin andb up_found fst]; auto.
Qed.

(** with solver options and a solver that never says empty, the bounds are always there *)
Lemma low_inner_there : forall l u cor, (forall nl nu p, cor nl nu p <> EmptyExc) -> forall is nl nu, fst (low_inner l u cor is nl nu) = true.
Proof.
  intros l u cor H is. induction is as [|i is IH]; intros nl nu; [reflexivity|]. cbn [low_inner]. destruct (low_given l u i); [auto|].
  pose proof (H nl nu (vscale (-1) (unitR (length l) i))) as N. destruct (cor nl nu _); cbn [low_found]; auto; try congruence.
Qed.
Lemma up_inner_there : forall l u cor, (forall nl nu p, cor nl nu p <> EmptyExc) -> forall is nl nu, fst (up_inner l u cor is nl nu) = true.
Proof.
  intros l u cor H is. induction is as [|i is IH]; intros nl nu; [reflexivity|]. cbn [up_inner]. destruct (up_given l u i); [auto|].
  pose proof (H nl nu (unitR (length l) i)) as N. destruct (cor nl nu _); cbn [up_found]; auto; try congruence.
Qed.
Lemma low_outer_there : forall l u cor, (forall nl nu p, cor nl nu p <> EmptyExc) -> forall is nl ou, exists st, low_outer l u cor is nl ou = (true, st) /\ s_lb st <> None.
Proof.
  intros l u cor H is. induction is as [|i is IH]; intros nl ou; [exists (mkNst (Some nl) ou); split; [reflexivity|discriminate]|].
  cbn [low_outer]. destruct (low_given l u i); [auto|].
  assert (E : exists nu, match ou with Some nu => (true, nu) | None => up_inner l u cor (seq 0 (length l)) nl (repeat PInf (length l)) end = (true, nu)).
  { destruct ou as [nu|]; [exists nu; reflexivity|]. pose proof (up_inner_there l u cor H (seq 0 (length l)) nl (repeat PInf (length l))) as E.
    destruct (up_inner _ _ _ _ _ _) as [b nu]. cbn in E. subst b. exists nu. reflexivity. }
  destruct E as [nu ->]. pose proof (H nl nu (vscale (-1) (unitR (length l) i))) as N. destruct (cor nl nu _); cbn [low_found]; auto; try congruence.
Qed.
Lemma up_outer_there : forall l u cor, (forall nl nu p, cor nl nu p <> EmptyExc) -> forall is nu ol, exists st, up_outer l u cor is nu ol = (true, st) /\ s_ub st <> None.
Proof.
  intros l u cor H is. induction is as [|i is IH]; intros nu ol; [exists (mkNst ol (Some nu)); split; [reflexivity|discriminate]|].
  cbn [up_outer]. destruct (up_given l u i); [auto|].
  assert (E : exists nl, match ol with Some nl => (true, nl) | None => low_inner l u cor (seq 0 (length l)) (repeat NInf (length l)) nu end = (true, nl)).
  { destruct ol as [nl|]; [exists nl; reflexivity|]. pose proof (low_inner_there l u cor H (seq 0 (length l)) (repeat NInf (length l)) nu) as E.
    destruct (low_inner _ _ _ _ _ _) as [b nl]. cbn in E. subst b. exists nl. reflexivity. }
  destruct E as [nl ->]. pose proof (H nl nu (unitR (length l) i)) as N. destruct (cor nl nu _); cbn [up_found]; auto; try congruence.
Qed.

(** reading one bound: either it raises and a debt of one is paid, or nothing changes in the debt *)
Lemma get_lb_debt : forall o st, usable o ->
  match get_lb o st with
  | (None, st') => S (debt1 o st') = debt1 o st
  | (Some nl, st') => debt1 o st' = debt1 o st /\ (o_kw o = false -> s_lb st' = Some nl /\ s_ub st' = s_ub st)
  end.
Proof.
  intros o st [Le So]. unfold get_lb, debt1. destruct (o_kw o) eqn:K.
  - unfold norm_lb. destruct (s_lb st); [split; [reflexivity|discriminate]|].
    destruct (low_outer_there (o_lb o) (o_ub o) (o_cor o) (So eq_refl) (seq 0 (length (o_lb o))) (repeat NInf (length (o_lb o))) (s_ub st)) as [st' [-> N]].
    destruct (s_lb st'); [split; [reflexivity|discriminate]|congruence].
  - destruct (s_lb st) as [nl|] eqn:E; [rewrite E; split; auto|].
    pose proof (low_raises (o_lb o) (o_ub o) (seq 0 (length (o_lb o))) (repeat NInf (length (o_lb o))) []) as R. rewrite forallb_seq0 in R.
    destruct (low_inner _ _ _ _ _ _) as [ok nl]. cbn [fst] in R. subst ok. unfold owes, unfin. cbn [s_lb s_ub]. destruct (forallb is_fin (o_lb o)); cbn [negb].
    + split; auto.
    + reflexivity.
Qed.
Lemma get_ub_debt : forall o st, usable o ->
  match get_ub o st with
  | (None, st') => S (debt1 o st') = debt1 o st
  | (Some nu, st') => debt1 o st' = debt1 o st /\ (o_kw o = false -> s_ub st' = Some nu /\ s_lb st' = s_lb st)
  end.
Proof.
  intros o st [Le So]. unfold get_ub, debt1. destruct (o_kw o) eqn:K.
  - unfold norm_ub. destruct (s_ub st); [split; [reflexivity|discriminate]|].
    destruct (up_outer_there (o_lb o) (o_ub o) (o_cor o) (So eq_refl) (seq 0 (length (o_lb o))) (repeat PInf (length (o_lb o))) (s_lb st)) as [st' [-> N]].
    destruct (s_ub st'); [split; [reflexivity|discriminate]|congruence].
  - destruct (s_ub st) as [nu|] eqn:E; [rewrite E; split; auto|].
    pose proof (up_raises (o_lb o) (o_ub o) (seq 0 (length (o_lb o))) [] (repeat PInf (length (o_lb o)))) as R. replace (forallb (fun i => is_fin (nth i (o_ub o) NaN)) (seq 0 (length (o_lb o)))) with (forallb is_fin (o_ub o)) in R by (rewrite <- forallb_seq0, Le; reflexivity).
    destruct (up_inner _ _ _ _ _ _) as [ok nu]. cbn [fst] in R. subst ok. unfold owes, unfin. cbn [s_lb s_ub]. destruct (forallb is_fin (o_ub o)); cbn [negb].
    + split; auto.
    + lia.
Qed.

(** once both bounds were read, nothing is owed *)
Definition read (o : obj) (st : nst) : Prop := o_kw o = false -> s_lb st <> None /\ s_ub st <> None.
Lemma read_debt : forall o st, read o st -> debt1 o st = 0%nat.
Proof. intros o st H. unfold debt1. destruct (o_kw o) eqn:K; [reflexivity|]. destruct (H K) as [A B]. destruct (s_lb st), (s_ub st); try congruence. reflexivity. Qed.

Lemma do_der_debt : forall sl o st, usable o ->
  match do_der sl o st with (None, st') => S (debt1 o st') = debt1 o st | (Some _, st') => debt1 o st' = debt1 o st /\ read o st' end.
Proof.
  intros sl o st U. unfold do_der. pose proof (get_ub_debt o st U) as A. destruct (get_ub o st) as [[nu|] st1]; [|exact A].
  destruct A as [A1 A2]. pose proof (get_lb_debt o st1 U) as B. destruct (get_lb o st1) as [[nl|] st2].
  - destruct B as [B1 B2]. split; [congruence|]. intro K. destruct (A2 K) as [E1 E2], (B2 K) as [F1 F2]. split; congruence.
  - congruence.
Qed.
Lemma do_center_debt : forall o st, usable o ->
  match do_center o st with (None, st') => S (debt1 o st') = debt1 o st | (Some _, st') => debt1 o st' = debt1 o st end.
Proof.
  intros o st U. unfold do_center. pose proof (get_lb_debt o st U) as A. destruct (o_kind o); [|reflexivity|];
  (destruct (get_lb o st) as [[nl|] st1]; [|exact A]; destruct A as [A1 A2]; pose proof (get_ub_debt o st1 U) as B; destruct (get_ub o st1) as [[nu|] st2]; [destruct B; congruence|congruence]).
Qed.

Lemma run1_debt : forall o a st, usable o ->
  match run1 o a st with
  | (None, st') => S (debt1 o st') = debt1 o st
  | (Some _, st') => debt1 o st' = debt1 o st /\ (scaled o \/ a = Der -> debt1 o st = 0%nat)
  end.
Proof.
  intros o a st U.
  assert (G : forall sl (F : vec -> vec -> vec),
    match (match do_center o st with (None, st1) => (None, st1) | (Some c, st1) => match do_der sl o st1 with (None, st2) => (None, st2) | (Some s, st2) => (Some (F s c), st2) end end) with
    | (None, st') => S (debt1 o st') = debt1 o st | (Some _, st') => debt1 o st' = debt1 o st /\ debt1 o st = 0%nat end).
  { intros sl F. pose proof (do_center_debt o st U) as A. destruct (do_center o st) as [[c|] st1]; [|exact A].
    pose proof (do_der_debt sl o st1 U) as B. destruct (do_der sl o st1) as [[s|] st2]; [|congruence]. destruct B as [B1 B2]. apply read_debt in B2. split; congruence. }
  destruct a as [x|z|]; cbn [run1].
  - pose proof (G nslopes (fun s c => mv (diag s) (vsub x c))) as H. unfold scaled. destruct (o_kind o); cbv beta in *; try (destruct (match do_center o st with (Some _, _) => _ | _ => _ end) as [[r|] st']; [destruct H; split; auto|auto]).
    split; [reflexivity|]. intros [N|N]; congruence.
  - pose proof (G uslopes (fun s c => vadd (mv (diag s) z) c)) as H. unfold scaled. destruct (o_kind o); cbv beta in *; try (destruct (match do_center o st with (Some _, _) => _ | _ => _ end) as [[r|] st']; [destruct H; split; auto|auto]).
    split; [reflexivity|]. intros [N|N]; congruence.
  - pose proof (do_der_debt uslopes o st U) as B. destruct (do_der uslopes o st) as [[s|] st']; [|exact B]. destruct B as [B1 B2]. apply read_debt in B2. split; [auto|]. intros _. congruence.
Qed.

Lemma runT_debt : forall fs a, Forall (fun p => usable (fst p)) fs ->
  match runT fs a with
  | (None, fs') => S (debt fs') = debt fs
  | (Some _, fs') => debt fs' = debt fs /\ (Forall (fun p => scaled (fst p)) fs \/ a = Der -> debt fs = 0%nat)
  end /\ map fst (snd (runT fs a)) = map fst fs.
Proof.
  induction fs as [|[o st] fs IH]; intros a U; [split; [split; reflexivity|reflexivity]|]. inversion U as [|? ? U1 U2]; subst. cbn [runT].
  pose proof (run1_debt o (op_head (length (o_lb o)) a) st U1) as A. destruct (run1 o _ st) as [[y|] st'].
  - destruct (IH (op_tail (length (o_lb o)) a) U2) as [B Bf]. destruct (runT fs _) as [[r|] fs']; cbn [snd] in *; unfold debt in *; cbn [map list_sum fst snd fold_right] in *.
    + destruct A as [A1 A2], B as [B1 B2]. split; [|f_equal; exact Bf]. split; [unfold list_sum in *; lia|]. intro H.
      assert (H1 : debt1 o st = 0%nat). { apply A2. destruct H as [H|H]; [left; inversion H; auto|right; subst; reflexivity]. }
      assert (H2 : list_sum (map (fun p => debt1 (fst p) (snd p)) fs) = 0%nat). { apply B2. destruct H as [H|H]; [left; inversion H; auto|right; subst; reflexivity]. }
      unfold list_sum in *; lia.
    + destruct A as [A1 A2]. split; [unfold list_sum in *; lia|f_equal; exact Bf].
  - unfold debt; cbn [map fst snd list_sum fold_right]. split; [unfold list_sum; lia|reflexivity].
Qed.

Lemma usable_map : forall fs fs', map fst fs' = map fst fs -> Forall (fun p : obj * nst => usable (fst p)) fs -> Forall (fun p : obj * nst => usable (fst p)) fs'.
Proof. intros fs fs' E H. apply Forall_map with (P := usable). rewrite E. apply Forall_map. exact H. Qed.
Lemma scaled_map : forall fs fs', map fst fs' = map fst fs -> Forall (fun p : obj * nst => scaled (fst p)) fs -> Forall (fun p : obj * nst => scaled (fst p)) fs'.
Proof. intros fs fs' E H. apply Forall_map with (P := scaled). rewrite E. apply Forall_map. exact H. Qed.

Definition raised (r : option vec) : bool := match r with None => true | Some _ => false end.
(** any history: the number of exceptions and the debt left add up to the debt at the start; in particular there are never more exceptions
    than missing bounds *)
Theorem history_debt : forall fs ops, Forall (fun p => usable (fst p)) fs ->
  (length (filter raised (fst (history fs ops))) + debt (snd (history fs ops)) = debt fs)%nat.
Proof.
  intros fs ops. revert fs. induction ops as [|a ops IH]; intros fs U; [reflexivity|]. cbn [history].
  destruct (runT_debt fs a U) as [A F]. destruct (runT fs a) as [r fs1]. cbn [snd] in F.
  specialize (IH fs1 (usable_map _ _ F U)). destruct (history fs1 ops) as [rs fs2]. cbn [fst snd filter] in *.
  destruct r; cbn [raised length]; [destruct A|]; cbn [length]; lia.
Qed.

(** products without an UnboundedDomain, or histories of derivatives only: exactly the first [debt] operations raise, whatever they are *)
Theorem history_exact : forall fs ops i a, Forall (fun p => usable (fst p)) fs -> Forall (fun p => scaled (fst p)) fs \/ Forall (fun b => b = Der) ops ->
  nth_error ops i = Some a -> (nth_error (fst (history fs ops)) i = Some None <-> (i < debt fs)%nat).
Proof.
  intros fs ops. revert fs. induction ops as [|b ops IH]; intros fs i a U S Hi; [destruct i; discriminate|]. cbn [history].
  destruct (runT_debt fs b U) as [A F]. destruct (runT fs b) as [r fs1]. cbn [snd] in F.
  assert (S1 : Forall (fun p => scaled (fst p)) fs \/ b = Der) by (destruct S as [S|S]; [left; auto|right; inversion S; auto]).
  assert (S2 : Forall (fun p => scaled (fst p)) fs1 \/ Forall (fun b => b = Der) ops) by (destruct S as [S|S]; [left; apply (scaled_map fs); auto|right; inversion S; auto]).
  pose proof (IH fs1) as IH1. destruct (history fs1 ops) as [rs fs2] eqn:E. cbn [fst] in *.
  destruct i as [|i]; cbn [nth_error] in *.
  - destruct r as [y|]; [|split; [lia|reflexivity]]. destruct A as [_ A]. rewrite (A S1). split; [discriminate|lia].
  - specialize (IH1 i a (usable_map _ _ F U) S2 Hi). destruct r as [y|].
    + destruct A as [A1 A2]. rewrite A1 in IH1. rewrite (A2 S1) in *. rewrite IH1. lia.
    + rewrite IH1. lia.
Qed.

(** what a factor computes from given bounds *)
Definition value1 (o : obj) (nl nu : list num) (a : op) : vec :=
  let c := match o_kind o with KMean c => c | _ => center nl nu end in
  match a with
  | Der => uslopes nl nu
  | Nrm x => match o_kind o with KIdent => x | _ => mv (diag (nslopes nl nu)) (vsub x c) end
  | Unn z => match o_kind o with KIdent => z | _ => vadd (mv (diag (uslopes nl nu)) z) c end
  end.
Fixpoint valueT (fs : list (obj * (list num * list num))) (a : op) : vec :=
  match fs with
  | [] => []
  | (o, (nl, nu)) :: fs' => value1 o nl nu (op_head (length (o_lb o)) a) ++ valueT fs' (op_tail (length (o_lb o)) a)
  end.
Definition keep (p : obj * (list num * list num)) : obj * nst := (fst p, mkNst (Some (fst (snd p))) (Some (snd (snd p)))).

Lemma run1_value : forall o nl nu a, run1 o a (mkNst (Some nl) (Some nu)) = (Some (value1 o nl nu a), mkNst (Some nl) (Some nu)).
Proof.
  intros o nl nu a. assert (L : get_lb o (mkNst (Some nl) (Some nu)) = (Some nl, mkNst (Some nl) (Some nu))) by (unfold get_lb; destruct (o_kw o); reflexivity).
  assert (U : get_ub o (mkNst (Some nl) (Some nu)) = (Some nu, mkNst (Some nl) (Some nu))) by (unfold get_ub; destruct (o_kw o); reflexivity).
  destruct a; unfold run1, value1, do_center, do_der; destruct (o_kind o); cbv beta; rewrite ?L; rewrite ?U; rewrite ?U; rewrite ?L; try reflexivity.
Qed.
Lemma runT_value : forall fs a, runT (map keep fs) a = (Some (valueT fs a), map keep fs).
Proof.
  induction fs as [|[o [nl nu]] fs IH]; intro a; [reflexivity|]. cbn [map keep fst snd runT valueT]. rewrite run1_value, IH. reflexivity.
Qed.
(** an operation that returns has read and stored all the bounds *)
Lemma low_outer_ub : forall l u cor is nl ou st, low_outer l u cor is nl ou = (true, st) -> ou <> None -> s_ub st <> None.
Proof.
  intros l u cor is. induction is as [|i is IH]; intros nl ou st E H; cbn [low_outer] in E; [inversion E; auto|].
  destruct (low_given l u i); [eapply IH; eauto|]. destruct (match ou with Some nu => (true, nu) | None => _ end) as [b nu]. destruct b; [|discriminate].
  destruct (low_found _ i); [eapply IH; [eauto|discriminate]|discriminate].
Qed.
Lemma up_outer_lb : forall l u cor is nu ol st, up_outer l u cor is nu ol = (true, st) -> ol <> None -> s_lb st <> None.
Proof.
  intros l u cor is. induction is as [|i is IH]; intros nu ol st E H; cbn [up_outer] in E; [inversion E; auto|].
  destruct (up_given l u i); [eapply IH; eauto|]. destruct (match ol with Some nl => (true, nl) | None => _ end) as [b nl]. destruct b; [|discriminate].
  destruct (up_found _ i); [eapply IH; [eauto|discriminate]|discriminate].
Qed.
Lemma get_lb_keeps : forall o st nl st', get_lb o st = (Some nl, st') -> s_lb st' <> None /\ (s_ub st <> None -> s_ub st' <> None).
Proof.
  intros o st nl st'. unfold get_lb. destruct (o_kw o).
  - unfold norm_lb. destruct (s_lb st) eqn:E; [intro H; inversion H; subst; split; [congruence|auto]|].
    destruct (low_outer _ _ _ _ _ _) as [ok s] eqn:F. destruct ok; intro H; inversion H; subst. split; [congruence|]. intro N. eapply low_outer_ub; eauto.
  - destruct (s_lb st) eqn:E; [intro H; inversion H; subst; split; [congruence|auto]|].
    destruct (low_inner _ _ _ _ _ _) as [ok s] eqn:F. destruct ok; intro H; inversion H; subst. cbn. split; [congruence|auto].
Qed.
Lemma get_ub_keeps : forall o st nu st', get_ub o st = (Some nu, st') -> s_ub st' <> None /\ (s_lb st <> None -> s_lb st' <> None).
Proof.
  intros o st nu st'. unfold get_ub. destruct (o_kw o).
  - unfold norm_ub. destruct (s_ub st) eqn:E; [intro H; inversion H; subst; split; [congruence|auto]|].
    destruct (up_outer _ _ _ _ _ _) as [ok s] eqn:F. destruct ok; intro H; inversion H; subst. split; [congruence|]. intro N. eapply up_outer_lb; eauto.
  - destruct (s_ub st) eqn:E; [intro H; inversion H; subst; split; [congruence|auto]|].
    destruct (up_inner _ _ _ _ _ _) as [ok s] eqn:F. destruct ok; intro H; inversion H; subst. cbn. split; [congruence|auto].
Qed.
Lemma do_der_keeps : forall sl o st s st', do_der sl o st = (Some s, st') -> exists nl nu, st' = mkNst (Some nl) (Some nu).
Proof.
  intros sl o st s st'. unfold do_der. destruct (get_ub o st) as [[nu|] s1] eqn:A; [|discriminate]. destruct (get_lb o s1) as [[nl|] s2] eqn:B; [|discriminate].
  intro H. inversion H; subst. destruct (get_ub_keeps _ _ _ _ A) as [A1 _]. destruct (get_lb_keeps _ _ _ _ B) as [B1 B2]. specialize (B2 A1).
  destruct st' as [[x|] [y|]]; cbn in *; try congruence. exists x, y. reflexivity.
Qed.
Lemma run1_keeps : forall o a st y st', run1 o a st = (Some y, st') -> scaled o \/ a = Der -> exists nl nu, st' = mkNst (Some nl) (Some nu).
Proof.
  intros o a st y st' E S. destruct a as [x|z|]; cbn [run1] in E.
  - assert (G : forall F : vec -> vec -> vec, match do_center o st with (None, st1) => (None, st1) | (Some c, st1) => match do_der nslopes o st1 with (None, st2) => (None, st2) | (Some s, st2) => (Some (F s c), st2) end end = (Some y, st') -> exists nl nu, st' = mkNst (Some nl) (Some nu)).
    { intros F H. destruct (do_center o st) as [[c|] s1]; [|discriminate]. destruct (do_der nslopes o s1) as [[s|] s2] eqn:D; [|discriminate]. inversion H; subst. eapply do_der_keeps; eauto. }
    unfold scaled in S. destruct (o_kind o); try (eapply (G (fun s c => mv (diag s) (vsub x c))); exact E). destruct S; congruence.
  - assert (G : forall F : vec -> vec -> vec, match do_center o st with (None, st1) => (None, st1) | (Some c, st1) => match do_der uslopes o st1 with (None, st2) => (None, st2) | (Some s, st2) => (Some (F s c), st2) end end = (Some y, st') -> exists nl nu, st' = mkNst (Some nl) (Some nu)).
    { intros F H. destruct (do_center o st) as [[c|] s1]; [|discriminate]. destruct (do_der uslopes o s1) as [[s|] s2] eqn:D; [|discriminate]. inversion H; subst. eapply do_der_keeps; eauto. }
    unfold scaled in S. destruct (o_kind o); try (eapply (G (fun s c => vadd (mv (diag s) z) c)); exact E). destruct S; congruence.
  - eapply do_der_keeps; eauto.
Qed.
(** after the first operation that returns, all later operations return and are functions of the bounds then stored, which do not change *)
Theorem settled : forall fs a y fs', Forall (fun p => scaled (fst p)) fs \/ a = Der -> runT fs a = (Some y, fs') ->
  exists gs, fs' = map keep gs /\ map fst gs = map fst fs /\ forall b, runT fs' b = (Some (valueT gs b), fs').
Proof.
  intros fs a y fs' S E.
  assert (G : exists gs, fs' = map keep gs /\ map fst gs = map fst fs).
  { revert a y fs' S E. induction fs as [|[o st] fs IH]; intros a y fs' S E; cbn [runT] in E; [inversion E; exists []; auto|].
    destruct (run1 o _ st) as [[v|] st'] eqn:R; [|discriminate]. destruct (runT fs _) as [[r|] fs''] eqn:T; [|discriminate]. inversion E; subst.
    destruct (IH (op_tail (length (o_lb o)) a) r fs'') as [gs [E1 E2]]; [destruct S as [S|S]; [left; inversion S; auto|right; subst; reflexivity]|auto|].
    destruct (run1_keeps o _ _ _ _ R) as [nl [nu E3]]; [destruct S as [S|S]; [left; inversion S; auto|right; subst; reflexivity]|].
    exists ((o, (nl, nu)) :: gs). cbn [map keep fst snd]. rewrite E1, E2, E3. auto. }
  destruct G as [gs [E1 E2]]. exists gs. split; [auto|split; [auto|]]. intro b. rewrite E1. apply runT_value.
Qed.
