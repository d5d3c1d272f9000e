(** Which methods of a class derived from BaseFunction return (C141). *)
Require Import List Bool Arith Lia String.
From Verif Require Import DispModel.
Import ListNotations.

Section D.
  Variables X V G K : Type.
  Variable k0 : K.
  Notation methods := (methods X V G K).
  Notation meth := (meth K).
  Notation run := (run X V G K k0).

  (** overridden or not *)
  Definition has {A} (o : option A) : bool := match o with Some _ => true | None => false end.
  (** the methods that return, in terms of what is overridden *)
  Definition answers (c : methods) (m : meth) : bool :=
    has (m_call c) ||
    match m with
    | MEval _ => has (m_eval c)
    | MGrad => has (m_grad c)
    | MCall b _ => has (m_eval c) && (negb b || has (m_grad c))
    end.
  (** overriding methods that return a value, and a pair whenever the gradient is asked for *)
  Definition total (c : methods) : Prop :=
    (forall f x k, m_eval c = Some f -> exists v, f x k = Val v) /\ (forall f x, m_grad c = Some f -> exists g, f x = Val g) /\
    (forall f x b k, m_call c = Some f -> exists v g, f x b k = Val (v, g) /\ (b = true -> g <> None)).

  (** three nested calls are enough *)
  Theorem answers_returns : forall c m x n, total c -> answers c m = true -> (3 <= n)%nat -> exists r, run n c m x = Val r /\ run 3 c m x = Val r.
  Proof.
    intros c m x n [TE [TG TC]] A H. do 3 (destruct n as [|n]; [lia|]). destruct c as [e g ca]. cbn [m_eval m_grad m_call] in *. unfold answers in A. cbn [m_eval m_grad m_call] in A.
    destruct m as [k| |b k].
    - destruct e as [f|].
      + destruct (TE f x k eq_refl) as [v E]. exists (RV v). cbn. rewrite E. auto.
      + destruct ca as [f|]; [|discriminate]. destruct (TC f x false k0 eq_refl) as [v [o [E _]]]. cbn. rewrite E. destruct o; eexists; split; reflexivity.
    - destruct g as [f|].
      + destruct (TG f x eq_refl) as [v E]. exists (RG v). cbn. rewrite E. auto.
      + destruct ca as [f|]; [|discriminate]. destruct (TC f x true k0 eq_refl) as [v [o [E N]]]. cbn. rewrite E. destruct o; [eexists; split; reflexivity|]. destruct (N eq_refl eq_refl).
    - destruct ca as [f|].
      + destruct (TC f x b k eq_refl) as [v [o [E N]]]. cbn. rewrite E. destruct o; eexists; split; reflexivity.
      + cbn in A. destruct e as [f|]; [|destruct b; discriminate]. destruct (TE f x k eq_refl) as [v E]. destruct b.
        * destruct g as [h|]; [|discriminate]. destruct (TG h x eq_refl) as [w F]. exists (RB v w). cbn. rewrite E, F. auto.
        * exists (RV v). cbn. rewrite E. auto.
  Qed.
  (** all the others exceed every recursion limit *)
  Theorem others_recurse : forall c m x n, total c -> answers c m = false -> run n c m x = Deep.
  Proof.
    intros c m x n T. revert m. destruct c as [e g ca]. destruct T as [TE [TG TC]]. cbn [m_eval m_grad m_call] in *.
    induction n as [|n IH]; intros m A; [reflexivity|]. unfold answers in *. cbn [m_eval m_grad m_call] in *. destruct m as [k| |b k].
    - destruct e as [f|]; [destruct (has ca); discriminate|]. destruct ca as [f|]; [discriminate|]. cbn [DispModel.run m_eval m_call]. apply IH. reflexivity.
    - destruct g as [f|]; [destruct (has ca); discriminate|]. destruct ca as [f|]; [discriminate|]. cbn [DispModel.run m_grad m_call]. rewrite IH; [reflexivity|]. destruct e; reflexivity.
    - destruct ca as [f|]; [destruct b; discriminate|]. cbn [DispModel.run m_call]. destruct b.
      + destruct e as [f|].
        * destruct g as [h|]; [discriminate|]. destruct (TE f x k eq_refl) as [v E]. rewrite (IH MGrad); [|reflexivity]. destruct n as [|n]; [reflexivity|]. cbn [DispModel.run m_eval]. rewrite E. reflexivity.
        * rewrite IH; reflexivity.
      + destruct e as [f|]; [discriminate|]. apply IH. reflexivity.
  Qed.
  (** overriding eval and grad: __call__ is the pair of the two, with the keyword arguments passed to eval *)
  Theorem call_pairs : forall fe fg x k v g n, fe x k = Val v -> fg x = Val g -> (2 <= n)%nat ->
    let c : methods := mkM (Some fe) (Some fg) None in
    run n c (MCall true k) x = Val (RB v g) /\ run n c (MCall false k) x = Val (RV v) /\ run n c (MEval k) x = Val (RV v) /\ run n c MGrad x = Val (RG g).
  Proof. intros fe fg x k v g n E F H c. do 2 (destruct n as [|n]; [lia|]). cbn. rewrite E, F. auto. Qed.
  (** overriding only __call__: eval and grad are its two halves, but the keyword arguments of eval are lost *)
  Theorem call_only : forall fc x k v g n, fc x true k0 = Val (v, Some g) -> fc x false k0 = Val (v, None) -> (2 <= n)%nat ->
    let c : methods := mkM None None (Some fc) in run n c (MEval k) x = Val (RV v) /\ run n c MGrad x = Val (RG g).
  Proof. intros fc x k v g n E F H c. do 2 (destruct n as [|n]; [lia|]). cbn. rewrite E, F. auto. Qed.
End D.
(** the same for all types of points, values, gradients and keyword arguments *)
Theorem dispatch_returns : forall X V G K (k0 : K) (c : methods X V G K) m x n, total X V G K c -> answers X V G K c m = true -> (3 <= n)%nat ->
  exists r, run X V G K k0 n c m x = Val r /\ run X V G K k0 3 c m x = Val r.
Proof. exact answers_returns. Qed.
Theorem dispatch_recurses : forall X V G K (k0 : K) (c : methods X V G K) m x n, total X V G K c -> answers X V G K c m = false -> run X V G K k0 n c m x = Deep.
Proof. exact others_recurse. Qed.
Theorem dispatch_pairs : forall X V G K (k0 : K) (fe : X -> K -> out V) (fg : X -> out G) x k v g n, fe x k = Val v -> fg x = Val g -> (2 <= n)%nat ->
  let c := mkM (Some fe) (Some fg) None in
  run X V G K k0 n c (MCall true k) x = Val (RB v g) /\ run X V G K k0 n c (MCall false k) x = Val (RV v) /\
  run X V G K k0 n c (MEval k) x = Val (RV v) /\ run X V G K k0 n c MGrad x = Val (RG g).
Proof. exact call_pairs. Qed.
Theorem dispatch_predict : forall X V G K (k0 : K) (fe : X -> K -> out V) fg x v n, fe x k0 = Val v -> (3 <= n)%nat -> predict X V G K k0 n (mkM (Some fe) fg None) x = Val (RV v).
Proof. intros X V G K k0 fe fg x v n E H. do 3 (destruct n as [|n]; [lia|]). cbn. rewrite E. reflexivity. Qed.
Theorem dispatch_call_only : forall X V G K (k0 : K) (fc : X -> bool -> K -> out (V * option G)) x k v g n, fc x true k0 = Val (v, Some g) -> fc x false k0 = Val (v, None) -> (2 <= n)%nat ->
  let c := mkM None None (Some fc) in run X V G K k0 n c (MEval k) x = Val (RV v) /\ run X V G K k0 n c MGrad x = Val (RG g).
Proof. exact call_only. Qed.
Theorem eval_keywords_refuted : exists (fc : nat -> bool -> nat -> out (nat * option nat)) x k, let c : methods nat nat nat nat := mkM None None (Some fc) in
  forall n, (2 <= n)%nat -> run nat nat nat nat 0%nat n c (MCall false k) x <> run nat nat nat nat 0%nat n c (MEval k) x.
Proof.
  exists (fun (x : nat) (b : bool) (k : nat) => Val (x + k, if b then Some 1 else None)%nat), 5%nat, 2%nat. intros c n H. do 2 (destruct n as [|n]; [lia|]). cbn. discriminate.
Qed.

(** the classes of the package *)
Local Open Scope string_scope.
Definition methods_seen : list (name * (bool * bool * bool)) :=
  map (fun d => (c_name d, (own psdr_classes c_eval (c_name d), own psdr_classes c_grad (c_name d), own psdr_classes c_call (c_name d))))
      (filter (fun d => is_function psdr_classes (c_name d) && negb (String.eqb (c_name d) "BaseFunction")) psdr_classes).
Lemma methods_found : methods_seen =
  [("Function", (true, true, true)); ("RidgeFunction", (false, false, false)); ("PolynomialFunction", (true, true, false)); ("PolynomialApproximation", (true, true, false));
   ("PolynomialRidgeFunction", (true, true, false)); ("PolynomialRidgeApproximation", (true, true, false)); ("GaussianProcess", (true, false, false));
   ("LowerBound", (true, true, false)); ("UpperBound", (true, true, false)); ("LipschitzApproximation", (true, false, false))].
Proof. vm_compute. reflexivity. Qed.
Definition is_grad {K} (m : meth K) : bool := match m with MGrad => true | MCall b _ => b | MEval _ => false end.

(** every class of the package that is a function: values and gradients are returned, apart from the gradients of GaussianProcess and
    LipschitzApproximation and everything of RidgeFunction, which recurse without end *)
Theorem classes_return : forall X V G K (k0 : K) fe fg fc c m x, In c (map fst methods_seen) -> total X V G K (methods_of psdr_classes c fe fg fc) ->
  let recurses := String.eqb c "RidgeFunction"%string || (String.eqb c "GaussianProcess"%string || String.eqb c "LipschitzApproximation"%string) && is_grad m in
  if recurses then forall n, run X V G K k0 n (methods_of psdr_classes c fe fg fc) m x = Deep
  else exists r, forall n, (3 <= n)%nat -> run X V G K k0 n (methods_of psdr_classes c fe fg fc) m x = Val r.
Proof.
  intros X V G K k0 fe fg fc c m x I T recurses.
  assert (B : forall m, answers X V G K (methods_of psdr_classes c fe fg fc) m = negb (String.eqb c "RidgeFunction" || (String.eqb c "GaussianProcess" || String.eqb c "LipschitzApproximation") && is_grad m)).
  { clear T m x recurses. intro m. rewrite methods_found in I. cbn [map fst In] in I.
    repeat (destruct I as [<-|I]; [destruct m as [k| |b k]; try (vm_compute; reflexivity); destruct b; vm_compute; reflexivity|]). destruct I. }
  specialize (B m). fold recurses in B. destruct recurses; cbn [negb] in B.
  - intro n. apply others_recurse; auto.
  - destruct (answers_returns X V G K k0 _ m x 3 T B (le_n 3)) as [r [_ R]]. exists r. intros n H.
    destruct (answers_returns X V G K k0 _ m x n T B H) as [r' [E1 E2]]. congruence.
Qed.
(** a fitted process gives values but no gradient *)
Definition squares (c : name) : methods nat nat nat nat :=
  methods_of psdr_classes c (fun x k : nat => Val (x * x + k)%nat) (fun x : nat => Val (2 * x)%nat) (fun (x : nat) (b : bool) (k : nat) => Val (x, if b then Some 0%nat else None)).
Lemma squares_total : forall c, total nat nat nat nat (squares c).
Proof.
  intro c. unfold squares, methods_of. split; [|split]; cbn [m_eval m_grad m_call].
  - intros f x k H. destruct (own psdr_classes c_eval c); inversion H. eauto.
  - intros f x H. destruct (own psdr_classes c_grad c); inversion H. eauto.
  - intros f x b k H. destruct (own psdr_classes c_call c); inversion H. do 2 eexists. split; [reflexivity|]. intro B. rewrite B. discriminate.
Qed.
Example gp_case : total nat nat nat nat (squares "GaussianProcess"%string) /\ run nat nat nat nat 0%nat 100 (squares "GaussianProcess"%string) (MCall false 0%nat) 3%nat = Val (RV 9%nat) /\
  (forall n, run nat nat nat nat 0%nat n (squares "GaussianProcess"%string) MGrad 3%nat = Deep).
Proof.
  split; [apply squares_total|]. split; [vm_compute; reflexivity|]. intro n. apply others_recurse; [apply squares_total|vm_compute; reflexivity].
Qed.
Example pair_case : run nat nat nat nat 0%nat 9 (mkM (Some (fun x k => Val (x * x + k)%nat)) (Some (fun x => Val (2 * x)%nat)) None) (MCall true 4%nat) 3%nat = Val (RB 13%nat 6%nat).
Proof. reflexivity. Qed.
(** not every function of the package has gradients *)
Theorem gradient_refuted : exists c, In c (map fst methods_seen) /\ own psdr_classes c_eval c = true /\ forall n x, run nat nat nat nat 0%nat n (squares c) MGrad x = Deep.
Proof.
  exists "LipschitzApproximation". split; [rewrite methods_found; cbn; tauto|]. split; [vm_compute; reflexivity|]. intros n x. apply others_recurse; [apply squares_total|vm_compute; reflexivity].
Qed.

(** * The order in which classes are searched *)
(** l is a subsequence of r *)
Inductive subseq {A : Type} : list A -> list A -> Prop :=
| ss_nil : forall r, subseq [] r
| ss_take : forall a l r, subseq l r -> subseq (a :: l) (a :: r)
| ss_skip : forall a l r, subseq l r -> subseq l (a :: r).
Lemma subseq_refl : forall (A : Type) (l : list A), subseq l l.
Proof. induction l; [apply ss_nil|apply ss_take; auto]. Qed.
Lemma subseq_in : forall (A : Type) (l r : list A) a, subseq l r -> In a l -> In a r.
Proof. intros A l r a S. induction S; intros I; [destruct I| |right; auto]. destruct I as [->|I]; [left; auto|right; auto]. Qed.
Lemma in_tail_spec : forall c a r, in_tail c (a :: r) = true <-> In c r.
Proof. intros. cbn [in_tail]. rewrite existsb_exists. split; [intros [x [I E]]; apply String.eqb_eq in E; subst; auto|intro I; exists c; split; auto; apply String.eqb_refl]. Qed.
Lemma pick_spec : forall ls all h, pick ls all = Some h -> (exists l, In (h :: l) ls) /\ forall l, In l all -> in_tail h l = false.
Proof.
  induction ls as [|l ls IH]; intros all h E; [discriminate|]. cbn [pick] in E. destruct l as [|a l].
  - destruct (IH _ _ E) as [[k I] H]. split; [exists k; right; auto|auto].
  - destruct (existsb (in_tail a) all) eqn:Q; [destruct (IH _ _ E) as [[k I] H]; split; [exists k; right; auto|auto]|].
    injection E as <-. split; [exists l; left; auto|]. intros k I. destruct (in_tail a k) eqn:T; auto. assert (existsb (in_tail a) all = true) by (apply existsb_exists; eauto). congruence.
Qed.
Lemma drop_head_in : forall h l x, In x (drop_head h l) -> In x l.
Proof. intros h [|a l] x I; [destruct I|]. cbn [drop_head] in I. destruct (String.eqb a h); [right|]; auto. Qed.
Lemma drop_head_gone : forall h l, in_tail h l = false -> ~ In h (drop_head h l).
Proof.
  intros h [|a l] T I; [destruct I|]. cbn [drop_head] in I. assert (N : ~ In h l) by (intro J; apply (in_tail_spec h a l) in J; congruence).
  destruct (String.eqb a h) eqn:E; [auto|]. destruct I as [->|I]; [rewrite String.eqb_refl in E; discriminate|auto].
Qed.
Lemma drop_head_nodup : forall h l, NoDup l -> NoDup (drop_head h l).
Proof. intros h [|a l] N; [constructor|]. cbn [drop_head]. destruct (String.eqb a h); auto. inversion N; auto. Qed.
(** the merge keeps the order of every list and repeats nothing *)
Theorem merge_order : forall fuel ls r, merge3 fuel ls = Some r ->
  NoDup r /\ (forall x, In x r <-> exists l, In l ls /\ In x l) /\ forall l, In l ls -> subseq l r.
Proof.
  induction fuel as [|f IH]; intros ls r E; [discriminate|]. cbn [merge3] in E. destruct (forallb _ ls) eqn:Q.
  - injection E as <-. rewrite forallb_forall in Q. assert (Z : forall l, In l ls -> l = []) by (intros l I; specialize (Q l I); destruct l; [auto|discriminate]).
    split; [constructor|]. split; [|intros l I; rewrite (Z l I); apply ss_nil]. intro x. split; [intros []|]. intros [l [I J]]. rewrite (Z l I) in J. destruct J.
  - destruct (pick ls ls) as [h|] eqn:P; [|discriminate]. destruct (merge3 f _) as [r'|] eqn:M; [|discriminate]. injection E as <-.
    destruct (pick_spec _ _ _ P) as [[l0 I0] T]. destruct (IH _ _ M) as [N [EL S]]. clear IH.
    assert (NH : ~ In h r'). { intro I. apply EL in I. destruct I as [l [I J]]. apply in_map_iff in I. destruct I as [k [<- I]]. apply (drop_head_gone h k); auto. }
    split; [constructor; auto|]. split.
    + intro x. split.
      * intros [<-|I]; [exists (h :: l0); split; [auto|left; auto]|]. apply EL in I. destruct I as [l [I J]]. apply in_map_iff in I. destruct I as [k [<- I]]. exists k. split; auto. apply drop_head_in in J. auto.
      * intros [l [I J]]. destruct (String.eqb h x) eqn:Hx; [left; apply String.eqb_eq; auto|right]. apply EL. exists (drop_head h l). split; [apply in_map; auto|]. destruct l as [|a l]; [destruct J|]. cbn [drop_head].
        destruct (String.eqb a h) eqn:Ha; auto. destruct J as [->|J]; auto. rewrite String.eqb_sym in Ha. congruence.
    + intros l I. pose proof (S (drop_head h l) (in_map _ _ _ I)) as Sl. destruct l as [|a l]; [apply ss_nil|]. cbn [drop_head] in Sl. destruct (String.eqb a h) eqn:Ha.
      * apply String.eqb_eq in Ha. subst. apply ss_take; auto.
      * apply ss_skip; auto.
Qed.
Lemma all_some_in : forall (A B : Type) (g : A -> option B) l s, all_some (map g l) = Some s -> (forall a, In a l -> exists b, g a = Some b /\ In b s) /\ (forall b, In b s -> exists a, In a l /\ g a = Some b).
Proof.
  induction l as [|a l IH]; intros s E; cbn [map all_some] in E; [injection E as <-; split; intros x []|]. destruct (g a) as [b|] eqn:G; [|discriminate]. destruct (all_some (map g l)) as [s'|] eqn:S; [|discriminate]. injection E as <-.
  destruct (IH _ eq_refl) as [H1 H2]. split.
  - intros x [<-|I]; [exists b; split; auto; left; auto|]. destruct (H1 x I) as [y [Gy Iy]]. exists y. split; auto. right; auto.
  - intros y [<-|I]; [exists a; split; auto; left; auto|]. destruct (H2 y I) as [x [Ix Gx]]. exists x. split; auto. right; auto.
Qed.
(** the search order of a class: the class, then, in an order that agrees with the search order of each base and with the order of the bases, every class found from a base; none twice *)
Lemma mro_S : forall f t c ms, mro (S f) t c = Some ms -> exists d r, find_cls t c = Some d /\ ms = c :: r /\ NoDup r /\ subseq (c_bases d) r /\
  (forall b, In b (c_bases d) -> exists mb, mro f t b = Some mb /\ subseq mb r) /\ (forall x, In x r -> exists b mb, In b (c_bases d) /\ mro f t b = Some mb /\ (x = b \/ In x mb)).
Proof.
  intros f t c ms E. cbn [mro] in E. destruct (find_cls t c) as [d|]; [|discriminate]. destruct (all_some _) as [ls|] eqn:A; [|discriminate]. destruct (merge3 40 _) as [r|] eqn:M; [|discriminate]. injection E as <-.
  destruct (merge_order _ _ _ M) as [N [EL S]]. destruct (all_some_in _ _ _ _ _ A) as [A1 A2]. exists d, r. split; auto. split; auto. split; auto. split; [apply S; apply in_or_app; right; left; auto|]. split.
  - intros b Ib. destruct (A1 b Ib) as [mb [E1 E2]]. exists mb. split; auto. apply S. apply in_or_app. left. auto.
  - intros x Ix. apply EL in Ix. destruct Ix as [l [Il Jx]]. apply in_app_or in Il. destruct Il as [Il|[<-|[]]].
    + destruct (A2 l Il) as [b [Ib E1]]. exists b, l. auto.
    + destruct (A1 x Jx) as [mb [E1 _]]. exists x, mb. auto.
Qed.
Lemma mro_self : forall f t c ms, mro f t c = Some ms -> exists r, ms = c :: r.
Proof. intros [|f] t c ms E; [discriminate|]. destruct (mro_S _ _ _ _ E) as [d [r [_ [-> _]]]]. eauto. Qed.
(** a class reached from c below the top is found with less fuel *)
Lemma mro_down : forall f t c ms x, mro f t c = Some ms -> In x ms -> exists g mx, (g <= f)%nat /\ mro g t x = Some mx /\ (x <> c -> (g < f)%nat).
Proof.
  induction f as [|f IH]; intros t c ms x E I; [discriminate|]. destruct (mro_S _ _ _ _ E) as [d [r [_ [-> [_ [_ [_ H]]]]]]]. destruct I as [<-|I]; [exists (S f), (c :: r); split; auto; split; [auto|congruence]|].
  destruct (H x I) as [b [mb [_ [Eb [->|Ib]]]]]; [exists f, mb; split; [lia|split; [auto|lia]]|]. destruct (IH _ _ _ _ Eb Ib) as [g [mx [Hg [Em _]]]]. exists g, mx. split; [lia|split; [auto|lia]].
Qed.
Lemma mro_top : forall f t c ms r, mro f t c = Some ms -> ms = c :: r -> ~ In c r.
Proof.
  induction f as [f IH] using lt_wf_ind. intros t c ms r E -> I. destruct f as [|f]; [discriminate|]. destruct (mro_S _ _ _ _ E) as [d [r' [_ [Er [_ [_ [_ H]]]]]]]. injection Er as <-.
  assert (exists g mc, (g < S f)%nat /\ mro g t c = Some mc) as [g [mc [Hg Ec]]].
  { destruct (H c I) as [b [mb [_ [Eb [->|Ib]]]]]; [exists f, mb; split; auto|]. destruct (mro_down _ _ _ _ _ Eb Ib) as [g [mc [Hg [Ec _]]]]. exists g, mc. split; [lia|auto]. }
  assert (C : forall g mc, mro g t c = Some mc -> exists g' mc', (g' < g)%nat /\ mro g' t c = Some mc').
  { intros k mk Ek. destruct k as [|k]; [discriminate|]. destruct (mro_S _ _ _ _ Ek) as [d' [rk [_ [-> [_ [_ [Hb Hk]]]]]]].
    destruct (mro_S _ _ _ _ E) as [d0 [r0 [Fd [Er0 [_ [_ [_ H0]]]]]]]. destruct (mro_S _ _ _ _ Ek) as [d1 [r1 [Fd1 [_ [_ [_ [Hb1 _]]]]]]]. rewrite Fd in Fd1. injection Fd1 as <-.
    injection Er0 as <-. destruct (H0 c I) as [b [mb [Ib [Eb J]]]]. destruct (Hb1 b Ib) as [mb' [Eb' _]].
    destruct J as [->|J]; [exists k, mb'; split; auto|].
    (* the search order does not depend on the fuel *)
    assert (D : forall p q x mp mq, mro p t x = Some mp -> mro q t x = Some mq -> mp = mq).
    { clear. induction p as [|p IHp]; intros q x mp mq E1 E2; [discriminate|]. destruct q as [|q]; [discriminate|]. cbn [mro] in E1, E2. destruct (find_cls t x) as [d|]; [|discriminate].
      destruct (all_some (map (mro p t) (c_bases d))) as [l1|] eqn:A1; [|discriminate]. destruct (all_some (map (mro q t) (c_bases d))) as [l2|] eqn:A2; [|discriminate].
      assert (L : l1 = l2). { clear E1 E2. revert l1 l2 A1 A2. induction (c_bases d) as [|b bs IHb]; intros l1 l2 A1 A2; cbn [map all_some] in A1, A2; [congruence|].
        destruct (mro p t b) as [m1|] eqn:M1; [|discriminate]. destruct (mro q t b) as [m2|] eqn:M2; [|discriminate]. destruct (all_some (map (mro p t) bs)) as [s1|]; [|discriminate]. destruct (all_some (map (mro q t) bs)) as [s2|]; [|discriminate].
        injection A1 as <-. injection A2 as <-. f_equal; [eapply IHp; eauto|apply IHb; auto]. }
      subst. congruence. }
    rewrite (D _ _ _ _ _ Eb Eb') in J. destruct (mro_down _ _ _ _ _ Eb' J) as [g' [mc' [Hg' [Ec' _]]]]. exists g', mc'. split; [lia|auto]. }
  clear - C E. revert E. generalize (c :: r). generalize (S f). intro k. induction k as [k IHk] using lt_wf_ind. intros m E. destruct (C k m E) as [g [mc [Hg Ec]]]. eapply IHk; eauto.
Qed.
Theorem search_order : forall f t c ms, mro f t c = Some ms ->
  NoDup ms /\ (exists r, ms = c :: r) /\ forall x mx g, In x ms -> mro g t x = Some mx -> subseq mx ms.
Proof.
  assert (D : forall p q t x mp mq, mro p t x = Some mp -> mro q t x = Some mq -> mp = mq).
  { induction p as [|p IHp]; intros q t x mp mq E1 E2; [discriminate|]. destruct q as [|q]; [discriminate|]. cbn [mro] in E1, E2. destruct (find_cls t x) as [d|]; [|discriminate].
    destruct (all_some (map (mro p t) (c_bases d))) as [l1|] eqn:A1; [|discriminate]. destruct (all_some (map (mro q t) (c_bases d))) as [l2|] eqn:A2; [|discriminate].
    assert (L : l1 = l2). { clear E1 E2. revert l1 l2 A1 A2. induction (c_bases d) as [|b bs IHb]; intros l1 l2 A1 A2; cbn [map all_some] in A1, A2; [congruence|].
      destruct (mro p t b) as [m1|] eqn:M1; [|discriminate]. destruct (mro q t b) as [m2|] eqn:M2; [|discriminate]. destruct (all_some (map (mro p t) bs)) as [s1|]; [|discriminate]. destruct (all_some (map (mro q t) bs)) as [s2|]; [|discriminate].
      injection A1 as <-. injection A2 as <-. f_equal; [eapply IHp; eauto|apply IHb; auto]. }
    subst. congruence. }
  assert (T : forall (l m r : list name), subseq l m -> subseq m r -> subseq l r).
  { intros l m r H1 H2. revert l H1. induction H2; intros k H1; [inversion H1; apply ss_nil| |apply ss_skip; auto]. inversion H1; subst; [apply ss_nil|apply ss_take; auto|apply ss_skip; auto]. }
  induction f as [|f IH]; intros t c ms E; [discriminate|]. pose proof E as E'. destruct (mro_S _ _ _ _ E) as [d [r [_ [-> [N [_ [Hb H]]]]]]]. split; [constructor; auto; eapply mro_top; eauto|]. split; [eauto|].
  intros x mx g [<-|I] Ex; [rewrite (D _ _ _ _ _ _ Ex E'); apply subseq_refl|]. apply ss_skip. destruct (H x I) as [b [mb [Ib [Eb J]]]]. destruct (Hb b Ib) as [mb' [Eb' S]]. rewrite Eb in Eb'. injection Eb' as <-.
  destruct J as [->|J]; [rewrite (D _ _ _ _ _ _ Ex Eb); auto|]. destruct (IH _ _ _ Eb) as [_ [_ K]]. apply (T _ mb); auto. apply (K x mx g); auto.
Qed.
(** so a method defined in the body of a class hides those of the classes it is derived from, however a class below inherits both *)
Theorem override_wins : forall t sel c d e md, lookup t sel c = Some d -> forall ms, mro 10 t c = Some ms -> In e ms -> mro 10 t e = Some md -> In d md -> d <> e ->
  match find_cls t e with Some x => sel x = false | None => True end.
Proof.
  intros t sel c d e md L ms M Ie Me Id Ne. unfold lookup in L. rewrite M in L. destruct (search_order _ _ _ _ M) as [N [_ S]]. specialize (S e md _ Ie Me). destruct (mro_self _ _ _ _ Me) as [rd ->].
  destruct Id as [Id|Id]; [congruence|]. clear M Me Ie. induction ms as [|a ms IH]; [inversion S|]. cbn [find] in L. inversion N as [|? ? Na Nm]; subst. inversion S; subst.
  - destruct (find_cls t a) as [x|]; auto. destruct (sel x) eqn:Q; auto. exfalso. congruence.
  - destruct (match find_cls t a with Some d0 => sel d0 | None => false end); [|apply IH; auto]. injection L as ->. exfalso. apply Na. eapply subseq_in; eauto. right; auto.
Qed.
(** a diamond: D derives from B and C, both from A; C overrides the eval of A, and D finds that of C *)
Definition diamond : list cdef := [mkC "A" [] true false false; mkC "B" ["A"] false false false; mkC "C" ["A"] true false false; mkC "D" ["B"; "C"] false false false]%string.
Example diamond_case : mro 10 diamond "D"%string = Some ["D"; "B"; "C"; "A"]%string /\ lookup diamond c_eval "D"%string = Some "C"%string /\ mro 10 psdr_classes "RidgeFunction"%string <> None /\ merge3 40 [["x"; "y"]; ["y"; "x"]]%string = None.
Proof. repeat split; vm_compute; congruence. Qed.
