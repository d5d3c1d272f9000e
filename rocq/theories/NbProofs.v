(** Proofs about NbModel: the normalization bounds are the exact coordinate ranges, whichever is asked for first. *)
Require Import Reals Lra Lia List Bool Arith Classical.
From Verif Require Import RVec Sums Num MatLib GrassLib SpecProofs DomModel DomSpec DomProofs NormProofs DomOpsProofs DomMoreModel CvxProofs SolveDom PredModel PredProofs NbModel.
Import ListNotations.
Local Open Scope R_scope.

(** * specification *)
(** the lower bound used for coordinate i: the given one (never above a given upper bound), else the least value in the set, else -inf *)
Definition low_spec (M : vec -> Prop) (l u : list num) (i : nat) (v : num) : Prop :=
  match nth i l NaN with
  | Fin a => v = Fin (match nth i u NaN with Fin b => Rmin a b | _ => a end)
  | _ => (exists c, v = Fin c /\ (exists x, M x /\ vget x i = c) /\ forall x, M x -> c <= vget x i) \/ (v = NInf /\ forall B, exists x, M x /\ vget x i < B)
  end.
Definition up_spec (M : vec -> Prop) (l u : list num) (i : nat) (v : num) : Prop :=
  match nth i u NaN with
  | Fin b => v = Fin (match nth i l NaN with Fin a => Rmax a b | _ => b end)
  | _ => (exists c, v = Fin c /\ (exists x, M x /\ vget x i = c) /\ forall x, M x -> vget x i <= c) \/ (v = PInf /\ forall B, exists x, M x /\ B < vget x i)
  end.
(** the members satisfy the given bounds; bounds are not NaN, and on the right side if infinite *)
Definition in_bounds (M : vec -> Prop) (l u : list num) : Prop :=
  forall x i, M x -> (forall a, nth i l NaN = Fin a -> a <= vget x i) /\ (forall b, nth i u NaN = Fin b -> vget x i <= b).
Definition sided (l u : list num) : Prop :=
  length l = length u /\ forall i, (i < length l)%nat -> (exists a, nth i l NaN = Fin a) \/ nth i l NaN = NInf.
Definition sided_up (l u : list num) : Prop := forall i, (i < length l)%nat -> (exists b, nth i u NaN = Fin b) \/ nth i u NaN = PInf.

(** * arrays *)
Lemma set_nth_length : forall l i v, (i < length l)%nat -> length (set_nth l i v) = length l.
Proof. intros l i v H. unfold set_nth. rewrite app_length. cbn [length]. rewrite firstn_length, skipn_length. lia. Qed.
Lemma set_nth_get : forall l i v j, (i < length l)%nat -> nth j (set_nth l i v) NaN = if Nat.eqb j i then v else nth j l NaN.
Proof.
  intros l i v. unfold set_nth. revert i. induction l as [|a l IH]; intros i j H; simpl in H; [lia|]. destruct i as [|i].
  - destruct j; reflexivity.
  - destruct j as [|j]; [reflexivity|]. change (nth j (firstn i l ++ v :: skipn (S i) l) NaN = if Nat.eqb j i then v else nth j l NaN). apply IH. lia.
Qed.
Lemma nth_repeat_num : forall n i (v : num), (i < n)%nat -> nth i (repeat v n) NaN = v.
Proof. induction n; intros i v H; [lia|]. destruct i; simpl; auto. apply IHn. lia. Qed.
Lemma unitR_length : forall m i, length (unitR m i) = m. Proof. intros. unfold unitR. rewrite map_length, seq_length. auto. Qed.
Lemma unitR_get : forall m i j, (j < m)%nat -> vget (unitR m i) j = if Nat.eqb j i then 1 else 0.
Proof. intros. unfold unitR. apply (vget_map_seq (fun j => if Nat.eqb j i then 1 else 0)). auto. Qed.
Lemma unitR_dot : forall m i x, (i < m)%nat -> length x = m -> dot (unitR m i) x = vget x i.
Proof.
  intros m i x Hi Lx. rewrite (dot_rs m) by (auto; apply unitR_length). rewrite (rsum_single m i); auto; [rewrite unitR_get, Nat.eqb_refl by auto; ring|].
  intros j Hj N. rewrite unitR_get by auto. destruct (Nat.eqb_spec j i); [contradiction|ring].
Qed.
Lemma unitR_nz : forall m i, (i < m)%nat -> exists j, (j < m)%nat /\ vget (unitR m i) j <> 0.
Proof. intros m i H. exists i. split; auto. rewrite unitR_get, Nat.eqb_refl by auto. lra. Qed.

Section Nb.
  Variable M : vec -> Prop.
  Variable l u : list num.
  Variable cor : list num -> list num -> vec -> answer.
  Notation m := (length l).
  Hypothesis SD : sided l u.
  Hypothesis SU : sided_up l u.
  Hypothesis IB : in_bounds M l u.
  Hypothesis DM : in_dim M m.

  Definition okl (nl : list num) : Prop := length nl = m /\ forall i, (i < m)%nat -> nth i nl NaN = NInf \/ low_spec M l u i (nth i nl NaN).
  Definition oku (nu : list num) : Prop := length nu = m /\ forall i, (i < m)%nat -> nth i nu NaN = PInf \/ up_spec M l u i (nth i nu NaN).

  (** the solver answers correctly whenever the stored arrays are right as far as they are filled in *)
  Hypothesis CO : forall nlb nub, okl nlb -> oku nub -> corner_ok M m (cor nlb nub).

  Lemma given_low : forall i v, (i < m)%nat -> low_given l u i = Some v -> low_spec M l u i v.
  Proof.
    intros i v Hi H. unfold low_given in H. unfold low_spec. destruct (nth i l NaN) as [a| | |] eqn:E1; try discriminate. injection H as <-.
    destruct (nth i u NaN) as [b| | |] eqn:E2; simpl; auto. unfold nmin2. simpl. destruct (Rltb b a) eqn:E; [apply Rltb_true in E; rewrite Rmin_right by lra; auto|apply Rltb_false in E; rewrite Rmin_left by lra; auto].
  Qed.
  Lemma given_up : forall i v, (i < m)%nat -> up_given l u i = Some v -> up_spec M l u i v.
  Proof.
    intros i v Hi H. unfold up_given in H. unfold up_spec. destruct (nth i u NaN) as [b| | |] eqn:E2; try discriminate. injection H as <-. unfold nmax.
    destruct (proj2 SD i Hi) as [[a E1]|E1]; rewrite E1; simpl; auto. destruct (Rltb b a) eqn:E; [apply Rltb_true in E; rewrite Rmax_left by lra; auto|apply Rltb_false in E; rewrite Rmax_right by lra; auto].
  Qed.
  Lemma ok_oriented : (exists x, M x) -> forall nl nu, okl nl -> oku nu -> oriented nl nu.
  Proof.
    intros (x & Mx) nl nu [L1 O1] [L2 O2] i v w Ev Ew. destruct (Nat.lt_ge_cases i m) as [Hi|Hi]; [|rewrite nth_overflow in Ev by lia; discriminate].
    destruct (IB x i Mx) as [B1 B2]. destruct (O1 i Hi) as [Z|S1]; [congruence|]. destruct (O2 i Hi) as [Z|S2]; [congruence|]. rewrite Ev in S1. rewrite Ew in S2.
    unfold low_spec in S1. unfold up_spec in S2.
    assert (A : v <= vget x i). { destruct (nth i l NaN) as [a| | |] eqn:E; [injection S1 as ->; destruct (nth i u NaN); first [solve [apply B1; auto] | eapply Rle_trans; [apply Rmin_l|apply B1; auto]]| | |]; (destruct S1 as [(c & Q & _ & K)|[Q _]]; [injection Q as ->; apply K; auto|discriminate]). }
    assert (B : vget x i <= w). { destruct (nth i u NaN) as [b| | |] eqn:E; [injection S2 as ->; destruct (nth i l NaN); first [solve [apply B2; auto] | eapply Rle_trans; [apply B2; auto|apply Rmax_r]]| | |]; (destruct S2 as [(c & Q & _ & K)|[Q _]]; [injection Q as ->; apply K; auto|discriminate]). }
    lra.
  Qed.
  (** a coordinate without a given bound: the answer of corner *)
  Lemma found_low : forall nl nu i, (exists x, M x) -> okl nl -> oku nu -> (i < m)%nat -> low_given l u i = None ->
    exists v, low_found (cor nl nu (vscale (-1) (unitR m i))) i = Some v /\ low_spec M l u i v.
  Proof.
    intros nl nu i NE O1 O2 Hi G. assert (Lp : length (vscale (-1) (unitR m i)) = m) by (rewrite vscale_length; apply unitR_length).
    pose proof (CO nl nu O1 O2 _ Lp (neg_nz m _ (unitR_nz m i Hi))) as K.
    assert (DT : forall y, M y -> dot (vscale (-1) (unitR m i)) y = - vget y i) by (intros y My; rewrite dot_vscale_l, unitR_dot by auto; ring).
    assert (NF : forall (P : Prop), P -> match nth i l NaN with Fin a => False | _ => P end). { intros P HP. unfold low_given in G. destruct (nth i l NaN); auto; discriminate. }
    unfold low_spec. destruct (cor nl nu (vscale (-1) (unitR m i))) as [x| |].
    - destruct K as [Mx K]. exists (Fin (vget x i)). split; auto. assert (L : exists c, Fin (vget x i) = Fin c /\ (exists z, M z /\ vget z i = c) /\ forall z, M z -> c <= vget z i).
      { exists (vget x i). split; auto. split; [eauto|]. intros z Mz. specialize (K z Mz). rewrite !DT in K by auto. lra. }
      specialize (NF True I). destruct (nth i l NaN); [contradiction| | |]; left; auto.
    - exfalso. destruct NE as [x Mx]. apply (K x Mx).
    - exists NInf. split; auto. assert (L : forall B, exists z, M z /\ vget z i < B). { intro B. destruct (K (- B)) as (y & My & Hy). rewrite DT in Hy by auto. exists y. split; auto. lra. }
      specialize (NF True I). destruct (nth i l NaN); [contradiction| | |]; right; auto.
  Qed.
  Lemma found_up : forall nl nu i, (exists x, M x) -> okl nl -> oku nu -> (i < m)%nat -> up_given l u i = None ->
    exists v, up_found (cor nl nu (unitR m i)) i = Some v /\ up_spec M l u i v.
  Proof.
    intros nl nu i NE O1 O2 Hi G. 
    pose proof (CO nl nu O1 O2 _ (unitR_length m i) (unitR_nz m i Hi)) as K.
    assert (DT : forall y, M y -> dot (unitR m i) y = vget y i) by (intros y My; rewrite unitR_dot by auto; ring).
    assert (NF : forall (P : Prop), P -> match nth i u NaN with Fin a => False | _ => P end). { intros P HP. unfold up_given in G. destruct (nth i u NaN); auto; discriminate. }
    unfold up_spec. destruct (cor nl nu (unitR m i)) as [x| |].
    - destruct K as [Mx K]. exists (Fin (vget x i)). split; auto. assert (L : exists c, Fin (vget x i) = Fin c /\ (exists z, M z /\ vget z i = c) /\ forall z, M z -> vget z i <= c).
      { exists (vget x i). split; auto. split; [eauto|]. intros z Mz. specialize (K z Mz). rewrite !DT in K by auto. lra. }
      specialize (NF True I). destruct (nth i u NaN); [contradiction| | |]; left; auto.
    - exfalso. destruct NE as [x Mx]. apply (K x Mx).
    - exists PInf. split; auto. assert (L : forall B, exists z, M z /\ B < vget z i). { intro B. destruct (K B) as (y & My & Hy). rewrite DT in Hy by auto. exists y. split; auto. }
      specialize (NF True I). destruct (nth i u NaN); [contradiction| | |]; right; auto.
  Qed.
  Lemma okl_set : forall nl i v, okl nl -> (i < m)%nat -> low_spec M l u i v -> okl (set_nth nl i v).
  Proof. intros nl i v [L O] Hi S. split; [rewrite set_nth_length; lia|]. intros j Hj. rewrite set_nth_get by lia. destruct (Nat.eqb_spec j i); [subst; auto|auto]. Qed.
  Lemma oku_set : forall nu i v, oku nu -> (i < m)%nat -> up_spec M l u i v -> oku (set_nth nu i v).
  Proof. intros nu i v [L O] Hi S. split; [rewrite set_nth_length; lia|]. intros j Hj. rewrite set_nth_get by lia. destruct (Nat.eqb_spec j i); [subst; auto|auto]. Qed.
  Lemma okl_init : okl (repeat NInf m).
  Proof. split; [apply repeat_length|]. intros i Hi. left. apply nth_repeat_num. auto. Qed.
  Lemma oku_init : oku (repeat PInf m).
  Proof. split; [apply repeat_length|]. intros i Hi. left. apply nth_repeat_num. auto. Qed.

  (** ** the loops *)
  Definition keeps_low (nl nl' : list num) : Prop := forall i, (i < m)%nat -> low_spec M l u i (nth i nl NaN) -> low_spec M l u i (nth i nl' NaN).
  Definition keeps_up (nu nu' : list num) : Prop := forall i, (i < m)%nat -> up_spec M l u i (nth i nu NaN) -> up_spec M l u i (nth i nu' NaN).
  Lemma keeps_low_set : forall nl i v, length nl = m -> (i < m)%nat -> low_spec M l u i v -> keeps_low nl (set_nth nl i v).
  Proof. intros nl i v L Hi S j Hj K. rewrite set_nth_get by lia. destruct (Nat.eqb_spec j i); subst; auto. Qed.
  Lemma keeps_up_set : forall nu i v, length nu = m -> (i < m)%nat -> up_spec M l u i v -> keeps_up nu (set_nth nu i v).
  Proof. intros nu i v L Hi S j Hj K. rewrite set_nth_get by lia. destruct (Nat.eqb_spec j i); subst; auto. Qed.

  Lemma low_inner_ok : (exists x, M x) -> forall is nl nu, okl nl -> oku nu -> Forall (fun i => (i < m)%nat) is ->
    exists nl', low_inner l u cor is nl nu = (true, nl') /\ okl nl' /\ keeps_low nl nl' /\ forall i, In i is -> low_spec M l u i (nth i nl' NaN).
  Proof.
    intros NE is. induction is as [|i is IH]; intros nl nu O1 O2 F; [exists nl; repeat split; auto; try apply O1; [intros j Hj H; exact H|intros i []]|].
    pose proof (Forall_inv F) as Hi. pose proof (Forall_inv_tail F) as F'. simpl in Hi.
    assert (ST : forall v, low_spec M l u i v -> exists nl', low_inner l u cor is (set_nth nl i v) nu = (true, nl') /\ okl nl' /\ keeps_low nl nl' /\ forall j, In j (i :: is) -> low_spec M l u j (nth j nl' NaN)).
    { intros v Sv. destruct (IH (set_nth nl i v) nu (okl_set nl i v O1 Hi Sv) O2 F') as (nl' & E & O & K & A). exists nl'. split; auto. split; auto.
      assert (LN : length nl = m) by apply O1. split; [intros j Hj H; apply K; auto; apply keeps_low_set; auto|]. intros j [<-|Hj]; auto. apply K; auto. rewrite set_nth_get by lia. rewrite Nat.eqb_refl. auto. }
    simpl. destruct (low_given l u i) as [v|] eqn:G; [apply ST; apply given_low; auto|]. destruct (found_low nl nu i NE O1 O2 Hi G) as (v & E & Sv). rewrite E. apply ST; auto.
  Qed.
  Lemma up_inner_ok : (exists x, M x) -> forall is nl nu, okl nl -> oku nu -> Forall (fun i => (i < m)%nat) is ->
    exists nu', up_inner l u cor is nl nu = (true, nu') /\ oku nu' /\ keeps_up nu nu' /\ forall i, In i is -> up_spec M l u i (nth i nu' NaN).
  Proof.
    intros NE is. induction is as [|i is IH]; intros nl nu O1 O2 F; [exists nu; repeat split; auto; try apply O2; [intros j Hj H; exact H|intros i []]|].
    pose proof (Forall_inv F) as Hi. pose proof (Forall_inv_tail F) as F'. simpl in Hi.
    assert (ST : forall v, up_spec M l u i v -> exists nu', up_inner l u cor is nl (set_nth nu i v) = (true, nu') /\ oku nu' /\ keeps_up nu nu' /\ forall j, In j (i :: is) -> up_spec M l u j (nth j nu' NaN)).
    { intros v Sv. destruct (IH nl (set_nth nu i v) O1 (oku_set nu i v O2 Hi Sv) F') as (nu' & E & O & K & A). exists nu'. split; auto. split; auto.
      assert (LN : length nu = m) by apply O2. split; [intros j Hj H; apply K; auto; apply keeps_up_set; auto|]. intros j [<-|Hj]; auto. apply K; auto. rewrite set_nth_get by lia. rewrite Nat.eqb_refl. auto. }
    simpl. destruct (up_given l u i) as [v|] eqn:G; [apply ST; apply given_up; auto|]. destruct (found_up nl nu i NE O1 O2 Hi G) as (v & E & Sv). rewrite E. apply ST; auto.
  Qed.

  (** finished arrays *)
  Definition fullb_l (nl : list num) : Prop := length nl = m /\ forall i, (i < m)%nat -> low_spec M l u i (nth i nl NaN).
  Definition fullb_u (nu : list num) : Prop := length nu = m /\ forall i, (i < m)%nat -> up_spec M l u i (nth i nu NaN).
  Lemma seq_lt : Forall (fun i => (i < m)%nat) (seq 0 m).
  Proof. apply Forall_forall. intros i H. apply in_seq in H. lia. Qed.
  Lemma full_okl : forall nl, fullb_l nl -> okl nl. Proof. intros nl [L F]. split; auto. Qed.
  Lemma full_oku : forall nu, fullb_u nu -> oku nu. Proof. intros nu [L F]. split; auto. Qed.

  Lemma low_outer_ok : (exists x, M x) -> forall is nl ou, okl nl -> (forall nu, ou = Some nu -> fullb_u nu) -> Forall (fun i => (i < m)%nat) is ->
    exists nl' ou', low_outer l u cor is nl ou = (true, mkNst (Some nl') ou') /\ okl nl' /\ (forall nu, ou' = Some nu -> fullb_u nu) /\ keeps_low nl nl' /\ forall i, In i is -> low_spec M l u i (nth i nl' NaN).
  Proof.
    intros NE is. induction is as [|i is IH]; intros nl ou O1 OU F; [exists nl, ou; split; auto; split; auto; split; auto; split; [intros j Hj H; exact H|intros i []]|].
    pose proof (Forall_inv F) as Hi. pose proof (Forall_inv_tail F) as F'. simpl in Hi.
    assert (ST : forall v o, low_spec M l u i v -> (forall nu, o = Some nu -> fullb_u nu) -> exists nl' ou', low_outer l u cor is (set_nth nl i v) o = (true, mkNst (Some nl') ou') /\ okl nl' /\ (forall nu, ou' = Some nu -> fullb_u nu) /\ keeps_low nl nl' /\ forall j, In j (i :: is) -> low_spec M l u j (nth j nl' NaN)).
    { intros v o Sv OO. destruct (IH (set_nth nl i v) o (okl_set nl i v O1 Hi Sv) OO F') as (nl' & ou' & E & O & O' & K & A). exists nl', ou'. split; auto. split; auto. split; auto.
      assert (LN : length nl = m) by apply O1. split; [intros j Hj H; apply K; auto; apply keeps_low_set; auto|]. intros j [<-|Hj]; auto. apply K; auto. rewrite set_nth_get by lia. rewrite Nat.eqb_refl. auto. }
    simpl. destruct (low_given l u i) as [v|] eqn:G; [apply ST; auto; apply given_low; auto|].
    assert (B : exists nu, (match ou with Some nu => (true, nu) | None => up_inner l u cor (seq 0 m) nl (repeat PInf m) end) = (true, nu) /\ fullb_u nu).
    { destruct ou as [nu|]; [exists nu; auto|]. destruct (up_inner_ok NE (seq 0 m) nl (repeat PInf m) O1 oku_init seq_lt) as (nu & E & O & _ & A). exists nu. split; auto. split; [apply O|]. intros j Hj. apply A. apply in_seq. lia. }
    destruct B as (nu & -> & FU). destruct (found_low nl nu i NE O1 (full_oku nu FU) Hi G) as (v & E & Sv). rewrite E. apply ST; auto. intros nu' Q. injection Q as <-. auto.
  Qed.
  Lemma up_outer_ok : (exists x, M x) -> forall is nu ol, oku nu -> (forall nl, ol = Some nl -> fullb_l nl) -> Forall (fun i => (i < m)%nat) is ->
    exists nu' ol', up_outer l u cor is nu ol = (true, mkNst ol' (Some nu')) /\ oku nu' /\ (forall nl, ol' = Some nl -> fullb_l nl) /\ keeps_up nu nu' /\ forall i, In i is -> up_spec M l u i (nth i nu' NaN).
  Proof.
    intros NE is. induction is as [|i is IH]; intros nu ol O1 OU F; [exists nu, ol; split; auto; split; auto; split; auto; split; [intros j Hj H; exact H|intros i []]|].
    pose proof (Forall_inv F) as Hi. pose proof (Forall_inv_tail F) as F'. simpl in Hi.
    assert (ST : forall v o, up_spec M l u i v -> (forall nl, o = Some nl -> fullb_l nl) -> exists nu' ol', up_outer l u cor is (set_nth nu i v) o = (true, mkNst ol' (Some nu')) /\ oku nu' /\ (forall nl, ol' = Some nl -> fullb_l nl) /\ keeps_up nu nu' /\ forall j, In j (i :: is) -> up_spec M l u j (nth j nu' NaN)).
    { intros v o Sv OO. destruct (IH (set_nth nu i v) o (oku_set nu i v O1 Hi Sv) OO F') as (nu' & ol' & E & O & O' & K & A). exists nu', ol'. split; auto. split; auto. split; auto.
      assert (LN : length nu = m) by apply O1. split; [intros j Hj H; apply K; auto; apply keeps_up_set; auto|]. intros j [<-|Hj]; auto. apply K; auto. rewrite set_nth_get by lia. rewrite Nat.eqb_refl. auto. }
    simpl. destruct (up_given l u i) as [v|] eqn:G; [apply ST; auto; apply given_up; auto|].
    assert (B : exists nl, (match ol with Some nl => (true, nl) | None => low_inner l u cor (seq 0 m) (repeat NInf m) nu end) = (true, nl) /\ fullb_l nl).
    { destruct ol as [nl|]; [exists nl; auto|]. destruct (low_inner_ok NE (seq 0 m) (repeat NInf m) nu okl_init O1 seq_lt) as (nl & E & O & _ & A). exists nl. split; auto. split; [apply O|]. intros j Hj. apply A. apply in_seq. lia. }
    destruct B as (nl & -> & FU). destruct (found_up nl nu i NE (full_okl nl FU) O1 Hi G) as (v & E & Sv). rewrite E. apply ST; auto. intros nl' Q. injection Q as <-. auto.
  Qed.

  (** ** the properties *)
  Definition valid (st : nst) : Prop := (forall nl, s_lb st = Some nl -> fullb_l nl) /\ (forall nu, s_ub st = Some nu -> fullb_u nu).
  Lemma norm_lb_ok : (exists x, M x) -> forall st, valid st -> exists nl st', norm_lb l u cor st = (Some nl, st') /\ fullb_l nl /\ valid st'.
  Proof.
    intros NE st [V1 V2]. unfold norm_lb. destruct (s_lb st) as [nl|] eqn:E; [exists nl, st; split; auto; split; [auto|split; auto; intros nl' H; rewrite E in H; injection H as <-; auto]|].
    destruct (low_outer_ok NE (seq 0 m) (repeat NInf m) (s_ub st) okl_init V2 seq_lt) as (nl & ou & -> & O & OU & _ & A). exists nl, (mkNst (Some nl) ou). split; auto.
    assert (FL : fullb_l nl) by (split; [apply O|]; intros i Hi; apply A; apply in_seq; lia). split; auto. split; simpl; auto. intros nl' H. injection H as <-. auto.
  Qed.
  Lemma norm_ub_ok : (exists x, M x) -> forall st, valid st -> exists nu st', norm_ub l u cor st = (Some nu, st') /\ fullb_u nu /\ valid st'.
  Proof.
    intros NE st [V1 V2]. unfold norm_ub. destruct (s_ub st) as [nu|] eqn:E; [exists nu, st; split; auto; split; [auto|split; auto; intros nu' H; rewrite E in H; injection H as <-; auto]|].
    destruct (up_outer_ok NE (seq 0 m) (repeat PInf m) (s_lb st) oku_init V1 seq_lt) as (nu & ol & -> & O & OL & _ & A). exists nu, (mkNst ol (Some nu)). split; auto.
    assert (FU : fullb_u nu) by (split; [apply O|]; intros i Hi; apply A; apply in_seq; lia). split; auto. split; simpl; auto. intros nu' H. injection H as <-. auto.
  Qed.
End Nb.

(** the specification determines the values *)
Lemma low_spec_unique : forall M l u i v w, low_spec M l u i v -> low_spec M l u i w -> v = w.
Proof.
  intros M l u i v w H1 H2. unfold low_spec in *. assert (G : forall A B : Prop, A /\ B -> A /\ B) by auto. clear G.
  destruct (nth i l NaN); [congruence| | |];
  (destruct H1 as [(c & -> & (x & Mx & Ex) & K)|[-> K]], H2 as [(c' & -> & (x' & Mx' & Ex') & K')|[-> K']]; auto;
   [pose proof (K x' Mx'); pose proof (K' x Mx); f_equal; lra|destruct (K' c) as (y & My & Hy); pose proof (K y My); lra|destruct (K c') as (y & My & Hy); pose proof (K' y My); lra]).
Qed.
Lemma up_spec_unique : forall M l u i v w, up_spec M l u i v -> up_spec M l u i w -> v = w.
Proof.
  intros M l u i v w H1 H2. unfold up_spec in *.
  destruct (nth i u NaN); [congruence| | |];
  (destruct H1 as [(c & -> & (x & Mx & Ex) & K)|[-> K]], H2 as [(c' & -> & (x' & Mx' & Ex') & K')|[-> K']]; auto;
   [pose proof (K x' Mx'); pose proof (K' x Mx); f_equal; lra|destruct (K' c) as (y & My & Hy); pose proof (K y My); lra|destruct (K c') as (y & My & Hy); pose proof (K' y My); lra]).
Qed.

(** * any sequence of queries *)
Inductive query := QLower | QUpper.
Definition ask (l u : list num) (cor : list num -> list num -> vec -> answer) (q : query) (st : nst) : option (list num) * nst :=
  match q with QLower => norm_lb l u cor st | QUpper => norm_ub l u cor st end.
Fixpoint run (l u : list num) (cor : list num -> list num -> vec -> answer) (qs : list query) (st : nst) : list (option (list num)) :=
  match qs with [] => [] | q :: qs' => let (r, st') := ask l u cor q st in r :: run l u cor qs' st' end.
Definition fresh : nst := mkNst None None.

Lemma full_l_unique : forall M l u a b, fullb_l M l u a -> fullb_l M l u b -> a = b.
Proof. intros M l u a b [La Fa] [Lb Fb]. apply (nth_ext a b NaN NaN); [congruence|]. intros i Hi. apply (low_spec_unique M l u i); [apply Fa|apply Fb]; lia. Qed.
Lemma full_u_unique : forall M l u a b, fullb_u M l u a -> fullb_u M l u b -> a = b.
Proof. intros M l u a b [La Fa] [Lb Fb]. apply (nth_ext a b NaN NaN); [congruence|]. intros i Hi. apply (up_spec_unique M l u i); [apply Fa|apply Fb]; lia. Qed.

(** the exact ranges, whatever is asked for, in whichever order and how often *)
Theorem norm_bounds_exact : forall M l u cor, sided l u -> in_bounds M l u -> in_dim M (length l) -> (exists x, M x) ->
  (forall nlb nub, okl M l u nlb -> oku M l u nub -> corner_ok M (length l) (cor nlb nub)) ->
  exists L U, length L = length l /\ length U = length l /\ (forall i, (i < length l)%nat -> low_spec M l u i (nth i L NaN) /\ up_spec M l u i (nth i U NaN)) /\
    forall qs, run l u cor qs fresh = map (fun q => Some (match q with QLower => L | QUpper => U end)) qs.
Proof.
  intros M l u cor SD IB DM NE CO.
  assert (V0 : valid M l u fresh) by (split; intros ? H; discriminate).
  destruct (norm_lb_ok M l u cor SD DM CO NE fresh V0) as (L & s1 & _ & FL & _). destruct (norm_ub_ok M l u cor SD DM CO NE fresh V0) as (U & s2 & _ & FU & _).
  exists L, U. split; [apply FL|]. split; [apply FU|]. split; [intros i Hi; split; [apply FL|apply FU]; auto|].
  intro qs. assert (G : forall st, valid M l u st -> run l u cor qs st = map (fun q => Some (match q with QLower => L | QUpper => U end)) qs); [|apply G; auto].
  induction qs as [|q qs IH]; intros st V; simpl; auto. destruct q; simpl.
  - destruct (norm_lb_ok M l u cor SD DM CO NE st V) as (L' & st' & -> & FL' & V'). rewrite (full_l_unique M l u L' L FL' FL). f_equal. apply IH. auto.
  - destruct (norm_ub_ok M l u cor SD DM CO NE st V) as (U' & st' & -> & FU' & V'). rewrite (full_u_unique M l u U' U FU' FU). f_equal. apply IH. auto.
Qed.

(** * an empty set *)
Lemma ok_oriented_empty : forall (M : vec -> Prop) l u nl nu, (forall x, ~ M x) -> okl M l u nl -> oku M l u nu -> oriented nl nu.
Proof.
  intros M l u nl nu NM [L1 O1] [L2 O2] i v w Ev Ew. destruct (Nat.lt_ge_cases i (length l)) as [Hi|Hi]; [|rewrite nth_overflow in Ev by lia; discriminate].
  destruct (O1 i Hi) as [Z|S1]; [congruence|]. destruct (O2 i Hi) as [Z|S2]; [congruence|]. rewrite Ev in S1. rewrite Ew in S2. unfold low_spec in S1. unfold up_spec in S2.
  destruct (nth i l NaN) as [a| | |]; [|destruct S1 as [(c & _ & (x & Mx & _) & _)|[Q _]]; [destruct (NM x Mx)|discriminate]..].
  destruct (nth i u NaN) as [b| | |]; [|destruct S2 as [(c & _ & (x & Mx & _) & _)|[Q _]]; [destruct (NM x Mx)|discriminate]..].
  injection S1 as ->. injection S2 as ->. apply Rle_trans with a; [apply Rmin_l|apply Rmax_l].
Qed.

Section Empty.
  Variable l u : list num.
  Variable cor : list num -> list num -> vec -> answer.
  Notation m := (length l).
  Variable E : vec -> Prop.
  Hypothesis NM : forall x, ~ E x.
  Hypothesis SD : sided l u.
  Hypothesis CO : forall nlb nub, okl E l u nlb -> oku E l u nub -> corner_ok E m (cor nlb nub).
  Lemma cor_empty : forall nl nu p, okl E l u nl -> oku E l u nu -> length p = m -> (exists i, (i < m)%nat /\ vget p i <> 0) -> cor nl nu p = EmptyExc.
  Proof. intros nl nu p O1 O2 Lp NZ. pose proof (CO nl nu O1 O2 p Lp NZ) as K. destruct (cor nl nu p) as [x| |]; auto; [destruct K as [K _]; destruct (NM x K)|destruct (K 0) as (y & My & _); destruct (NM y My)]. Qed.
  Lemma up_inner_empty : forall is nl nu, okl E l u nl -> oku E l u nu -> Forall (fun i => (i < m)%nat) is -> oku E l u (snd (up_inner l u cor is nl nu)).
  Proof.
    induction is as [|i is IH]; intros nl nu O1 O2 F; simpl; auto. pose proof (Forall_inv F) as Hi. simpl in Hi. destruct (up_given l u i) as [v|] eqn:G.
    - apply IH; auto; [|apply (Forall_inv_tail F)]. apply oku_set; auto. apply given_up; auto.
    - rewrite (cor_empty nl nu (unitR m i) O1 O2 (unitR_length m i) (unitR_nz m i Hi)). simpl. auto.
  Qed.
  Lemma low_outer_empty : forall is nl ou, okl E l u nl -> (forall nu, ou = Some nu -> oku E l u nu) -> Forall (fun i => (i < m)%nat) is -> (exists i, In i is /\ low_given l u i = None) ->
    fst (low_outer l u cor is nl ou) = false /\ exists nl', s_lb (snd (low_outer l u cor is nl ou)) = Some nl'.
  Proof.
    induction is as [|i is IH]; intros nl ou O1 OU F (k & Hk & Gk); [destruct Hk|]. pose proof (Forall_inv F) as Hi. simpl in Hi. simpl. destruct (low_given l u i) as [v|] eqn:G.
    - apply IH; auto; [apply okl_set; auto; apply given_low; auto|apply (Forall_inv_tail F)|]. exists k. split; auto. destruct Hk as [->|Hk]; auto. congruence.
    - assert (B : exists b nu, (match ou with Some nu => (true, nu) | None => up_inner l u cor (seq 0 m) nl (repeat PInf m) end) = (b, nu) /\ oku E l u nu).
      { destruct ou as [nu|]; [exists true, nu; auto|]. destruct (up_inner l u cor (seq 0 m) nl (repeat PInf m)) as [b nu] eqn:EU. exists b, nu. split; auto.
        change nu with (snd (b, nu)). rewrite <- EU. apply up_inner_empty; auto; [apply oku_init|apply seq_lt]. }
      destruct B as (b & nu & -> & O2). destruct b; simpl; [|split; eauto].
      rewrite (cor_empty nl nu (vscale (-1) (unitR m i)) O1 O2); [simpl; split; eauto|rewrite vscale_length; apply unitR_length|apply neg_nz; apply unitR_nz; auto].
  Qed.
End Empty.
(** the exception is raised once; afterwards the half filled array is taken for the result *)
Theorem norm_lb_empty : forall (M : vec -> Prop) l u cor, sided l u -> (forall x, ~ M x) -> (forall nlb nub, okl M l u nlb -> oku M l u nub -> corner_ok M (length l) (cor nlb nub)) ->
  (exists i, (i < length l)%nat /\ nth i l NaN = NInf) -> exists nl, forall n, run l u cor (repeat QLower (S (S n))) fresh = None :: repeat (Some nl) (S n).
Proof.
  intros M l u cor SD NM CO (i & Hi & Ei).
  destruct (low_outer_empty l u cor M NM SD CO (seq 0 (length l)) (repeat NInf (length l)) None) as [F (nl & Enl)]; [apply okl_init|intros nu H; discriminate|apply seq_lt| |].
  - exists i. split; [apply in_seq; lia|]. unfold low_given. rewrite Ei. auto.
  - exists nl. intro n. simpl. unfold norm_lb. simpl. destruct (low_outer l u cor (seq 0 (length l)) (repeat NInf (length l)) None) as [ok st]. simpl in F, Enl. subst ok. rewrite Enl. f_equal. f_equal.
    induction n; simpl; auto. unfold norm_lb. rewrite Enl. f_equal. auto.
Qed.

(** * domain objects with an exact solver: for the arrays that can be stored *)
Definition exact_solver (d : dom) (cor : list num -> list num -> vec -> answer) : Prop :=
  forall nlb nub p, okl (member d) (lb d) (ub d) nlb -> oku (member d) (lb d) (ub d) nub -> oriented nlb nub -> length p = dim d -> corner_outcome nlb nub d p (cor nlb nub p).
Lemma corner_obj_shift : forall nlb nub d p x, norm_ok nlb nub d -> length p = dim d -> length x = dim d -> corner_obj nlb nub p (normalize nlb nub x) = dot p x - dot p (center nlb nub).
Proof.
  intros nlb nub d p x [W [H1 [H2 _]]] Lp Lx. assert (LU : length (uslopes nlb nub) = dim d) by (rewrite uslopes_length; congruence).
  unfold corner_obj. rewrite mv_diag by congruence. replace (vmul (uslopes nlb nub) p) with (vmul p (uslopes nlb nub)).
  + pose proof (row_norm nlb nub p x ltac:(congruence) ltac:(congruence) ltac:(congruence)). lra.
  + unfold vmul. clear. revert p. induction (uslopes nlb nub) as [|a u IH]; destruct p; simpl; auto. f_equal; [ring|auto].
Qed.
Lemma outcome_corner_ok : forall nlb nub d c, norm_ok nlb nub d -> (forall p, length p = dim d -> corner_outcome nlb nub d p (c p)) -> corner_ok (member d) (dim d) c.
Proof.
  intros nlb nub d c OK H p Lp _. specialize (H p Lp). pose proof OK as [W [H1 [H2 _]]]. destruct (c p) as [x| |]; simpl in H.
  - apply (corner_correct nlb nub d p x); auto.
  - intros y My. assert (Ly : length y = dim d) by apply My. apply (H (normalize nlb nub y)). apply norm_feasible_member; auto. split; [rewrite normalize_length; congruence|]. rewrite unnormalize_normalize by congruence. auto.
  - intro B. destruct (H (B - dot p (center nlb nub))) as (z & Fz & Hz). apply norm_feasible_member in Fz; auto. destruct Fz as [Lz Mz]. exists (unnormalize nlb nub z). split; auto.
    assert (LU : length (unnormalize nlb nub z) = dim d) by apply Mz. pose proof (corner_obj_shift nlb nub d p (unnormalize nlb nub z) OK Lp LU) as S. rewrite normalize_unnormalize in S by congruence. lra.
Qed.
(** domains without ellipsoids, or whose ellipsoids have the centre of symmetry of the set as their common centre *)
Definition symmetric_about (M : vec -> Prop) (y : vec) : Prop := forall x, M x -> M (vsub (vscale 2 y) x).
Definition normalizes (d : dom) : Prop :=
  dom_wf d /\ uniform (lb d) /\ uniform (ub d) /\ sided (lb d) (ub d) /\
  (quads d = [] \/ (exists y, length y = dim d /\ symmetric_about (member d) y /\ Forall (fun q => qy q = y) (quads d)) /\ Forall (fun v => is_fin v = false) (lb d) /\ Forall (fun v => is_fin v = false) (ub d)).
Lemma member_in_bounds : forall d, dom_wf d -> in_bounds (member d) (lb d) (ub d).
Proof.
  intros d W x i (_ & B & _). assert (G : forall l v, nth i l NaN = Fin v -> nth_error l i = Some (Fin v)).
  { intros l v E. rewrite (nth_error_nth' l NaN); [congruence|]. destruct (Nat.lt_ge_cases i (length l)); auto. rewrite nth_overflow in E by auto. discriminate. }
  destruct (B i) as [B1 B2]. split; intros v E; [specialize (B1 v (G _ _ E))|specialize (B2 v (G _ _ E))]; lra.
Qed.
Lemma ok_centred : forall d y nl nu q, dom_wf d -> length y = dim d -> symmetric_about (member d) y -> Forall (fun v => is_fin v = false) (lb d) -> Forall (fun v => is_fin v = false) (ub d) ->
  okl (member d) (lb d) (ub d) nl -> oku (member d) (lb d) (ub d) nu -> qy q = y -> quad_centred nl nu q.
Proof.
  intros d y nl nu q W Ly SY I1 I2 [L1 O1] [L2 O2] Eq i Hi. assert (LB : length (lb d) = dim d) by apply W. assert (UB : length (ub d) = dim d) by apply W.
  rewrite L1 in Hi. destruct (O1 i Hi) as [Z|S1]; [left; rewrite Z; auto|]. destruct (O2 i Hi) as [Z|S2]; [left; rewrite Z; destruct (nth i nl NaN); auto|].
  unfold low_spec in S1. unfold up_spec in S2. assert (F1 : is_fin (nth i (lb d) NaN) = false) by (apply (proj1 (Forall_forall _ _) I1), nth_In; lia). assert (F2 : is_fin (nth i (ub d) NaN) = false) by (apply (proj1 (Forall_forall _ _) I2), nth_In; lia).
  assert (T1 : (exists c, nth i nl NaN = Fin c /\ (exists x, member d x /\ vget x i = c) /\ forall x, member d x -> c <= vget x i) \/ nth i nl NaN = NInf) by (destruct (nth i (lb d) NaN); [discriminate| | |]; (destruct S1 as [S1|[S1 _]]; auto)).
  assert (T2 : (exists c, nth i nu NaN = Fin c /\ (exists x, member d x /\ vget x i = c) /\ forall x, member d x -> vget x i <= c) \/ nth i nu NaN = PInf) by (destruct (nth i (ub d) NaN); [discriminate| | |]; (destruct S2 as [S2|[S2 _]]; auto)).
  clear S1 S2. destruct T1 as [(c & Ec & (x & Mx & Ex) & K)|T1]; [|left; rewrite T1; auto]. destruct T2 as [(c' & Ec' & (x' & Mx' & Ex') & K')|T2]; [|left; rewrite T2; destruct (nth i nl NaN); auto].
  right. rewrite Eq, Ec, Ec'. simpl. pose proof (K _ (SY x' Mx')) as A. pose proof (K' _ (SY x Mx)) as B. assert (Lx : length x = dim d) by apply Mx. assert (Lx' : length x' = dim d) by apply Mx'.
  rewrite vsub_get, vscale_get in A, B by (rewrite vscale_length; congruence). lra.
Qed.
Lemma normalizes_corner_ok : forall d cor nlb nub, normalizes d -> exact_solver d cor -> oriented nlb nub -> okl (member d) (lb d) (ub d) nlb -> oku (member d) (lb d) (ub d) nub -> corner_ok (member d) (dim d) (cor nlb nub).
Proof.
  intros d cor nlb nub (W & U1 & U2 & SD & Q) EX OR O1 O2. assert (LB : length (lb d) = dim d) by apply W. apply (outcome_corner_ok nlb nub); [|intros p Lp; apply EX; auto].
  split; auto. split; [destruct O1; congruence|]. split; [destruct O2; congruence|]. split; auto. split; auto. split; auto.
  destruct Q as [Q|[(y & Ly & SY & FQ) [I1 I2]]]; [rewrite Q; constructor|]. apply Forall_forall. intros q Hq. apply (ok_centred d y); auto. apply (proj1 (Forall_forall _ _) FQ q Hq).
Qed.
(** C129 for domain objects *)
Theorem dom_norm_bounds : forall d cor, normalizes d -> exact_solver d cor -> (exists x, member d x) ->
  exists L U, length L = dim d /\ length U = dim d /\ (forall i, (i < dim d)%nat -> low_spec (member d) (lb d) (ub d) i (nth i L NaN) /\ up_spec (member d) (lb d) (ub d) i (nth i U NaN)) /\
    oriented L U /\ corner_ok (member d) (dim d) (cor L U) /\
    forall qs, run (lb d) (ub d) cor qs fresh = map (fun q => Some (match q with QLower => L | QUpper => U end)) qs.
Proof.
  intros d cor N EX NE. pose proof N as (W & U1 & U2 & SD & Q). assert (LB : length (lb d) = dim d) by apply W.
  assert (DM : in_dim (member d) (length (lb d))) by (intros x Mx; rewrite LB; apply Mx). pose proof (member_in_bounds d W) as IB.
  assert (CO : forall nlb nub, okl (member d) (lb d) (ub d) nlb -> oku (member d) (lb d) (ub d) nub -> corner_ok (member d) (length (lb d)) (cor nlb nub)).
  { intros nlb nub O1 O2. rewrite LB. apply normalizes_corner_ok; auto. apply (ok_oriented (member d) (lb d) (ub d) IB NE); auto. }
  destruct (norm_bounds_exact (member d) (lb d) (ub d) cor SD IB DM NE CO) as (L & U & L1 & L2 & S & R). rewrite LB in L1, L2, S. exists L, U. split; auto. split; auto. split; auto.
  assert (O1 : okl (member d) (lb d) (ub d) L) by (split; [congruence|]; intros i Hi; right; apply S; lia). assert (O2 : oku (member d) (lb d) (ub d) U) by (split; [congruence|]; intros i Hi; right; apply S; lia).
  split; [apply (ok_oriented (member d) (lb d) (ub d) IB NE); auto|]. split; auto. rewrite <- LB. apply CO; auto.
Qed.
(** hence the predicates of the domain are exact *)
Theorem dom_predicates : forall d cor V, normalizes d -> exact_solver d cor -> (exists x, member d x) -> onb (dim d) V ->
  exists L U, (forall qs, run (lb d) (ub d) cor qs fresh = map (fun q => Some (match q with QLower => L | QUpper => U end)) qs) /\
    ((0 < dim d)%nat -> is_empty (dim d) (cor L U) = false) /\
    ((2 <= dim d)%nat -> exists b, is_unbounded (dim d) (cor L U) V = Some b /\ (b = true <-> ~ bounded (member d))).
Proof.
  intros d cor V N EX NE OB. destruct (dom_norm_bounds d cor N EX NE) as (L & U & _ & _ & _ & _ & CO & R). exists L, U. split; auto. assert (DM : in_dim (member d) (dim d)) by (intros x Mx; apply Mx). split.
  - intro H. destruct (is_empty (dim d) (cor L U)) eqn:E; auto. exfalso. destruct NE as [x Mx]. apply (proj1 (is_empty_exact (member d) (dim d) (cor L U) H CO) E x Mx).
  - intro H. apply (is_unbounded_exact (member d) (dim d) (cor L U) V H DM CO OB).
Qed.

(** an empty domain: the first query raises, later ones return what was stored so far *)
Theorem dom_norm_lb_empty : forall d cor, normalizes d -> exact_solver d cor -> (forall x, ~ member d x) -> (exists i, (i < dim d)%nat /\ nth i (lb d) NaN = NInf) ->
  exists nl, forall n, run (lb d) (ub d) cor (repeat QLower (S (S n))) fresh = None :: repeat (Some nl) (S n).
Proof.
  intros d cor N EX NM I. pose proof N as (W & U1 & U2 & SD & Q). assert (LB : length (lb d) = dim d) by apply W. rewrite <- LB in I.
  apply (norm_lb_empty (member d)); auto. intros nlb nub O1 O2. rewrite LB. apply normalizes_corner_ok; auto. apply (ok_oriented_empty (member d) (lb d) (ub d)); auto.
Qed.
(** every query of an exact solver has an answer *)
Theorem outcome_total : forall nlb nub d p, norm_ok nlb nub d -> quads d = [] -> length p = dim d -> exists a, corner_outcome nlb nub d p a.
Proof.
  intros nlb nub d p OK Q Lp. pose proof OK as [W [H1 [H2 _]]]. destruct (classic (exists x, member d x)) as [NE|NE].
  - destruct (classic (exists c, forall x, member d x -> dot p x <= c)) as [B|B].
    + destruct (corner_exists_linear nlb nub d p OK Lp Q NE B) as (x & Hx). exists (Pt x). exact Hx.
    + exists UnboundedExc. intro c. destruct (classic (exists z, norm_feasible nlb nub d z /\ c < corner_obj nlb nub p z)) as [G|G]; auto. exfalso. apply B. exists (c + dot p (center nlb nub)). intros x Mx.
      destruct (Rle_lt_dec (dot p x) (c + dot p (center nlb nub))); auto. exfalso. apply G. exists (normalize nlb nub x). assert (Lx : length x = dim d) by apply Mx.
      split; [|rewrite (corner_obj_shift nlb nub d) by auto; lra]. apply norm_feasible_member; auto. split; [rewrite normalize_length; congruence|]. rewrite unnormalize_normalize by congruence. auto.
  - exists EmptyExc. intros z Fz. apply norm_feasible_member in Fz; auto. apply NE. destruct Fz. eauto.
Qed.
