(** The satisfiability encoding of projection designs (sample/projection.py): numbering, permutations, blocking. *)
Require Import Lia List Bool Arith ZArith Permutation.
From Verif Require Import SampModel.
Import ListNotations.
Local Open Scope nat_scope.

(** truth of a literal, clause and formula under an assignment of the variables 1, 2, ... *)
Definition lit_true (asg : nat -> bool) (l : Z) : Prop := if Z.ltb 0 l then asg (Z.to_nat l) = true else asg (Z.to_nat (- l)) = false.
Definition clause_true (asg : nat -> bool) (c : list Z) : Prop := exists l, In l c /\ lit_true asg l.
Definition satisfies (asg : nat -> bool) (F : list (list Z)) : Prop := forall c, In c F -> clause_true asg c.
(** the solution as the solver lists it: +i or -i for each variable *)
Definition solution_list (asg : nat -> bool) (n : nat) : list Z := map (fun i => if asg i then Z.of_nat i else (- Z.of_nat i)%Z) (seq 1 n).
(** one permutation of 0..N-1 per metric, the first one the identity *)
Definition perms_family (K N : nat) (p : nat -> nat -> nat) : Prop :=
  (forall m, m < K -> Permutation (map (p m) (seq 0 N)) (seq 0 N)) /\ forall o, o < N -> p 0 o = o.

(** ** numbering *)
Theorem enc_dec : forall N m o v, o < N -> v < N -> dec N (enc N m o v) = (m, o, v).
Proof.
  intros N m o v Ho Hv. unfold dec, enc. replace (m * N * N + o * N + v + 1 - 1) with (m * (N * N) + (o * N + v)) by lia.
  assert (B : o * N + v < N * N) by nia. assert (E1 : (m * (N * N) + (o * N + v)) / (N * N) = m) by (rewrite Nat.div_add_l by nia; rewrite Nat.div_small by auto; lia).
  assert (E2 : (m * (N * N) + (o * N + v)) mod (N * N) = o * N + v) by (rewrite Nat.add_comm, Nat.mod_add by nia; apply Nat.mod_small; auto).
  rewrite E1, E2. f_equal; [f_equal|].
  - rewrite Nat.div_add_l by lia. rewrite Nat.div_small by auto. lia.
  - replace (m * (N * N) + (o * N + v)) with (v + (m * N + o) * N) by nia. rewrite Nat.mod_add by lia. apply Nat.mod_small. auto.
Qed.
Theorem dec_enc : forall N idx, 0 < N -> 1 <= idx -> exists m o v, dec N idx = (m, o, v) /\ o < N /\ v < N /\ enc N m o v = idx.
Proof.
  intros N idx HN Hi. unfold dec. set (j := idx - 1). exists (j / (N * N)), ((j mod (N * N)) / N), (j mod N). split; auto.
  assert (NN : N * N <> 0) by nia. pose proof (Nat.mod_upper_bound j (N * N) NN) as B1. pose proof (Nat.mod_upper_bound j N ltac:(lia)) as B2. split; [apply Nat.div_lt_upper_bound; lia|]. split; auto.
  unfold enc. pose proof (Nat.div_mod j (N * N) NN) as D1. pose proof (Nat.div_mod (j mod (N * N)) N ltac:(lia)) as D2.
  assert (E : (j mod (N * N)) mod N = j mod N).
  { rewrite D1 at 2. replace (N * N * (j / (N * N)) + j mod (N * N)) with (j mod (N * N) + (N * (j / (N * N))) * N) by nia. rewrite Nat.mod_add by lia. auto. }
  rewrite E in D2. assert (idx = j + 1) by lia. nia.
Qed.
Lemma enc_pos : forall N m o v, 1 <= enc N m o v. Proof. intros. unfold enc. lia. Qed.
Lemma enc_range : forall K N m o v, m < K -> o < N -> v < N -> enc N m o v <= K * N * N.
Proof. intros K N m o v Hm Ho Hv. unfold enc. assert (m * N * N + N * N <= K * N * N) by nia. nia. Qed.
(** exactly the numbers 1 .. K N^2 are used *)
Theorem enc_bijection : forall K N idx, 1 <= idx <= K * N * N -> exists m o v, m < K /\ o < N /\ v < N /\ enc N m o v = idx /\
  forall m' o' v', o' < N -> v' < N -> enc N m' o' v' = idx -> m' = m /\ o' = o /\ v' = v.
Proof.
  intros K N idx H. assert (HN : 0 < N) by nia. destruct (dec_enc N idx HN ltac:(lia)) as [m [o [v [D [Ho [Hv E]]]]]]. exists m, o, v. split; [|split; [|split; [|split]]]; auto.
  - unfold enc in E. assert (m * N * N < K * N * N) by lia. nia.
  - intros m' o' v' Ho' Hv' E'. rewrite <- E' in D. rewrite enc_dec in D by auto. injection D as -> -> ->. auto.
Qed.

Lemma triu_in : forall N i j, In (i, j) (triu N) <-> i < j < N.
Proof.
  intros. unfold triu. rewrite in_flat_map. split.
  - intros [a [Ha I]]. apply in_map_iff in I. destruct I as [c [E Ic]]. injection E as <- <-. apply in_seq in Ic. apply in_seq in Ha. lia.
  - intro H. exists i. split; [apply in_seq; lia|]. apply in_map_iff. exists j. split; auto. apply in_seq. lia.
Qed.
Lemma lit_pos : forall asg n, 1 <= n -> (lit_true asg (pos_lit n) <-> asg n = true).
Proof. intros. unfold lit_true, pos_lit. destruct (Z.ltb_spec 0 (Z.of_nat n)); [|lia]. rewrite Nat2Z.id. tauto. Qed.
Lemma lit_neg : forall asg n, (lit_true asg (neg_lit n) <-> asg n = false).
Proof. intros. unfold lit_true, neg_lit. destruct (Z.ltb_spec 0 (- Z.of_nat n)); [lia|]. rewrite Z.opp_involutive, Nat2Z.id. tauto. Qed.
Lemma two_neg : forall asg a b, clause_true asg [neg_lit a; neg_lit b] <-> asg a = false \/ asg b = false.
Proof. intros. unfold clause_true. split; [intros [l [[<-|[<-|[]]] H]]; apply lit_neg in H; auto|]. intros [H|H]; eexists; (split; [|apply lit_neg; exact H]); simpl; auto. Qed.

(** ** what the formula says *)
Lemma geo_cnf_sat : forall asg K N, satisfies asg (geo_cnf K N) <->
  (forall m o, m < K -> o < N -> (exists v, v < N /\ asg (enc N m o v) = true) /\ forall v w, v < w < N -> asg (enc N m o v) = false \/ asg (enc N m o w) = false) /\
  (forall m v, m < K -> v < N -> forall o q, o < q < N -> asg (enc N m o v) = false \/ asg (enc N m q v) = false) /\
  forall v, v < N -> asg (enc N 0 v v) = true.
Proof.
  intros asg K N. unfold satisfies, geo_cnf. split.
  - intro H. split; [|split].
    + intros m o Hm Ho. split.
      * destruct (H (map (fun v => pos_lit (enc N m o v)) (seq 0 N))) as [l [I T]].
        { apply in_or_app. left. apply in_flat_map. exists m. split; [apply in_seq; lia|]. unfold metric_cnf. apply in_or_app. left. apply in_flat_map. exists o. split; [apply in_seq; lia|left; auto]. }
        apply in_map_iff in I. destruct I as [v [<- Iv]]. apply in_seq in Iv. exists v. split; [lia|]. apply lit_pos in T; auto using enc_pos.
      * intros v w Hvw. apply two_neg. apply H. apply in_or_app. left. apply in_flat_map. exists m. split; [apply in_seq; lia|]. unfold metric_cnf. apply in_or_app. left. apply in_flat_map. exists o. split; [apply in_seq; lia|]. right.
        apply in_map_iff. exists (v, w). split; auto. apply triu_in. auto.
    + intros m v Hm Hv o q Hoq. apply two_neg. apply H. apply in_or_app. left. apply in_flat_map. exists m. split; [apply in_seq; lia|]. unfold metric_cnf. apply in_or_app. right. apply in_flat_map. exists v. split; [apply in_seq; lia|].
      apply in_map_iff. exists (o, q). split; auto. apply triu_in. auto.
    + intros v Hv. destruct (H [pos_lit (enc N 0 v v)]) as [l [[<-|[]] T]]; [apply in_or_app; right; apply in_map_iff; exists v; split; auto; apply in_seq; lia|]. apply lit_pos in T; auto using enc_pos.
  - intros [H1 [H2 H3]] c I. apply in_app_or in I. destruct I as [I|I].
    + apply in_flat_map in I. destruct I as [m [Hm I]]. apply in_seq in Hm. unfold metric_cnf in I. apply in_app_or in I. destruct I as [I|I]; apply in_flat_map in I.
      * destruct I as [o [Ho I]]. apply in_seq in Ho. destruct (H1 m o ltac:(lia) ltac:(lia)) as [[v [Hv A]] U]. destruct I as [<-|I].
        { exists (pos_lit (enc N m o v)). split; [apply in_map_iff; exists v; split; auto; apply in_seq; lia|]. apply lit_pos; auto using enc_pos. }
        apply in_map_iff in I. destruct I as [[a b] [<- I]]. apply triu_in in I. apply two_neg. apply U. auto.
      * destruct I as [v [Hv I]]. apply in_seq in Hv. apply in_map_iff in I. destruct I as [[a b] [<- I]]. apply triu_in in I. apply two_neg. apply H2; auto; lia.
    + apply in_map_iff in I. destruct I as [v [<- Iv]]. apply in_seq in Iv. exists (pos_lit (enc N 0 v v)). split; [left; auto|]. apply lit_pos; auto using enc_pos. apply H3. lia.
Qed.

Lemma inj_perm : forall N (f : nat -> nat), (forall o, o < N -> f o < N) -> (forall o q, o < N -> q < N -> f o = f q -> o = q) -> Permutation (map f (seq 0 N)) (seq 0 N).
Proof.
  intros N f HB HI. apply NoDup_Permutation_bis.
  - assert (G : forall l, NoDup l -> (forall o, In o l -> o < N) -> NoDup (map f l)).
    { induction l as [|a l IH]; intros ND HL; [constructor|]. inversion ND; subst. constructor; [|apply IH; auto; intros; apply HL; right; auto].
      intro I. apply in_map_iff in I. destruct I as [c [E Ic]]. assert (c = a) by (apply HI; auto; apply HL; [right; auto|left; auto]). subst. auto. }
    apply G; [apply seq_NoDup|]. intros o I. apply in_seq in I. lia.
  - rewrite map_length. auto.
  - intros x I. apply in_map_iff in I. destruct I as [o [<- Io]]. apply in_seq in Io. apply in_seq. pose proof (HB o ltac:(lia)). lia.
Qed.
Lemma perm_bound : forall N (f : nat -> nat), Permutation (map f (seq 0 N)) (seq 0 N) -> forall o, o < N -> f o < N.
Proof. intros N f H o Ho. assert (I : In (f o) (seq 0 N)) by (eapply Permutation_in; [exact H|]; apply in_map, in_seq; lia). apply in_seq in I. lia. Qed.
Lemma perm_inj : forall N (f : nat -> nat), Permutation (map f (seq 0 N)) (seq 0 N) -> forall o q, o < N -> q < N -> f o = f q -> o = q.
Proof.
  intros N f H o q Ho Hq E. assert (ND : NoDup (map f (seq 0 N))) by (eapply Permutation_NoDup; [apply Permutation_sym; exact H|apply seq_NoDup]).
  rewrite (NoDup_nth _ (f 0)) in ND. rewrite map_length, seq_length in ND. apply ND; auto. rewrite !map_nth, !seq_nth by auto. auto.
Qed.

(** every satisfying assignment is a family of permutations ... *)
Theorem cnf_sound : forall asg K N, 0 < K -> satisfies asg (geo_cnf K N) ->
  exists p, perms_family K N p /\ forall m o v, m < K -> o < N -> v < N -> (asg (enc N m o v) = true <-> v = p m o).
Proof.
  intros asg K N HK H. apply geo_cnf_sat in H. destruct H as [H1 [H2 H3]].
  set (p := fun m o => match find (fun v => asg (enc N m o v)) (seq 0 N) with Some v => v | None => 0 end).
  assert (C : forall m o v, m < K -> o < N -> v < N -> (asg (enc N m o v) = true <-> v = p m o)).
  { intros m o v Hm Ho Hv. destruct (H1 m o Hm Ho) as [[v0 [Hv0 A0]] U].
    assert (P : p m o < N /\ asg (enc N m o (p m o)) = true).
    { unfold p. destruct (find _ _) eqn:F; [apply find_some in F; destruct F as [I A]; apply in_seq in I; split; [lia|auto]|]. pose proof (find_none _ _ F v0 ltac:(apply in_seq; lia)) as Q. cbv beta in Q. congruence. }
    destruct P as [Pb Pa]. split; [|intros ->; auto]. intro A. destruct (Nat.lt_trichotomy v (p m o)) as [L|[E|L]]; auto.
    - destruct (U v (p m o)) as [F|F]; [lia|congruence|congruence].
    - destruct (U (p m o) v) as [F|F]; [lia|congruence|congruence]. }
  assert (PB : forall m o, m < K -> o < N -> p m o < N).
  { intros m o Hm Ho. destruct (H1 m o Hm Ho) as [[v0 [Hv0 A0]] _]. apply (C m o v0 Hm Ho Hv0) in A0. lia. }
  exists p. split; auto. split.
  - intros m Hm. apply inj_perm; [intros; apply PB; auto|]. intros o q Ho Hq E.
    assert (Ao : asg (enc N m o (p m o)) = true) by (apply C; auto). assert (Aq : asg (enc N m q (p m o)) = true) by (apply C; auto).
    destruct (Nat.lt_trichotomy o q) as [L|[EE|L]]; auto.
    + destruct (H2 m (p m o) Hm (PB m o Hm Ho) o q) as [F|F]; [lia|congruence|congruence].
    + destruct (H2 m (p m o) Hm (PB m o Hm Ho) q o) as [F|F]; [lia|congruence|congruence].
  - intros o Ho. symmetry. apply C; auto.
Qed.
(** ... and every such family is one *)
Definition asg_of (N : nat) (p : nat -> nat -> nat) (idx : nat) : bool := let '(m, o, v) := dec N idx in Nat.eqb v (p m o).
Lemma asg_of_enc : forall N p m o v, o < N -> v < N -> (asg_of N p (enc N m o v) = true <-> v = p m o).
Proof. intros. unfold asg_of. rewrite enc_dec by auto. apply Nat.eqb_eq. Qed.
Theorem cnf_complete : forall K N p, 0 < K -> perms_family K N p -> satisfies (asg_of N p) (geo_cnf K N).
Proof.
  intros K N p HK [HP H0]. assert (F : forall m o v, o < N -> v < N -> v <> p m o -> asg_of N p (enc N m o v) = false).
  { intros m o v Ho Hv NE. destruct (asg_of N p (enc N m o v)) eqn:E; auto. apply asg_of_enc in E; auto. contradiction. }
  apply geo_cnf_sat. split; [|split].
  - intros m o Hm Ho. pose proof (perm_bound N (p m) (HP m Hm) o Ho) as B. split; [exists (p m o); split; auto; apply asg_of_enc; auto|].
    intros v w H. destruct (Nat.eq_dec v (p m o)) as [E|E]; [right|left]; apply F; auto; lia.
  - intros m v Hm Hv o q H. destruct (Nat.eq_dec v (p m o)) as [E|E]; [right|left]; apply F; auto; try lia.
    intro E'. assert (o = q) by (apply (perm_inj N (p m) (HP m Hm)); try lia). lia.
  - intros v Hv. apply asg_of_enc; auto. rewrite H0; auto.
Qed.

(** ** reading the permutations off the solution *)
Lemma perm_of_fold : forall N l acc m o, fold_left (fun acc l => if Z.ltb 0 l then let '(m', o', v) := dec N (Z.to_nat l) in if (Nat.eqb m' m && Nat.eqb o' o)%bool then Z.of_nat v else acc else acc) l acc
  = match find (fun l => (Z.ltb 0 l && (let '(m', o', v) := dec N (Z.to_nat l) in (Nat.eqb m' m && Nat.eqb o' o)))%bool) (rev l) with Some l => Z.of_nat (snd (dec N (Z.to_nat l))) | None => acc end.
Proof.
  intros N l. induction l as [|a l IH] using rev_ind; intros acc m o; [reflexivity|]. rewrite fold_left_app, rev_unit. cbn [fold_left find]. rewrite IH.
  destruct (Z.ltb 0 a); cbn [andb]; [|auto]. destruct (dec N (Z.to_nat a)) as [[m' o'] v] eqn:ED. destruct (Nat.eqb m' m && Nat.eqb o' o)%bool; auto. rewrite ED. auto.
Qed.
Theorem perm_read : forall asg K N p m o, 0 < K -> (forall m o v, m < K -> o < N -> v < N -> (asg (enc N m o v) = true <-> v = p m o)) ->
  (forall m o, m < K -> o < N -> p m o < N) -> m < K -> o < N -> perm_of N (solution_list asg (K * N * N)) m o = Z.of_nat (p m o).
Proof.
  intros asg K N p m o HK HC HB Hm Ho. unfold perm_of. rewrite perm_of_fold. set (test := fun l => (Z.ltb 0 l && (let '(m', o', v) := dec N (Z.to_nat l) in (Nat.eqb m' m && Nat.eqb o' o)))%bool).
  assert (HIn : In (Z.of_nat (enc N m o (p m o))) (solution_list asg (K * N * N))).
  { unfold solution_list. apply in_map_iff. exists (enc N m o (p m o)). split; [|apply in_seq; pose proof (enc_pos N m o (p m o)); pose proof (enc_range K N m o (p m o) Hm Ho (HB m o Hm Ho)); lia].
    replace (asg (enc N m o (p m o))) with true; auto. symmetry. apply HC; auto. }
  destruct (find test (rev (solution_list asg (K * N * N)))) as [l|] eqn:F.
  - apply find_some in F. destruct F as [I T]. apply in_rev in I. unfold solution_list in I. apply in_map_iff in I. destruct I as [i [E Ii]]. apply in_seq in Ii. unfold test in T. apply andb_true_iff in T. destruct T as [T1 T2]. apply Z.ltb_lt in T1.
    destruct (asg i) eqn:A; [|lia]. subst l. rewrite Nat2Z.id in *. destruct (enc_bijection K N i ltac:(lia)) as [m' [o' [v' [Hm' [Ho' [Hv' [E _]]]]]]]. rewrite <- E in T2, A |- *. rewrite enc_dec in T2 |- * by auto. cbn [snd].
    apply andb_true_iff in T2. destruct T2 as [T2 T3]. apply Nat.eqb_eq in T2, T3. subst m' o'. f_equal. apply HC; auto.
  - exfalso. pose proof (find_none _ _ F (Z.of_nat (enc N m o (p m o))) ltac:(rewrite <- in_rev; auto)) as Q. unfold test in Q. rewrite Nat2Z.id, enc_dec, !Nat.eqb_refl in Q by (auto; apply HB; auto).
    destruct (Z.ltb_spec 0 (Z.of_nat (enc N m o (p m o)))) as [L|L]; [discriminate|]. pose proof (enc_pos N m o (p m o)). lia.
Qed.
Theorem solution_is_permutations : forall asg K N, 0 < K -> satisfies asg (geo_cnf K N) ->
  exists p, perms_family K N p /\ forall m o, m < K -> o < N -> perm_of N (solution_list asg (K * N * N)) m o = Z.of_nat (p m o).
Proof.
  intros asg K N HK H. destruct (cnf_sound asg K N HK H) as [p [HP HC]]. exists p. split; auto. intros m o Hm Ho. apply (perm_read asg K N p); auto.
  intros m' o' Hm' Ho'. destruct HP as [HP _]. apply perm_bound; auto.
Qed.

(** ** blocking *)
Theorem blocked_iff : forall asg K N p c, (forall m o v, m < K -> o < N -> v < N -> (asg (enc N m o v) = true <-> v = p m o)) -> (forall m, m < K -> c m < N) ->
  (satisfies asg (block_cnf K N c) <-> forall o, o < N -> exists m, m < K /\ p m o <> c m).
Proof.
  intros asg K N p c HC Hc. unfold satisfies, block_cnf. split.
  - intros H o Ho. destruct (H (map (fun m => neg_lit (enc N m o (c m))) (seq 0 K))) as [l [I T]]; [apply in_map_iff; exists o; split; auto; apply in_seq; lia|].
    apply in_map_iff in I. destruct I as [m [<- Im]]. apply in_seq in Im. apply lit_neg in T. exists m. split; [lia|]. intro E. assert (asg (enc N m o (c m)) = true) by (apply HC; auto; [lia|apply Hc; lia]). congruence.
  - intros H cl I. apply in_map_iff in I. destruct I as [o [<- Io]]. apply in_seq in Io. destruct (H o ltac:(lia)) as [m [Hm NE]]. exists (neg_lit (enc N m o (c m))). split; [apply in_map_iff; exists m; split; auto; apply in_seq; lia|].
    apply lit_neg. destruct (asg (enc N m o (c m))) eqn:A; auto. exfalso. apply NE. symmetry. apply (HC m o (c m)); auto; lia.
Qed.
(** a blocked combination never reappears in any later solution, and nothing else is lost *)
Theorem blocked_never : forall asg K N cs, 0 < K -> (forall c m, In c cs -> m < K -> c m < N) ->
  satisfies asg (geo_cnf K N ++ flat_map (block_cnf K N) cs) ->
  exists p, perms_family K N p /\ (forall m o, m < K -> o < N -> perm_of N (solution_list asg (K * N * N)) m o = Z.of_nat (p m o)) /\
    forall c o, In c cs -> o < N -> exists m, m < K /\ p m o <> c m.
Proof.
  intros asg K N cs HK Hc H. assert (H1 : satisfies asg (geo_cnf K N)) by (intros c I; apply H, in_or_app; auto).
  destruct (cnf_sound asg K N HK H1) as [p [HP HC]]. exists p. split; auto. split.
  - intros m o Hm Ho. apply (perm_read asg K N p); auto. intros m' o' Hm' Ho'. destruct HP as [HP _]. apply perm_bound; auto.
  - intros c o Ic Ho. assert (HB : satisfies asg (block_cnf K N c)) by (intros cl I; apply H, in_or_app; right; apply in_flat_map; exists c; auto).
    destruct (blocked_iff asg K N p c HC ltac:(intros; apply Hc; auto)) as [F _]. apply (F HB o Ho).
Qed.
Theorem blocked_keeps : forall K N cs p, 0 < K -> (forall c m, In c cs -> m < K -> c m < N) -> perms_family K N p -> (forall c o, In c cs -> o < N -> exists m, m < K /\ p m o <> c m) ->
  satisfies (asg_of N p) (geo_cnf K N ++ flat_map (block_cnf K N) cs).
Proof.
  intros K N cs p HK Hc HP HB cl I. apply in_app_or in I. destruct I as [I|I]; [apply (cnf_complete K N p HK HP); auto|]. apply in_flat_map in I. destruct I as [c [Ic I]].
  apply (blocked_iff (asg_of N p) K N p c); auto. intros m o v Hm Ho Hv. apply asg_of_enc; auto.
Qed.

Example ex_family : let p m o := match m with 0 => o | _ => (o + 1) mod 3 end in perms_family 2 3 p /\ forall o, o < 3 -> exists m, m < 2 /\ p m o <> (fun _ => 0) m.
Proof.
  split; [split|].
  - intros [|[|m]] Hm; [apply Permutation_refl| |lia]. cbn. apply (perm_trans (l' := [1;0;2])); [apply perm_skip, perm_swap|apply perm_swap].
  - reflexivity.
  - intros o Ho. destruct o as [|[|[|o]]]; [exists 1|exists 1|exists 0|lia]; cbn; lia.
Qed.
