(** The search loops of projection designs (sample/projection.py 154-269 and 373-465): termination, optimality, failures. *)
Require Import Reals Lra Lia List Bool Arith ZArith Permutation.
From Verif Require Import RVec Num DomModel DomMoreModel SampModel LatinProofs ProjSatProofs SampMoreModel ProjModel.
Import ListNotations.
Local Open Scope nat_scope.

(** ** contract of the solver: an unseen solution of the clauses that meets the assumptions, or none *)
Definition solver_ok (K N : nat) (solve : solver) : Prop :=
  (forall i F seen asm sol, solve i F seen asm = Some sol ->
     exists asg, satisfies asg F /\ sol = solution_list asg (K * N * N) /\ ~ In sol seen /\ forall l, In l asm -> lit_true asg l) /\
  (forall i F seen, solve i F seen [] = None -> forall asg, satisfies asg F -> In (solution_list asg (K * N * N)) seen).

(** the combinations selected by a family of permutations, sample by sample *)
Definition cols (K N : nat) (p : nat -> nat -> nat) : list (list nat) := map (fun o => map (fun m => p m o) (seq 0 K)) (seq 0 N).
Definition feasible (empty : list nat -> bool) (C : list (list nat)) : Prop := forall c, In c C -> empty c = false.
Definition feasb (K N : nat) (empty : list nat -> bool) (sol : list Z) : bool := forallb (fun c => negb (empty c)) (combs K N sol).
Lemma feasb_iff : forall K N empty sol, feasb K N empty sol = true <-> feasible empty (combs K N sol).
Proof. intros. unfold feasb, feasible. rewrite forallb_forall. split; intros H c I; apply H in I; [apply negb_true_iff; auto|rewrite I; auto]. Qed.

(** ** tuples *)
Fixpoint tuples (K N : nat) : list (list nat) := match K with O => [[]] | S k => flat_map (fun v => map (cons v) (tuples k N)) (seq 0 N) end.
Lemma tuples_in : forall K N c, length c = K -> Forall (fun v => v < N) c -> In c (tuples K N).
Proof.
  induction K as [|K IH]; intros N c L F; [destruct c; [left; auto|discriminate]|]. destruct c as [|v c]; [discriminate|]. inversion F; subst. simpl. apply in_flat_map. exists v. split; [apply in_seq; lia|]. apply in_map. apply IH; auto.
Qed.
Lemma tuples_length : forall K N, length (tuples K N) = N ^ K.
Proof.
  induction K as [|K IH]; intro N; [reflexivity|]. simpl. assert (G : forall l, length (flat_map (fun v => map (cons v) (tuples K N)) l) = length l * N ^ K).
  { induction l as [|a l IL]; [reflexivity|]. simpl. rewrite app_length, map_length, IH, IL. auto. }
  rewrite G, seq_length. reflexivity.
Qed.

(** ** clauses: the geometric ones and blocked combinations *)
Definition blk (K N : nat) (c : list nat) : list (list Z) := block_cnf K N (fun m => nth m c O).
Definition tuple_ok (K N : nat) (c : list nat) : Prop := length c = K /\ Forall (fun v => v < N) c.
Definition cnf_inv (K N : nat) (empty : list nat -> bool) (F : list (list Z)) (cs : list (list nat)) : Prop :=
  F = geo_cnf K N ++ flat_map (blk K N) cs /\ forall c, In c cs -> tuple_ok K N c /\ empty c = true.

Lemma blk_map : forall K N cs, flat_map (blk K N) cs = flat_map (block_cnf K N) (map (fun c m => nth m c O) cs).
Proof. induction cs as [|c cs IH]; [reflexivity|]. simpl. rewrite IH. reflexivity. Qed.
Lemma tuple_nth : forall K N c m, tuple_ok K N c -> m < K -> nth m c O < N.
Proof. intros K N c m [L F] H. rewrite Forall_forall in F. apply F, nth_In. lia. Qed.
Lemma cols_in : forall K N p c, In c (cols K N p) <-> exists o, o < N /\ c = map (fun m => p m o) (seq 0 K).
Proof. intros. unfold cols. rewrite in_map_iff. split; [intros [o [<- I]]; apply in_seq in I; exists o; split; [lia|auto]|intros [o [H ->]]; exists o; split; auto; apply in_seq; lia]. Qed.
Lemma col_nth : forall K (f : nat -> nat) m, m < K -> nth m (map f (seq 0 K)) O = f m.
Proof. intros. rewrite nth_indep with (d' := f O) by (rewrite map_length, seq_length; auto). rewrite map_nth, seq_nth by auto. auto. Qed.
Lemma cols_tuple : forall K N p c, perms_family K N p -> In c (cols K N p) -> tuple_ok K N c.
Proof.
  intros K N p c [HP _] I. apply cols_in in I. destruct I as [o [Ho ->]]. split; [rewrite map_length, seq_length; auto|]. apply Forall_forall. intros v I. apply in_map_iff in I. destruct I as [m [<- I]]. apply in_seq in I. apply perm_bound; auto. apply HP. lia.
Qed.
Lemma cols_nodup : forall K N p, 0 < K -> perms_family K N p -> NoDup (cols K N p).
Proof.
  intros K N p HK [_ H0]. unfold cols. assert (G : forall n, n <= N -> NoDup (map (fun o => map (fun m => p m o) (seq 0 K)) (seq 0 n))).
  { induction n as [|n IH]; intro Hn; [constructor|]. rewrite seq_S, map_app. cbn [map]. rewrite Nat.add_0_l. apply (Permutation_NoDup (Permutation_cons_append _ _)). constructor; [|apply IH; lia].
    intro I. apply in_map_iff in I. destruct I as [o [E I]]. apply in_seq in I. assert (E2 : p 0 o = p 0 n). { rewrite <- (col_nth K (fun m => p m o) 0), <- (col_nth K (fun m => p m n) 0) by auto. rewrite E. auto. }
    rewrite !H0 in E2 by lia. lia. }
  apply G. lia.
Qed.
(** what a solution is *)
Lemma sol_facts : forall K N empty F cs asg, 0 < K -> cnf_inv K N empty F cs -> satisfies asg F ->
  exists p, perms_family K N p /\ combs K N (solution_list asg (K * N * N)) = cols K N p /\ forall c, In c cs -> ~ In c (cols K N p).
Proof.
  intros K N empty F cs asg HK [-> HC] S. rewrite blk_map in S. destruct (blocked_never asg K N (map (fun c m => nth m c O) cs) HK) as [p [HP [HR HB]]]; auto.
  { intros c m I Hm. apply in_map_iff in I. destruct I as [c' [<- I]]. apply (tuple_nth K); auto. apply HC; auto. }
  exists p. split; auto. split.
  - unfold combs, cols. apply map_ext_in. intros o Io. apply in_seq in Io. unfold comb. apply map_ext_in. intros m Im. apply in_seq in Im. rewrite HR by lia. apply Nat2Z.id.
  - intros c Ic I. apply cols_in in I. destruct I as [o [Ho E]]. destruct (HB (fun m => nth m c O) o) as [m [Hm NE]]; [apply in_map_iff; exists c; auto|auto|]. apply NE. rewrite E. rewrite (col_nth K (fun m => p m o)) by auto. auto.
Qed.
(** the converse: a family that avoids the blocked combinations is a solution *)
Lemma family_sat : forall K N empty F cs p, 0 < K -> cnf_inv K N empty F cs -> perms_family K N p -> (forall c, In c cs -> ~ In c (cols K N p)) ->
  satisfies (asg_of N p) F /\ combs K N (solution_list (asg_of N p) (K * N * N)) = cols K N p.
Proof.
  intros K N empty F cs p HK [-> HC] HP HA. split.
  - rewrite blk_map. apply blocked_keeps; auto.
    + intros c m I Hm. apply in_map_iff in I. destruct I as [c' [<- I]]. apply (tuple_nth K); auto. apply HC; auto.
    + intros c o I Ho. apply in_map_iff in I. destruct I as [c' [<- I]]. destruct (HC c' I) as [[L T] _].
      destruct (List.existsb (fun m => negb (Nat.eqb (p m o) (nth m c' O))) (seq 0 K)) eqn:E.
      * apply existsb_exists in E. destruct E as [m [Im E]]. apply in_seq in Im. exists m. split; [lia|]. apply negb_true_iff, Nat.eqb_neq in E. auto.
      * exfalso. apply (HA c' I). apply cols_in. exists o. split; auto. apply nth_ext with (d := O) (d' := O); [rewrite map_length, seq_length; auto|]. intros m Hm. rewrite col_nth by lia.
        destruct (Nat.eq_dec (nth m c' O) (p m o)) as [Q|Q]; auto. exfalso. assert (X : existsb (fun m => negb (Nat.eqb (p m o) (nth m c' O))) (seq 0 K) = true); [|congruence]. apply existsb_exists. exists m. split; [apply in_seq; lia|]. apply negb_true_iff, Nat.eqb_neq. auto.
  - unfold combs, cols. apply map_ext_in. intros o Io. apply in_seq in Io. unfold comb. apply map_ext_in. intros m Im. apply in_seq in Im.
    assert (R : perm_of N (solution_list (asg_of N p) (K * N * N)) m o = Z.of_nat (p m o)).
    { apply (perm_read (asg_of N p) K N p); auto; try lia.
      - intros m' o' v Hm Ho Hv. apply asg_of_enc; auto.
      - intros m' o' Hm Ho. destruct HP as [HP _]. apply perm_bound; auto. }
    rewrite R. apply Nat2Z.id.
Qed.
Lemma cnf_init : forall K N empty, cnf_inv K N empty (geo_cnf K N) [].
Proof. intros. split; [simpl; rewrite app_nil_r; auto|intros c []]. Qed.
Lemma cnf_step : forall K N empty F cs sol p, cnf_inv K N empty F cs -> perms_family K N p -> combs K N sol = cols K N p ->
  cnf_inv K N empty (F ++ new_cnf K N empty sol) (cs ++ filter empty (combs K N sol)).
Proof.
  intros K N empty F cs sol p [-> HC] HP E. split; [unfold new_cnf; fold (blk K N); rewrite flat_map_app, app_assoc; reflexivity|].
  intros c I. apply in_app_or in I. destruct I as [I|I]; auto. apply filter_In in I. destruct I as [I EM]. split; auto. rewrite E in I. eapply cols_tuple; eauto.
Qed.
Lemma NoDup_app_intro : forall (A : Type) (l1 l2 : list A), NoDup l1 -> NoDup l2 -> (forall x, In x l1 -> ~ In x l2) -> NoDup (l1 ++ l2).
Proof.
  induction l1 as [|a l1 IH]; intros l2 H1 H2 H; simpl; auto. inversion H1; subst. constructor; [intro I; apply in_app_or in I; destruct I; [auto|apply (H a); [left; auto|auto]]|]. apply IH; auto. intros x I. apply H. right. auto.
Qed.
Lemma blocked_count : forall K N empty F cs, cnf_inv K N empty F cs -> NoDup cs -> length cs <= N ^ K.
Proof. intros K N empty F cs [_ HC] ND. rewrite <- tuples_length. apply NoDup_incl_length; auto. intros c I. destruct (HC c I) as [[L T] _]. apply tuples_in; auto. Qed.
Lemma filter_nil_iff : forall (A : Type) (f : A -> bool) l, filter f l = [] <-> forall x, In x l -> f x = false.
Proof.
  induction l as [|a l IH]; simpl; [split; [intros _ x []|auto]|]. destruct (f a) eqn:E; split; intro H; try discriminate.
  - exfalso. rewrite (H a) in E; auto. discriminate.
  - intros x [<-|I]; auto. apply IH; auto.
  - apply IH. auto.
Qed.
