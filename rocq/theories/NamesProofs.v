(** Variable names: one per variable; distinct within a domain; products of domains with default names always repeat them (C143). *)
Require Import Decimal DecimalString DecimalNat String List Bool Arith Lia.
From Verif Require Import NamesModel.
Import ListNotations.
Local Open Scope string_scope.
Local Open Scope list_scope.

Lemma to_uint_not_nil : forall n, Nat.to_uint n <> Nil.
Proof.
  intros n H. pose proof (Unsigned.of_to n) as E. rewrite H in E. cbn in E. subst n. vm_compute in H. discriminate.
Qed.
(** '%d' is injective *)
Lemma fmt_inj : forall a b, fmt_d a = fmt_d b -> a = b.
Proof.
  intros a b H. unfold fmt_d in H. pose proof (NilZero.usu (Nat.to_uint a) (to_uint_not_nil a)) as A. pose proof (NilZero.usu (Nat.to_uint b) (to_uint_not_nil b)) as B.
  rewrite H in A. rewrite A in B. injection B as B. rewrite <- (Unsigned.of_to a), <- (Unsigned.of_to b), B. reflexivity.
Qed.
Lemma app_inj : forall s a b, (s ++ a)%string = (s ++ b)%string -> a = b.
Proof. induction s as [|c s IH]; intros a b H; cbn in H; auto. injection H as H. auto. Qed.
Lemma str_length_app : forall a b, String.length (a ++ b) = String.length a + String.length b.
Proof. induction a as [|c a IH]; intro b; cbn; auto. Qed.
Lemma app_inj_r : forall s a b, (a ++ s)%string = (b ++ s)%string -> a = b.
Proof.
  intros s. induction a as [|c a IH]; intros [|d b] H; cbn in H; auto.
  - exfalso. apply (f_equal String.length) in H. cbn in H. rewrite str_length_app in H. lia.
  - exfalso. apply (f_equal String.length) in H. cbn in H. rewrite str_length_app in H. lia.
  - injection H as -> H. f_equal. auto.
Qed.
Lemma nodup_map : forall A B (f : A -> B) l, (forall a b, f a = f b -> a = b) -> NoDup l -> NoDup (map f l).
Proof.
  intros A B f l I H. induction H as [|a l N H IH]; cbn; constructor; auto. intro J. apply in_map_iff in J. destruct J as [b [E J]]. apply I in E. subst b. auto.
Qed.
(** a domain made by a constructor has one name per variable, and they are distinct unless the caller repeats one *)
Theorem constructor_names : forall m a d, make m a = Some d -> n_dim d = m /\ length (leaf_names d) = m /\ (NoDup (leaf_names d) <-> match a with Given l => NoDup l | _ => True end).
Proof.
  intros m a d H. unfold make in H. destruct a as [|s|l]; cbn in H.
  - injection H as <-. cbn. rewrite map_length, seq_length. split; auto. split; auto. split; auto. intros _. apply nodup_map; [|apply seq_NoDup]. intros i j E. injection E as E. apply fmt_inj; auto.
  - injection H as <-. unfold leaf_names. cbn [n_dim n_stored]. destruct (Nat.eqb m 1) eqn:B.
    + apply Nat.eqb_eq in B. subst m. split; auto. split; auto. split; auto. intros _. constructor; auto. constructor.
    + rewrite map_length, seq_length. split; auto. split; auto. split; auto. intros _. apply nodup_map; [|apply seq_NoDup]. intros i j E. apply app_inj in E. injection E as E. apply fmt_inj in E. lia.
  - destruct (Nat.eqb m (length l)) eqn:B; [|discriminate]. apply Nat.eqb_eq in B. injection H as <-. cbn. auto. split; auto. split; auto. tauto.
Qed.
(** the wrong number of names is rejected, and nothing else is *)
Theorem constructor_rejects : forall m a, make m a = None <-> exists l, a = Given l /\ length l <> m.
Proof.
  intros m a. unfold make. destruct a as [|s|l]; cbn; try (split; [discriminate|intros [k [E _]]; discriminate]). destruct (Nat.eqb m (length l)) eqn:B.
  - apply Nat.eqb_eq in B. split; [discriminate|]. intros [k [E N]]. injection E as <-. lia.
  - apply Nat.eqb_neq in B. split; auto. intros _. exists l. split; auto.
Qed.

(** domains whose stored names match the dimension (all that constructors and normalization make) *)
Definition named (d : leaf) : Prop := length (leaf_names d) = n_dim d.
Lemma norm_named : forall d, named d -> named (norm_leaf d).
Proof. intros d H. unfold named in *. cbn. rewrite map_length. auto. Qed.
(** products: names in order, whatever the nesting, one per variable *)
Theorem product_names : forall ds, names (product ds) = concat (map names ds).
Proof.
  intro ds. unfold product, names at 1. induction ds as [|d ds IH]; auto. cbn [flat_map map concat]. rewrite map_app, concat_app, IH. f_equal. destruct d; cbn; auto. apply app_nil_r.
Qed.
Theorem product_assoc : forall a b c, product [product [a; b]; c] = product [a; product [b; c]] /\ names (product [product [a; b]; c]) = names a ++ names b ++ names c.
Proof.
  intros a b c. split.
  - unfold product. f_equal. cbn [flat_map leaves]. rewrite !app_nil_r. apply app_assoc_reverse.
  - rewrite !product_names. cbn [map concat]. rewrite product_names. cbn [map concat]. rewrite !app_nil_r. apply app_assoc_reverse.
Qed.
Lemma names_length : forall d, Forall named (leaves d) -> length (names d) = ndim d.
Proof.
  intros d H. unfold ndim. destruct d as [l|ds]; cbn in *.
  - inversion H; subst. unfold named in *. lia.
  - induction H as [|l ds N H IH]; auto. cbn. rewrite app_length, IH, N. reflexivity.
Qed.
(** name i of a product is the name that the factor owning slice i gives it *)
Theorem slice_names : forall ds j d a b i, Forall named ds -> nth_error ds j = Some d -> nth_error (slices 0 ds) j = Some (a, b) -> a <= i < b ->
  nth_error (names (Product ds)) i = nth_error (leaf_names d) (i - a).
Proof.
  intros ds. cbn [names].
  assert (G : forall ds s j d a b i, Forall named ds -> nth_error ds j = Some d -> nth_error (slices s ds) j = Some (a, b) -> a <= i < b ->
    s <= a /\ nth_error (concat (map leaf_names ds)) (i - s) = nth_error (leaf_names d) (i - a)).
  { clear ds. induction ds as [|l ds IH]; intros s j d a b i F N S R; [destruct j; discriminate|]. inversion F; subst. destruct j as [|j]; cbn in N, S.
    - injection N as ->. injection S as <- <-. split; [lia|]. cbn. apply nth_error_app1. unfold named in *. lia.
    - destruct (IH (s + n_dim l) j d a b i) as [L E]; auto. split; [lia|]. cbn [map concat]. rewrite nth_error_app2 by (unfold named in *; lia).
      unfold named in H1. rewrite H1. replace (i - s - n_dim l) with (i - (s + n_dim l)) by lia. exact E. }
  intros j d a b i F N S R. destruct (G ds 0 j d a b i F N S R) as [_ E]. rewrite Nat.sub_0_r in E. exact E.
Qed.
(** names of the normalized domain: the suffix is appended to each; distinct names stay distinct *)
Theorem normalized_names : forall d, names (normalized d) = map (fun n => (n ++ " (normalized)")%string) (names d) /\ (NoDup (names d) -> NoDup (names (normalized d))).
Proof.
  assert (E : forall d, names (normalized d) = map (fun n => (n ++ " (normalized)")%string) (names d)).
  { intros [l|ds]; auto. cbn. induction ds as [|l ds IH]; auto. cbn. rewrite map_app, IH. reflexivity. }
  intro d. split; auto. rewrite E. apply nodup_map. intros a b H. exact (app_inj_r _ a b H).
Qed.
(** * products of domains with default names *)
(** two factors without names always share the name x0 *)
Theorem default_names_clash : forall ds i j m k, nth_error ds i = Some (mkLeaf (S m) None) -> nth_error ds j = Some (mkLeaf (S k) None) -> i <> j -> ~ NoDup (names (Product ds)).
Proof.
  intros ds i j m k. cbn [names].
  assert (G : forall ds i j m k, nth_error ds i = Some (mkLeaf (S m) None) -> nth_error ds j = Some (mkLeaf (S k) None) -> i < j -> ~ NoDup (concat (map leaf_names ds))).
  { clear. induction ds as [|d ds IH]; intros i j m k I J L; [destruct i; discriminate|]. destruct j as [|j]; [lia|]. cbn in J. destruct i as [|i].
    - cbn in I. injection I as ->. cbn [map concat]. unfold leaf_names at 1. cbn [n_stored n_dim seq map app]. intro N. apply NoDup_cons_iff in N. destruct N as [N _]. apply N. apply in_or_app. right.
      apply in_concat. exists (leaf_names (mkLeaf (S k) None)). split; [apply in_map; apply nth_error_In with (1 := J)|]. left. reflexivity.
    - cbn in I. cbn [map concat]. intro N. apply (IH i j m k I J ltac:(lia)). clear - N. induction (leaf_names d) as [|a l IH]; auto. apply IH. inversion N; auto. }
  intros I J N. destruct (Nat.lt_trichotomy i j) as [L|[L|L]]; [|lia|].
  - exact (G ds i j m k I J L).
  - exact (G ds j i k m J I L).
Qed.
Theorem names_unique_refuted : exists ds, Forall (fun d => exists m, make m NoNames = Some d) ds /\ ~ NoDup (names (Product ds)) /\ names (Product ds) = ["x0"%string; "x1"%string; "x0"%string].
Proof.
  exists [mkLeaf 2 None; mkLeaf 1 None]. split; [|split].
  - repeat constructor; eexists; reflexivity.
  - apply (default_names_clash _ 0 1 1 0); auto.
  - reflexivity.
Qed.
(** exactly when the factors have distinct names and no name in common are the names of a product distinct *)
Theorem product_distinct : forall a b, NoDup (names (product [a; b])) <-> NoDup (names a) /\ NoDup (names b) /\ (forall n, In n (names a) -> ~ In n (names b)).
Proof.
  intros a b. rewrite product_names. cbn [map concat]. rewrite app_nil_r. generalize (names a) (names b). clear. intros l l'. induction l as [|n l IH]; cbn.
  - split; [intro H; split; [constructor|split; auto]|tauto].
  - split.
    + intro H. inversion H as [|? ? N D]; subst. apply IH in D. destruct D as [D1 [D2 D3]]. split; [constructor; auto; intro; apply N, in_or_app; auto|]. split; auto.
      intros k [<-|I]; [intro; apply N, in_or_app; auto|auto].
    + intros [H1 [H2 H3]]. inversion H1 as [|? ? N D]; subst. constructor; [|apply IH; auto]. intro I. apply in_app_or in I. destruct I as [I|I]; [auto|exact (H3 n (or_introl eq_refl) I)].
Qed.
(** the 20 bumps of the airfoil (demos/naca0012.py 38-40) *)
Example bump_names : exists a b, make 2 (Base "lower bump"%string) = Some a /\ make 3 (Base "upper bump"%string) = Some b /\
  names (normalized (product [Single a; Single b])) = ["lower bump 1 (normalized)"%string; "lower bump 2 (normalized)"%string; "upper bump 1 (normalized)"%string; "upper bump 2 (normalized)"%string; "upper bump 3 (normalized)"%string].
Proof. eexists. eexists. split; [reflexivity|]. split; reflexivity. Qed.
