(** The subspace dimension chosen by PolynomialRidgeApproximation.__init__ (polyridge.py 247-254) loses nothing and is the least (C95). *)
Require Import Reals Lra Lia List Bool Arith Psatz ZArith.
From Verif Require Import RVec Num Sums DomModel DomMoreModel SweepProofs BasisModel IndexProofs PolyProofs MatLib GrassLib PartialProofs Spectral Decomp LipModel SubModel RidgeModel.
Import ListNotations.
Local Open Scope R_scope.

(** a function is a polynomial ridge function of degree d with n directions *)
Definition mono_basis (d n : nat) : tbasis := mkTB monomials d n NoScale.
Definition is_ridge (m d n : nat) (f : vec -> R) : Prop :=
  exists us c, length us = n /\ Forall (fun u => length u = m) us /\ length c = length (indices (mono_basis d n)) /\ forall x, length x = m -> f x = ridge_eval (mono_basis d n) c us x.

Lemma nsum_le1 : forall al, (nsum al <= 1)%nat -> (forall k, ith al k = 0%nat) \/ exists j, (j < length al)%nat /\ ith al j = 1%nat /\ forall k, k <> j -> ith al k = 0%nat.
Proof.
  unfold ith. induction al as [|a al IH]; intro H.
  - left. intros [|k]; reflexivity.
  - change (nsum (a :: al)) with (a + nsum al)%nat in H. destruct a as [|a].
    + destruct (IH ltac:(lia)) as [Z|(j & Hj & E & Z)].
      * left. intros [|k]; simpl; auto.
      * right. exists (S j). simpl. split; [lia|]. split; auto. intros [|k] Hk; auto.
    + right. assert (a = 0)%nat by lia. subst a. exists 0%nat. simpl. split; [lia|]. split; auto. intros [|k] Hk; [congruence|].
      destruct (IH ltac:(lia)) as [Z|(j & Hj & E & Z)]; auto. exfalso. assert (nsum al = 0)%nat by lia. clear - H0 Hj E. revert j Hj E. induction al as [|b al IH]; intros j Hj E; simpl in *; [lia|].
      change (nsum (b :: al)) with (b + nsum al)%nat in H0. destruct j as [|j]; [lia|]. apply (IH ltac:(lia) j); auto. lia.
Qed.

Lemma prodn_one : forall n f, (forall k, (k < n)%nat -> f k = 1) -> prodn n f = 1.
Proof. induction n; intros f H; simpl; auto. rewrite IHn by auto. rewrite H by auto. ring. Qed.

(** every column of the basis of degree one is affine *)
Lemma col_affine : forall n al, length al = n -> (nsum al <= 1)%nat -> exists a g, length g = n /\
  forall y, length y = n -> prodn n (fun k => vget (vcoord (mono_basis 1 n) y k) (ith al k)) = a + dot g y.
Proof.
  intros n al L S. destruct (nsum_le1 al S) as [Z|(j & Hj & E & Z)].
  - exists 1, (vzero n). split; [apply repeat_length|]. intros y Ly. rewrite prodn_one.
    + rewrite dot_zero_l. ring.
    + intros k Hk. rewrite Z. rewrite vcoord_get by (simpl; lia). simpl. reflexivity.
  - exists 0, (unitc n j). split; [apply unitc_length|]. intros y Ly. rewrite L in Hj. rewrite (prodn_split n j) by auto. rewrite E. rewrite vcoord_get by (simpl; lia).
    rewrite prodn_one.
    + rewrite (dot_rs n (unitc n j) y) by (auto; apply unitc_length). rewrite (rsum_unitc (mono_basis 1 n) n j (fun i => vget y i)) by auto. unfold sc. simpl. ring.
    + intros k Hk. destruct (Nat.eqb_spec k j); auto. rewrite Z by auto. rewrite vcoord_get by (simpl; lia). reflexivity.
Qed.

Lemma affine_sum : forall n (F : list nat -> vec -> R) idx c, (forall al, In al idx -> exists a g, length g = n /\ forall y, length y = n -> F al y = a + dot g y) ->
  exists a g, length g = n /\ forall y, length y = n -> dot (map (fun al => F al y) idx) c = a + dot g y.
Proof.
  intros n F. induction idx as [|al idx IH]; intros c H.
  - exists 0, (vzero n). split; [apply repeat_length|]. intros y Ly. simpl map. rewrite dot_nil_l. rewrite dot_zero_l. ring.
  - destruct c as [|c0 c].
    + exists 0, (vzero n). split; [apply repeat_length|]. intros y Ly. rewrite dot_nil_r. rewrite dot_zero_l. ring.
    + destruct (H al (or_introl eq_refl)) as (a1 & g1 & L1 & E1). destruct (IH c (fun b Hb => H b (or_intror Hb))) as (a2 & g2 & L2 & E2).
      exists (c0 * a1 + a2), (map (fun i => c0 * vget g1 i + vget g2 i) (seq 0 n)). split; [rewrite map_length, seq_length; auto|].
      intros y Ly. cbn [map]. rewrite dot_cons, E1, E2 by auto. rewrite (dot_rs n g1 y), (dot_rs n g2 y) by auto.
      rewrite (dot_rs n (map _ _) y) by (auto; rewrite map_length, seq_length; auto).
      rewrite (rsum_ext n (fun i => vget (map (fun i => c0 * vget g1 i + vget g2 i) (seq 0 n)) i * vget y i) (fun i => c0 * (vget g1 i * vget y i) + vget g2 i * vget y i)).
      * rewrite rsum_plus, rsum_scal_l. ring.
      * intros i Hi. rewrite vget_map_seq by auto. ring.
Qed.

Lemma ridge_affine : forall m n us c, length us = n -> (1 <= n)%nat -> Forall (fun u => length u = m) us -> exists a g, length g = m /\ forall x, length x = m -> ridge_eval (mono_basis 1 n) c us x = a + dot g x.
Proof.
  intros m n us c L N F.
  destruct (affine_sum n (fun al y => prodn n (fun k => vget (vcoord (mono_basis 1 n) y k) (ith al k))) (indices (mono_basis 1 n)) c) as (a & g & Lg & E).
  { intros al Ha. apply index_set_in in Ha; auto. destruct Ha. apply col_affine; auto. }
  exists a, (lincomb m us g). split; [apply lincomb_length; auto|]. intros x Lx. unfold ridge_eval, poly_eval, Vrow.
  change (tb_dim (mono_basis 1 n)) with n. rewrite E by (rewrite mv_length; auto). rewrite (dot_lincomb_mv m us g x) by (auto; congruence). reflexivity.
Qed.

Lemma line_eval : forall a g x, ridge_eval (mono_basis 1 1) [a; 1] [g] x = a + dot g x.
Proof.
  intros. unfold ridge_eval, poly_eval, Vrow, mv. change (indices (mono_basis 1 1)) with [[0%nat]; [1%nat]].
  cbn [map tb_dim mono_basis prodn vcoord ith nth seq tb_deg tb_fam tb_scale monomials phi scale vget]. rewrite !dot_cons, dot_nil_l. unfold vget. simpl. ring.
Qed.

Lemma const_eval : forall n c us x, length us = n -> length c = 1%nat -> ridge_eval (mono_basis 0 n) c us x = vget c 0.
Proof.
  intros n c us x L Lc. unfold ridge_eval, poly_eval, Vrow, indices. cbn [tb_deg tb_dim mono_basis]. unfold index_set. cbn [seq flat_map map].
  destruct c as [|c0 [|? ?]]; try discriminate. rewrite dot_cons, dot_nil_l. rewrite prodn_one.
  - unfold vget. simpl. ring.
  - intros k Hk. assert (Z : ith (rev (repeat 0%nat n)) k = 0%nat).
    { unfold ith. destruct (nth_in_or_default k (rev (repeat 0%nat n)) 0%nat) as [I|D]; auto. apply in_rev in I. apply repeat_spec in I. auto. }
    rewrite Z. rewrite vcoord_get by (simpl; lia). reflexivity.
Qed.

Theorem pr_dim_enough : forall m d n f, (1 <= n)%nat -> is_ridge m d n f -> is_ridge m d (pr_dim d n) f.
Proof.
  intros m d n f N (us & c & L & F & Lc & E). unfold pr_dim. destruct (Nat.eqb_spec d 0) as [->|D0].
  - exists [], c. split; [reflexivity|]. split; [constructor|]. split; [exact Lc|]. intros x Lx. rewrite E by auto. rewrite !const_eval; auto.
  - destruct (Nat.eqb_spec d 1) as [->|D1]; cbn [andb]; [|exists us, c; auto]. destruct (Nat.ltb_spec 1 n); [|exists us, c; auto].
    destruct (ridge_affine m n us c L N F) as (a & g & Lg & A). exists [g], [a; 1]. split; [reflexivity|]. split; [constructor; auto|]. split; [reflexivity|].
    intros x Lx. rewrite E, A by auto. symmetry. apply line_eval.
Qed.

(* ---------------- fewer directions do not suffice ---------------- *)
Lemma kernel_vec : forall n rows, Forall (fun r => length r = n) rows -> (length rows < n)%nat -> exists y, length y = n /\ dot y y = 1 /\ forall r, In r rows -> dot r y = 0.
Proof.
  intros n rows F L. destruct (gs_exists n rows F ltac:(lia)) as (q & Lq & Fq & Oq & S).
  destruct (unit_orth n q Fq Oq ltac:(lia)) as (y & Ly & U & Z). exists y. split; auto. split; auto.
  intros r I. apply In_nth with (d := []) in I. destruct I as (j & Hj & <-). destruct (S j Hj) as [E _]. rewrite E. rewrite dot_comm.
  rewrite dot_lincomb by auto. rewrite (dot_rs (length q)) by (rewrite mv_length; auto). apply rsum_zero. intros i Hi. rewrite (mv_get q y) by auto. rewrite Z by auto. ring.
Qed.

Definition is_single (e : nat) (al : list nat) (i : nat) : bool := Nat.eqb (ith al i) e && forallb (fun k => Nat.eqb k i || Nat.eqb (ith al k) 0) (seq 0 (length al)).
Definition power_coef (e d n : nat) : vec := map (fun al => if existsb (is_single e al) (seq 0 n) then 1 else 0) (indices (mono_basis d n)).

Lemma dot_map2 : forall (A : Type) (f g : A -> R) l, dot (map f l) (map g l) = fold_right (fun a s => f a * g a + s) 0 l.
Proof. induction l as [|a l IH]; simpl; [apply dot_nil_l|]. rewrite dot_cons, IH. ring. Qed.

Lemma mono_single : forall e d n y al i, (e <= d)%nat -> length al = n -> (i < n)%nat -> is_single e al i = true -> prodn n (fun k => vget (vcoord (mono_basis d n) y k) (ith al k)) = vget y i ^ e.
Proof.
  intros e d n y al i He L Hi S. unfold is_single in S. apply andb_true_iff in S. destruct S as [E S]. apply Nat.eqb_eq in E. rewrite forallb_forall in S.
  rewrite (prodn_split n i) by auto. rewrite E, vcoord_get by (simpl; lia). rewrite prodn_one; [unfold sc; simpl; ring|].
  intros k Hk. destruct (Nat.eqb_spec k i) as [|Nk]; auto. specialize (S k). rewrite in_seq in S. specialize (S ltac:(lia)). apply orb_true_iff in S. destruct S as [S|S]; apply Nat.eqb_eq in S; [congruence|].
  rewrite S, vcoord_get by (simpl; lia). reflexivity.
Qed.

Lemma single_in : forall e n i, (i < n)%nat -> exists al, length al = n /\ nsum al = e /\ is_single e al i = true.
Proof.
  intros e n i Hi. exists (repeat 0%nat i ++ e :: repeat 0%nat (n - S i)).
  assert (L : length (repeat 0%nat i ++ e :: repeat 0%nat (n - S i)) = n) by (rewrite app_length, repeat_length; simpl; rewrite repeat_length; lia).
  assert (Z : forall k, nsum (repeat 0%nat k) = 0%nat) by (induction k; simpl; auto).
  split; auto. split.
  - rewrite nsum_app, Z. change (nsum (e :: repeat 0%nat (n - S i))) with (e + nsum (repeat 0%nat (n - S i)))%nat. rewrite Z. lia.
  - unfold is_single, ith. apply andb_true_iff. split.
    + rewrite app_nth2 by (rewrite repeat_length; lia). rewrite repeat_length, Nat.sub_diag. apply Nat.eqb_refl.
    + apply forallb_forall. intros k Hk. destruct (Nat.eqb_spec k i) as [|N]; auto. cbn [orb]. apply Nat.eqb_eq. destruct (Nat.lt_ge_cases k i).
      * rewrite app_nth1 by (rewrite repeat_length; lia). apply nth_repeat.
      * rewrite app_nth2 by (rewrite repeat_length; lia). rewrite repeat_length. destruct (k - i)%nat eqn:E; [lia|]. simpl. apply nth_repeat.
Qed.

(** the sum of squares vanishes only at the origin *)
Lemma squares_eval : forall d n y, (2 <= d)%nat -> (1 <= n)%nat -> length y = n -> dot (Vrow (mono_basis d n) (vzero n)) (power_coef 2 d n) = 0 /\ (dot y y <> 0 -> 0 < dot (Vrow (mono_basis d n) y) (power_coef 2 d n)).
Proof.
  intros d n y D N Ly. unfold Vrow, power_coef. change (tb_dim (mono_basis d n)) with n. rewrite !dot_map2.
  assert (ALL : forall y al, In al (indices (mono_basis d n)) -> exists v, prodn n (fun k => vget (vcoord (mono_basis d n) y k) (ith al k)) * (if existsb (is_single 2 al) (seq 0 n) then 1 else 0) = v * v /\
    (existsb (is_single 2 al) (seq 0 n) = true -> exists i, (i < n)%nat /\ v = vget y i) /\ (existsb (is_single 2 al) (seq 0 n) = false -> v = 0)).
  { intros y' al I. apply index_set_in in I; auto. destruct I as [La _]. destruct (existsb (is_single 2 al) (seq 0 n)) eqn:X.
    - apply existsb_exists in X. destruct X as (i & Hi & S). apply in_seq in Hi. exists (vget y' i). rewrite (mono_single 2 d n y' al i) by (auto; lia). split; [simpl; ring|]. split; [|discriminate]. intros _. exists i. split; [lia|auto].
    - exists 0. split; [ring|]. split; [discriminate|auto]. }
  split.
  - assert (Z : forall l, incl l (indices (mono_basis d n)) -> fold_right (fun al s => prodn n (fun k => vget (vcoord (mono_basis d n) (vzero n) k) (ith al k)) * (if existsb (is_single 2 al) (seq 0 n) then 1 else 0) + s) 0 l = 0).
    { induction l as [|al l IH]; intro I; simpl; auto. rewrite IH by (intros b Hb; apply I; right; auto). destruct (ALL (vzero n) al) as (v & E & V1 & V0); [apply I; left; auto|]. rewrite E.
      assert (v = 0). { destruct (existsb (is_single 2 al) (seq 0 n)); auto. destruct (V1 eq_refl) as (i & _ & ->). unfold vget, vzero. apply nth_repeat. } subst v. ring. }
    apply Z. apply incl_refl.
  - intro Y. assert (exists i, (i < n)%nat /\ vget y i <> 0) as (i & Hi & Vi).
    { apply Classical_Prop.NNPP. intro C. apply Y. rewrite (dot_rs n y y) by auto. apply rsum_zero. intros i Hi. destruct (Req_dec (vget y i) 0) as [->|X]; [ring|]. exfalso. apply C. eauto. }
    destruct (single_in 2 n i Hi) as (al & La & Sa & S). assert (I : In al (indices (mono_basis d n))) by (apply index_set_in; auto; split; auto; simpl; lia).
    assert (P : forall l, incl l (indices (mono_basis d n)) -> 0 <= fold_right (fun al s => prodn n (fun k => vget (vcoord (mono_basis d n) y k) (ith al k)) * (if existsb (is_single 2 al) (seq 0 n) then 1 else 0) + s) 0 l /\
      (In al l -> 0 < fold_right (fun al s => prodn n (fun k => vget (vcoord (mono_basis d n) y k) (ith al k)) * (if existsb (is_single 2 al) (seq 0 n) then 1 else 0) + s) 0 l)).
    { induction l as [|b l IH]; intro J; [split; [simpl; lra|intros []]|]. cbn [fold_right]. destruct (IH (fun x Hx => J x (or_intror Hx))) as [P0 P1].
      destruct (ALL y b (J b (or_introl eq_refl))) as (v & E & V1 & V0). assert (Q := Rle_0_sqr v). unfold Rsqr in Q. split; [rewrite E; lra|]. intros [->|H]; [|rewrite E; specialize (P1 H); lra].
      assert (X : existsb (is_single 2 al) (seq 0 n) = true) by (apply existsb_exists; exists i; split; auto; apply in_seq; lia).
      rewrite X. rewrite (mono_single 2 d n y al i) by auto. assert (0 < vget y i ^ 2) by (simpl; rewrite Rmult_1_r; apply Rsqr_pos_lt; auto). lra. }
    apply P; auto. apply incl_refl.
Qed.

Lemma ridge_zero : forall B c us m x, (forall u, In u us -> dot u x = 0) -> length us = tb_dim B -> ridge_eval B c us x = ridge_eval B c us (vzero m).
Proof.
  intros B c us m x Z L. unfold ridge_eval. f_equal. unfold mv. apply map_ext_in. intros u Hu. rewrite Z by auto. symmetry. apply dot_zero_r.
Qed.

Theorem pr_dim_least : forall m d n, (1 <= n <= m)%nat -> exists f, is_ridge m d n f /\ forall k, (k < pr_dim d n)%nat -> ~ is_ridge m d k f.
Proof.
  intros m d n H. destruct (extend_to m n [] (Forall_nil _)) as (us & L & F & O); [intros i j Hi; simpl in Hi; lia|simpl; lia|]. cbn [app] in *.
  destruct (Nat.lt_ge_cases d 2) as [D|D].
  - destruct d as [|d].
    + exists (fun _ => 1). split; [|unfold pr_dim; simpl; intros; lia]. exists us, [1]. split; auto. split; auto. split; [reflexivity|]. intros x Lx. rewrite const_eval; auto.
    + assert (d = 0)%nat by lia. subst d. set (u0 := nth 0 us []). assert (I0 : In u0 us) by (apply nth_In; lia). assert (Lu : length u0 = m) by (rewrite Forall_forall in F; auto).
      assert (R1 : is_ridge m 1 1 (fun x => dot u0 x)).
      { exists [u0], [0; 1]. split; auto. split; [constructor; auto|]. split; auto. intros x Lx. rewrite line_eval. ring. }
      destruct (single_in 1 n 0 ltac:(lia)) as (e0 & Le & Se & X0). assert (Ie : In e0 (index_set 1 n)) by (apply index_set_in; [lia|split; auto; lia]).
      exists (fun x => dot u0 x). split.
      * exists us, (map (fun al => if list_eq_dec Nat.eq_dec al e0 then 1 else 0) (index_set 1 n)). split; auto. split; auto. split; [unfold indices; rewrite map_length; auto|].
        intros x Lx. unfold ridge_eval, poly_eval, Vrow, indices. change (tb_dim (mono_basis 1 n)) with n. change (tb_deg (mono_basis 1 n)) with 1%nat. rewrite dot_map2.
        assert (ND := index_set_nodup 1 n ltac:(lia)). revert ND Ie. generalize (index_set 1 n). induction l as [|al l IH]; intros ND I; [destruct I|]. inversion ND as [|? ? NI ND']; subst. cbn [fold_right].
        destruct (list_eq_dec Nat.eq_dec al e0) as [->|Ne].
        -- rewrite (mono_single 1 1 _ (mv us x) e0 0) by (auto; lia). rewrite mv_get by lia. fold u0.
           replace (fold_right _ 0 l) with 0; [ring|]. clear - NI. induction l as [|b l IH]; auto. cbn [fold_right]. rewrite <- IH by (intro; apply NI; right; auto). destruct (list_eq_dec Nat.eq_dec b e0) as [->|]; [exfalso; apply NI; left; auto|ring].
        -- rewrite <- IH; [ring|auto|]. destruct I; [congruence|auto].
      * intros k Hk (vs & c & Lv & Fv & Lc & E). assert (k = 0)%nat.
        { unfold pr_dim in Hk. simpl Nat.eqb in Hk. cbn [andb] in Hk. destruct (Nat.ltb_spec 1 n); lia. } subst k. destruct vs; [|discriminate].
        assert (dot u0 u0 = 1). { unfold u0. rewrite (O 0%nat 0%nat) by lia. reflexivity. }
        pose proof (E u0 Lu) as E1. pose proof (E (vzero m) ltac:(apply repeat_length)) as E2. cbv beta in E1, E2. unfold ridge_eval in E1, E2. simpl mv in E1, E2. rewrite dot_zero_r in E2. lra.
  - exists (fun x => ridge_eval (mono_basis d n) (power_coef 2 d n) us x). split.
    + exists us, (power_coef 2 d n). split; auto. split; auto. split; auto. unfold power_coef. rewrite map_length. auto.
    + intros k Hk (vs & c & Lv & Fv & Lc & E). assert (K : (k < n)%nat).
      { unfold pr_dim in Hk. destruct (Nat.eqb_spec d 0); [lia|]. destruct (Nat.eqb_spec d 1); [lia|]. simpl in Hk. lia. }
      destruct (kernel_vec n (map (mv us) vs)) as (y & Ly & Y1 & Z).
      { apply Forall_forall. intros r I. apply in_map_iff in I. destruct I as (v & <- & _). rewrite mv_length. auto. }
      { rewrite map_length. lia. }
      set (p := lincomb m us y). assert (Lp : length p = m) by (apply lincomb_length; auto).
      assert (Mp : mv us p = y) by (apply mv_lincomb_onb; auto; congruence).
      assert (Zp : forall v, In v vs -> dot v p = 0).
      { intros v I. unfold p. rewrite dot_lincomb by auto. rewrite dot_comm. apply Z. apply in_map. auto. }
      pose proof (E p Lp) as E1. pose proof (E (vzero m) ltac:(apply repeat_length)) as E2. rewrite (ridge_zero (mono_basis d k) c vs m p Zp Lv) in E1.
      cbv beta in E1, E2. rewrite <- E2 in E1. unfold ridge_eval, poly_eval in E1. rewrite Mp in E1.
      replace (mv us (vzero m)) with (vzero n) in E1.
      * destruct (squares_eval d n y D ltac:(lia) Ly) as [S0 S1]. rewrite S0 in E1. specialize (S1 ltac:(lra)). lra.
      * symmetry. unfold mv, vzero. rewrite <- L. clear. induction us as [|u us IH]; simpl; auto. rewrite IH. f_equal. apply dot_zero_r.
Qed.

(** three directions, degree one: one direction is kept *)
Example pr_dim_case : pr_dim 1 3 = 1%nat /\ pr_dim 2 3 = 3%nat /\ pr_dim 0 3 = 0%nat /\ is_ridge 3 1 3 (fun x => 5 + dot [1; 2; 3] x) /\ is_ridge 3 1 1 (fun x => 5 + dot [1; 2; 3] x).
Proof.
  assert (A : is_ridge 3 1 3 (fun x => 5 + dot [1; 2; 3] x)).
  { exists [[1; 0; 0]; [0; 1; 0]; [0; 0; 1]], [5; 1; 2; 3]. repeat split; auto.
    intros x Lx. destruct x as [|x0 [|x1 [|x2 [|? ?]]]]; try discriminate. unfold ridge_eval, poly_eval, Vrow, mv.
    change (indices (mono_basis 1 3)) with [[0; 0; 0]; [1; 0; 0]; [0; 1; 0]; [0; 0; 1]]%nat.
    cbn [map]. rewrite !dot_cons, !dot_nil_l. unfold vcoord, vget, ith. simpl. ring. }
  repeat split; auto. apply (pr_dim_enough 3 1 3); auto.
Qed.
