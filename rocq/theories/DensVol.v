(** The estimated volume and the Monte Carlo weights made from it. *)
Require Import Reals Lra Lia List Bool Arith.
From Verif Require Import RVec Num DomModel DomSpec DomProofs DomMoreModel QuadProofs RandModel RandProofs DensModel DensProofs.
Import ListNotations.
Local Open Scope R_scope.

Lemma nprod_fin : forall l u, nprod (zipw nsub (map Fin u) (map Fin l)) = Fin (vprod (widths l u)) \/ length l <> length u.
Proof.
  induction l as [|a l IH]; intros [|b u]; cbn; auto. destruct (IH u) as [E|E]; [left; unfold nprod in E; rewrite E; reflexivity|right; lia].
Qed.
Lemma vprod_nonneg : forall l u, Forall2 Rle l u -> 0 <= vprod (widths l u).
Proof. intros l u H. induction H; cbn; [lra|]. apply Rmult_le_pos; [lra|auto]. Qed.
(** a finite box: the integral of one over it *)
Theorem vol_box : forall d l u nlb nub tol Xt, is_box_domain d = true -> lb d = map Fin l -> ub d = map Fin u -> Forall2 Rle l u ->
  exists v, volume d nlb nub tol Xt = Fin v /\ is_iint l u (fun _ => 1) v.
Proof.
  intros d l u nlb nub tol Xt B EL EU H. exists (vprod (widths l u)). unfold volume. rewrite B, EL, EU. split.
  - destruct (nprod_fin l u) as [E|E]; [exact E|]. exfalso. apply E. symmetry. apply (f2_len _ _ _ H).
  - replace (vprod (widths l u)) with (1 * vprod (widths l u)) by ring. apply is_iint_const; auto.
Qed.
(** without a finite bound somewhere: infinite volume and infinite weights *)
Lemma nprod_inf : forall l u, Forall2 (fun a b => nltb a b = true) l u -> (exists r, 0 < r /\ nprod (zipw nsub u l) = Fin r) \/ nprod (zipw nsub u l) = PInf.
Proof.
  intros l u H. induction H as [|a b l u AB H IH]; [left; exists 1; split; [lra|reflexivity]|]. cbn [zipw nprod fold_right]. change (fold_right nmul (Fin 1) (zipw nsub u l)) with (nprod (zipw nsub u l)).
  destruct a as [a| | |], b as [b| | |]; try discriminate AB; cbn in AB; try (apply Rltb_true in AB).
  - destruct IH as [(r & P & ->)| ->]; [left; exists ((b + - a) * r); split; [apply Rmult_lt_0_compat; lra|reflexivity]|right]. cbn. destruct (Req_EM_T (b + - a) 0); [exfalso; lra|]. replace (Rltb 0 (b + - a)) with true; [reflexivity|]. symmetry. apply Rltb_true. lra.
  - right. destruct IH as [(r & P & ->)| ->]; cbn; [|reflexivity]. destruct (Req_EM_T r 0); [exfalso; lra|]. replace (Rltb 0 r) with true; [reflexivity|]. symmetry. apply Rltb_true. lra.
  - right. destruct IH as [(r & P & ->)| ->]; cbn; [|reflexivity]. destruct (Req_EM_T r 0); [exfalso; lra|]. replace (Rltb 0 r) with true; [reflexivity|]. symmetry. apply Rltb_true. lra.
  - right. destruct IH as [(r & P & ->)| ->]; cbn; [|reflexivity]. destruct (Req_EM_T r 0); [exfalso; lra|]. replace (Rltb 0 r) with true; [reflexivity|]. symmetry. apply Rltb_true. lra.
Qed.
Lemma nprod_unb : forall l u, Forall2 (fun a b => nltb a b = true) l u -> (exists i, (i < length l)%nat /\ (is_inf (nth i l NaN) = true \/ is_inf (nth i u NaN) = true)) -> nprod (zipw nsub u l) = PInf.
Proof.
  intros l u H. induction H as [|a b l u AB H IH]; intros (i & Hi & HI); [cbn in Hi; lia|]. cbn [zipw nprod fold_right]. change (fold_right nmul (Fin 1) (zipw nsub u l)) with (nprod (zipw nsub u l)).
  destruct i as [|i].
  - cbn in HI. assert (E : nsub b a = PInf) by (destruct a, b; try discriminate AB; cbn; try reflexivity; destruct HI; discriminate). rewrite E. destruct (nprod_inf l u H) as [(r & P & ->)| ->]; cbn; [|reflexivity]. destruct (Req_EM_T r 0); [exfalso; lra|]. replace (Rltb 0 r) with true; [reflexivity|]. symmetry. apply Rltb_true. lra.
  - cbn in HI, Hi. rewrite IH by (exists i; split; [lia|auto]). destruct a as [a| | |], b as [b| | |]; try discriminate AB; cbn in *; auto. apply Rltb_true in AB. destruct (Req_EM_T (b + - a) 0); [exfalso; lra|]. replace (Rltb 0 (b + - a)) with true; [reflexivity|]. symmetry. apply Rltb_true. lra.
Qed.
Theorem vol_unbounded : forall d nlb nub tol Xt N, is_box_domain d = true -> Forall2 (fun a b => nltb a b = true) (lb d) (ub d) -> (exists i, (i < length (lb d))%nat /\ (is_inf (nth i (lb d) NaN) = true \/ is_inf (nth i (ub d) NaN) = true)) -> (1 <= N)%nat ->
  volume d nlb nub tol Xt = PInf /\ forall w, In w (mc_weights_num N (volume d nlb nub tol Xt)) -> w = PInf.
Proof.
  intros d nlb nub tol Xt N B H U HN. assert (E : volume d nlb nub tol Xt = PInf) by (unfold volume; rewrite B; apply nprod_unb; auto). split; auto. rewrite E. intros w I. unfold mc_weights_num in I. apply repeat_spec in I. subst w. assert (P : 0 < 1 / INR N) by (apply Rdiv_lt_0_compat; [lra|apply lt_0_INR; lia]). cbn. destruct (Req_EM_T (1 / INR N) 0); [exfalso; lra|]. replace (Rltb 0 (1 / INR N)) with true; [reflexivity|]. symmetry. apply Rltb_true. auto.
Qed.
(** every normal domain without truncation is such a domain *)
Theorem vol_normal_infinite : forall mean Linv nlb nub tol Xt N, mean <> [] -> (1 <= N)%nat -> volume (normal_dom mean Linv None) nlb nub tol Xt = PInf /\ forall w, In w (mc_weights_num N (volume (normal_dom mean Linv None) nlb nub tol Xt)) -> w = PInf.
Proof.
  intros mean Linv nlb nub tol Xt N NE HN. apply vol_unbounded; auto.
  - unfold normal_dom. cbn. clear NE. induction mean; cbn; constructor; auto.
  - exists 0%nat. destruct mean; [contradiction|]. cbn. split; [lia|auto].
Qed.
(** otherwise: the box times the fraction of samples inside *)
Lemma count_le : forall d tol Xt, (count_inside d tol Xt <= length Xt)%nat.
Proof. intros d tol Xt. unfold count_inside. induction Xt; cbn; auto. destruct (inside1 d a tol); cbn; lia. Qed.
Lemma count_all : forall d tol Xt, count_inside d tol Xt = length Xt <-> forall x, In x Xt -> inside1 d x tol = true.
Proof.
  intros d tol Xt. pose proof (count_le d tol) as CL. unfold count_inside in *. induction Xt as [|x Xt IH]; cbn; [split; [intros _ x []|auto]|]. specialize (CL Xt). destruct (inside1 d x tol) eqn:E; cbn.
  - split; [intros H y [<-|I]; auto; apply IH; auto; lia|]. intro H. f_equal. apply IH. auto.
  - split; [intro H; lia|]. intro H. rewrite (H x (or_introl eq_refl)) in E. discriminate.
Qed.
Lemma count_none : forall d tol Xt, count_inside d tol Xt = 0%nat <-> forall x, In x Xt -> inside1 d x tol = false.
Proof.
  intros d tol Xt. unfold count_inside in *. induction Xt as [|x Xt IH]; cbn; [split; [intros _ x []|auto]|]. destruct (inside1 d x tol) eqn:E; cbn.
  - split; [discriminate|]. intro H. rewrite (H x (or_introl eq_refl)) in E. discriminate.
  - rewrite IH. split; [intros H y [<-|I]; auto|auto].
Qed.
Theorem vol_mc : forall d l u tol Xt, is_box_domain d = false -> Forall2 Rle l u -> Xt <> [] -> exists v, volume d (map Fin l) (map Fin u) tol Xt = Fin v /\ 0 <= v <= vprod (widths l u) /\
  v = INR (count_inside d tol Xt) / INR (length Xt) * vprod (widths l u) /\ (Forall2 Rlt l u -> (v = vprod (widths l u) <-> forall x, In x Xt -> inside1 d x tol = true) /\ (v = 0 <-> forall x, In x Xt -> inside1 d x tol = false)).
Proof.
  intros d l u tol Xt B H NE. assert (NP : 0 < INR (length Xt)) by (apply lt_0_INR; destruct Xt; [contradiction|cbn; lia]). pose proof (count_le d tol Xt) as CL. apply le_INR in CL. pose proof (pos_INR (count_inside d tol Xt)) as CP. set (fr := INR (count_inside d tol Xt) / INR (length Xt)).
  assert (FR : 0 <= fr <= 1) by (unfold fr; split; [apply Rmult_le_pos; [lra|apply Rlt_le, Rinv_0_lt_compat; auto]|]; apply (Rmult_le_reg_r (INR (length Xt))); auto; replace (INR (count_inside d tol Xt) / INR (length Xt) * INR (length Xt)) with (INR (count_inside d tol Xt)) by (field; lra); lra).
  exists (vprod (widths l u) * fr). pose proof (vprod_nonneg l u H) as VN. split; [|split; [|split]].
  - unfold volume. rewrite B. destruct (nprod_fin l u) as [E|E]; [rewrite E; reflexivity|]. exfalso. apply E. symmetry. apply (f2_len _ _ _ H).
  - split; nra.
  - ring.
  - intro HS. pose proof (vprod_pos l u HS) as VP. rewrite <- count_all, <- count_none. split.
    + split; intro E.
      * assert (F1 : fr = 1) by (apply (Rmult_eq_reg_l (vprod (widths l u))); lra). apply INR_eq. replace (INR (count_inside d tol Xt)) with (fr * INR (length Xt)) by (unfold fr; field; lra). rewrite F1. ring.
      * unfold fr. rewrite E. field. lra.
    + split; intro E.
      * assert (F1 : fr = 0) by (apply (Rmult_eq_reg_l (vprod (widths l u))); lra). apply INR_eq. replace (INR (count_inside d tol Xt)) with (fr * INR (length Xt)) by (unfold fr; field; lra). rewrite F1. cbn. ring.
      * unfold fr. rewrite E. cbn. unfold Rdiv. ring.
Qed.
(** what the Monte Carlo rule gives for f *)
Definition mc_rule (N : nat) (vol : R) (f : vec -> R) (X : list vec) : R := vsum (zipw (fun w x => w * f x) (mc_weights N vol) X).
Lemma mc_num : forall N v, mc_weights_num N (Fin v) = map Fin (mc_weights N v).
Proof. intros N v. unfold mc_weights_num, mc_weights. cbn. generalize (1 / INR N * v). intro r. generalize N. intro k. induction k; cbn; [reflexivity|]. rewrite IHk. reflexivity. Qed.
(** a domain with an equality constraint that no point drawn from the box satisfies: every integral is zero *)
Theorem vol_equality : forall d l u tol Xt, dom_wf d -> dcls d <> Point -> is_box_domain d = false -> Forall2 Rle l u -> Xt <> [] ->
  (forall x, In x Xt -> exists k a c, nth_error (dAeq d) k = Some a /\ nth_error (dbeq d) k = Some c /\ tol <= Rabs (dot a x - c)) ->
  volume d (map Fin l) (map Fin u) tol Xt = Fin 0 /\ forall N f X v, volume d (map Fin l) (map Fin u) tol Xt = Fin v -> mc_rule N v f X = 0.
Proof.
  intros d l u tol Xt W NP B H NE HX. destruct (vol_mc d l u tol Xt B H NE) as (v & E & _ & EV & _). rewrite (proj2 (count_none d tol Xt)) in EV.
  - cbn in EV. assert (E0 : volume d (map Fin l) (map Fin u) tol Xt = Fin 0) by (rewrite E; f_equal; rewrite EV; unfold Rdiv; ring). split; auto. intros N f X v' Ev. rewrite E0 in Ev. injection Ev as <-. unfold mc_rule, mc_weights. rewrite Rmult_0_r. generalize N. intro k. revert X. induction k; intros [|x X]; cbn; auto. rewrite IHk. ring.
  - intros x I. destruct (inside1 d x tol) eqn:EI; auto. apply inside1_spec in EI; auto. destruct EI as (_ & _ & _ & SE & _). destruct (HX x I) as (k & a & c & H1 & H2 & H3). specialize (SE k a c H1 H2). lra.
Qed.
(** a domain passing the test is the box of its bounds *)
Theorem box_set : forall d, dom_wf d -> is_box_domain d = true -> forall x, member d x <-> length x = dim d /\ sat_bounds (lb d) (ub d) 0 x.
Proof.
  intros d W B x. unfold is_box_domain in B. apply andb_true_iff in B. destruct B as [B B3]. apply andb_true_iff in B. destruct B as [B1 B2]. apply Nat.eqb_eq in B1, B2, B3. apply length_zero_iff_nil in B1, B2, B3.
  unfold member. rewrite B1, B2, B3. split; [tauto|]. intros [L S]. split; auto. split; auto. split; [intros k a c _ E; destruct k; discriminate|]. split; [intros k a c _ E; destruct k; discriminate|]. intros q [].
Qed.
(** the Monte Carlo weights: N equal ones, with the volume as their sum *)
Theorem weights_sum : forall N v, (1 <= N)%nat -> exists w, mc_weights_num N (Fin v) = map Fin w /\ length w = N /\ vsum w = v /\ forall r, In r w -> r = v / INR N.
Proof.
  intros N v H. exists (mc_weights N v). split; [apply mc_num|]. unfold mc_weights. split; [apply repeat_length|]. assert (P : 0 < INR N) by (apply lt_0_INR; lia). split.
  - assert (G : forall k r, vsum (repeat r k) = INR k * r). { induction k as [|k IH]; intro r; [cbn; ring|]. cbn [repeat]. change (vsum (r :: repeat r k)) with (r + vsum (repeat r k)). rewrite IH, S_INR. ring. } rewrite G. field. lra.
  - intros r I. apply repeat_spec in I. subst r. field. lra.
Qed.
