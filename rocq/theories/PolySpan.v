(** The space spanned by a total degree tensor basis: closed under affine changes of variables, and x_p d/dx_k maps it to itself.
    Library for RidgeProofs and VarproProofs. *)
Require Import Reals Lra Lia List Bool Arith.
From Verif Require Import RVec Num Sums DomMoreModel SweepProofs HullProofs Deriv BasisModel IndexProofs PolyProofs MatLib SpecProofs GrassLib LipModel RidgeProofs.
Import ListNotations.
Local Open Scope R_scope.

(** three term recurrence with a non-zero leading factor *)
Definition fam3 (F : family) : Prop := (forall t, phi F 0 t = 1) /\
  forall n, exists p q w, p <> 0 /\ forall t, phi F (S n) t = (p * t + q) * phi F n t + w * match n with O => 0 | S n' => phi F n' t end.
Lemma monomials_rec : fam3 monomials.
Proof. split; [reflexivity|]. intro n. exists 1, 0, 0. split; [lra|]. intro t. simpl. ring. Qed.
Lemma legendre_rec : fam3 legendre.
Proof.
  split; [reflexivity|]. intro n. destruct n as [|n]; [exists 1, 0, 0; split; [lra|]; intro t; unfold legendre, phi, leg; simpl; ring|].
  assert (P : INR (S (S n)) <> 0) by (apply not_0_INR; lia). assert (P2 : 0 < INR (S (S n))) by (apply lt_0_INR; lia).
  exists ((2 * INR (S (S n)) - 1) / INR (S (S n))), 0, (- ((INR (S (S n)) - 1) / INR (S (S n)))). split.
  - intro E. assert (Q : 2 * INR (S (S n)) - 1 = 0) by (apply (Rmult_eq_reg_r (/ INR (S (S n)))); [unfold Rdiv in E; lra|apply Rinv_neq_0_compat; auto]). rewrite !S_INR in Q. pose proof (pos_INR n). lra.
  - intro t. cbn [phi legendre]. apply (Rmult_eq_reg_l (INR (S (S n)))); auto. rewrite leg_rec. field. auto.
Qed.
Lemma chebyshev_rec : fam3 chebyshev.
Proof. split; [reflexivity|]. intro n. destruct n as [|n]; [exists 1, 0, 0; split; [lra|]; intro t; unfold chebyshev, phi, cheb; simpl; ring|]. exists 2, 0, (-1). split; [lra|]. intro t. cbn [phi chebyshev]. rewrite cheb_rec. ring. Qed.
Lemma laguerre_rec : fam3 laguerre.
Proof.
  split; [reflexivity|]. intro n. destruct n as [|n]; [exists (-1), 1, 0; split; [lra|]; intro t; unfold laguerre, phi, lag; simpl; ring|].
  assert (P : INR (S (S n)) <> 0) by (apply not_0_INR; lia). exists (- / INR (S (S n))), ((2 * INR (S (S n)) - 1) / INR (S (S n))), (- ((INR (S (S n)) - 1) / INR (S (S n)))). split.
  - apply Ropp_neq_0_compat, Rinv_neq_0_compat. auto.
  - intro t. cbn [phi laguerre]. rewrite lag_rec. field. auto.
Qed.
Lemma hermite_rec : fam3 hermite.
Proof.
  split; [reflexivity|]. intro n. destruct n as [|n]; [exists 2, 0, 0; split; [lra|]; intro t; unfold hermite, phi, herm; simpl; ring|].
  exists 2, 0, (- (2 * (INR (S (S n)) - 1))). split; [lra|]. intro t. cbn [phi hermite]. unfold herm at 1. rewrite rec3_SS. fold (herm (S n) t). fold (herm n t). ring.
Qed.

Definition upd (al : list nat) (k b : nat) : list nat := map (fun q => if Nat.eqb q k then b else ith al q) (seq 0 (length al)).
Lemma upd_len : forall al k b, length (upd al k b) = length al. Proof. intros. unfold upd. rewrite map_length, seq_length. auto. Qed.
Lemma upd_ith : forall al k b q, (q < length al)%nat -> ith (upd al k b) q = if Nat.eqb q k then b else ith al q.
Proof. intros. unfold ith at 1, upd. rewrite nth_map_seq by auto. auto. Qed.
Lemma ith_map : forall al, map (ith al) (seq 0 (length al)) = al.
Proof. intro al. apply (nth_ext _ _ 0%nat 0%nat); [rewrite map_length, seq_length; auto|]. intros q Hq. rewrite map_length, seq_length in Hq. rewrite nth_map_seq by auto. auto. Qed.
Lemma nsum_shift : forall (f g : nat -> nat) n s k, (s <= k < s + n)%nat -> (forall q, q <> k -> f q = g q) -> (nsum (map f (seq s n)) + g k = nsum (map g (seq s n)) + f k)%nat.
Proof.
  intros f g n. induction n as [|n IH]; intros s k Hk H; [lia|]. simpl. fold (nsum (map f (seq (S s) n))) (nsum (map g (seq (S s) n))). destruct (Nat.eq_dec s k) as [->|N].
  - assert (E : map f (seq (S k) n) = map g (seq (S k) n)) by (apply map_ext_in; intros q Iq; apply in_seq in Iq; apply H; lia). rewrite E. lia.
  - rewrite (H s) by auto. specialize (IH (S s) k ltac:(lia) H). lia.
Qed.
Lemma upd_sum : forall al k b, (k < length al)%nat -> (nsum (upd al k b) + ith al k = nsum al + b)%nat.
Proof.
  intros al k b Hk. unfold upd. pose proof (nsum_shift (fun q => if Nat.eqb q k then b else ith al q) (ith al) (length al) 0 k ltac:(lia)) as H. rewrite ith_map in H. cbv beta in H. rewrite Nat.eqb_refl in H. apply H. intros q N. destruct (Nat.eqb_spec q k); [lia|auto].
Qed.

Section Span.
Variable B : tbasis.
Hypothesis FO : fam_ok (tb_fam B).
Hypothesis F3 : fam3 (tb_fam B).
Let d := tb_dim B.
Hypothesis DN : forall k, (k < d)%nat -> dscale (tb_scale B) k <> 0.
Hypothesis Hd : (1 <= d)%nat.

Fixpoint lsum (L : list (R * list nat)) (x : vec) : R := match L with [] => 0 | ca :: L' => fst ca * psi B (snd ca) x + lsum L' x end.
Definition pspan (D : nat) (g : vec -> R) : Prop :=
  exists L, (forall ca, In ca L -> length (snd ca) = d /\ (nsum (snd ca) <= D)%nat) /\ forall x, length x = d -> g x = lsum L x.
Lemma lsum_app : forall L1 L2 x, lsum (L1 ++ L2) x = lsum L1 x + lsum L2 x.
Proof. induction L1 as [|a L1 IH]; intros; simpl; [ring|]. rewrite IH. ring. Qed.
Lemma lsum_scal : forall a L x, lsum (map (fun ca => (a * fst ca, snd ca)) L) x = a * lsum L x.
Proof. induction L as [|b L IH]; intros; simpl; [ring|]. rewrite IH. ring. Qed.
Lemma pspan_ext : forall D g h, (forall x, length x = d -> h x = g x) -> pspan D g -> pspan D h.
Proof. intros D g h E [L [A H]]. exists L. split; auto. intros x Hx. rewrite E by auto. auto. Qed.
Lemma pspan_psi : forall D al, length al = d -> (nsum al <= D)%nat -> pspan D (psi B al).
Proof. intros D al L H. exists [(1, al)]. split; [intros ca [<-|[]]; auto|]. intros x Hx. simpl. ring. Qed.
Lemma pspan_zero : forall D, pspan D (fun _ => 0). Proof. intro D. exists []. split; [intros ? []|]. auto. Qed.
Lemma pspan_add : forall D g h, pspan D g -> pspan D h -> pspan D (fun x => g x + h x).
Proof. intros D g h [L1 [A1 H1]] [L2 [A2 H2]]. exists (L1 ++ L2). split; [intros ca I; apply in_app_or in I; destruct I; auto|]. intros x Hx. rewrite lsum_app, H1, H2; auto. Qed.
Lemma pspan_scal : forall D a g, pspan D g -> pspan D (fun x => a * g x).
Proof. intros D a g [L [A H]]. exists (map (fun ca => (a * fst ca, snd ca)) L). split; [intros ca I; apply in_map_iff in I; destruct I as [cb [<- I]]; simpl; auto|]. intros x Hx. rewrite lsum_scal, H; auto. Qed.
Lemma pspan_mono : forall D D' g, (D <= D')%nat -> pspan D g -> pspan D' g.
Proof. intros D D' g H [L [A E]]. exists L. split; auto. intros ca I. destruct (A ca I). split; auto. lia. Qed.
Lemma pspan_rsum : forall D n g, (forall k, (k < n)%nat -> pspan D (g k)) -> pspan D (fun x => rsum n (fun k => g k x)).
Proof. intros D n g. induction n as [|n IH]; intro H; simpl; [apply pspan_zero|]. apply pspan_add; auto. Qed.
Lemma pspan_mul : forall D D' h, (forall al, length al = d -> (nsum al <= D)%nat -> pspan D' (fun x => h x * psi B al x)) -> forall g, pspan D g -> pspan D' (fun x => h x * g x).
Proof.
  intros D D' h H g [L [A E]]. apply (pspan_ext D' (fun x => h x * lsum L x)); [intros x Hx; rewrite E; auto|]. clear E. induction L as [|[c al] L IH]; simpl.
  - apply (pspan_ext D' (fun _ => 0)); [intros; ring|apply pspan_zero].
  - apply (pspan_ext D' (fun x => c * (h x * psi B al x) + h x * lsum L x)); [intros; ring|]. apply pspan_add; [|apply IH; intros; apply A; right; auto]. apply pspan_scal. destruct (A (c, al) (or_introl eq_refl)). auto.
Qed.
(** factor k of psi replaced *)
Lemma psi_upd : forall al k b x, length al = d -> (k < d)%nat -> psi B (upd al k b) x = phi (tb_fam B) b (sc B x k) * prodn d (fun i => if Nat.eqb i k then 1 else phi (tb_fam B) (ith al i) (sc B x i)).
Proof.
  intros al k b x L Hk. unfold psi. fold d. rewrite (prodn_split d k) by auto. rewrite upd_ith by lia. rewrite Nat.eqb_refl. f_equal. apply prodn_ext. intros i Hi. rewrite upd_ith by lia. destruct (Nat.eqb i k); auto.
Qed.
Lemma upd_self : forall al k, upd al k (ith al k) = al.
Proof. intros al k. transitivity (map (ith al) (seq 0 (length al))); [|apply ith_map]. unfold upd. apply map_ext. intro q. destruct (Nat.eqb_spec q k); subst; auto. Qed.
Lemma mul_sc : forall al k, length al = d -> (k < d)%nat -> pspan (S (nsum al)) (fun x => sc B x k * psi B al x).
Proof.
  intros al k L Hk. set (a := ith al k). destruct F3 as [_ R3]. destruct (R3 a) as [p [q [w [Np E]]]].
  assert (S1 : pspan (S (nsum al)) (psi B (upd al k (S a)))) by (apply pspan_psi; [rewrite upd_len; auto|]; pose proof (upd_sum al k (S a) ltac:(lia)); fold a in H; lia).
  assert (S0 : pspan (S (nsum al)) (psi B al)) by (apply pspan_psi; auto).
  assert (SM : pspan (S (nsum al)) (fun x => match a with O => 0 | S a' => psi B (upd al k a') x end)).
  { destruct a as [|a'] eqn:Ea; [apply pspan_zero|]. apply (pspan_psi _ (upd al k a')); [rewrite upd_len; auto|]. pose proof (upd_sum al k a' ltac:(lia)). unfold a in Ea. lia. }
  apply (pspan_ext _ (fun x => / p * (psi B (upd al k (S a)) x + (- q) * psi B al x + (- w) * match a with O => 0 | S a' => psi B (upd al k a') x end))).
  - intros x Hx. assert (E0 : psi B al x = psi B (upd al k a) x) by (unfold a; rewrite upd_self; auto). rewrite E0. rewrite !psi_upd by auto. set (P := prodn d _). rewrite E.
    destruct a as [|a'] eqn:Ea; [field; auto|]. rewrite psi_upd by auto. fold P. field. auto.
  - apply pspan_scal. apply pspan_add; [apply pspan_add; auto|]; apply pspan_scal; auto.
Qed.
Lemma mul_coord : forall p D g, (p < d)%nat -> pspan D g -> pspan (S D) (fun x => vget x p * g x).
Proof.
  intros p D g Hp. apply pspan_mul. intros al L Ha. set (s0 := scale (tb_scale B) p 0). set (s1 := dscale (tb_scale B) p).
  apply (pspan_ext _ (fun x => / s1 * (sc B x p * psi B al x + (- s0) * psi B al x))).
  - intros x Hx. assert (E : sc B x p = s0 + vget x p * s1) by (unfold sc; replace (vget x p) with (0 + vget x p) at 1 by ring; apply scale_affine). rewrite E. field. apply DN. auto.
  - apply pspan_scal. apply pspan_add; [apply (pspan_mono (S (nsum al))); [lia|apply mul_sc; auto]|apply pspan_scal, pspan_psi; auto].
Qed.
Lemma mul_affine : forall a0 w D g, length w = d -> pspan D g -> pspan (S D) (fun x => (a0 + dot w x) * g x).
Proof.
  intros a0 w D g Lw H. apply (pspan_ext _ (fun x => a0 * g x + rsum d (fun p => vget w p * (vget x p * g x)))).
  - intros x Hx. rewrite dot_rsum by lia. rewrite Lw. rewrite Rmult_plus_distr_r. f_equal. rewrite <- rsum_scal_r. apply rsum_ext. intros; ring.
  - apply pspan_add; [apply pspan_scal, (pspan_mono D); auto|]. apply (pspan_rsum (S D) d (fun p x => vget w p * (vget x p * g x))). intros p Hp. apply pspan_scal, mul_coord; auto.
Qed.
Lemma mul_phi : forall F' a0 w a D g, fam3 F' -> length w = d -> pspan D g -> pspan (a + D) (fun x => phi F' a (a0 + dot w x) * g x).
Proof.
  intros F' a0 w a D g [Z R3] Lw H. revert a. apply two_step.
  - apply (pspan_ext _ g); auto. intros. rewrite Z. ring.
  - destruct (R3 0%nat) as [p [q [v [_ E]]]]. apply (pspan_ext _ (fun x => ((p * a0 + q) + dot (vscale p w) x) * g x)); [intros x Hx; rewrite E, Z, dot_vscale_l; ring|]. apply mul_affine; auto. rewrite vscale_length. auto.
  - intros n H0 H1. destruct (R3 (S n)) as [p [q [v [_ E]]]].
    apply (pspan_ext _ (fun x => ((p * a0 + q) + dot (vscale p w) x) * (phi F' (S n) (a0 + dot w x) * g x) + v * (phi F' n (a0 + dot w x) * g x))); [intros x Hx; rewrite E, dot_vscale_l; ring|].
    apply pspan_add; [apply (mul_affine _ _ (S n + D)); auto; rewrite vscale_length; auto|apply pspan_scal, (pspan_mono (n + D)); auto; lia].
Qed.
Lemma pspan_one : forall D, pspan D (fun _ => 1).
Proof.
  intro D. apply (pspan_ext _ (psi B (repeat 0%nat d))); [|apply pspan_psi; [apply repeat_length|rewrite nsum_zero; lia]]. intros x Hx. unfold psi. fold d. symmetry.
  assert (G : forall n, (n <= d)%nat -> prodn n (fun k => phi (tb_fam B) (ith (repeat 0%nat d) k) (sc B x k)) = 1).
  { induction n as [|n IH]; intro Hn; simpl; auto. rewrite IH by lia. destruct F3 as [Z _]. unfold ith. rewrite nth_repeat, Z. ring. }
  apply G. auto.
Qed.
(** products of univariate polynomials of affine functions *)
Lemma pspan_prod : forall F' (a0 : nat -> R) (w : nat -> vec) (al : list nat) n, fam3 F' -> (forall k, (k < n)%nat -> length (w k) = d) ->
  pspan (nsum (map (ith al) (seq 0 n))) (fun x => prodn n (fun k => phi F' (ith al k) (a0 k + dot (w k) x))).
Proof.
  intros F' a0 w al n F3'. induction n as [|n IH]; intro Lw; [apply pspan_one|].   apply (pspan_ext _ (fun x => phi F' (ith al n) (a0 n + dot (w n) x) * prodn n (fun k => phi F' (ith al k) (a0 k + dot (w k) x)))); [intros; simpl; ring|].
  apply (pspan_mono (ith al n + nsum (map (ith al) (seq 0 n)))); [rewrite seq_S, map_app, nsum_app; unfold nsum; simpl; lia|]. apply mul_phi; auto.
Qed.
(** coefficients with respect to the columns of V *)
Lemma pspan_V : forall g, pspan (tb_deg B) g -> exists T, length T = length (indices B) /\ forall x, length x = d -> g x = dot T (Vrow B x).
Proof.
  intros g [L [A E]]. assert (G : exists T, length T = length (indices B) /\ forall x, length x = d -> lsum L x = dot T (Vrow B x)).
  { clear E g. induction L as [|[c al] L IH]; simpl.
    - exists (vzero (length (indices B))). split; [unfold vzero; apply repeat_length|]. intros. rewrite dot_zero_l. auto.
    - destruct IH as [T [LT ET]]; [intros; apply A; right; auto|]. destruct (A (c, al) (or_introl eq_refl)) as [La Ha]. simpl in La, Ha.
      assert (I : In al (indices B)) by (apply index_set_in; auto). apply (In_nth _ _ []) in I. destruct I as [j [Hj Ej]].
      assert (LA : length T = length (vscale c (unitv (length (indices B)) j))) by (rewrite vscale_length, unitv_len; auto).
      exists (vadd T (vscale c (unitv (length (indices B)) j))). split; [rewrite vadd_length; auto|]. intros x Hx. rewrite dot_vadd_l by auto. rewrite dot_vscale_l, ET by auto. rewrite (dot_comm (unitv _ _)), dot_unitv by (auto; unfold Vrow; rewrite map_length; auto).
      rewrite Vrow_nth by auto. rewrite Ej. ring. }
  destruct G as [T [LT ET]]. exists T. split; auto. intros. rewrite E by auto. auto.
Qed.
(** multiplication after differentiation *)
Lemma pspan_xd : forall al k p, In al (indices B) -> (k < d)%nat -> (p < d)%nat -> pspan (tb_deg B) (fun x => vget x p * dpsi B al k x).
Proof.
  intros al k p I Hk Hp. apply index_set_in in I; [|auto]. destruct I as [La Ha]. set (a := ith al k).
  apply (pspan_ext _ (fun x => rsum a (fun b => (dscale (tb_scale B) k * dco (tb_fam B) a b) * (vget x p * psi B (upd al k b) x)))).
  - intros x Hx. unfold dpsi. fold d. rewrite (prodn_split d k) by auto. rewrite Nat.eqb_refl. fold a. unfold d1.
    rewrite (prodn_ext d _ (fun i => if Nat.eqb i k then 1 else phi (tb_fam B) (ith al i) (sc B x i))) by (intros i Hi; destruct (Nat.eqb i k); auto). set (P := prodn d _).
    rewrite <- !rsum_scal_r, <- rsum_scal_l. apply rsum_ext. intros b Hb. rewrite psi_upd by auto. fold P. ring.
  - apply (pspan_rsum _ a (fun b x => (dscale (tb_scale B) k * dco (tb_fam B) a b) * (vget x p * psi B (upd al k b) x))). intros b Hb. apply pspan_scal. pose proof (upd_sum al k b ltac:(lia)) as S1. fold a in S1.
    apply (pspan_mono (S (nsum (upd al k b)))); [lia|]. apply mul_coord; auto. apply pspan_psi; auto. rewrite upd_len. auto.
Qed.
End Span.
