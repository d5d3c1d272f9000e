(** Vandermonde with Arnoldi: breakdown and worked cases (C24). *)
Require Import Reals Lra Lia List Bool Arith ZArith.
From Verif Require Import RVec Num Sums NormProofs DomMoreModel SweepProofs HullProofs ChebProofs VecTac BasisModel IndexProofs ArnoldiProofs ArnoldiMoreProofs.
Import ListNotations.
Local Open Scope R_scope.

(** Bessel: the i-th entries of an orthogonal family with squared norms w have squares adding up to at most w *)
Lemma dot_shift : forall L Q (c : vec) v, Forall (fun q => length q = L) Q -> length c = length Q -> length v = L ->
  dot (vsub v (lincomb L Q c)) (vsub v (lincomb L Q c)) = dot v v - 2 * dot c (mv Q v) + dot c (mv Q (lincomb L Q c)).
Proof.
  intros L Q c v HQ Hc Hv. pose proof (lincomb_length L Q c HQ) as LL. assert (E : length v = length (lincomb L Q c)) by lia.
  rewrite dot_vsub_r by auto. rewrite (dot_comm (vsub v _) v), (dot_comm (vsub v _) (lincomb L Q c)).
  rewrite !dot_vsub_r by (auto; lia). rewrite (dot_comm (lincomb L Q c) v). rewrite !(dot_lincomb L Q c) by auto. ring.
Qed.
Lemma bessel : forall w L Q v, 0 < w -> Forall (fun q => length q = L) Q -> length v = L -> orthw w Q (length Q) ->
  rsum (length Q) (fun k => dot (nth k Q []) v * dot (nth k Q []) v) <= w * dot v v.
Proof.
  intros w L Q v Hw HQ Hv OR. set (c := vscale (/ w) (mv Q v)). assert (Lc : length c = length Q) by (unfold c, mv; rewrite vscale_length, map_length; auto).
  pose proof (dot_shift L Q c v HQ Lc Hv) as E. assert (P : 0 <= dot (vsub v (lincomb L Q c)) (vsub v (lincomb L Q c))) by apply norm2sq_nonneg. rewrite E in P.
  assert (ML : mv Q (lincomb L Q c) = mv Q v).
  { apply vec_ext; [unfold mv; rewrite !map_length; auto|]. intros i Hi. unfold mv in *. rewrite map_length in Hi. rewrite !(map_get _ _ Q i []) by auto.
    assert (LI : length (nth i Q []) = L) by (rewrite Forall_forall in HQ; apply HQ, nth_In; auto).
    rewrite (dot_lincomb L Q c) by auto. rewrite (dot_rsum c (mv Q (nth i Q []))) by (unfold mv; rewrite map_length; auto). rewrite Lc. rewrite (rsum_single (length Q) i); [|auto|].
    - unfold mv. rewrite (map_get _ _ Q i []) by auto. rewrite (OR i i Hi Hi), Nat.eqb_refl. unfold c. rewrite vscale_get. unfold mv. rewrite (map_get _ _ Q i []) by auto. field. lra.
    - intros k Hk NE. unfold mv. rewrite (map_get _ _ Q k []) by auto. rewrite (OR k i Hk Hi). destruct (Nat.eqb_spec k i); [contradiction|]. ring. }
  rewrite ML in P. assert (D : dot c (mv Q v) = / w * rsum (length Q) (fun k => dot (nth k Q []) v * dot (nth k Q []) v)).
  { unfold c. rewrite dot_vscale_l. f_equal. rewrite dot_rsum by auto. unfold mv at 1. rewrite map_length. apply rsum_ext. intros k Hk. unfold mv. rewrite (map_get _ _ Q k []) by auto. reflexivity. }
  rewrite D in P. set (S := rsum _ _) in *. assert (/ w * S <= dot v v) by lra. apply Rmult_le_reg_l with (/ w); [apply Rinv_0_lt_compat; auto|].
  replace (/ w * (w * dot v v)) with (dot v v) by (field; lra). auto.
Qed.
Lemma dot_unit : forall L i q, (i < L)%nat -> length q = L -> dot q (unit_row_ L i) = vget q i.
Proof.
  intros L i q Hi Hq. rewrite dot_rsum by (rewrite unit_row_length; auto). rewrite Hq. rewrite (rsum_single L i); [|auto|].
  - unfold unit_row_. rewrite vget_map_seq by auto. rewrite Nat.eqb_refl. ring.
  - intros k Hk NE. unfold unit_row_. rewrite vget_map_seq by auto. destruct (Nat.eqb_spec k i); [contradiction|]. ring.
Qed.
(** at most L orthogonal nonzero vectors fit in L dimensions *)
Lemma orth_count : forall w L Q, 0 < w -> Forall (fun q => length q = L) Q -> orthw w Q (length Q) -> (length Q <= L)%nat.
Proof.
  intros w L Q Hw HQ OR. apply INR_le.
  assert (A : rsum L (fun i => rsum (length Q) (fun k => vget (nth k Q []) i * vget (nth k Q []) i)) <= rsum L (fun _ => w)).
  { apply rsum_le. intros i Hi. pose proof (bessel w L Q (unit_row_ L i) Hw HQ ltac:(apply unit_row_length) OR) as B.
    assert (U : dot (unit_row_ L i) (unit_row_ L i) = 1) by (rewrite dot_unit by (auto; apply unit_row_length); unfold unit_row_; rewrite vget_map_seq by auto; rewrite Nat.eqb_refl; auto).
    rewrite U, Rmult_1_r in B. eapply Rle_trans; [|exact B]. right. apply rsum_ext. intros k Hk. rewrite dot_unit; auto. rewrite Forall_forall in HQ. apply HQ, nth_In. auto. }
  rewrite rsum_swap in A. rewrite (rsum_ext (length Q) _ (fun _ => w)) in A.
  - rewrite !rsum_const in A. apply Rmult_le_reg_r with w; auto.
  - intros k Hk. assert (LK : length (nth k Q []) = L) by (rewrite Forall_forall in HQ; apply HQ, nth_In; auto).
    pose proof (OR k k Hk Hk) as D. rewrite Nat.eqb_refl in D. rewrite <- D, dot_rsum by auto. rewrite LK. reflexivity.
Qed.

(** finding: with fewer samples than basis functions some normalization divides by zero *)
Theorem arnoldi_breakdown : forall X p m Q Rs, (1 <= m)%nat -> X <> [] -> arnoldi X (index_set p m) = Some (Q, Rs) ->
  (length X < length (index_set p m))%nat -> exists k, (k < length Rs)%nat /\ snd (nth k Rs ([], 0)) = 0.
Proof.
  intros X p m Q Rs Hm NE E LT. destruct (arnoldi_correct X p m Hm NE) as [Q' [Rs' [E' [LQ [WF [RE OR]]]]]]. rewrite E in E'. injection E' as <- <-.
  assert (D : (exists k, (k < length Rs)%nat /\ snd (nth k Rs ([], 0)) = 0) \/ no_breakdown Rs).
  { clear. induction Rs as [|r Rs IH]; [right; intros k Hk; simpl in Hk; lia|]. destruct (Req_dec (snd r) 0) as [Z|Z].
    - left. exists O. simpl. split; [lia|auto].
    - destruct IH as [[k [Hk Ek]]|NB]; [left; exists (S k); simpl; split; [lia|auto]|]. right. intros [|k] Hk; simpl in *; auto. apply NB. lia. }
  destruct D as [D|NB]; auto. exfalso. specialize (OR NB).
  assert (FL : Forall (fun q => length q = length X) Q).
  { unfold arnoldi in E. destruct (arnoldi_loop_spec p m Hm (fun _ => index_set p m) (look_all p m Hm) X 1 (length (index_set p m) - 1) [map (fun _ : vec => 1 / sqrt (INR (length X))) X] [([], sqrt (INR (length X)))]) as [Q' [R' [E2 BU]]].
    { pose proof (idx_N p m Hm). cbn [length]. lia. } { reflexivity. } { constructor; [apply map_length|constructor]. } { cbn [length]. lia. }
    change (skipn (length [map (fun _ : vec => 1 / sqrt (INR (length X))) X]) (index_set p m)) with (tl (index_set p m)) in E2.
    rewrite E in E2. injection E2 as -> ->. destruct BU as [_ [_ [B _]]]. exact B. }
  pose proof (orth_count 1 (length X) Q ltac:(lra) FL OR). lia.
Qed.

(** two samples, degree one: no breakdown *)
Lemma sqrt2_pos : 0 < sqrt 2. Proof. apply sqrt_lt_R0. lra. Qed.
Example ex_arnoldi : exists Q Rs, arnoldi [[0]; [1]] (index_set 1 1) = Some (Q, Rs) /\ no_breakdown Rs.
Proof.
  assert (ID : index_set 1 1 = [[0]; [1]]%nat) by reflexivity. rewrite ID. unfold arnoldi. cbn [tl length arnoldi_loop fst].
  assert (UV : update_vec [[0]; [1]]%nat [1]%nat = Some (O, O)) by reflexivity. rewrite UV.
  set (q := vmul _ _). destruct (new_col 1 _ q) as [v [rs r]] eqn:NC. cbn [app snd]. eexists _, _. split; [reflexivity|].
  pose proof sqrt2_pos as SP. assert (SS : sqrt 2 * sqrt 2 = 2) by (apply sqrt_sqrt; lra).
  assert (M2 : INR 2 = 2) by (simpl; lra). assert (ZZ : norm2 (vsub q (vscale (dot [1 / sqrt 2; 1 / sqrt 2] q / 1) [1 / sqrt 2; 1 / sqrt 2])) / sqrt 1 = r).
  { unfold new_col in NC. cbn [mgs] in NC. cbv zeta in NC. cbn [map] in NC. rewrite M2 in NC. apply (f_equal (fun t => snd (snd t))) in NC. exact NC. }
  clear NC. rewrite M2. subst r.
  intros k Hk. simpl in Hk. assert (K : k = O \/ k = 1%nat) by lia. destruct K; subst k; cbn [nth snd]; [lra|].
  rewrite sqrt_1. intro Z. assert (N0 : norm2 (vsub q (vscale (dot [1 / sqrt 2; 1 / sqrt 2] q / 1) [1 / sqrt 2; 1 / sqrt 2])) = 0) by lra. clear Z.
  unfold norm2 in N0. apply sqrt_eq_0 in N0; [|apply norm2sq_nonneg]. unfold q in N0. cbn [nth map] in N0. rewrite M2 in N0.
  assert (Y : 1 / sqrt 2 <> 0) by (unfold Rdiv; rewrite Rmult_1_l; apply Rinv_neq_0_compat; lra).
  assert (HH : 1 / sqrt 2 * (1 / sqrt 2) = 1 / 2) by (replace (1 / sqrt 2 * (1 / sqrt 2)) with (1 / (sqrt 2 * sqrt 2)) by (field; lra); rewrite SS; auto).
  set (h := 1 / sqrt 2) in *. unfold col, norm2sq, dot, vsub, vscale, vmul, vget in N0. simpl in N0. nra.
Qed.
(** one sample, degree one: breakdown *)
Example ex_breakdown : ([[3]] : mat) <> [] /\ (length ([[3%R]] : mat) < length (index_set 1 1))%nat.
Proof. split; [discriminate|]. simpl. lia. Qed.
