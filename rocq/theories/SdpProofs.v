(** The basis of symmetric matrices and the semidefinite program of the Lipschitz matrix builders (C76). *)
Require Import Reals Lra Lia List Bool Arith.
From Verif Require Import RVec Num Sums DomMoreModel SweepProofs HullProofs VecTac ArnoldiMoreProofs MatLib SpecProofs LipModel LipProofs LipConstProofs ProjProofs GrassLib LipFitProofs.
Import ListNotations.
Local Open Scope R_scope.

(** linear functionals of the combination *)
Definition lsum (phi : mat -> R) (al : vec) (Es : list mat) : R := vsum (zipw (fun a E => a * phi E) al Es).
Lemma mcomb_sq : forall m al Es, Forall (sq m) Es -> sq m (mcomb m al Es).
Proof.
  intros m al. induction al as [|a al IH]; intros [|E Es] F; try apply mzero_sq. inversion F; subst. simpl. apply madd_sq; [apply mscale_sq; auto|apply IH; auto].
Qed.
Lemma mcomb_lin : forall m phi, phi (mzero m m) = 0 -> (forall A B, sq m A -> sq m B -> phi (madd A B) = phi A + phi B) -> (forall c A, sq m A -> phi (mscale c A) = c * phi A) ->
  forall al Es, Forall (sq m) Es -> phi (mcomb m al Es) = lsum phi al Es.
Proof.
  intros m phi Z AD SC. unfold lsum. induction al as [|a al IH]; intros [|E Es] F; cbn [mcomb zipw]; try (rewrite Z; reflexivity). inversion F; subst.
  rewrite AD by (try apply mscale_sq; try apply mcomb_sq; auto). rewrite SC by auto. rewrite IH by auto. rewrite vsum_cons. auto.
Qed.
Lemma mget_mcomb : forall m al Es p q, Forall (sq m) Es -> (p < m)%nat -> mget (mcomb m al Es) p q = lsum (fun E => mget E p q) al Es.
Proof.
  intros m al Es p q F Hp. apply (mcomb_lin m (fun E => mget E p q)); auto; [apply mget_mzero|intros; apply (mget_madd m); auto|intros; apply mget_mscale].
Qed.
Lemma quad_mcomb : forall m al Es x, Forall (sq m) Es -> quad (mcomb m al Es) x = lsum (fun E => quad E x) al Es.
Proof.
  intros m al Es x F. apply (mcomb_lin m (fun E => quad E x)); auto; [apply quad_mzero|intros; apply (quad_madd m); auto|intros; apply quad_mscale].
Qed.
Lemma trace_sq : forall m A, sq m A -> trace A = rsum m (fun i => mget A i i).
Proof. intros m A [L _]. unfold trace. rewrite L. auto. Qed.
Lemma trace_madd : forall m A B, sq m A -> sq m B -> trace (madd A B) = trace A + trace B.
Proof. intros m A B SA SB. rewrite !(trace_sq m) by (auto; apply madd_sq; auto). rewrite <- rsum_plus. apply rsum_ext. intros i Hi. apply (mget_madd m); auto. Qed.
Lemma trace_mscale : forall m c A, sq m A -> trace (mscale c A) = c * trace A.
Proof. intros m c A SA. rewrite !(trace_sq m) by (auto; apply mscale_sq; auto). rewrite <- rsum_scal_l. apply rsum_ext. intros i Hi. apply mget_mscale. Qed.
Lemma trace_mcomb : forall m al Es, Forall (sq m) Es -> trace (mcomb m al Es) = lsum trace al Es.
Proof.
  intros m al Es F. apply (mcomb_lin m trace); auto; [|intros; apply (trace_madd m); auto|intros; apply (trace_mscale m); auto].
  rewrite (trace_sq m) by apply mzero_sq. apply rsum_zero. intros. apply mget_mzero.
Qed.
Lemma trace_outer : forall v, trace (outer v v) = dot v v.
Proof. intro v. rewrite (trace_sq (length v)) by (apply outer_sq; auto). rewrite (dot_rs (length v)) by auto. apply rsum_ext. intros i Hi. apply mget_outer. auto. Qed.

(** ** the members of the basis *)
Definition Eii (m i : nat) : mat := outer (unitv m i) (unitv m i).
Definition Eij (m i j : nat) : mat := mscale (/ 2) (outer (vadd (unitv m i) (unitv m j)) (vadd (unitv m i) (unitv m j))).
Lemma dot_uu : forall m i j, (i < m)%nat -> (j < m)%nat -> dot (unitv m i) (unitv m j) = if Nat.eqb i j then 1 else 0.
Proof. intros m i j Hi Hj. rewrite dot_unitv by (auto; apply unitv_len). rewrite unitv_get by auto. destruct (Nat.eqb_spec j i), (Nat.eqb_spec i j); auto; lia. Qed.
Lemma uadd_len : forall m i j, length (vadd (unitv m i) (unitv m j)) = m.
Proof. intros. rewrite vadd_length; rewrite ?unitv_len; auto. Qed.
Definition good_E (m : nat) (E : mat) : Prop := sq m E /\ msym m E /\ trace E = 1 /\ psd m E.
Lemma Eii_good : forall m i, (i < m)%nat -> good_E m (Eii m i).
Proof.
  intros m i Hi. unfold Eii. split; [apply outer_sq, unitv_len|]. split; [pose proof (outer_sym (unitv m i)) as S0; rewrite unitv_len in S0; auto|]. split.
  - rewrite trace_outer, dot_uu by auto. rewrite Nat.eqb_refl. auto.
  - intros x Hx. rewrite quad_outer. apply Rle_0_sqr.
Qed.
Lemma Eij_good : forall m i j, (i < j < m)%nat -> good_E m (Eij m i j).
Proof.
  intros m i j Hij. unfold Eij. split; [apply mscale_sq, outer_sq, uadd_len|]. split; [apply mscale_sym; pose proof (outer_sym (vadd (unitv m i) (unitv m j))) as S0; rewrite uadd_len in S0; auto|]. split.
  - rewrite (trace_mscale m) by apply outer_sq, uadd_len. rewrite trace_outer. rewrite dot_vadd_l, !dot_vadd_r by (rewrite !unitv_len; auto). rewrite !dot_uu by lia. rewrite !Nat.eqb_refl.
    destruct (Nat.eqb_spec i j); [lia|]. destruct (Nat.eqb_spec j i); [lia|]. field.
  - intros x Hx. rewrite quad_mscale, quad_outer. pose proof (Rle_0_sqr (dot (vadd (unitv m i) (unitv m j)) x)) as Q. unfold Rsqr in Q. lra.
Qed.
Theorem sdp_basis_members : forall full m, Forall (good_E m) (sdp_basis full m).
Proof.
  intros full m. apply Forall_forall. intros E I. unfold sdp_basis in I. apply in_flat_map in I. destruct I as [i [Ii I]]. apply in_seq in Ii. destruct I as [<-|I]; [apply Eii_good; lia|].
  destruct full; [|contradiction]. apply in_map_iff in I. destruct I as [j [<- Ij]]. apply in_seq in Ij. apply Eij_good. lia.
Qed.
Lemma sdp_basis_sq : forall full m, Forall (sq m) (sdp_basis full m).
Proof. intros full m. eapply Forall_impl; [|apply sdp_basis_members]. intros E [SQ _]. auto. Qed.
Theorem sdp_basis_count : forall m, (2 * length (sdp_basis true m) = m * (m + 1))%nat /\ length (sdp_basis false m) = m.
Proof.
  intro m. unfold sdp_basis. split.
  - assert (G : forall k a, (2 * length (flat_map (fun i => outer (unitv m i) (unitv m i) :: map (fun j => mscale (/ 2) (outer (vadd (unitv m i) (unitv m j)) (vadd (unitv m i) (unitv m j)))) (seq (S i) (m - S i))) (seq a k)) = k * (2 * (m - a) - k + 1))%nat \/ (m < a + k)%nat).
    { induction k as [|k IH]; intro a; [left; simpl; lia|]. destruct (le_lt_dec (a + S k) m) as [LE|]; [left|right; auto]. cbn [seq flat_map]. rewrite app_length. cbn [length]. rewrite map_length, seq_length. destruct (IH (S a)) as [E|]; [|lia]. rewrite Nat.mul_add_distr_l, E. remember (m - (a + S k))%nat as c eqn:Hc. replace (m - S a)%nat with (k + c)%nat by lia. replace (2 * (k + c) - k + 1)%nat with (k + 2 * c + 1)%nat by lia. replace (2 * (m - a) - S k + 1)%nat with (k + 2 * c + 2)%nat by lia. ring. }
    destruct (G m 0%nat) as [E|]; [|lia]. rewrite E. f_equal. lia.
  - rewrite <- (seq_length m 0) at 2. induction (seq 0 m); simpl; auto.
Qed.

(** ** spanning *)
Definition sdp_flat (a : nat -> nat -> R) (m : nat) : vec := flat_map (fun i => a i i :: map (fun j => a i j) (seq (S i) (m - S i))) (seq 0 m).
Lemma zipw_app : forall A B C (f : A -> B -> C) a1 b1 a2 b2, length a1 = length b1 -> zipw f (a1 ++ a2) (b1 ++ b2) = zipw f a1 b1 ++ zipw f a2 b2.
Proof. induction a1 as [|x a1 IH]; intros [|y b1] a2 b2 L; try discriminate; auto. simpl. f_equal. apply IH. auto. Qed.
Lemma zipw_flat_map : forall A B C D (f : A -> B -> C) (g : D -> list A) (h : D -> list B) l, (forall x, In x l -> length (g x) = length (h x)) ->
  zipw f (flat_map g l) (flat_map h l) = flat_map (fun x => zipw f (g x) (h x)) l.
Proof. induction l as [|x l IH]; intro E; auto. simpl. rewrite zipw_app by (apply E; left; auto). f_equal. apply IH. intros; apply E; right; auto. Qed.
Lemma zipw_map2 : forall A B C D (f : A -> B -> C) (g : D -> A) (h : D -> B) l, zipw f (map g l) (map h l) = map (fun x => f (g x) (h x)) l.
Proof. induction l as [|x l IH]; auto. simpl. f_equal. auto. Qed.
Lemma vsum_app : forall a b, vsum (a ++ b) = vsum a + vsum b.
Proof. induction a as [|x a IH]; intro b; [change (vsum []) with 0; simpl; ring|]. simpl app. rewrite !vsum_cons, IH. ring. Qed.
Lemma vsum_flat_map : forall A (g : A -> vec) l, vsum (flat_map g l) = vsum (map (fun x => vsum (g x)) l).
Proof. induction l as [|x l IH]; auto. cbn [flat_map map]. rewrite vsum_app, vsum_cons, IH. auto. Qed.
Lemma vsum_map_seq_from : forall (f : nat -> R) n a, vsum (map f (seq a n)) = rsum n (fun d => f (a + d)%nat).
Proof. induction n as [|n IH]; intro a; auto. rewrite rsum_S_first. cbn [seq map]. simpl map. rewrite vsum_cons, IH, Nat.add_0_r. f_equal. apply rsum_ext. intros i Hi. f_equal. lia. Qed.
Definition upper (m : nat) (h : nat -> nat -> R) : R := rsum m (fun i => rsum (m - S i) (fun d => h i (S i + d)%nat)).
Lemma lsum_flat : forall phi a m, lsum phi (sdp_flat a m) (sdp_basis true m) = rsum m (fun i => a i i * phi (Eii m i)) + upper m (fun i j => a i j * phi (Eij m i j)).
Proof.
  intros phi a m. unfold lsum, sdp_flat, sdp_basis. rewrite zipw_flat_map by (intros; cbn [length]; rewrite !map_length; auto). rewrite vsum_flat_map, vsum_map_seq_from. unfold upper. rewrite <- rsum_plus. apply rsum_ext. intros i Hi. rewrite Nat.add_0_l.
  cbn [zipw]. rewrite vsum_cons. f_equal. rewrite zipw_map2, vsum_map_seq_from. reflexivity.
Qed.
Lemma upper_sym : forall m h, (forall i j, (i < m)%nat -> (j < m)%nat -> h i j = h j i) -> 2 * upper m h = rsum m (fun i => rsum m (fun j => h i j)) - rsum m (fun i => h i i).
Proof.
  unfold upper. induction m as [|m IH]; intros h Sy; [simpl; ring|]. cbn [rsum]. replace (S m - S m)%nat with O by lia. cbn [rsum].
  rewrite (rsum_ext m (fun i => rsum (S m - S i) _) (fun i => rsum (m - S i) (fun d => h i (S i + d)%nat) + h i m)).
  2:{ intros i Hi. replace (S m - S i)%nat with (S (m - S i)) by lia. cbn [rsum]. f_equal. f_equal. lia. }
  rewrite rsum_plus. specialize (IH h ltac:(intros; apply Sy; lia)). rewrite rsum_plus. rewrite (rsum_ext m (fun j => h m j) (fun i => h i m)) by (intros; apply Sy; lia).
  set (U := rsum m (fun i => rsum (m - S i) _)) in *. lra.
Qed.
Definition dlt (i j : nat) : R := if Nat.eqb i j then 1 else 0.
Lemma rsum_dlt : forall m p f, (p < m)%nat -> rsum m (fun i => f i * dlt p i) = f p.
Proof. intros m p f Hp. rewrite (rsum_single m p); [|auto|]; unfold dlt; [rewrite Nat.eqb_refl; ring|]. intros i Hi N. destruct (Nat.eqb_spec p i); [lia|ring]. Qed.
Lemma mget_Eii : forall m i p q, (p < m)%nat -> (q < m)%nat -> mget (Eii m i) p q = dlt p i * dlt q i.
Proof. intros m i p q Hp Hq. unfold Eii. rewrite mget_outer by (rewrite unitv_len; auto). rewrite !unitv_get by auto. auto. Qed.
Lemma mget_Eij : forall m i j p q, (p < m)%nat -> (q < m)%nat -> mget (Eij m i j) p q = / 2 * ((dlt p i + dlt p j) * (dlt q i + dlt q j)).
Proof. intros m i j p q Hp Hq. unfold Eij. rewrite mget_mscale, mget_outer by (rewrite uadd_len; auto). rewrite !vadd_get by (rewrite !unitv_len; auto). rewrite !unitv_get by auto. auto. Qed.
(** coefficients of a symmetric matrix in the basis *)
Definition sdp_coef (m : nat) (A : mat) (i j : nat) : R := if Nat.eqb i j then 2 * mget A i i - rsum m (fun k => mget A i k) else 2 * mget A i j.
Lemma mat_ext : forall m A B, sq m A -> sq m B -> (forall i j, (i < m)%nat -> (j < m)%nat -> mget A i j = mget B i j) -> A = B.
Proof.
  intros m A B SA SB E. apply (nth_ext _ _ [] []); [destruct SA, SB; lia|]. intros i Hi. assert (Hm : (i < m)%nat) by (destruct SA; lia). apply vec_ext; [rewrite !(sq_row m) by auto; auto|]. intros j Hj. rewrite (sq_row m) in Hj by auto. apply E; auto.
Qed.
Lemma sdp_span : forall m A, sq m A -> msym m A -> mcomb m (sdp_flat (sdp_coef m A) m) (sdp_basis true m) = A.
Proof.
  intros m A SA MA. apply (mat_ext m); auto; [apply mcomb_sq, sdp_basis_sq|]. intros p q Hp Hq. rewrite mget_mcomb by (auto; apply sdp_basis_sq). rewrite lsum_flat.
  rewrite (rsum_ext m (fun i => sdp_coef m A i i * _) (fun i => ((2 * mget A i i - rsum m (fun k => mget A i k)) * dlt q i) * dlt p i)).
  2:{ intros i Hi. rewrite mget_Eii by auto. unfold sdp_coef. rewrite Nat.eqb_refl. ring. }
  rewrite rsum_dlt by auto.
  set (h := fun i j => mget A i j * ((dlt p i + dlt p j) * (dlt q i + dlt q j))).
  assert (EU : upper m (fun i j => sdp_coef m A i j * mget (Eij m i j) p q) = upper m h).
  { unfold upper. apply rsum_ext. intros i Hi. apply rsum_ext. intros d Hd. rewrite mget_Eij by auto. unfold sdp_coef, h. destruct (Nat.eqb_spec i (S i + d)); [lia|]. field. }
  rewrite EU. assert (SY : forall i j, (i < m)%nat -> (j < m)%nat -> h i j = h j i) by (intros i j Hi Hj; unfold h; rewrite (MA i j) by auto; ring).
  pose proof (upper_sym m h SY) as U2.
  assert (E1 : rsum m (fun i => rsum m (fun j => h i j)) = dlt q p * rsum m (fun j => mget A p j) + mget A p q + mget A q p + dlt q p * rsum m (fun j => mget A p j)).
  { rewrite (rsum_ext m _ (fun i => (rsum m (fun j => mget A i j) * dlt q i) * dlt p i + mget A i q * dlt p i + mget A i p * dlt q i + mget A i p * dlt q p)).
    2:{ intros i Hi. unfold h. rewrite (rsum_ext m _ (fun j => mget A i j * (dlt p i * dlt q i) + (mget A i j * dlt p i) * dlt q j + (mget A i j * dlt q i) * dlt p j + (mget A i j * dlt q j) * dlt p j)) by (intros; ring).
        rewrite !rsum_plus. rewrite !rsum_dlt by auto. rewrite rsum_scal_r. change (rsum m (fun j => mget A i j)) with (rsum m (mget A i)). ring. }
    rewrite !rsum_plus. rewrite !rsum_dlt by auto. rewrite rsum_scal_r. rewrite (rsum_ext m (fun i => mget A i p) (fun i => mget A p i)) by (intros; apply MA; auto). ring. }
  assert (E2 : rsum m (fun i => h i i) = 4 * (mget A p p * dlt q p)).
  { rewrite (rsum_ext m _ (fun i => (4 * (mget A i i * dlt q i)) * dlt p i)) by (intros; unfold h; ring). rewrite rsum_dlt by auto. auto. }
  rewrite E1, E2 in U2. rewrite (MA q p) in U2 by auto. lra.
Qed.
Lemma sdp_flat_len : forall a m, length (sdp_flat a m) = length (sdp_basis true m).
Proof. intros a m. unfold sdp_flat, sdp_basis. induction (seq 0 m) as [|i l IH]; auto. cbn [flat_map]. rewrite !app_length, IH. cbn [length]. rewrite !map_length. auto. Qed.
Theorem sdp_basis_span : forall m A, sq m A -> msym m A -> exists al, length al = length (sdp_basis true m) /\ mcomb m al (sdp_basis true m) = A.
Proof. intros m A SA MA. exists (sdp_flat (sdp_coef m A) m). split; [apply sdp_flat_len|apply sdp_span; auto]. Qed.
(** structure = 'diag': the combination is the diagonal matrix of the coefficients *)
Theorem sdp_basis_diag : forall m al i j, length al = m -> (i < m)%nat -> (j < m)%nat -> mget (mcomb m al (sdp_basis false m)) i j = if Nat.eqb i j then vget al i else 0.
Proof.
  intros m al p q L Hp Hq. rewrite mget_mcomb by (auto; apply sdp_basis_sq). unfold lsum, sdp_basis.
  replace (flat_map (fun i => [outer (unitv m i) (unitv m i)]) (seq 0 m)) with (map (Eii m) (seq 0 m)) by (induction (seq 0 m); simpl; f_equal; auto).
  assert (EA : al = map (vget al) (seq 0 m)) by (apply vec_ext; [rewrite map_length, seq_length; auto|intros i Hi; rewrite vget_map_seq by lia; auto]). rewrite EA at 1. rewrite zipw_map2, vsum_map_seq_from.
  rewrite (rsum_ext m _ (fun i => (vget al i * dlt q i) * dlt p i)) by (intros i Hi; rewrite Nat.add_0_l, mget_Eii by auto; ring). rewrite rsum_dlt by auto. unfold dlt. destruct (Nat.eqb_spec q p), (Nat.eqb_spec p q); try lia; ring.
Qed.

(** ** the program *)
Lemma lsum_ext : forall phi psi al Es, (forall E, In E Es -> phi E = psi E) -> lsum phi al Es = lsum psi al Es.
Proof. intros phi psi al. unfold lsum. induction al as [|a al IH]; intros [|E Es] H; auto. cbn [zipw]. rewrite !vsum_cons. rewrite (H E) by (left; auto). f_equal. apply IH. intros; apply H; right; auto. Qed.
Lemma lsum_scal : forall phi c al Es, lsum (fun E => c * phi E) al Es = c * lsum phi al Es.
Proof. intros phi c al. unfold lsum. induction al as [|a al IH]; intros [|E Es]; cbn [zipw]; try (change (vsum []) with 0; ring). rewrite !vsum_cons, IH. ring. Qed.
Lemma dot_map_lsum : forall phi al Es, dot (map phi Es) al = lsum phi al Es.
Proof. intros phi al. unfold lsum. induction al as [|a al IH]; intros [|E Es]; try reflexivity. cbn [map zipw]. rewrite dot_cons, vsum_cons, IH. ring. Qed.
(** cost: c = [trace E for E in Es]; 'param' minimizes sum(alpha): both are the trace of H *)
Theorem sdp_objective : forall full m al, length al = length (sdp_basis full m) ->
  dot (map trace (sdp_basis full m)) al = trace (mcomb m al (sdp_basis full m)) /\ vsum al = trace (mcomb m al (sdp_basis full m)).
Proof.
  intros full m al L. rewrite trace_mcomb by apply sdp_basis_sq. rewrite dot_map_lsum. split; auto. pose proof (sdp_basis_members full m) as F. rewrite Forall_forall in F.
  rewrite (lsum_ext trace (fun _ => 1)) by (intros E I; destruct (F E I) as [_ [_ [T _]]]; auto). unfold lsum. clear F. revert L. generalize (sdp_basis full m). induction al as [|a al IH]; intros [|E Es] L; try discriminate; auto. cbn [zipw]. rewrite !vsum_cons. rewrite <- IH by auto. ring.
Qed.
Definition same_only (X : mat) (fX : vec) (eps : R) : Prop :=
  forall i j, (i < j < length X)%nat -> eps < Rabs (vget fX i - vget fX j) -> 0 < norm2 (vsub (nth i X []) (nth j X [])).
(** the matrix H meets the constraints of the semidefinite program on the (scaled) data *)
Definition sdp_H (m : nat) (X : mat) (fX : vec) (grads : mat) (eps : R) (H : mat) : Prop :=
  psd m H /\ builder_ok m X fX grads eps H.
Lemma norm_quad : forall H p, 0 < norm2 p -> quad H (vscale (/ norm2 p) p) = quad H p / norm2 p ^ 2.
Proof.
  intros H p N. unfold quad. assert (E : mv H (vscale (/ norm2 p) p) = vscale (/ norm2 p) (mv H p)) by (apply mv_vscale).
  rewrite E, dot_vscale_l, dot_vscale_r. field. lra.
Qed.
Theorem sdp_feasible_iff : forall full m X fX grads eps al, 0 <= eps -> Forall (dimP m) X -> Forall (dimP m) grads -> same_only X fX eps ->
  (sdp_feasible m (sdp_basis full m) X fX grads eps al <-> sdp_H m X fX grads eps (mcomb m al (sdp_basis full m))).
Proof.
  intros full m X fX grads eps al E0 FX FG SO. pose proof (sdp_basis_sq full m) as FS. set (Es := sdp_basis full m) in *. set (H := mcomb m al Es).
  assert (SH : sq m H) by (apply mcomb_sq; auto).
  assert (MH : msym m H).
  { intros i j Hi Hj. unfold H. rewrite !mget_mcomb by auto. apply lsum_ext. intros E I. pose proof (sdp_basis_members full m) as F. rewrite Forall_forall in F. destruct (F E I) as [_ [MS _]]. apply MS; auto. }
  assert (RW : forall p, dot (sdp_row Es p) al = - quad H (vscale (/ norm2 p) p)).
  { intro p. unfold sdp_row. rewrite (dot_map_lsum (fun E => - quad E (vscale (/ norm2 p) p))). unfold H. rewrite quad_mcomb by auto. rewrite (lsum_ext _ (fun E => -1 * quad E (vscale (/ norm2 p) p))) by (intros; ring). rewrite lsum_scal. ring. }
  assert (GC : forall g, In g grads -> (psd m (msub H (outer g g)) <-> loewner m (outer g g) H)).
  { intros g I. rewrite Forall_forall in FG. pose proof (FG g I) as Lg. unfold dimP in Lg. assert (SG : sq m (outer g g)) by (apply outer_sq; auto). split; intros P x Hx; specialize (P x Hx); rewrite (quad_msub m) in * by auto; lra. }
  unfold sdp_feasible, sdp_H, builder_ok. fold H. split.
  - intros [A [B C]]. split; auto. split; auto. split; auto. split.
    + intros i j Hij. destruct (Rlt_dec eps (Rabs (vget fX i - vget fX j))) as [LT|GE].
      * specialize (A i j Hij LT). specialize (SO i j Hij LT). cbv zeta in A. fold (pair_p X i j) in A, SO. set (p := pair_p X i j) in *. rewrite RW, norm_quad in A by auto.
        set (v := Rmax _ 0) in *. assert (0 < norm2 p ^ 2) by nra. apply Ropp_le_cancel. apply (Rmult_le_reg_r (/ norm2 p ^ 2)); [apply Rinv_0_lt_compat; auto|]. unfold Rdiv in A. lra.
      * rewrite Rmax_right by lra. rewrite pow_i by lia. apply B. apply pp_len; auto.
    + intros g I. apply GC; auto.
  - intros [B [_ [_ [A C]]]]. split; [|split; auto; intros g I; apply GC; auto]. intros i j Hij LT. cbv zeta. fold (pair_p X i j). specialize (A i j Hij). specialize (SO i j Hij LT). fold (pair_p X i j) in SO. set (p := pair_p X i j) in *. rewrite RW, norm_quad by auto.
    set (v := Rmax _ 0) in *. assert (0 < norm2 p ^ 2) by nra. unfold Rdiv. apply Ropp_le_cancel. rewrite <- Ropp_mult_distr_l, !Ropp_involutive. apply Rmult_le_compat_r; auto. apply Rlt_le, Rinv_0_lt_compat; auto.
Qed.
(** an optimal alpha gives the matrix of least trace among ALL symmetric positive semidefinite matrices meeting the constraints *)
Theorem sdp_optimal : forall m X fX grads eps al, 0 <= eps -> Forall (dimP m) X -> Forall (dimP m) grads -> same_only X fX eps -> length al = length (sdp_basis true m) ->
  sdp_feasible m (sdp_basis true m) X fX grads eps al ->
  (forall be, length be = length (sdp_basis true m) -> sdp_feasible m (sdp_basis true m) X fX grads eps be -> dot (map trace (sdp_basis true m)) al <= dot (map trace (sdp_basis true m)) be) ->
  sdp_H m X fX grads eps (mcomb m al (sdp_basis true m)) /\
  forall G, sdp_H m X fX grads eps G -> trace (mcomb m al (sdp_basis true m)) <= trace G.
Proof.
  intros m X fX grads eps al E0 FX FG SO L FE OPT. split; [apply (sdp_feasible_iff true); auto|]. intros G HG. pose proof HG as [_ [SG [MG _]]]. destruct (sdp_basis_span m G SG MG) as [be [Lb Eb]].
  destruct (sdp_objective true m al L) as [O1 _]. destruct (sdp_objective true m be Lb) as [O2 _]. rewrite Eb in O2. rewrite <- O1, <- O2. apply OPT; auto. apply (sdp_feasible_iff true); auto. rewrite Eb. auto.
Qed.
(** finding: two samples at the same place whose values differ by more than epsilon: the code divides by |p| = 0 (the model
    gives the row 0 <= 0), and no matrix at all meets the constraint *)
Theorem sdp_duplicate_refuted : exists X fX, Forall (dimP 1) X /\ (forall H, ~ sdp_H 1 X fX [] 0 H) /\ exists i j, (i < j < length X)%nat /\ norm2 (vsub (nth i X []) (nth j X [])) = 0.
Proof.
  exists [[0]; [0]], [0; 1]. split; [repeat constructor|]. split.
  - intros H [_ [SQ [_ [A _]]]]. specialize (A 0 1)%nat. unfold pair_p, vget in A. cbn [nth vsub vmap2 length] in A. specialize (A ltac:(lia)). replace (0 - 1) with (-1) in A by ring. rewrite Rabs_left, Rmax_left in A by lra.
    replace (0 - 0) with 0 in A by ring. destruct H as [|[|h [|]] [|]]; destruct SQ as [L F]; try discriminate; inversion F as [|? ? L1 _]; try discriminate. rewrite quad1 in A. lra.
  - exists 0%nat, 1%nat. split; [simpl; lia|]. cbn [nth vsub vmap2]. rewrite norm2_1. replace (0 - 0) with 0 by ring. apply Rabs_R0.
Qed.
Example ex_sdp : Forall (dimP 1) [[0]; [1]] /\ same_only [[0]; [1]] [0; 1] 0 /\ length [1] = length (sdp_basis true 1) /\ sdp_feasible 1 (sdp_basis true 1) [[0]; [1]] [0; 1] [[/ 2]] 0 [1] /\
  forall be, length be = length (sdp_basis true 1) -> sdp_feasible 1 (sdp_basis true 1) [[0]; [1]] [0; 1] [[/ 2]] 0 be -> dot (map trace (sdp_basis true 1)) [1] <= dot (map trace (sdp_basis true 1)) be.
Proof.
  assert (FX : Forall (dimP 1) [[0]; [1]]) by (repeat constructor). assert (FG : Forall (dimP 1) [[/ 2]]) by (repeat constructor).
  assert (SO : same_only [[0]; [1]] [0; 1] 0).
  { intros i j Hij _. simpl in Hij. assert (i = 0 /\ j = 1)%nat as [-> ->] by lia. cbn [nth vsub vmap2]. rewrite norm2_1. replace (0 - 1) with (-1) by ring. rewrite Rabs_left; lra. }
  assert (M1 : forall a, mcomb 1 [a] (sdp_basis true 1) = [[a]]) by (intro a; cbn; repeat f_equal; ring).
  split; auto. split; auto. split; auto. split.
  - apply (sdp_feasible_iff true); auto; [lra|]. rewrite M1. split; [intros [|x [|]] Hx; try discriminate; rewrite quad1; nra|]. split; [apply sq1|]. split; [intros i j Hi Hj; assert (i = 0 /\ j = 0)%nat as [-> ->] by lia; auto|]. split.
    + intros i j Hij. simpl in Hij. assert (i = 0 /\ j = 1)%nat as [-> ->] by lia. unfold pair_p, vget. cbn [nth vsub vmap2]. rewrite quad1. replace (0 - 1) with (-1) by ring. rewrite Rabs_left, Rmax_left by lra. lra.
    + intros g [<-|[]] [|x [|]] Hx; try discriminate. rewrite quad_outer, quad1, dot1. nra.
  - intros be L FE. apply (sdp_feasible_iff true) in FE; auto; [|lra]. destruct be as [|b [|]]; try discriminate. rewrite M1 in FE. destruct FE as [_ [_ [_ [A _]]]]. specialize (A 0 1)%nat. unfold pair_p, vget in A. cbn [nth vsub vmap2 length] in A. specialize (A ltac:(lia)). rewrite quad1 in A.
    replace (0 - 1) with (-1) in A by ring. rewrite Rabs_left, Rmax_left in A by lra.
    pose proof (proj1 (sdp_objective true 1 [b] eq_refl)) as O1. pose proof (proj1 (sdp_objective true 1 [1] eq_refl)) as O2. rewrite O1, O2, !M1. unfold trace, mget, vget. cbn. lra.
Qed.
