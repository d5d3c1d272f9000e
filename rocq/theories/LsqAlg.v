(** An explicit least-squares solver meeting the contract of scipy.linalg.lstsq / numpy.linalg.lstsq. *)
Require Import Reals Lra Lia List Bool Arith.
From Verif Require Import RVec Num Sums MatLib GrassLib DomMoreModel SubModel.
Import ListNotations.
Local Open Scope R_scope.

(** remove the component along c *)
Definition perp (c d : vec) : vec := vsub d (vscale (dot d c / dot c c) c).
(** Gram-Schmidt on the columns, zero columns get the coefficient zero *)
Fixpoint lsq_cols (fuel : nat) (cs : list vec) (b : vec) : vec :=
  match fuel, cs with
  | S n, c :: cs' =>
      if Req_EM_T (dot c c) 0 then 0 :: lsq_cols n cs' b
      else let a := lsq_cols n (map (perp c) cs') (perp c b) in
           (dot b c - vsum (zipw (fun d x => x * dot d c) cs' a)) / dot c c :: a
  | _, _ => []
  end.
Lemma lsq_cols_len : forall n cs b, (length cs <= n)%nat -> length (lsq_cols n cs b) = length cs.
Proof.
  induction n as [|n IH]; intros cs b H; destruct cs as [|c cs]; simpl in *; auto; [lia|]. destruct (Req_EM_T (dot c c) 0); simpl; rewrite IH; rewrite ?map_length; auto; lia.
Qed.
(** the residual at sample s *)
Definition lres (cs : list vec) (z b : vec) (s : nat) : R := rsum (length cs) (fun k => vget z k * vget (nth k cs []) s) - vget b s.
Definition lsum (L : nat) (cs : list vec) (z b : vec) : R := rsum L (fun s => lres cs z b s ^ 2).
Lemma perp_len : forall c d, length c = length d -> length (perp c d) = length d.
Proof. intros. unfold perp. rewrite vsub_length; rewrite ?vscale_length; auto. Qed.
Lemma perp_get : forall c d s, length c = length d -> vget (perp c d) s = vget d s - dot d c / dot c c * vget c s.
Proof. intros. unfold perp. rewrite vsub_get by (rewrite vscale_length; auto). rewrite vscale_get. auto. Qed.
Lemma lres_cons : forall c cs z0 z b s, lres (c :: cs) (z0 :: z) b s = z0 * vget c s + lres cs z b s.
Proof. intros. unfold lres. cbn [length]. rewrite rsum_S_first. cbn [nth]. change (vget (z0 :: z) 0) with z0. rewrite (rsum_ext (length cs) (fun i => vget (z0 :: z) (S i) * vget (nth i cs []) s) (fun k => vget z k * vget (nth k cs []) s)) by (intros; reflexivity). ring. Qed.
(** the residual with the first column removed is the residual of the projected problem *)
Lemma lres_perp : forall L c cs z b s, length c = L -> Forall (fun d => length d = L) cs -> length b = L -> length z = length cs ->
  lres (map (perp c) cs) z (perp c b) s = lres cs z b s - rsum L (fun t => lres cs z b t * vget c t) / dot c c * vget c s.
Proof.
  intros L c cs z b s Lc F Lb Lz. unfold lres. rewrite map_length. set (n := length cs).
  assert (NC : forall k, (k < n)%nat -> length (nth k cs []) = L) by (intros k Hk; apply (proj1 (Forall_forall _ _) F); apply nth_In; auto).
  rewrite (rsum_ext n (fun k => vget z k * vget (nth k (map (perp c) cs) []) s) (fun k => vget z k * vget (nth k cs []) s - vget c s / dot c c * (vget z k * dot (nth k cs []) c))).
  2:{ intros k Hk. rewrite nth_indep with (d' := perp c []) by (rewrite map_length; auto). rewrite map_nth. rewrite perp_get by (rewrite NC; auto). unfold Rdiv. ring. }
  rewrite rsum_minus, rsum_scal_l, perp_get by congruence.
  assert (E : rsum L (fun t => (rsum n (fun k => vget z k * vget (nth k cs []) t) - vget b t) * vget c t) = rsum n (fun k => vget z k * dot (nth k cs []) c) - dot b c).
  { rewrite (rsum_ext L _ (fun t => rsum n (fun k => vget z k * (vget (nth k cs []) t * vget c t)) - vget b t * vget c t)) by (intros t Ht; rewrite Rmult_minus_distr_r, <- rsum_scal_r; f_equal; apply rsum_ext; intros; ring).
    rewrite rsum_minus, rsum_swap. f_equal; [|symmetry; apply dot_rs; auto]. apply rsum_ext. intros k Hk. rewrite rsum_scal_l. f_equal. symmetry. apply dot_rs; auto. }
  rewrite E. unfold Rdiv. ring.
Qed.
Lemma lsum_split : forall L c cs z0 z b, length c = L -> Forall (fun d => length d = L) cs -> length b = L -> length z = length cs -> dot c c <> 0 ->
  lsum L (c :: cs) (z0 :: z) b = lsum L (map (perp c) cs) z (perp c b) + dot c c * (z0 + rsum L (fun t => lres cs z b t * vget c t) / dot c c) ^ 2.
Proof.
  intros L c cs z0 z b Lc F Lb Lz N. unfold lsum. set (r := lres cs z b). set (D := dot c c) in *. assert (ED : D = rsum L (fun t => vget c t * vget c t)) by (apply dot_rs; auto). set (rc := rsum L (fun t => r t * vget c t)).
  rewrite (rsum_ext L (fun s => lres (c :: cs) (z0 :: z) b s ^ 2) (fun s => r s ^ 2 + (2 * z0 * (r s * vget c s) + z0 ^ 2 * (vget c s * vget c s)))) by (intros s Hs; rewrite lres_cons; fold r; ring).
  rewrite (rsum_ext L (fun s => lres (map (perp c) cs) z (perp c b) s ^ 2) (fun s => r s ^ 2 + (- (2 * (rc / D)) * (r s * vget c s) + (rc / D) ^ 2 * (vget c s * vget c s)))) by (intros s Hs; rewrite (lres_perp L) by auto; fold r D rc; ring).
  rewrite !rsum_plus, !rsum_scal_l. fold rc. rewrite <- ED. field. auto.
Qed.
Lemma lsum_zero_col : forall L c cs z0 z b, length c = L -> dot c c = 0 -> lsum L (c :: cs) (z0 :: z) b = lsum L cs z b.
Proof.
  intros L c cs z0 z b Lc Z. unfold lsum. apply rsum_ext. intros s Hs. rewrite lres_cons. apply norm2sq_zero in Z. assert (C : vget c s = 0) by (apply (proj1 (Forall_forall _ _) Z); apply nth_In; lia). rewrite C. f_equal. ring.
Qed.
Lemma lsq_cols_opt : forall L n cs b z, (length cs <= n)%nat -> Forall (fun d => length d = L) cs -> length b = L -> length z = length cs ->
  lsum L cs (lsq_cols n cs b) b <= lsum L cs z b.
Proof.
  intros L. induction n as [|n IH]; intros cs b z Hn F Lb Lz; destruct cs as [|c cs]; [right; auto|simpl in Hn; lia|right; auto|]. destruct z as [|z0 z]; [discriminate|]. simpl in Lz, Hn. pose proof (Forall_inv F) as Lc. pose proof (Forall_inv_tail F) as F'. cbv beta in Lc.
  cbn [lsq_cols]. destruct (Req_EM_T (dot c c) 0) as [Z|N].
  - rewrite !lsum_zero_col by auto. apply IH; auto; lia.
  - set (a := lsq_cols n (map (perp c) cs) (perp c b)). assert (La : length a = length cs) by (unfold a; rewrite lsq_cols_len; rewrite ?map_length; lia).
    rewrite !lsum_split by (auto; lia).
    assert (FP : Forall (fun d => length d = L) (map (perp c) cs)). { apply Forall_map. apply Forall_forall. intros d Hd. pose proof (proj1 (Forall_forall _ _) F' d Hd) as Ld. cbv beta in Ld. rewrite perp_len; congruence. }
    pose proof (IH (map (perp c) cs) (perp c b) z ltac:(rewrite map_length; lia) FP ltac:(rewrite perp_len; congruence) ltac:(rewrite map_length; lia)) as I. fold a in I.
    assert (PD : 0 <= dot c c) by apply norm2sq_nonneg.
    assert (E : (dot b c - vsum (zipw (fun d x => x * dot d c) cs a)) / dot c c + rsum L (fun t => lres cs a b t * vget c t) / dot c c = 0).
    { assert (NC : forall k, (k < length cs)%nat -> length (nth k cs []) = L) by (intros k Hk; apply (proj1 (Forall_forall _ _) F'); apply nth_In; auto).
      assert (VS : vsum (zipw (fun d x => x * dot d c) cs a) = rsum (length cs) (fun k => vget a k * dot (nth k cs []) c)).
      { clearbody a. clear - La. revert a La. induction cs as [|d cs IH]; intros a La; destruct a as [|x a]; try discriminate; [auto|]. cbn [zipw length]. rewrite vsum_cons, rsum_S_first. rewrite IH by (simpl in La; lia). reflexivity. }
      rewrite VS. unfold lres. rewrite (rsum_ext L _ (fun t => rsum (length cs) (fun k => vget a k * (vget (nth k cs []) t * vget c t)) - vget b t * vget c t)) by (intros t Ht; rewrite Rmult_minus_distr_r, <- rsum_scal_r; f_equal; apply rsum_ext; intros; ring).
      rewrite rsum_minus, rsum_swap. rewrite (rsum_ext (length cs) (fun k => rsum L (fun t => vget a k * (vget (nth k cs []) t * vget c t))) (fun k => vget a k * dot (nth k cs []) c)) by (intros k Hk; rewrite rsum_scal_l; f_equal; symmetry; apply dot_rs; auto).
      rewrite <- (dot_rs L b c) by auto. field. auto. }
    rewrite E. pose proof (pow2_ge_0 (z0 + rsum L (fun t => lres cs z b t * vget c t) / dot c c)). nra.
Qed.
(** the solver on a matrix of rows with n unknowns *)
Definition lsq (n : nat) (A : mat) (b : vec) : option vec :=
  let L := Nat.min (length A) (length b) in Some (lsq_cols n (map (fun k => map (fun r => vget r k) (firstn L A)) (seq 0 n)) (firstn L b)).
Lemma dot_any : forall (r c : vec), dot r c = rsum (length c) (fun k => vget r k * vget c k).
Proof.
  induction r as [|a r IH]; intros c.
  - rewrite dot_nil_l. symmetry. apply rsum_zero. intros k _. unfold vget at 1. destruct k; simpl; ring.
  - destruct c as [|x c]; [reflexivity|]. rewrite dot_cons, IH. cbn [length]. rewrite rsum_S_first. reflexivity.
Qed.
Lemma vsub_any : forall (x y : vec), norm2sq (vsub x y) = rsum (Nat.min (length x) (length y)) (fun s => (vget x s - vget y s) ^ 2).
Proof.
  unfold norm2sq. induction x as [|a x IH]; intros y; [reflexivity|]. destruct y as [|b y]; [reflexivity|]. change (vsub (a :: x) (b :: y)) with (a - b :: vsub x y). rewrite dot_cons, IH. cbn [length Nat.min]. rewrite rsum_S_first. change (vget (a :: x) 0) with a. change (vget (b :: y) 0) with b.
  rewrite (rsum_ext (Nat.min (length x) (length y)) (fun i => (vget (a :: x) (S i) - vget (b :: y) (S i)) ^ 2) (fun s => (vget x s - vget y s) ^ 2)) by (intros; reflexivity). ring.
Qed.
Theorem lsq_post : forall n A b, exists a, lsq n A b = Some a /\ lstsq_post n A b a.
Proof.
  intros n A b. unfold lsq. set (L := Nat.min (length A) (length b)). set (cs := map (fun k => map (fun r => vget r k) (firstn L A)) (seq 0 n)). set (b' := firstn L b).
  assert (Lcs : length cs = n) by (unfold cs; rewrite map_length, seq_length; auto).
  assert (LA : length (firstn L A) = L) by (rewrite firstn_length; unfold L; lia). assert (Lb : length b' = L) by (unfold b'; rewrite firstn_length; unfold L; lia).
  assert (FC : Forall (fun d => length d = L) cs) by (unfold cs; apply Forall_map; apply Forall_forall; intros k _; rewrite map_length; auto).
  assert (RS : forall z, length z = n -> norm2sq (vsub (mv A z) b) = lsum L cs z b').
  { intros z Lz. rewrite vsub_any, mv_length. fold L. unfold lsum. apply rsum_ext. intros s Hs. f_equal. unfold lres. f_equal.
    - rewrite mv_get by (unfold L in Hs; lia). rewrite dot_any, Lz, Lcs. apply rsum_ext. intros k Hk. rewrite Rmult_comm. f_equal. unfold cs. rewrite (nth_map_seq _ (fun k => map (fun r => vget r k) (firstn L A))) by auto. unfold vget at 2. rewrite nth_indep with (d' := vget [] k) by (rewrite map_length; lia). rewrite (map_nth (fun r => vget r k)). f_equal.
      rewrite <- (firstn_skipn L A) at 1. rewrite app_nth1 by lia. auto.
    - unfold b', vget. rewrite <- (firstn_skipn L b) at 1. rewrite app_nth1 by (fold b'; lia). auto. }
  exists (lsq_cols n cs b'). split; auto. assert (LL : length (lsq_cols n cs b') = n) by (rewrite lsq_cols_len; lia). split; auto. intros c Lc. rewrite !RS by auto. apply lsq_cols_opt; auto; lia.
Qed.
(** the contract is met, for every number of unknowns *)
Theorem lstsq_ok_exists : forall n, lstsq_ok n (lsq n).
Proof. intros n A b _. apply lsq_post. Qed.
