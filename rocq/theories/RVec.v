(** Basic real vectors and matrices as lists.  Library file: no model content.

    numpy semantics represented here:
    - a 1-d array is [list R]; a 2-d array is a list of rows [list (list R)];
    - [vget] is array indexing (default 0, only used within range);
    - [vadd]/[vsub]/[vmul] are elementwise operations on equal-length arrays. *)
Require Import Reals Lra Lia List Bool.
Import ListNotations.
Local Open Scope R_scope.

Notation vec := (list R).
Notation mat := (list (list R)).

Definition vget (x : vec) (i : nat) : R := nth i x 0.

Definition vsum (x : vec) : R := fold_right Rplus 0 x.

Fixpoint vmap2 (f : R -> R -> R) (x y : vec) : vec :=
  match x, y with
  | a :: x', b :: y' => f a b :: vmap2 f x' y'
  | _, _ => []
  end.

Definition vadd := vmap2 Rplus.
Definition vsub := vmap2 Rminus.
Definition vmul := vmap2 Rmult.
Definition vscale (a : R) (x : vec) : vec := map (Rmult a) x.
Definition dot (x y : vec) : R := vsum (vmul x y).
Global Arguments dot : simpl never.
Definition mv (A : mat) (x : vec) : vec := map (fun a => dot a x) A.
Definition norm2sq (x : vec) : R := dot x x.
Definition norm2 (x : vec) : R := sqrt (norm2sq x).
Definition vzero (n : nat) : vec := repeat 0 n.

(** shapes *)
Definition is_mat (n m : nat) (A : mat) : Prop :=
  length A = n /\ Forall (fun r => length r = m) A.

(** -- lengths -- *)
Lemma vmap2_length : forall f x y, length x = length y -> length (vmap2 f x y) = length x.
Proof.
  induction x as [|a x IH]; destruct y as [|b y]; simpl; intros H; try discriminate; auto.
Qed.

Lemma vadd_length : forall x y, length x = length y -> length (vadd x y) = length x.
Proof. intros; apply vmap2_length; auto. Qed.
Lemma vsub_length : forall x y, length x = length y -> length (vsub x y) = length x.
Proof. intros; apply vmap2_length; auto. Qed.
Lemma vmul_length : forall x y, length x = length y -> length (vmul x y) = length x.
Proof. intros; apply vmap2_length; auto. Qed.
Lemma vscale_length : forall a x, length (vscale a x) = length x.
Proof. intros; apply map_length. Qed.
Lemma mv_length : forall A x, length (mv A x) = length A.
Proof. intros; apply map_length. Qed.

Lemma vmap2_nil_r : forall f x, vmap2 f x [] = [].
Proof. destruct x; reflexivity. Qed.

Lemma vmap2_get : forall f x y i, length x = length y -> (i < length x)%nat ->
  vget (vmap2 f x y) i = f (vget x i) (vget y i).
Proof.
  unfold vget. induction x as [|a x IH]; destruct y as [|b y]; simpl; intros i H Hi;
    try discriminate; try lia.
  destruct i; auto. apply IH; lia.
Qed.

Lemma vadd_get : forall x y i, length x = length y -> vget (vadd x y) i = vget x i + vget y i.
Proof.
  intros x y i H. destruct (Nat.lt_ge_cases i (length x)) as [Hi|Hi].
  - apply vmap2_get; auto.
  - unfold vget. rewrite !nth_overflow; try lra; try lia. rewrite vadd_length; auto.
Qed.
Lemma vsub_get : forall x y i, length x = length y -> vget (vsub x y) i = vget x i - vget y i.
Proof.
  intros x y i H. destruct (Nat.lt_ge_cases i (length x)) as [Hi|Hi].
  - apply vmap2_get; auto.
  - unfold vget. rewrite !nth_overflow; try lra; try lia. rewrite vsub_length; auto.
Qed.
Lemma vmul_get : forall x y i, length x = length y -> vget (vmul x y) i = vget x i * vget y i.
Proof.
  intros x y i H. destruct (Nat.lt_ge_cases i (length x)) as [Hi|Hi].
  - apply vmap2_get; auto.
  - unfold vget. rewrite !nth_overflow; try lra; try lia. rewrite vmul_length; auto.
Qed.
Lemma vscale_get : forall a x i, vget (vscale a x) i = a * vget x i.
Proof.
  unfold vget, vscale. induction x as [|b x IH]; destruct i; simpl; try lra; auto.
Qed.

Lemma vec_ext : forall x y : vec, length x = length y ->
  (forall i, (i < length x)%nat -> vget x i = vget y i) -> x = y.
Proof.
  unfold vget; induction x as [|a x IH]; destruct y as [|b y]; simpl; intros H E;
    try discriminate; auto.
  f_equal.
  - apply (E O); lia.
  - apply IH; try lia. intros i Hi. apply (E (S i)); lia.
Qed.

(** -- sums and dot products -- *)
Lemma vsum_app : forall x y, vsum (x ++ y) = vsum x + vsum y.
Proof. induction x; simpl; intros; try rewrite IHx; try lra. Qed.

Lemma vsum_vadd : forall x y, length x = length y -> vsum (vadd x y) = vsum x + vsum y.
Proof.
  induction x as [|a x IH]; destruct y as [|b y]; simpl; intros H; try discriminate; try lra.
  change (vmap2 Rplus x y) with (vadd x y). rewrite IH; try lia. lra.
Qed.
Lemma vsum_vscale : forall a x, vsum (vscale a x) = a * vsum x.
Proof. induction x; simpl; try rewrite IHx; lra. Qed.

Lemma dot_nil_l : forall x, dot [] x = 0.
Proof. reflexivity. Qed.
Lemma dot_nil_r : forall x, dot x [] = 0.
Proof. destruct x; reflexivity. Qed.
Lemma dot_cons : forall a x b y, dot (a :: x) (b :: y) = a * b + dot x y.
Proof. reflexivity. Qed.

Lemma dot_comm : forall x y, dot x y = dot y x.
Proof.
  induction x as [|a x IH]; destruct y as [|b y]; try reflexivity.
  rewrite !dot_cons, IH. lra.
Qed.

Lemma dot_vadd_r : forall p x y, length x = length y ->
  dot p (vadd x y) = dot p x + dot p y.
Proof.
  induction p as [|a p IH]; intros x y H.
  - rewrite !dot_nil_l; lra.
  - destruct x as [|b x]; destruct y as [|c y]; simpl in H; try discriminate.
    + simpl. rewrite !dot_nil_r. lra.
    + change (vadd (b::x) (c::y)) with ((b+c)::vadd x y).
      rewrite !dot_cons, IH; try lia. lra.
Qed.
Lemma dot_vsub_r : forall p x y, length x = length y ->
  dot p (vsub x y) = dot p x - dot p y.
Proof.
  induction p as [|a p IH]; intros x y H.
  - rewrite !dot_nil_l; lra.
  - destruct x as [|b x]; destruct y as [|c y]; simpl in H; try discriminate.
    + simpl. rewrite !dot_nil_r. lra.
    + change (vsub (b::x) (c::y)) with ((b-c)::vsub x y).
      rewrite !dot_cons, IH; try lia. lra.
Qed.
Lemma dot_vscale_r : forall p a x, dot p (vscale a x) = a * dot p x.
Proof.
  induction p as [|b p IH]; intros a x.
  - rewrite !dot_nil_l; lra.
  - destruct x as [|c x]; simpl vscale.
    + rewrite !dot_nil_r; lra.
    + rewrite !dot_cons. change (map (Rmult a) x) with (vscale a x). rewrite IH. lra.
Qed.
Lemma dot_vadd_l : forall p x y, length x = length y ->
  dot (vadd x y) p = dot x p + dot y p.
Proof. intros. rewrite dot_comm, dot_vadd_r, !(dot_comm p); auto. Qed.
Lemma dot_vsub_l : forall p x y, length x = length y ->
  dot (vsub x y) p = dot x p - dot y p.
Proof. intros. rewrite dot_comm, dot_vsub_r, !(dot_comm p); auto. Qed.
Lemma dot_vscale_l : forall p a x, dot (vscale a x) p = a * dot x p.
Proof. intros. rewrite dot_comm, dot_vscale_r, dot_comm; auto. Qed.

Lemma dot_vmul_swap : forall a d x, length a = length d -> length d = length x ->
  dot (vmul a d) x = dot a (vmul d x).
Proof.
  induction a as [|u a IH]; destruct d as [|v d]; destruct x as [|w x]; intros H1 H2; simpl in H1, H2;
    try discriminate; auto.
  change (vmul (u::a) (v::d)) with (u*v :: vmul a d).
  change (vmul (v::d) (w::x)) with (v*w :: vmul d x).
  rewrite !dot_cons, IH; try lia. lra.
Qed.

Lemma dot_zero_l : forall n x, dot (vzero n) x = 0.
Proof.
  unfold vzero. induction n; intros; simpl.
  - reflexivity.
  - destruct x; [reflexivity|]. rewrite dot_cons, IHn. lra.
Qed.
Lemma dot_zero_r : forall n x, dot x (vzero n) = 0.
Proof. intros; rewrite dot_comm; apply dot_zero_l. Qed.

Lemma norm2sq_nonneg : forall x, 0 <= norm2sq x.
Proof.
  unfold norm2sq. induction x as [|a x IH].
  - rewrite dot_nil_l; lra.
  - rewrite dot_cons. generalize (Rle_0_sqr a); unfold Rsqr; lra.
Qed.
Lemma norm2_nonneg : forall x, 0 <= norm2 x.
Proof. intros; apply sqrt_pos. Qed.
Lemma norm2_sq : forall x, norm2 x * norm2 x = norm2sq x.
Proof. intros. apply sqrt_sqrt. apply norm2sq_nonneg. Qed.

Lemma norm2sq_zero : forall x, norm2sq x = 0 -> Forall (fun a => a = 0) x.
Proof.
  unfold norm2sq. induction x as [|a x IH]; intros H; constructor; rewrite dot_cons in H;
    pose proof (norm2sq_nonneg x) as N; unfold norm2sq in N;
    generalize (Rle_0_sqr a); unfold Rsqr; intro S.
  - apply Rmult_integral with (r1 := a) (r2 := a) in S || idtac.
    assert (a * a = 0) by lra. destruct (Rmult_integral _ _ H0); auto.
  - apply IH. lra.
Qed.

(** Cauchy-Schwarz *)
Lemma cauchy_schwarz_sq : forall x y, length x = length y ->
  dot x y * dot x y <= norm2sq x * norm2sq y.
Proof.
  intros x y H.
  pose proof (norm2sq_nonneg (vsub (vscale (norm2sq y) x) (vscale (dot x y) y))) as N.
  unfold norm2sq in N at 1.
  rewrite dot_vsub_l, !dot_vsub_r, !dot_vscale_l, !dot_vscale_r in N;
    try (rewrite !vscale_length; auto).
  rewrite (dot_comm y x) in N. fold (norm2sq x) in N. fold (norm2sq y) in N.
  pose proof (norm2sq_nonneg y) as Ny. pose proof (norm2sq_nonneg x) as Nx.
  destruct (Req_dec (norm2sq y) 0) as [E|E].
  - assert (dot x y = 0).
    { apply norm2sq_zero in E. clear -E H. revert x H.
      induction E; intros x0 H1.
      - destruct x0; reflexivity.
      - destruct x0 as [|b x0]; [reflexivity|]. rewrite dot_cons, IHE; [subst; lra|].
        simpl in H1; lia. }
    rewrite H0. rewrite E. lra.
  - assert (0 < norm2sq y) by lra.
    apply Rmult_le_reg_l with (norm2sq y); auto. nra.
Qed.

Lemma cauchy_schwarz : forall x y, length x = length y -> dot x y <= norm2 x * norm2 y.
Proof.
  intros x y H. pose proof (cauchy_schwarz_sq x y H) as C.
  rewrite <- !norm2_sq in C.
  pose proof (norm2_nonneg x). pose proof (norm2_nonneg y).
  apply Rsqr_incr_0_var; unfold Rsqr.
  - nra.
  - apply Rmult_le_pos; auto.
Qed.

Lemma norm2_triangle : forall x y, length x = length y -> norm2 (vadd x y) <= norm2 x + norm2 y.
Proof.
  intros x y H. pose proof (norm2_nonneg x). pose proof (norm2_nonneg y).
  apply Rsqr_incr_0_var; unfold Rsqr; [|lra].
  rewrite norm2_sq. unfold norm2sq.
  rewrite dot_vadd_l, !dot_vadd_r; auto.
  pose proof (cauchy_schwarz x y H) as C.
  pose proof (norm2_sq x) as Sx. pose proof (norm2_sq y) as Sy. unfold norm2sq in Sx, Sy.
  rewrite (dot_comm y x). nra.
Qed.

Lemma norm2_vscale : forall a x, norm2 (vscale a x) = Rabs a * norm2 x.
Proof.
  intros. unfold norm2, norm2sq. rewrite dot_vscale_l, dot_vscale_r.
  replace (a * (a * dot x x)) with (Rsqr a * dot x x) by (unfold Rsqr; lra).
  rewrite sqrt_mult_alt; [|apply Rle_0_sqr]. rewrite sqrt_Rsqr_abs. auto.
Qed.

Lemma norm2_le_iff : forall x r, 0 <= r -> (norm2 x <= r <-> norm2sq x <= r * r).
Proof.
  intros x r Hr. rewrite <- norm2_sq. pose proof (norm2_nonneg x). split; intro; nra.
Qed.

(** -- matrix-vector -- *)
Lemma mv_vadd : forall A x y, length x = length y -> mv A (vadd x y) = vadd (mv A x) (mv A y).
Proof.
  induction A as [|a A IH]; intros x y H; simpl; auto.
  rewrite dot_vadd_r; auto. unfold vadd at 2; simpl. f_equal. apply IH; auto.
Qed.
Lemma mv_vsub : forall A x y, length x = length y -> mv A (vsub x y) = vsub (mv A x) (mv A y).
Proof.
  induction A as [|a A IH]; intros x y H; simpl; auto.
  rewrite dot_vsub_r; auto. unfold vsub at 2; simpl. f_equal. apply IH; auto.
Qed.
Lemma mv_vscale : forall A c x, mv A (vscale c x) = vscale c (mv A x).
Proof.
  induction A as [|a A IH]; intros; simpl; auto. rewrite dot_vscale_r. simpl. f_equal. apply IH.
Qed.

Lemma vadd_comm : forall x y, vadd x y = vadd y x.
Proof.
  unfold vadd, vsub. induction x as [|a x IH]; destruct y as [|b y]; simpl; auto.
  f_equal; [lra|apply IH].
Qed.

Lemma vadd_assoc : forall x y z, vadd (vadd x y) z = vadd x (vadd y z).
Proof.
  unfold vadd, vsub. induction x as [|a x IH]; destruct y as [|b y]; destruct z as [|c z]; simpl; auto.
  f_equal; [lra|apply IH].
Qed.

Lemma vsub_vadd : forall x y, length x = length y -> vadd (vsub x y) y = x.
Proof.
  unfold vadd, vsub. induction x as [|a x IH]; destruct y as [|b y]; simpl; intros; try discriminate; auto.
  f_equal; [lra|apply IH; lia].
Qed.
Lemma vadd_vsub : forall x y, length x = length y -> vsub (vadd x y) y = x.
Proof.
  unfold vadd, vsub. induction x as [|a x IH]; destruct y as [|b y]; simpl; intros; try discriminate; auto.
  f_equal; [lra|apply IH; lia].
Qed.

(** -- decidable comparisons as booleans (numpy elementwise comparisons) -- *)
Definition Rleb (a b : R) : bool := if Rle_dec a b then true else false.
Definition Rltb (a b : R) : bool := if Rlt_dec a b then true else false.
Definition Reqb (a b : R) : bool := if Req_EM_T a b then true else false.

Lemma Rleb_true : forall a b, Rleb a b = true <-> a <= b.
Proof. intros; unfold Rleb; destruct (Rle_dec a b); split; intros; auto; discriminate. Qed.
Lemma Rltb_true : forall a b, Rltb a b = true <-> a < b.
Proof. intros; unfold Rltb; destruct (Rlt_dec a b); split; intros; auto; discriminate. Qed.
Lemma Reqb_true : forall a b, Reqb a b = true <-> a = b.
Proof. intros; unfold Reqb; destruct (Req_EM_T a b); split; intros; auto; discriminate. Qed.
Lemma Rleb_false : forall a b, Rleb a b = false <-> b < a.
Proof. intros; unfold Rleb; destruct (Rle_dec a b); split; intros; try discriminate; auto; lra. Qed.
Lemma Rltb_false : forall a b, Rltb a b = false <-> b <= a.
Proof. intros; unfold Rltb; destruct (Rlt_dec a b); split; intros; try discriminate; auto; lra. Qed.
Lemma Reqb_false : forall a b, Reqb a b = false <-> a <> b.
Proof. intros; unfold Reqb; destruct (Req_EM_T a b); split; intros; try discriminate; auto; contradiction. Qed.

Lemma nth_ext_vec : forall (x y : vec), length x = length y -> (forall i, vget x i = vget y i) -> x = y.
Proof. intros; apply vec_ext; auto. Qed.
