(** Concrete runs of the Poisson disk samplers, and where they fail. *)
Require Import Reals Lra Lia List Bool Arith ZArith.
From Verif Require Import RVec Num Sums DomModel DomSpec DomProofs DomMoreModel SweepProofs HullIneqProofs LipModel LipProofs SampModel PigeonLib LatinProofs PoissonProofs PoissonGrid.
Import ListNotations.
Local Open Scope R_scope.

(* ---- one dimension ---- *)
Lemma Ld1 : forall a b, Ldist [[1]] [a] [b] = Rabs (a - b).
Proof. intros. unfold Ldist, mv, dot. cbn [map]. unfold vmul, vsub. cbn [vmap2]. rewrite norm2_1. f_equal. unfold vsum. simpl. ring. Qed.
Lemma mv1 : forall a, mv [[1]] [a] = [a].
Proof. intros. unfold mv, dot. cbn [map]. unfold vmul. cbn [vmap2]. unfold vsum. simpl. f_equal. ring. Qed.
Lemma cand1 : forall x s t, Rabs s = 1 -> poisson_cand [[1]] [x] ([s], t) = Some [x + t * s].
Proof.
  intros x s t Hs. unfold poisson_cand. cbn [fst snd]. rewrite mv1, norm2_1, Hs. replace (Reqb 1 0) with false by (symmetry; apply Reqb_false; lra).
  unfold vscale, vadd. cbn [map vmap2]. rewrite Rinv_1. do 2 f_equal. ring.
Qed.
Lemma abs_gt : forall r a, r < a \/ r < - a -> r < Rabs a.
Proof. intros r a H. pose proof (Rle_abs a). pose proof (Rle_abs (- a)). rewrite Rabs_Ropp in *. lra. Qed.
Lemma abs_lt : forall r a, - r < a < r -> Rabs a < r.
Proof. intros. apply Rabs_def1; lra. Qed.
Ltac cmp := repeat match goal with
  | |- Rltb _ _ = true => apply Rltb_true
  | |- Rltb _ _ = false => apply Rltb_false
  | |- Rleb _ _ = true => apply Rleb_true
  | |- Rleb _ _ = false => apply Rleb_false
  | |- (_ && _)%bool = true => apply andb_true_iff; split
  end; try lra.

(* ---- one iteration at a time ---- *)
Lemma pl_hit : forall f k L r inside pick trials X act a l i xc, active_idx act = a :: l -> pick k (a :: l) = i ->
  first_some (poisson_trial L r inside X (nth i X [])) (trials k (nth i X [])) = Some xc ->
  poisson_loop (S f) k L r inside pick trials X act = poisson_loop f (S k) L r inside pick trials (X ++ [xc]) (act ++ [true]).
Proof. intros until xc. intros E P F. simpl. rewrite E, P. unfold poisson_step. rewrite F. reflexivity. Qed.
Lemma pl_miss : forall f k L r inside pick trials X act a l i, active_idx act = a :: l -> pick k (a :: l) = i ->
  first_some (poisson_trial L r inside X (nth i X [])) (trials k (nth i X [])) = None ->
  poisson_loop (S f) k L r inside pick trials X act = poisson_loop f (S k) L r inside pick trials X (clear_at i act).
Proof. intros until i. intros E P F. simpl. rewrite E, P. unfold poisson_step. rewrite F. reflexivity. Qed.
Lemma pl_end : forall f k L r inside pick trials X act, active_idx act = [] -> poisson_loop (S f) k L r inside pick trials X act = Some X.
Proof. intros. simpl. rewrite H. reflexivity. Qed.
Lemma pg_hit : forall f k L r inside pick trials dims st h g X act a l i xc g', active_idx act = a :: l -> pick k (a :: l) = i ->
  first_some (poisson_grid_trial L r inside dims st h g X (nth i X [])) (trials k (nth i X [])) = Some xc -> grid_set dims g (grid_coord L st h xc) (length X + 1) = Some g' ->
  poisson_grid_loop (S f) k L r inside pick trials dims st h g X act = poisson_grid_loop f (S k) L r inside pick trials dims st h g' (X ++ [xc]) (act ++ [true]).
Proof. intros until g'. intros E P F G. simpl. rewrite E, P, F, G. reflexivity. Qed.
Lemma pg_miss : forall f k L r inside pick trials dims st h g X act a l i, active_idx act = a :: l -> pick k (a :: l) = i ->
  first_some (poisson_grid_trial L r inside dims st h g X (nth i X [])) (trials k (nth i X [])) = None ->
  poisson_grid_loop (S f) k L r inside pick trials dims st h g X act = poisson_grid_loop f (S k) L r inside pick trials dims st h g X (clear_at i act).
Proof. intros until i. intros E P F. simpl. rewrite E, P, F. reflexivity. Qed.
Lemma pg_end : forall f k L r inside pick trials dims st h g X act, active_idx act = [] -> poisson_grid_loop (S f) k L r inside pick trials dims st h g X act = Done X.
Proof. intros. simpl. rewrite H. reflexivity. Qed.

Definition box1 (l u : R) (x : vec) : bool := (Rleb l (vget x 0) && Rleb (vget x 0) u)%bool.
Definition hd_pick (k : nat) (l : list nat) : nat := hd O l.

(** the interval [0,1], r = 1/2, every trial steps to the right by 3/4 *)
Example ex_poisson : box1 0 1 [0] = true /\
  poisson 4 [[1]] (1/2) (box1 0 1) hd_pick (fun _ _ => [([1], 3/4)]) [0] = Some [[0]; [3/4]] /\ separated [[1]] (1/2) [[0]; [3/4]] /\
  Forall (fun x => box1 0 1 x = true) [[0]; [3/4]] /\ (forall x, box1 0 1 x = true -> length x = 1%nat -> in_box [0] [1] x) /\ (forall k l, l <> [] -> In (hd_pick k l) l).
Proof.
  assert (B0 : box1 0 1 [0] = true) by (unfold box1, vget; simpl; cmp).
  assert (T1 : poisson_trial [[1]] (1/2) (box1 0 1) [[0]] [0] ([1], 3/4) = Some [3/4]).
  { unfold poisson_trial. rewrite cand1 by (apply Rabs_right; lra). replace (0 + 3/4 * 1) with (3/4) by lra.
    replace (box1 0 1 [3/4] && _)%bool with true; auto. symmetry. unfold box1, vget. cbn [nth map]. rewrite Ld1. unfold vmin. cbn [fold_right]. cmp. apply abs_gt. lra. }
  assert (T2 : poisson_trial [[1]] (1/2) (box1 0 1) [[0]; [3/4]] [0] ([1], 3/4) = None).
  { unfold poisson_trial. rewrite cand1 by (apply Rabs_right; lra). replace (0 + 3/4 * 1) with (3/4) by lra. rewrite andb_comm.
    replace (Rltb _ _) with false; auto. symmetry. apply Rltb_false. eapply Rle_trans; [apply (vmin_map_le vec (Ldist [[1]] [3/4]) _ [3/4]); simpl; auto|]. rewrite Ld1, Rminus_diag_eq, Rabs_R0; lra. }
  assert (T3 : poisson_trial [[1]] (1/2) (box1 0 1) [[0]; [3/4]] [3/4] ([1], 3/4) = None).
  { unfold poisson_trial. rewrite cand1 by (apply Rabs_right; lra). replace (box1 0 1 [3/4 + 3/4 * 1]) with false; auto. symmetry. unfold box1, vget. cbn [nth].
    apply andb_false_iff. right. cmp. }
  assert (RUN : poisson 4 [[1]] (1/2) (box1 0 1) hd_pick (fun _ _ => [([1], 3/4)]) [0] = Some [[0]; [3/4]]).
  { unfold poisson. etransitivity; [eapply pl_hit; [reflexivity|reflexivity|]; unfold hd_pick; cbn [hd first_some nth app]; rewrite T1; reflexivity|].
    etransitivity; [eapply pl_miss; [reflexivity|reflexivity|]; unfold hd_pick; cbn [hd first_some nth app]; rewrite T2; reflexivity|].
    etransitivity; [eapply pl_miss; [reflexivity|reflexivity|]; unfold hd_pick; cbn [hd first_some nth app]; rewrite T3; reflexivity|]. apply pl_end. reflexivity. }
  split; [exact B0|]. split; [exact RUN|]. pose proof (poisson_correct 4 _ _ _ _ _ _ _ B0 RUN) as [A [B _]]. split; [exact A|]. split; [exact B|]. split.
  - intros x Hx HL. split; [auto|]. intros i Hi. simpl in Hi. assert (i = O) by lia. subst. unfold box1 in Hx. apply andb_true_iff in Hx. destruct Hx as [H1 H2]. apply Rleb_true in H1, H2. unfold vget in *. simpl. lra.
  - intros k [|a l] H; [congruence|]. left. reflexivity.
Qed.

(** On an unbounded domain the loop need not end: each trial steps one further, and always succeeds. *)
Definition last_pick (k : nat) (l : list nat) : nat := last l O.
Definition line (n : nat) : mat := map (fun k => [2 * INR k]) (seq 0 n).
Lemma line_S : forall n, line (S n) = line n ++ [[2 * INR n]].
Proof. intros. unfold line. rewrite seq_S, map_app. reflexivity. Qed.
Lemma active_all : forall n, active_idx (repeat true n) = seq 0 n.
Proof.
  intros n. unfold active_idx. rewrite repeat_length. assert (H : forall m s, (forall i, In i (seq s m) -> nth i (repeat true n) false = true) -> filter (fun i => nth i (repeat true n) false) (seq s m) = seq s m).
  { induction m as [|m IH]; intros s H; simpl; auto. rewrite H by (left; auto). f_equal. apply IH. intros i Hi. apply H. right. auto. }
  apply H. intros i Hi. apply in_seq in Hi. clear H. assert (Hi' : (i < n)%nat) by lia. clear Hi. revert i Hi'. induction n as [|n IH]; intros [|i] Hi; simpl; try lia; auto. apply IH. lia.
Qed.
Theorem poisson_unbounded_refuted : exists (L : mat) r inside pick trials x0, 0 < r /\ inside x0 = true /\ (forall k l, l <> [] -> In (pick k l) l) /\
  (forall k x t, In t (trials k x) -> norm2 (mv L (fst t)) = 1 /\ r <= snd t <= 2 * r) /\ forall fuel, poisson fuel L r inside pick trials x0 = None.
Proof.
  exists [[1]], 1, (fun _ => true), last_pick, (fun _ _ => [([1], 2)]), [2 * INR 0]. split; [lra|]. split; [auto|]. split.
  { intros k l H. unfold last_pick. destruct (exists_last H) as [l' [a ->]]. rewrite last_last. apply in_or_app. right. left. auto. }
  split. { intros k x t [<-|[]]. cbn [fst snd]. rewrite mv1, norm2_1, Rabs_right; lra. }
  intros fuel. unfold poisson. change [[2 * INR 0]] with (line 1). change [true] with (repeat true 1).
  assert (H : forall f k n, poisson_loop f k [[1]] 1 (fun _ => true) last_pick (fun _ _ => [([1], 2)]) (line (S n)) (repeat true (S n)) = None).
  { induction f as [|f IH]; intros k n; [reflexivity|]. etransitivity; [|apply (IH (S k) (S n))].
    rewrite (line_S (S n)). replace (repeat true (S (S n))) with (repeat true (S n) ++ [true]) by (symmetry; apply (repeat_cons (S n))).
    apply (pl_hit f k [[1]] 1 (fun _ => true) last_pick (fun _ _ => [([1], 2)]) (line (S n)) (repeat true (S n)) O (seq 1 n) n).
    - rewrite active_all. reflexivity.
    - unfold last_pick. change (0%nat :: seq 1 n) with (seq 0 (S n)). rewrite seq_S, last_last. auto.
    - cbn [first_some]. unfold poisson_trial. assert (NT : nth n (line (S n)) [] = [2 * INR n]) by (unfold line; apply (nth_map_seq vec (fun k => [2 * INR k])); lia).
      rewrite NT, cand1 by (apply Rabs_right; lra).
      replace (2 * INR n + 2 * 1) with (2 * INR (S n)) by (rewrite S_INR; ring). replace (Rltb 1 _) with true; auto. symmetry. apply Rltb_true. apply vmin_map_gt.
      + rewrite line_S. destruct (line n); discriminate.
      + intros x Hx. unfold line in Hx. apply in_map_iff in Hx. destruct Hx as [j [<- Hj]]. apply in_seq in Hj. rewrite Ld1. apply abs_gt. left.
        assert (INR j <= INR n) by (apply le_INR; lia). rewrite S_INR. lra. }
  apply H.
Qed.

(* ---- grid ---- *)
Lemma coord1 : forall st h x z, IZR z <= (x - st) / h < IZR z + 1 -> grid_coord [[1]] [st] h [x] = [z].
Proof. intros. unfold grid_coord. cbn [length seq map]. rewrite mv1. unfold vget. cbn [nth]. rewrite (int_part_uniq _ z); auto. Qed.
Lemma grid_h1 : forall r, grid_h [[1]] r = r.
Proof. intros. unfold grid_h. cbn [length]. change (INR 1) with 1. rewrite sqrt_1. field. Qed.
Lemma zceil_uniq : forall t z, IZR z - 1 < t <= IZR z -> zceil t = z.
Proof. intros t z H. unfold zceil. rewrite (int_part_uniq (- t) (- z)); [lia|]. rewrite opp_IZR. lra. Qed.
(** corner of the interval [l,u] *)
Definition corner1 (l u : R) (p : vec) : vec := [if Rltb 0 (vget p 0) then u else l].
Lemma corner1_pos : forall l u, corner1 l u [1] = [u] /\ corner1 l u (vscale (-1) [1]) = [l].
Proof.
  intros l u. unfold corner1, vscale, vget. cbn [map nth]. replace (Rltb 0 1) with true by (symmetry; apply Rltb_true; lra). replace (Rltb 0 (-1 * 1)) with false by (symmetry; apply Rltb_false; lra). auto.
Qed.
Lemma dot11 : forall a, dot [1] [a] = a.
Proof. intros. rewrite dot_cons. change (dot [] []) with 0. ring. Qed.
Lemma grid1 : forall l u, l <= u -> grid_lo (corner1 l u) [1] = l /\ grid_hi (corner1 l u) [1] = u.
Proof. intros l u H. unfold grid_lo, grid_hi. destruct (corner1_pos l u) as [-> ->]. rewrite !dot11. split; [apply Rmin_right|apply Rmax_left]; auto. Qed.

(** A point on the upper face of the domain: the cell index is one past the end of the grid. *)
Theorem poisson_grid_face_refuted : exists fuel L r inside corner pick trials x0 Y, 0 < r /\ inside x0 = true /\ (forall x, inside x = true -> 0 <= vget x 0 <= 1) /\
  corner = corner1 0 1 /\ poisson fuel L r inside pick trials x0 = Some Y /\ poisson_grid fuel L r inside corner pick trials x0 = IndexErr.
Proof.
  exists 2%nat, [[1]], (1/2), (box1 0 1), (corner1 0 1), hd_pick, (fun _ _ => []), [1], [[1]]. split; [lra|]. split; [unfold box1, vget; cbn [nth]; cmp|]. split.
  { intros x Hx. unfold box1 in Hx. apply andb_true_iff in Hx. destruct Hx as [H1 H2]. apply Rleb_true in H1, H2. auto. }
  split; [auto|]. split.
  { unfold poisson. etransitivity; [eapply pl_miss; reflexivity|]. apply pl_end. reflexivity. }
  unfold poisson_grid. destruct (grid1 0 1) as [G1 G2]; [lra|].
  unfold grid_dims, grid_start. cbn [map]. rewrite grid_h1, G1, G2. rewrite (zceil_uniq _ 2) by (simpl; lra). rewrite (coord1 0 (1/2) 1 2) by (simpl; lra). reflexivity.
Qed.

(** The grid covers [0,10] for r = 3, so there the two samplers agree for all random choices. *)
Example ex_grid : forall fuel pick trials,
  poisson_grid fuel [[1]] 3 (fun x => (Nat.eqb (length x) 1 && box1 0 10 x)%bool) (corner1 0 10) pick trials [4] =
  match poisson fuel [[1]] 3 (fun x => (Nat.eqb (length x) 1 && box1 0 10 x)%bool) pick trials [4] with Some Y => Done Y | None => OutOfFuel end.
Proof.
  intros. apply poisson_grid_refines; [reflexivity|lra|unfold box1, vget; cbn [length nth Nat.eqb]; cmp; auto|]. intros x Hx. destruct (grid1 0 10) as [G1 G2]; [lra|].
  apply grid_covers; [lra|simpl; lia| |].
  - intros a [<-|[]]. rewrite G1, G2. apply andb_true_iff in Hx. destruct Hx as [HL HB]. apply Nat.eqb_eq in HL. destruct x as [|y [|? ?]]; try discriminate.
    rewrite dot11. unfold box1, vget in HB. cbn [nth] in HB. apply andb_true_iff in HB. destruct HB as [H1 H2]. apply Rleb_true in H1, H2. lra.
  - intros a [<-|[]] z. rewrite G1, G2, grid_h1. intro E. assert (E2 : IZR (3 * z) = IZR 10) by (rewrite mult_IZR; simpl; lra). apply eq_IZR in E2. lia.
Qed.

(** A point accepted through the tolerance of isinside just below the lower face: its cell index is -1, which numpy
    takes as the last cell; the search never finds it there and later points come too close. *)
Definition wrap_trials (k : nat) (x : vec) : list (vec * R) := match k with O => [([1], 2)] | 1%nat => [([-1], 3/2)] | _ => [] end.
Definition wrap_pick (k : nat) (l : list nat) : nat := match k with 1%nat => last l O | _ => hd O l end.
Lemma vmin1 : forall a, vmin [a] = a. Proof. reflexivity. Qed.
Lemma gt1 : forall l u r dims st h g X x s t y, Rabs s = 1 -> y = x + t * s -> l <= y <= u -> grid_accept [[1]] r dims [st] h g X [y] = true ->
  poisson_grid_trial [[1]] r (box1 l u) dims [st] h g X [x] ([s], t) = Some [y].
Proof. intros l u r dims st h g X x s t y Hs -> Hy HA. unfold poisson_grid_trial. rewrite cand1 by auto. rewrite HA. replace (box1 l u [x + t * s]) with true; auto. symmetry. unfold box1, vget. cbn [nth]. cmp. Qed.
Lemma grad1 : grid_rad 1 = 3%nat.
Proof. unfold grid_rad. change (INR 1) with 1. rewrite sqrt_1, (zceil_uniq 1 1) by (simpl; lra). reflexivity. Qed.
Lemma ga1 : forall r dims st h g X y z, IZR z <= (y - st) / h < IZR z + 1 -> (match neighbors dims g 3 [z] with [] => [2 * r] | _ => map (fun n => Ldist [[1]] [y] (nth n X [])) (neighbors dims g 3 [z]) end = [2 * r] \/
   (exists n p, neighbors dims g 3 [z] = [n] /\ nth n X [] = [p] /\ r < Rabs (y - p))) -> 0 < r -> grid_accept [[1]] r dims [st] h g X [y] = true.
Proof.
  intros r dims st h g X y z Hz H r0. unfold grid_accept. cbn [length]. rewrite grad1, (coord1 st h y z Hz). destruct H as [H|[n [p [-> [E H]]]]].
  - rewrite H, vmin1. cmp.
  - cbn [map]. rewrite E, Ld1, vmin1. cmp.
Qed.
Theorem poisson_grid_wrap_refuted : exists L r tol inside corner pick trials x0 fuel Y, 0 < r /\ 0 < tol /\ inside = box1 (0 - tol) (10 + tol) /\ corner = corner1 0 10 /\ inside x0 = true /\
  (forall k l, l <> [] -> In (pick k l) l) /\ (forall k x t, In t (trials k x) -> norm2 (mv L (fst t)) = 1 /\ r <= snd t <= 2 * r) /\
  poisson_grid fuel L r inside corner pick trials x0 = Done Y /\ ~ separated L r Y.
Proof.
  set (e := 1 / 1000000). exists [[1]], 1, (1/100000), (box1 (0 - 1/100000) (10 + 1/100000)), (corner1 0 10), wrap_pick, wrap_trials, [- e], 6%nat, [[- e]; [2 - e]; [1/2 - e]].
  assert (He : e = 1 / 1000000) by reflexivity. clearbody e.
  split; [lra|]. split; [lra|]. split; [auto|]. split; [auto|]. split; [unfold box1, vget; cbn [nth]; cmp|]. split.
  { intros k l H. assert (L1 : In (last l O) l) by (destruct (exists_last H) as [l' [a ->]]; rewrite last_last; apply in_or_app; right; left; auto).
    assert (H1 : In (hd O l) l) by (destruct l; [congruence|left; auto]). destruct k as [|[|k]]; auto. }
  split. { intros [|[|k]] x t; cbn [wrap_trials In]; [intros [<-|[]]|intros [<-|[]]|intros []]; cbn [fst snd]; rewrite mv1, norm2_1; split; try lra; [apply Rabs_right; lra|rewrite Rabs_left; lra]. }
  split.
  - unfold poisson_grid. destruct (grid1 0 10) as [G1 G2]; [lra|]. unfold grid_dims, grid_start. cbn [map]. rewrite grid_h1, G1, G2. rewrite (zceil_uniq _ 10) by (simpl; lra). rewrite (coord1 0 1 (- e) (-1)) by (simpl; lra).
    change (grid_set [10%Z] [] [(-1)%Z] 1) with (Some [([9%Z], 1%nat)]). cbv iota beta.
    etransitivity; [eapply (pg_hit _ _ _ _ _ _ _ _ _ _ _ _ _ _ _ _ [2 - e]); [reflexivity|reflexivity| |]|].
    + cbn [wrap_pick hd nth wrap_trials first_some]. rewrite (gt1 _ _ _ _ _ _ _ _ _ _ _ (2 - e)); [reflexivity|apply Rabs_right; lra|lra|lra|]. apply (ga1 _ _ _ _ _ _ _ 1); [simpl; lra| |lra].
      left. reflexivity.
    + rewrite (coord1 0 1 (2 - e) 1) by (simpl; lra). reflexivity.
    + etransitivity; [eapply (pg_hit _ _ _ _ _ _ _ _ _ _ _ _ _ _ _ _ [1/2 - e]); [reflexivity|reflexivity| |]|].
      * cbn [wrap_pick last nth wrap_trials first_some app]. rewrite (gt1 _ _ _ _ _ _ _ _ _ _ _ (1/2 - e)); [reflexivity|rewrite Rabs_left; lra|lra|lra|]. apply (ga1 _ _ _ _ _ _ _ 0); [simpl; lra| |lra].
        right. exists 1%nat, (2 - e). split; [reflexivity|]. split; [reflexivity|]. apply abs_gt. lra.
      * rewrite (coord1 0 1 (1/2 - e) 0) by (simpl; lra). reflexivity.
      * etransitivity; [eapply pg_miss; reflexivity|]. etransitivity; [eapply pg_miss; reflexivity|]. etransitivity; [eapply pg_miss; reflexivity|]. apply pg_end. reflexivity.
  - intro H. pose proof (H 0%nat 2%nat ltac:(simpl; lia) ltac:(simpl; lia) ltac:(lia)) as C. cbn [nth] in C. rewrite Ld1 in C. assert (Rabs (- e - (1/2 - e)) < 1) by (apply abs_lt; lra). lra.
Qed.

(* ---- two dimensions: the searched block is centred at the wrong cell ---- *)
Notation I2 := [[1; 0]; [0; 1]].
Lemma mv2 : forall a b, mv I2 [a; b] = [a; b].
Proof. intros. unfold mv. cbn [map]. rewrite !dot_cons. change (dot [] []) with 0. f_equal; [ring|f_equal; ring]. Qed.
Lemma norm2_v : forall b, norm2 [0; b] = Rabs b.
Proof. intros. unfold norm2, norm2sq. rewrite !dot_cons. change (dot [] []) with 0. rewrite <- sqrt_Rsqr_abs. f_equal. unfold Rsqr. ring. Qed.
Lemma Ld2 : forall a b c, Ldist I2 [a; b] [a; c] = Rabs (b - c).
Proof. intros. unfold Ldist. rewrite !mv2. unfold vsub. cbn [vmap2]. rewrite Rminus_diag_eq by auto. apply norm2_v. Qed.
Lemma cand2 : forall x y s t, Rabs s = 1 -> poisson_cand I2 [x; y] ([0; s], t) = Some [x; y + t * s].
Proof.
  intros x y s t Hs. unfold poisson_cand. cbn [fst snd]. rewrite mv2, norm2_v, Hs. replace (Reqb 1 0) with false by (symmetry; apply Reqb_false; lra).
  unfold vscale, vadd. cbn [map vmap2]. rewrite Rinv_1. f_equal. f_equal; [ring|f_equal; ring].
Qed.
Lemma sqrt2 : 1 < sqrt 2 < 3/2 /\ sqrt 2 * sqrt 2 = 2.
Proof. assert (sqrt 2 * sqrt 2 = 2) by (apply sqrt_sqrt; lra). pose proof (sqrt_lt_R0 2 ltac:(lra)). split; [split; nra|auto]. Qed.
Lemma grid_h2 : grid_h I2 (sqrt 2) = 1.
Proof. unfold grid_h. cbn [length]. change (INR 2) with 2. destruct sqrt2. field. lra. Qed.
Lemma grad2 : grid_rad 2 = 5%nat.
Proof. unfold grid_rad. change (INR 2) with 2. destruct sqrt2. rewrite (zceil_uniq (sqrt 2) 2) by (simpl; lra). reflexivity. Qed.
Lemma coord2 : forall x y a b, IZR a <= x < IZR a + 1 -> IZR b <= y < IZR b + 1 -> grid_coord I2 [0; 0] 1 [x; y] = [a; b].
Proof. intros. unfold grid_coord. cbn [length seq map]. rewrite mv2. unfold vget. cbn [nth]. rewrite (int_part_uniq _ a), (int_part_uniq _ b); auto; lra. Qed.
Definition box2 (l u : R) (x : vec) : bool := (Rleb l (vget x 0) && Rleb (vget x 0) u && Rleb l (vget x 1) && Rleb (vget x 1) u)%bool.
Definition corner2 (l u : R) (p : vec) : vec := [if Rltb 0 (vget p 0) then u else l; if Rltb 0 (vget p 1) then u else l].
Lemma grid2 : forall u, 0 <= u -> map (grid_lo (corner2 0 u)) I2 = [0; 0] /\ map (grid_hi (corner2 0 u)) I2 = [u; u].
Proof.
  intros u H. unfold grid_lo, grid_hi, corner2, vscale, vget. cbn [map nth]. replace (Rltb 0 1) with true by (symmetry; apply Rltb_true; lra).
  replace (Rltb 0 (-1 * 1)) with false by (symmetry; apply Rltb_false; lra). replace (Rltb 0 (-1 * 0)) with false by (symmetry; apply Rltb_false; lra). replace (Rltb 0 0) with false by (symmetry; apply Rltb_false; lra).
  rewrite !dot_cons. change (dot [] []) with 0. replace (1 * u + (0 * 0 + 0)) with u by ring. replace (1 * 0 + (0 * 0 + 0)) with 0 by ring. replace (0 * 0 + (1 * u + 0)) with u by ring. replace (0 * 0 + (1 * 0 + 0)) with 0 by ring.
  rewrite Rmin_right, Rmax_left by auto. auto.
Qed.
Definition late_trials (k : nat) (x : vec) : list (vec * R) := match k with O => [([0; 1], 2)] | 1%nat => [([0; -1], 3/2)] | _ => [] end.
Lemma gt2 : forall u r dims g X x y s t z a b, Rabs s = 1 -> z = y + t * s -> 0 <= x <= u -> 0 <= z <= u -> IZR a <= x < IZR a + 1 -> IZR b <= z < IZR b + 1 -> 0 < r -> neighbors dims g 5 [a; b] = [] ->
  poisson_grid_trial I2 r (box2 0 u) dims [0; 0] 1 g X [x; y] ([0; s], t) = Some [x; z].
Proof.
  intros u r dims g X x y s t z a b Hs -> Hx Hz Ha Hb r0 HN. unfold poisson_grid_trial. rewrite cand2 by auto. unfold grid_accept. cbn [length]. rewrite grad2, (coord2 _ _ a b), HN by auto. rewrite vmin1.
  replace (box2 0 u [x; y + t * s] && Rltb r (2 * r))%bool with true; auto. symmetry. unfold box2, vget. cbn [nth]. cmp.
Qed.
Theorem poisson_grid_centre_refuted : exists L r inside corner pick trials x0 fuel Y, 0 < r /\ inside = box2 0 10 /\ corner = corner2 0 10 /\ inside x0 = true /\
  (forall k l, l <> [] -> In (pick k l) l) /\ (forall k x t, In t (trials k x) -> norm2 (mv L (fst t)) = 1 /\ r <= snd t <= 2 * r) /\
  (forall x, In x Y -> in_range (grid_dims corner L r) (grid_coord L (grid_start corner L) (grid_h L r) x) = true) /\
  poisson_grid fuel L r inside corner pick trials x0 = Done Y /\ ~ separated L r Y.
Proof.
  destruct sqrt2 as [S1 S2]. exists I2, (sqrt 2), (box2 0 10), (corner2 0 10), wrap_pick, late_trials, [17/2; 1/2], 6%nat, [[17/2; 1/2]; [17/2; 5/2]; [17/2; 1]].
  destruct (grid2 10) as [G1 G2]; [lra|].
  assert (GD : grid_dims (corner2 0 10) I2 (sqrt 2) = [10%Z; 10%Z]).
  { unfold grid_dims. rewrite grid_h2. cbn [map] in *. injection G1 as G1a G1b. injection G2 as G2a G2b. rewrite G1a, G1b, G2a, G2b. rewrite !(zceil_uniq _ 10) by (simpl; lra). auto. }
  split; [lra|]. split; [auto|]. split; [auto|]. split; [unfold box2, vget; cbn [nth]; cmp|]. split.
  { intros k l H. assert (L1 : In (last l O) l) by (destruct (exists_last H) as [l' [a ->]]; rewrite last_last; apply in_or_app; right; left; auto).
    assert (H1 : In (hd O l) l) by (destruct l; [congruence|left; auto]). destruct k as [|[|k]]; auto. }
  split. { intros [|[|k]] x t; cbn [late_trials In]; [intros [<-|[]]|intros [<-|[]]|intros []]; cbn [fst snd]; rewrite mv2, norm2_v; split; try lra; [apply Rabs_right; lra|rewrite Rabs_left; lra]. }
  split. { intros x Hx. rewrite GD, grid_h2. unfold grid_start. rewrite G1. destruct Hx as [<-|[<-|[<-|[]]]]; [rewrite (coord2 _ _ 8 0)|rewrite (coord2 _ _ 8 2)|rewrite (coord2 _ _ 8 1)]; try reflexivity; simpl; lra. }
  split.
  - unfold poisson_grid. rewrite GD, grid_h2. unfold grid_start. rewrite G1. rewrite (coord2 _ _ 8 0) by (simpl; lra).
    change (grid_set [10%Z; 10%Z] [] [8%Z; 0%Z] 1) with (Some [([8%Z; 0%Z], 1%nat)]). cbv iota beta.
    etransitivity; [eapply (pg_hit _ _ _ _ _ _ _ _ _ _ _ _ _ _ _ _ [17/2; 5/2]); [reflexivity|reflexivity| |]|].
    + cbn [wrap_pick hd nth late_trials first_some]. rewrite (gt2 _ _ _ _ _ _ _ _ _ (5/2) 8 2); [reflexivity|apply Rabs_right; lra|lra|lra|lra|simpl; lra|simpl; lra|lra|reflexivity].
    + rewrite (coord2 _ _ 8 2) by (simpl; lra). reflexivity.
    + etransitivity; [eapply (pg_hit _ _ _ _ _ _ _ _ _ _ _ _ _ _ _ _ [17/2; 1]); [reflexivity|reflexivity| |]|].
      * cbn [wrap_pick last nth late_trials first_some app]. rewrite (gt2 _ _ _ _ _ _ _ _ _ 1 8 1); [reflexivity|rewrite Rabs_left; lra|lra|lra|lra|simpl; lra|simpl; lra|lra|reflexivity].
      * rewrite (coord2 _ _ 8 1) by (simpl; lra). reflexivity.
      * etransitivity; [eapply pg_miss; reflexivity|]. etransitivity; [eapply pg_miss; reflexivity|]. etransitivity; [eapply pg_miss; reflexivity|]. apply pg_end. reflexivity.
  - intro H. pose proof (H 0%nat 2%nat ltac:(simpl; lia) ltac:(simpl; lia) ltac:(lia)) as C. cbn [nth] in C. rewrite Ld2 in C. assert (Rabs (1/2 - 1) < 1) by (apply abs_lt; lra). lra.
Qed.
(** both points of that sample were given up after a trial that is no longer acceptable *)
Example ex_spent : forall x, In x [[0]; [3/4]] -> spent [[1]] (1/2) (box1 0 1) (fun _ _ => [([1], 3/4)]) [[0]; [3/4]] x.
Proof. apply (poisson_spent 4 [[1]] (1/2) (box1 0 1) hd_pick (fun _ _ => [([1], 3/4)]) [0]). apply ex_poisson. Qed.
