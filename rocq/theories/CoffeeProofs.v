(** Coffeehouse design and Sobol sampling. *)
Require Import Reals Lra Lia List Bool Arith ZArith.
From Verif Require Import RVec Num Sums DomModel DomSpec DomProofs DomMoreModel SweepProofs HullIneqProofs LipModel LipProofs SampModel PigeonLib LatinProofs PoissonProofs PoissonGrid PoissonCases DesignProofs.
Import ListNotations.
Local Open Scope R_scope.

(* ------------------------------------------------------------------ *)
(** * Coffeehouse *)

(** the candidate set lies in the domain and contains a point that is farthest from the sites up to eps *)
Definition farthest (P : vec -> Prop) (L : mat) (eps : R) (verts : mat -> mat) : Prop :=
  forall Xhat, Xhat <> [] -> Forall P Xhat -> Forall P (verts Xhat) /\
    exists v, In v (verts Xhat) /\ forall x, P x -> mind L Xhat x <= mind L Xhat v + eps.

Lemma mind_le : forall L Xhat x xh, In xh Xhat -> mind L Xhat x <= Ldist L xh x.
Proof. intros. unfold mind. apply (vmin_map_le vec (fun xh => Ldist L xh x)); auto. Qed.
Lemma mind_at : forall L Xhat x, Xhat <> [] -> exists xh, In xh Xhat /\ mind L Xhat x = Ldist L xh x.
Proof. intros. unfold mind. apply (vmin_map_at vec (fun xh => Ldist L xh x)); auto. Qed.
Lemma mind_app : forall L X Y x, X <> [] -> mind L (X ++ Y) x <= mind L X x.
Proof. intros L X Y x H. destruct (mind_at L X x H) as [xh [I ->]]. apply mind_le, in_or_app. auto. Qed.

(** the point appended in one iteration *)
Lemma coffee_pick : forall (P : vec -> Prop) L eps verts Xhat, farthest P L eps verts -> Xhat <> [] -> Forall P Xhat ->
  let v := nth (argmax (map (mind L Xhat) (verts Xhat))) (verts Xhat) [] in
  verts Xhat <> [] /\ P v /\ (forall x, P x -> mind L Xhat x <= mind L Xhat v + eps).
Proof.
  intros P L eps verts Xhat HF HN HP v. destruct (HF Xhat HN HP) as [FP [v0 [I0 H0]]].
  assert (NE : verts Xhat <> []) by (intro E; rewrite E in I0; destruct I0). split; auto.
  assert (NE' : map (mind L Xhat) (verts Xhat) <> []) by (destruct (verts Xhat); [congruence|discriminate]).
  destruct (argmax_spec _ NE') as [A [B _]]. rewrite map_length in *.
  assert (G : forall k, (k < length (verts Xhat))%nat -> vget (map (mind L Xhat) (verts Xhat)) k = mind L Xhat (nth k (verts Xhat) [])).
  { intros k Hk. unfold vget. rewrite nth_indep with (d' := mind L Xhat []) by (rewrite map_length; auto). apply map_nth. }
  split; [unfold v; rewrite Forall_forall in FP; apply FP, nth_In; auto|]. intros x Px. pose proof (H0 x Px). destruct (In_nth _ _ [] I0) as [k [Hk E]]. pose proof (B k Hk) as C. rewrite !G in C by auto. rewrite E in C. fold v in C. lra.
Qed.

(** every new point was as far from the earlier ones as any point of the domain (up to eps) *)
Definition greedy (P : vec -> Prop) (L : mat) (eps : R) (X : mat) : Prop :=
  Forall P X /\ forall q, (0 < q < length X)%nat -> forall x, P x -> mind L (firstn q X) x <= mind L (firstn q X) (nth q X []) + eps.
Lemma coffee_loop_greedy : forall n (P : vec -> Prop) L eps verts X, farthest P L eps verts -> X <> [] -> greedy P L eps X ->
  exists Y, coffee_loop n L verts X = Some Y /\ greedy P L eps Y /\ length Y = (length X + n)%nat.
Proof.
  induction n as [|n IH]; intros P L eps verts X HF HN [GP GD]; cbn [coffee_loop].
  - exists X. split; auto. split; [split; auto|lia].
  - destruct (coffee_pick P L eps verts X HF HN GP) as [NE [Pv Hv]]. set (v := nth (argmax (map (mind L X) (verts X))) (verts X) []) in *.
    assert (G' : greedy P L eps (X ++ [v])).
    { split; [apply Forall_app; split; auto|]. intros q Hq x Px. rewrite app_length in Hq. simpl in Hq. destruct (Nat.eq_dec q (length X)) as [->|Nq].
      - rewrite firstn_app, Nat.sub_diag, firstn_all, firstn_O, app_nil_r, app_nth2, Nat.sub_diag by lia. simpl nth. auto.
      - rewrite firstn_app, app_nth1 by lia. replace (q - length X)%nat with O by lia. rewrite firstn_O, app_nil_r. apply GD; auto. lia. }
    destruct (IH P L eps verts (X ++ [v]) HF ltac:(destruct X; discriminate) G') as [Y [EY [GY LY]]]. exists Y. rewrite app_length in LY. simpl in LY.
    split; [|split; auto; lia]. rewrite <- EY. unfold v. destruct (verts X); [congruence|reflexivity].
Qed.
Lemma firstn_split_le : forall (A : Type) (l : list A) p q, (p <= q)%nat -> exists t, firstn q l = firstn p l ++ t.
Proof. intros A l p q H. exists (skipn p (firstn q l)). rewrite <- (firstn_skipn p (firstn q l)) at 1. rewrite firstn_firstn, Nat.min_l by auto. auto. Qed.

(** Coffeehouse designs: N points of the domain, first the given one; no N points of the domain are pairwise more than
    twice as far apart (up to 4 eps when the candidates are only eps-farthest). *)
Theorem coffeehouse_2opt : forall (P : vec -> Prop) L eps verts x0 N, (1 <= N)%nat -> 0 <= eps -> P x0 -> farthest P L eps verts ->
  exists Y, coffeehouse N L verts x0 = Some Y /\ length Y = N /\ Forall P Y /\ hd [] Y = x0 /\
    forall Z : mat, length Z = N -> Forall P Z -> (2 <= N)%nat ->
      exists i j, (i < j < N)%nat /\ forall p q, (p < q < N)%nat -> Ldist L (nth i Z []) (nth j Z []) <= 2 * Ldist L (nth p Y []) (nth q Y []) + 4 * eps.
Proof.
  intros P L eps verts x0 N HN He P0 HF. unfold coffeehouse.
  assert (G0 : greedy P L eps [x0]) by (split; [auto|simpl; intros q Hq; lia]).
  destruct (coffee_loop_greedy (N - 1) P L eps verts [x0] HF ltac:(discriminate) G0) as [Y [EY [[GP GD] LY]]]. simpl in LY. exists Y. split; auto. split; [lia|]. split; auto.
  split.
  { clear -EY. assert (H : forall n X Y, X <> [] -> coffee_loop n L verts X = Some Y -> hd [] Y = hd [] X).
    { induction n as [|n IH]; intros X Y' NX E; simpl in E; [congruence|]. destruct (verts X) as [|a V]; [discriminate|]. apply IH in E; [|destruct X; discriminate]. rewrite E. destruct X; [congruence|reflexivity]. }
    rewrite (H (N - 1)%nat [x0] Y ltac:(discriminate) EY). auto. }
  intros Z LZ FZ N2. set (F := firstn (N - 1) Y).
  assert (FN : F <> []) by (intro E; assert (length F = (N - 1)%nat) by (unfold F; rewrite firstn_length; lia); rewrite E in H; simpl in H; lia).
  assert (FL : length F = (N - 1)%nat) by (unfold F; rewrite firstn_length; lia).
  (* lower bound for the separation of Y *)
  assert (SEP : forall p q, (p < q < N)%nat -> mind L F (nth (N - 1) Y []) <= Ldist L (nth p Y []) (nth q Y []) + eps).
  { intros p q Hpq. assert (PL : P (nth (N - 1) Y [])) by (rewrite Forall_forall in GP; apply GP, nth_In; lia).
    assert (D : mind L (firstn q Y) (nth (N - 1) Y []) <= mind L (firstn q Y) (nth q Y []) + eps) by (apply GD; auto; lia).
    assert (M : mind L F (nth (N - 1) Y []) <= mind L (firstn q Y) (nth (N - 1) Y [])).
    { unfold F. destruct (firstn_split_le vec Y q (N - 1)) as [t ->]; [lia|]. apply mind_app. destruct Y; [simpl in LY; lia|]. destruct q; [lia|discriminate]. }
    assert (I : In (nth p Y []) (firstn q Y)).
    { replace (nth p Y []) with (nth p (firstn q Y) []); [apply nth_In; rewrite firstn_length; lia|]. rewrite <- (firstn_skipn q Y) at 2. rewrite app_nth1; auto. rewrite firstn_length. lia. }
    pose proof (mind_le L (firstn q Y) (nth q Y []) _ I). lra. }
  (* upper bound by pigeonhole *)
  set (f := fun i => argmin_idx (map (fun xh => Ldist L xh (nth i Z [])) F)).
  assert (NEM : forall i, map (fun xh => Ldist L xh (nth i Z [])) F <> []) by (intros; destruct F; [congruence|discriminate]).
  destruct (pigeonhole (N - 1) f) as [i [j [Hij E]]].
  { intros i _. destruct (argmin_spec _ (NEM i)) as [A _]. rewrite map_length in A. unfold f. lia. }
  exists i, j. split; [lia|]. intros p q Hpq.
  assert (NEAR : forall k, (k < N)%nat -> Ldist L (nth (f k) F []) (nth k Z []) <= mind L F (nth (N - 1) Y []) + eps).
  { intros k Hk. assert (PZ : P (nth k Z [])) by (rewrite Forall_forall in FZ; apply FZ, nth_In; lia).
    assert (D : mind L F (nth k Z []) <= mind L F (nth (N - 1) Y []) + eps) by (unfold F; apply GD; auto; lia).
    destruct (argmin_spec _ (NEM k)) as [A B]. rewrite map_length in *. fold (f k) in *.
    assert (G : forall n, (n < length F)%nat -> vget (map (fun xh => Ldist L xh (nth k Z [])) F) n = Ldist L (nth n F []) (nth k Z [])).
    { intros n Hn. unfold vget. rewrite nth_indep with (d' := (fun xh => Ldist L xh (nth k Z [])) []) by (rewrite map_length; auto). apply (map_nth (fun xh => Ldist L xh (nth k Z []))). }
    destruct (mind_at L F (nth k Z []) FN) as [xh [Ih Eh]]. destruct (In_nth _ _ [] Ih) as [n [Hn En]]. pose proof (B n Hn) as C. rewrite !G in C by auto. rewrite En in C. lra. }
  pose proof (NEAR i ltac:(lia)) as Ni. pose proof (NEAR j ltac:(lia)) as Nj. rewrite E in Ni. pose proof (Ldist_triangle L (nth i Z []) (nth (f j) F []) (nth j Z [])) as T.
  rewrite (Ldist_sym L (nth i Z []) (nth (f j) F [])) in T. pose proof (SEP p q Hpq). lra.
Qed.
(** for N = 0 one point is returned *)
Theorem coffeehouse_zero_refuted : exists L verts x0 Y, coffeehouse 0 L verts x0 = Some Y /\ length Y <> 0%nat.
Proof. exists [[1]], (fun X => X), [0], [[0]]. split; [reflexivity|simpl; lia]. Qed.

(* ------------------------------------------------------------------ *)
(** * Sobol *)
Definition stream (l u : vec) (z : nat -> vec) (inside : vec -> bool) (M : nat) : mat := filter inside (map (fun k => sobol_scale l u (z k)) (seq 1 M)).
Lemma stream_app : forall l u z inside a b, stream l u z inside (a + b) = stream l u z inside a ++ filter inside (map (fun k => sobol_scale l u (z k)) (seq (1 + a) b)).
Proof. intros. unfold stream. rewrite seq_app, map_app, filter_app. auto. Qed.

Lemma sobol_loop_spec : forall fuel l u z inside n K Y, sobol_loop fuel l u z inside n (1 + K * n) (stream l u z inside (K * n)) = Some Y ->
  exists K', (K' <= K + fuel)%nat /\ (n <= length (stream l u z inside (K' * n)))%nat /\ Y = firstn n (stream l u z inside (K' * n)).
Proof.
  induction fuel as [|f IH]; intros l u z inside n K Y H; [discriminate|]. cbn [sobol_loop] in H.
  rewrite <- stream_app in H. replace (K * n + n)%nat with (S K * n)%nat in H by lia. destruct (Nat.leb n (length (stream l u z inside (S K * n)))) eqn:E.
  - injection H as <-. apply Nat.leb_le in E. exists (S K). split; [lia|]. auto.
  - replace (1 + K * n + n)%nat with (1 + S K * n)%nat in H by lia. destruct (IH _ _ _ _ _ _ _ H) as [K' [A B]]. exists K'. split; [lia|auto].
Qed.
(** The sampler returns the first n points of the scaled stream (from element 1 on) that are in the domain, whatever the windows. *)
Theorem sobol_correct : forall fuel l u z inside n Y, sobol fuel l u z inside n = Some Y ->
  length Y = n /\ Forall (fun x => inside x = true) Y /\ exists M0, forall M, (M0 <= M)%nat -> firstn n (filter inside (map (fun k => sobol_scale l u (z k)) (seq 1 M))) = Y.
Proof.
  intros fuel l u z inside n Y H. destruct (sobol_loop_spec fuel l u z inside n 0 Y) as [K [_ [HK ->]]]; [exact H|].
  split; [rewrite firstn_length; lia|]. split.
  - apply Forall_forall. intros x Hx. assert (I : In x (stream l u z inside (K * n))) by (rewrite <- (firstn_skipn n); apply in_or_app; auto). apply filter_In in I. tauto.
  - exists (K * n)%nat. intros M HM. change (filter inside (map (fun k => sobol_scale l u (z k)) (seq 1 M))) with (stream l u z inside M).
    replace M with (K * n + (M - K * n))%nat by lia. rewrite stream_app, firstn_app. replace (n - _)%nat with O by lia. rewrite firstn_O, app_nil_r. auto.
Qed.
(** It stops exactly when the stream contains n points of the domain. *)
Theorem sobol_terminates : forall l u z inside n M, (0 < n)%nat -> (n <= length (filter inside (map (fun k => sobol_scale l u (z k)) (seq 1 M))))%nat ->
  exists Y, sobol (S M) l u z inside n = Some Y.
Proof.
  intros l u z inside n M Hn HM. change (n <= length (stream l u z inside M))%nat in HM. unfold sobol.
  assert (MON : forall a b, (a <= b)%nat -> (length (stream l u z inside a) <= length (stream l u z inside b))%nat).
  { intros a b Hab. replace b with (a + (b - a))%nat by lia. rewrite stream_app, app_length. lia. }
  assert (G : forall f K, (M <= (K + f) * n)%nat -> exists Y, sobol_loop (S f) l u z inside n (1 + K * n) (stream l u z inside (K * n)) = Some Y).
  { induction f as [|f IH]; intros K HK.
    - cbn [sobol_loop]. rewrite <- stream_app. replace (K * n + n)%nat with (S K * n)%nat by lia. replace (Nat.leb n _) with true; [eauto|]. symmetry. apply Nat.leb_le. pose proof (MON M (S K * n)%nat ltac:(lia)). lia.
    - remember (S f) as f'. cbn [sobol_loop]. rewrite <- stream_app. replace (K * n + n)%nat with (S K * n)%nat by lia. destruct (Nat.leb n _) eqn:E; [eauto|].
      replace (1 + K * n + n)%nat with (1 + S K * n)%nat by lia. subst f'. apply IH. lia. }
  apply (G M O). nia.
Qed.
Theorem sobol_diverges : forall l u z inside n, (forall M, (length (filter inside (map (fun k => sobol_scale l u (z k)) (seq 1 M))) < n)%nat) -> forall fuel, sobol fuel l u z inside n = None.
Proof.
  intros l u z inside n H fuel. destruct (sobol fuel l u z inside n) as [Y|] eqn:E; auto. exfalso. destruct (sobol_loop_spec fuel l u z inside n 0 Y E) as [K [_ [HK _]]]. pose proof (H (K * n)%nat). unfold stream in HK. lia.
Qed.
(** scaling maps the unit cube into the box *)
Theorem sobol_in_box : forall l u z, length u = length l -> length z = length l -> (forall i, (i < length l)%nat -> vget l i <= vget u i) -> (forall i, (i < length l)%nat -> 0 <= vget z i <= 1) ->
  in_box l u (sobol_scale l u z).
Proof.
  intros l u z Lu Lz HB HZ. unfold sobol_scale. assert (LS : length (vsub u l) = length l) by (rewrite vsub_length; auto). assert (LM : length (vmul (vsub u l) z) = length l) by (rewrite vmul_length; congruence).
  split; [rewrite vadd_length; auto|]. intros i Hi. rewrite vadd_get, vmul_get, vsub_get by congruence. pose proof (HB i Hi). pose proof (HZ i Hi). nra.
Qed.

(** stream 1/2, 3/4, 1/4, 3/8 on [0,2], accepting points at least 1: two of the first two, so n = 2 stops at once *)
Definition ex_z (k : nat) : vec := [match k with 1%nat => 1/2 | 2%nat => 3/4 | 3%nat => 1/4 | 4%nat => 3/8 | 5%nat => 7/8 | _ => 0 end].
Definition ex_in (x : vec) : bool := Rleb 1 (vget x 0).
Example ex_sobol : sobol 2 [0] [2] ex_z ex_in 3 = Some [[2 * (1/2)]; [2 * (3/4)]; [2 * (7/8)]].
Proof.
  unfold sobol. assert (S : forall k, sobol_scale [0] [2] (ex_z k) = [2 * vget (ex_z k) 0]) by (intros; unfold sobol_scale, ex_z, vadd, vmul, vsub, vget; cbn [vmap2 nth]; f_equal; ring).
  assert (T : forall a, 1/2 <= a -> ex_in [2 * a] = true) by (intros; unfold ex_in, vget; cbn [nth]; apply Rleb_true; lra).
  assert (F : forall a, a < 1/2 -> ex_in [2 * a] = false) by (intros; unfold ex_in, vget; cbn [nth]; apply Rleb_false; lra).
  cbn [sobol_loop seq map Nat.add]. rewrite !S. unfold vget, ex_z. cbn [nth filter]. rewrite (T (1/2)), (T (3/4)), (T (7/8)), (F (1/4)), (F (3/8)), (F 0) by lra. reflexivity.
Qed.
Example ex_sobol_empty : forall fuel, sobol fuel [0] [1] ex_z (fun _ => false) 1 = None.
Proof. apply sobol_diverges. intros M. replace (filter _ _) with (@nil vec); [simpl; lia|]. induction (map (fun k => sobol_scale [0] [1] (ex_z k)) (seq 1 M)); simpl; auto. Qed.
