(** The corners of the nozzle wall exist: the wall polyhedron is bounded. *)
Require Import Reals List Bool Arith Lia Lra.
From Verif Require Import RVec Num Sums NormProofs DomSpec DomMoreModel ChebProofs LinLs PartialProofs LinProg NozModel NozProofs NozMore NozCases NozData NozDomain NozParts NozWhole.
Import ListNotations.
Local Open Scope R_scope.

Lemma wall_shape : forall A b, wall_system = Some (A, b) -> length A = length b /\ Forall (fun r => length r = 18%nat) A.
Proof.
  intros A b E. destruct wall_returns as (A1 & b1 & A2 & b2 & A3 & b3 & E1 & E2 & E3). unfold wall_system in E. rewrite E1, E2, E3 in E.
  rewrite wall1_eq in E1. rewrite wall2_eq in E2. rewrite wall3_eq in E3.
  assert (W : Forall well_shaped [(vmaxn wall1_v, A1, b1); (vmaxn wall2_v, A2, b2); (vmaxn wall3_v, A3, b3)]) by (repeat constructor; eapply finish_shape; eauto).
  destruct (cleanup _) as [[A' b']|] eqn:C; [|discriminate C]. injection E as <- <-. destruct (cleanup_shape _ _ _ W C) as [L H]. split; [rewrite !app_length, L; reflexivity|]. apply Forall_app. split.
  - apply Forall_forall. intros r I. destruct (H r I) as [K _]. rewrite K. reflexivity.
  - repeat constructor.
Qed.
Lemma sat_holds : forall A b z, length A = length b -> (sat A b z <-> holds (combine A b) z).
Proof.
  intros A b z L. unfold sat, holds. split.
  - intros H r c I. apply In_nth with (d := ([], 0)) in I. destruct I as (k & Hk & E). rewrite combine_length in Hk. rewrite combine_nth in E by auto. injection E as <- <-. apply H. lia.
  - intros H k Hk. apply H. unfold vget. rewrite <- combine_nth by auto. apply nth_In. rewrite combine_length. lia.
Qed.
Lemma wall_bounded : forall z, length z = 18%nat -> wall_ok z -> Forall (fun t => Rabs t <= 10) z.
Proof.
  intros z L W. do 18 (destruct z as [|? z]; [discriminate L|]). destruct z; [|discriminate L]. unfold wall_ok in W. destruct W as ((G1 & B1 & S1) & (G2 & B2 & S2) & (G3 & B3 & S3) & C1 & C2).
  unfold gaps, slopes_in in *. inst4 G1. inst3 B1. inst5 G2. inst4 B2. inst5 S2. inst4 G3. inst3 B3. clear G1 B1 S1 G2 B2 S2 G3 B3 S3. cbn in *.
  repeat first [apply Forall_nil | apply Forall_cons; [apply Rabs_le; lra|]].
Qed.
Theorem corner_exists : forall A b p, wall_system = Some (A, b) -> length p = 18%nat -> exists y, is_corner A b 18 p y.
Proof.
  intros A b p E Lp. destruct (wall_shape A b E) as [L F]. assert (IFF : forall z, length z = 18%nat -> (sat A b z <-> wall_ok z)).
  { intros z Lz. destruct (wall_iff z Lz) as (A' & b' & E' & K). rewrite E in E'. injection E' as <- <-. auto. }
  destruct (lp_attained 18 (combine A b) p (10 * rsum 18 (fun i => Rabs (vget p i)))) as (y & Ly & Hy & M).
  - intros r c I. apply in_combine_l in I. rewrite Forall_forall in F. auto.
  - auto.
  - exists wall_point. split; [reflexivity|]. apply sat_holds; auto. apply IFF; [reflexivity|]. apply wall_point_ok.
  - intros z Lz H. apply sat_holds in H; auto. apply IFF in H; auto. apply wall_bounded in H; auto. rewrite dot_rsum by congruence. rewrite Lp. rewrite <- rsum_scal_l. apply rsum_le. intros i Hi. rewrite Forall_forall in H.
    assert (K : Rabs (vget z i) <= 10) by (apply H, nth_In; rewrite Lz; auto). apply Rle_trans with (Rabs (vget p i * vget z i)); [apply RRle_abs|]. rewrite Rabs_mult. pose proof (Rabs_pos (vget p i)). rewrite Rmult_comm. apply Rmult_le_compat_r; auto.
  - exists y. split; auto. split; [apply sat_holds; auto|]. intros z Lz H. apply M; auto. apply sat_holds; auto.
Qed.
(** choice over finitely many directions *)
Lemma finite_choice : forall (P : vec -> vec -> Prop) ps, (forall p, In p ps -> exists y, P p y) -> exists f, forall p, In p ps -> P p (f p).
Proof.
  intros P ps. induction ps as [|p ps IH]; intro H; [exists (fun x => x); intros p []|]. destruct IH as (f & Hf); [intros q I; apply H; right; auto|]. destruct (H p (or_introl eq_refl)) as (y & Hy).
  exists (fun q => if list_eq_dec Req_EM_T q p then y else f q). intros q I. destruct (list_eq_dec Req_EM_T q p) as [->|N]; auto. destruct I as [->|I]; [congruence|auto].
Qed.
Theorem corners_exist : exists corner A b, wall_system = Some (A, b) /\
  (forall i, (i < 18)%nat -> is_corner A b 18 (unit_row_ 18 i) (corner (unit_row_ 18 i)) /\ is_corner A b 18 (vscale (-1) (unit_row_ 18 i)) (corner (vscale (-1) (unit_row_ 18 i)))) /\
  (forall z, length z = 18%nat -> (in_wall corner z <-> wall_ok z)) /\ in_design corner design_point.
Proof.
  destruct (wall_iff wall_point eq_refl) as (A & b & E & _). destruct (finite_choice (is_corner A b 18) (map (unit_row_ 18) (seq 0 18) ++ map (fun i => vscale (-1) (unit_row_ 18 i)) (seq 0 18))) as (f & Hf).
  { intros p I. apply corner_exists; auto. apply in_app_or in I. destruct I as [I|I]; apply in_map_iff in I; destruct I as (i & <- & _); rewrite ?vscale_length; apply unit_row_length. }
  exists f, A, b. assert (C : forall i, (i < 18)%nat -> is_corner A b 18 (unit_row_ 18 i) (f (unit_row_ 18 i)) /\ is_corner A b 18 (vscale (-1) (unit_row_ 18 i)) (f (vscale (-1) (unit_row_ 18 i)))).
  { intros i Hi. split; apply Hf, in_or_app; [left|right]; apply in_map_iff; exists i; split; auto; apply in_seq; lia. }
  split; auto. split; auto. split; [apply (wall_bounds_redundant f A b E C)|apply (design_inhabited f A b E C)].
Qed.
