(** What small steps do, stated on their own: storing in integer arrays, negative indices. *)
Require Import Reals Lra Lia List Bool Arith ZArith.
From Verif Require Import RVec Num SampModel SLloydModel.
Import ListNotations.
Local Open Scope R_scope.

(** the integer of largest modulus not beyond r, on the same side of zero *)
Theorem trunc_spec : forall r, exists k : Z, truncr r = IZR k /\ Rabs (IZR k) <= Rabs r < Rabs (IZR k) + 1 /\ 0 <= r * IZR k.
Proof.
  intro r. unfold truncr. destruct (Rltb r 0) eqn:E.
  - apply Rltb_true in E. exists (- (up (- r) - 1))%Z. rewrite opp_IZR. split; auto. destruct (archimed (- r)) as [A B]. rewrite minus_IZR in *. assert (P : 0 <= IZR (up (- r)) - 1). { rewrite <- minus_IZR. apply IZR_le. assert (0 < up (- r))%Z by (apply lt_IZR; lra). lia. }
    rewrite Rabs_Ropp, (Rabs_right (IZR _ - 1)) by lra. rewrite (Rabs_left r) by lra. split; [lra|]. replace (r * - (IZR (up (- r)) - 1)) with ((- r) * (IZR (up (- r)) - 1)) by ring. apply Rmult_le_pos; lra.
  - apply Rltb_false in E. exists (up r - 1)%Z. split; auto. destruct (archimed r) as [A B]. rewrite minus_IZR in *. assert (P : 0 <= IZR (up r) - 1). { rewrite <- minus_IZR. apply IZR_le. assert (0 < up r)%Z by (apply lt_IZR; lra). lia. }
    rewrite (Rabs_right (IZR _ - 1)) by lra. rewrite (Rabs_right r) by lra. split; [lra|]. apply Rmult_le_pos; lra.
Qed.
(** an index into an axis of length d: the entry i or i + d, whichever exists *)
Theorem wrap1_spec : forall d i k, wrap1 d i = Some k <-> (0 <= k < d)%Z /\ (k = i \/ k = i + d)%Z.
Proof.
  intros d i k. unfold wrap1. destruct (Z.leb_spec 0 i); destruct (Z.ltb_spec i d); destruct (Z.leb_spec (- d) i); destruct (Z.ltb_spec i 0); cbn [andb]; split; intro H'; try discriminate; try (injection H' as <-; lia); try lia; f_equal; lia.
Qed.
Theorem wrap_spec : forall dims idx r, wrap dims idx = Some r <-> length idx = length dims /\ length r = length dims /\
  forall j d i k, nth_error dims j = Some d -> nth_error idx j = Some i -> nth_error r j = Some k -> (0 <= k < d)%Z /\ (k = i \/ k = i + d)%Z.
Proof.
  induction dims as [|d dims IH]; intros [|i idx] r; cbn [wrap].
  - split; [intro H; injection H as <-; split; auto; split; auto; intros [|j] ? ? ? E; discriminate|intros (_ & H & _); destruct r; [auto|discriminate]].
  - split; [discriminate|intros [H _]; discriminate].
  - split; [discriminate|intros [H _]; discriminate].
  - split.
    + destruct (wrap1 d i) as [k|] eqn:E1; [|discriminate]. destruct (wrap dims idx) as [r'|] eqn:E2; [|discriminate]. intro H. injection H as <-. apply wrap1_spec in E1. destruct (proj1 (IH idx r') E2) as (L1 & L2 & Q). simpl. split; [auto|]. split; [auto|].
      intros [|j] d0 i0 k0 D I K; [injection D as <-; injection I as <-; injection K as <-; auto|]. apply (Q j d0 i0 k0 D I K).
    + intros (L1 & L2 & Q). destruct r as [|k r]; [discriminate|]. pose proof (Q O d i k eq_refl eq_refl eq_refl) as Q0. apply wrap1_spec in Q0. rewrite Q0. assert (wrap dims idx = Some r) as ->; auto. apply IH. simpl in L1, L2. split; [lia|]. split; [lia|]. intros j. apply (Q (S j)).
Qed.
Example wrap_case : wrap [3; 5]%Z [-1; 2]%Z = Some [2; 2]%Z.
Proof. reflexivity. Qed.
Example trunc_case : exists k : Z, truncr (-5/2) = IZR k /\ k = (-2)%Z.
Proof.
  destruct (trunc_spec (-5/2)) as (k & E & B & S). exists k. split; auto. rewrite (Rabs_left (-5/2)) in B by lra. assert (IZR k <= 0) by nra. rewrite Rabs_left1 in B by auto. assert (-3 < k)%Z by (apply lt_IZR; lra). assert (k < -1)%Z by (apply lt_IZR; lra). lia.
Qed.
