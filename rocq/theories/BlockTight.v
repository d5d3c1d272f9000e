(** Block coordinate descent: which rows a sweep sees and when the sweeps stop. *)
Require Import Reals Lra Lia List Bool Arith.
From Verif Require Import RVec Num Sums DomModel DomMoreModel HullIneqProofs LipModel SampModel PigeonLib GeoModel SampMoreModel BlockProofs.
Import ListNotations.
Local Open Scope R_scope.

(** one sweep takes X to Y: row i is replaced with the rows before it already new *)
Definition sweep_of (vv : mat -> vec -> vec) (X Y : mat) : Prop :=
  length Y = length X /\ forall i, (i < length X)%nat -> nth i Y [] = vv (firstn i Y ++ skipn (S i) X) (nth i X []).
(** no row of X and Y differs by xtol in a coordinate of the metric *)
Definition calm (L : mat) (xtol : R) (X Y : mat) : Prop :=
  forall i r, (i < length X)%nat -> In r L -> Rabs (dot r (vsub (nth i X []) (nth i Y []))) < xtol.

Lemma move_lt : forall L a b t, L <> [] -> (move_inf L a b < t <-> forall r, In r L -> Rabs (dot r (vsub a b)) < t).
Proof.
  intros L a b t NE. unfold move_inf, mv. rewrite map_map. split.
  - intros H r I. eapply Rle_lt_trans; [|exact H]. apply (vmax_map_ge _ (fun r => Rabs (dot r (vsub a b)))). auto.
  - intro H. destruct (vmax_map_at _ (fun r => Rabs (dot r (vsub a b))) L NE) as (r & I & ->). auto.
Qed.
Lemma skipn_nth : forall (A : Type) (d : A) i l, (i < length l)%nat -> skipn i l = nth i l d :: skipn (S i) l.
Proof. induction i as [|i IH]; intros [|a l] H; try (simpl in H; lia); [reflexivity|]. cbn [skipn nth]. rewrite IH by (simpl in H; lia). reflexivity. Qed.
Lemma skipn_app_len : forall (A : Type) (p q : list A) n, length p = n -> skipn n (p ++ q) = q.
Proof. intros A p q n <-. rewrite skipn_app, skipn_all, Nat.sub_diag. reflexivity. Qed.
Lemma firstn_app_len : forall (A : Type) (p q : list A) n, length p = n -> firstn n (p ++ q) = p.
Proof. intros A p q n <-. rewrite firstn_app, firstn_all, Nat.sub_diag. cbn [firstn]. apply app_nil_r. Qed.
Lemma sweep_prefix : forall L vv X t i, L <> [] -> 0 < t -> (i <= length X)%nat ->
  let s := fold_left (mb_row L vv) (seq 0 i) (X, 0) in
  exists P, fst s = P ++ skipn i X /\ length P = i /\ (forall k, (k < i)%nat -> nth k P [] = vv (firstn k P ++ skipn (S k) X) (nth k X [])) /\
    (snd s < t <-> forall k r, (k < i)%nat -> In r L -> Rabs (dot r (vsub (nth k X []) (nth k P []))) < t).
Proof.
  intros L vv X t i NE Ht. induction i as [|i IH]; intros Hi s.
  - exists []. split; [reflexivity|]. split; [reflexivity|]. split; [intros; lia|]. cbn. split; [intros; lia|auto].
  - destruct IH as (P & E1 & E2 & E3 & E4); [lia|]. unfold s. clear s. rewrite seq_S, fold_left_app. cbn [plus fold_left]. set (s := fold_left (mb_row L vv) (seq 0 i) (X, 0)) in *.
    assert (EX : skipn i X = nth i X [] :: skipn (S i) X) by (apply skipn_nth; lia). rewrite EX in E1.
    assert (EN : nth i (fst s) [] = nth i X []) by (rewrite E1, app_nth2, E2, Nat.sub_diag by lia; reflexivity).
    assert (EW : without i (fst s) = P ++ skipn (S i) X). { unfold without. rewrite E1, firstn_app_len by auto. f_equal. change (P ++ nth i X [] :: skipn (S i) X) with (P ++ [nth i X []] ++ skipn (S i) X). rewrite app_assoc. apply skipn_app_len. rewrite app_length. cbn [length]. lia. }
    assert (ES : forall x, set_row i x (fst s) = (P ++ [x]) ++ skipn (S i) X). { intro x. unfold set_row. rewrite E1 at 1. rewrite firstn_app_len by auto. rewrite <- app_assoc. cbn [app]. f_equal. f_equal. rewrite E1. change (P ++ nth i X [] :: skipn (S i) X) with (P ++ [nth i X []] ++ skipn (S i) X). rewrite app_assoc. apply skipn_app_len. rewrite app_length. cbn [length]. lia. }
    unfold mb_row. cbn [fst snd]. rewrite EN, EW, ES. set (x := vv (P ++ skipn (S i) X) (nth i X [])). exists (P ++ [x]).
    assert (NK : forall k, (k < i)%nat -> nth k (P ++ [x]) [] = nth k P []) by (intros; apply app_nth1; lia). assert (NI : nth i (P ++ [x]) [] = x) by (rewrite app_nth2, E2, Nat.sub_diag by lia; reflexivity).
    split; [reflexivity|]. split; [rewrite app_length; cbn [length]; lia|]. split.
    + intros k Hk. destruct (Nat.eq_dec k i) as [->|NEQ].
      * rewrite NI, firstn_app_len by auto. reflexivity.
      * rewrite NK by lia. rewrite E3 by lia. f_equal. f_equal. rewrite firstn_app. replace (k - length P)%nat with O by lia. cbn [firstn]. rewrite app_nil_r. reflexivity.
    + pose proof (move_lt L (nth i X []) x t NE) as ML. split.
      * intros H k r Hk I. destruct (Nat.eq_dec k i) as [->|NEQ].
        -- rewrite NI. apply ML; auto. eapply Rle_lt_trans; [apply Rmax_r|exact H].
        -- rewrite NK by lia. apply E4; auto; [|lia]. eapply Rle_lt_trans; [apply Rmax_l|exact H].
      * intro H. apply Rmax_lub_lt.
        -- apply E4. intros k r Hk I. rewrite <- NK by auto. apply H; auto.
        -- apply ML. intros r I. rewrite <- NI. apply H; auto.
Qed.
Lemma sweep_spec : forall L vv X t, L <> [] -> 0 < t -> sweep_of vv X (fst (mb_sweep L vv (length X) X)) /\ (snd (mb_sweep L vv (length X) X) < t <-> calm L t X (fst (mb_sweep L vv (length X) X))).
Proof.
  intros L vv X t NE Ht. destruct (sweep_prefix L vv X t (length X) NE Ht (le_n _)) as (P & E1 & E2 & E3 & E4). unfold mb_sweep. rewrite E1, skipn_all, app_nil_r. split; [split; auto|]. rewrite E4. unfold calm. split; intros H i r; apply H.
Qed.
(** the designs after the sweeps; it stops after the first sweep that moves every point by less than xtol, or after maxiter sweeps *)
Theorem block_stops : forall maxiter L c1 c2 vv xtol X0, (2 <= length L)%nat -> 0 < xtol ->
  exists k (S : nat -> mat), (k <= maxiter)%nat /\ S O = X0 /\ (forall j, (j < k)%nat -> sweep_of vv (S j) (S (j + 1)%nat)) /\
    (forall j, (j + 1 < k)%nat -> ~ calm L xtol (S j) (S (j + 1)%nat)) /\ (k = maxiter \/ exists j, k = (j + 1)%nat /\ calm L xtol (S j) (S k)) /\
    maximin_block maxiter L c1 c2 vv (length X0) xtol X0 = S k.
Proof.
  intros maxiter L c1 c2 vv xtol X0 HL Ht. assert (NE : L <> []) by (intro E; subst; simpl in HL; lia). unfold maximin_block. replace (Nat.eqb (length L) 1) with false by (symmetry; apply Nat.eqb_neq; lia). revert X0. induction maxiter as [|n IH]; intro X.
  - exists O, (fun _ => X). cbn [mb_loop]. repeat split; try lia; auto; try (intros; lia).
  - cbn [mb_loop]. destruct (sweep_spec L vv X xtol NE Ht) as [SW CM]. set (Y := fst (mb_sweep L vv (length X) X)) in *. destruct (Rltb (snd (mb_sweep L vv (length X) X)) xtol) eqn:E.
    + apply Rltb_true in E. exists 1%nat, (fun j => match j with O => X | _ => Y end). split; [lia|]. split; [auto|]. split; [intros j Hj; replace j with O by lia; exact SW|]. split; [intros; lia|]. split; [right; exists O; split; [auto|apply CM; auto]|auto].
    + assert (NC : ~ calm L xtol X Y) by (intro C; apply CM in C; apply Rltb_true in C; congruence). destruct (IH Y) as (k & S & H1 & H2 & H3 & H4 & H5 & H6).
      exists (Datatypes.S k), (fun j => match j with O => X | Datatypes.S j' => S j' end). split; [lia|]. split; [auto|]. split; [|split; [|split]].
      * intros [|j] Hj; cbn [plus]; [rewrite H2; exact SW|apply H3; lia].
      * intros [|j] Hj; cbn [plus]; [rewrite H2; exact NC|apply H4; lia].
      * destruct H5 as [->|(j & -> & HC)]; [left; auto|right]. exists (Datatypes.S j). split; [lia|exact HC].
      * destruct SW as [SL _]. rewrite <- SL. exact H6.
Qed.
(** two points in the square that swap to the far corners and then stay *)
Definition far (Xt : mat) (x : vec) : vec := match Xt with [a :: _] => if Rltb a (1/2) then [1; 1] else [0; 0] | _ => x end.
Example block_stops_case : let L := [[1; 0]; [0; 1]] in sweep_of far [[0; 1/4]; [1/4; 0]] [[1; 1]; [0; 0]] /\ ~ calm L (1/10) [[0; 1/4]; [1/4; 0]] [[1; 1]; [0; 0]] /\
  sweep_of far [[1; 1]; [0; 0]] [[1; 1]; [0; 0]] /\ calm L (1/10) [[1; 1]; [0; 0]] [[1; 1]; [0; 0]].
Proof.
  assert (T : forall a b : R, a < b -> Rltb a b = true) by (intros; apply Rltb_true; auto). assert (F : forall a b : R, b <= a -> Rltb a b = false) by (intros a b H; destruct (Rltb a b) eqn:E; auto; apply Rltb_true in E; lra).
  cbv zeta. split; [|split; [|split]].
  - split; [reflexivity|]. intros [|[|i]] H; cbn [length] in H; [| |lia]; cbn; [rewrite T by lra|rewrite F by lra]; reflexivity.
  - intro C. pose proof (C O [1; 0] ltac:(cbn; lia) (or_introl eq_refl)) as Q. cbn [nth] in Q. unfold vsub in Q. cbn in Q. rewrite !dot_cons, dot_nil_l in Q. apply Rabs_def2 in Q. lra.
  - split; [reflexivity|]. intros [|[|i]] H; cbn [length] in H; [| |lia]; cbn; [rewrite T by lra|rewrite F by lra]; reflexivity.
  - intros [|[|i]] r H I; cbn [length] in H; [| |lia]; cbn [nth]; unfold vsub; cbn; destruct I as [<-|[<-|[]]]; rewrite !dot_cons, dot_nil_l; apply Rabs_def1; lra.
Qed.
