(** Data given to the Lipschitz fits. *)
Require Import Reals Lra Lia List Bool Arith.
From Verif Require Import RVec LipDataModel.
Import ListNotations.
Local Open Scope R_scope.

Definition rect2 (a : darr) : Prop := match a with D2 k rows => Forall (fun r => length r = k) rows | D1 _ => True end.
Lemma dbind_ok : forall (A B : Type) (r : dres A) (f : A -> dres B) b, dbind r f = DOk b <-> exists a, r = DOk a /\ f a = DOk b.
Proof. intros A B [a|e] f b; simpl; split; [intro H; exists a; auto|intros [a' [E H]]; injection E as <-; auto|discriminate|intros [a' [E _]]; discriminate]. Qed.
Lemma pieces_spec : forall m n v, length v = (n * m)%nat -> concat (pieces n m v) = v /\ Forall (fun r => length r = m) (pieces n m v) /\ length (pieces n m v) = n.
Proof.
  intros m n. induction n as [|n IH]; intros v H; [destruct v; [simpl; auto|discriminate]|]. simpl in H. destruct (IH (skipn m v)) as (A & B & C); [rewrite skipn_length; lia|]. cbn [pieces concat length]. rewrite A, C, firstn_skipn. split; auto. split; auto. constructor; auto. rewrite firstn_length. lia.
Qed.
Lemma concat_length_rect : forall k (rows : mat), Forall (fun r => length r = k) rows -> length (concat rows) = (length rows * k)%nat.
Proof. intros k rows H. induction H as [|r rows E _ IH]; [auto|]. cbn [concat length]. rewrite app_length, E, IH. lia. Qed.
Lemma rows_unique : forall m (A B : mat), (0 < m)%nat -> Forall (fun r => length r = m) A -> Forall (fun r => length r = m) B -> concat A = concat B -> A = B.
Proof.
  intros m A. induction A as [|a A IH]; intros [|b B] Hm FA FB E; auto.
  - inversion FB. subst. destruct b; [simpl in Hm; lia|discriminate].
  - inversion FA. subst. destruct a; [simpl in Hm; lia|discriminate].
  - inversion FA as [|? ? La FA']. inversion FB as [|? ? Lb FB']. subst. cbn [concat] in E. assert (E1 : a = b). { pose proof (f_equal (firstn (length a)) E) as Q. rewrite !firstn_app in Q. rewrite Lb in Q. rewrite Nat.sub_diag, !firstn_O, !app_nil_r in Q. rewrite firstn_all in Q. rewrite <- Lb in Q at 1. rewrite firstn_all in Q. auto. } subst b. f_equal. apply IH; auto. apply app_inv_head in E. auto.
Qed.
(** reshape(-1, m) succeeds when the number of entries is a multiple of m; it gives the only rows of length m with these entries in order *)
Lemma reshape_spec : forall m a G, (0 < m)%nat -> reshape_rows m a = DOk G <-> concat G = entries a /\ Forall (fun r => length r = m) G.
Proof.
  intros m a G Hm. unfold reshape_rows. destruct m as [|m']; [lia|]. set (m := S m') in *. set (t := length (entries a)). destruct (Nat.eqb_spec (t mod m) 0) as [E|N].
  - assert (T : t = (t / m * m)%nat) by (pose proof (Nat.div_mod t m ltac:(lia)); lia). destruct (pieces_spec m (t / m) (entries a) T) as (A & B & _). split.
    + intro H. injection H as <-. auto.
    + intros [C F]. f_equal. apply (rows_unique m); auto. congruence.
  - split; [discriminate|]. intros [C F]. exfalso. apply N. unfold t. rewrite <- C, (concat_length_rect m) by auto. apply Nat.mod_mul. lia.
Qed.
Lemma reshape_same : forall m rows, (0 < m)%nat -> Forall (fun r => length r = m) rows -> reshape_rows m (D2 m rows) = DOk rows.
Proof. intros. apply reshape_spec; auto. Qed.

(** well-shaped data are taken as they are *)
Theorem data_kept : forall m xs v gs, (0 < m)%nat -> xs <> [] -> Forall (fun r => length r = m) xs -> length v = length xs -> (forall g, gs = Some g -> Forall (fun r => length r = m) g) ->
  lip_data (Some (D2 m xs)) (Some (FA (D1 v))) (option_map (D2 m) gs) = DOk (mkData m xs v (match gs with Some g => g | None => [] end)).
Proof.
  intros m xs v gs Hm NE FX LV FG. unfold lip_data, lip_dim. destruct xs as [|x xs]; [congruence|]. cbn [dlen length Nat.ltb Nat.leb dcols dbind]. rewrite LV. cbn [length]. rewrite Nat.eqb_refl. cbn [atleast2 fst snd]. unfold reshape1. cbn [entries]. rewrite LV, Nat.eqb_refl. cbn [dbind fst snd].
  destruct gs as [g|]; cbn [option_map]; [rewrite reshape_same by auto; auto|auto].
Qed.
Theorem data_grads_only : forall m gs, (0 < m)%nat -> gs <> [] -> Forall (fun r => length r = m) gs -> lip_data None None (Some (D2 m gs)) = DOk (mkData m [] [] gs).
Proof. intros m gs Hm NE FG. unfold lip_data, lip_dim. destruct gs as [|g gs]; [congruence|]. cbn [dcols dbind fst snd]. rewrite reshape_same; auto. Qed.
(** a column of values counts as a vector *)
Theorem data_column : forall X v gs, lip_data X (Some (FA (D2 1 (map (fun a => [a]) v)))) gs = lip_data X (Some (FA (D1 v))) gs.
Proof.
  intros X v gs. unfold lip_data. destruct (lip_dim X gs); auto. cbn [dbind]. destruct X as [X|]; auto. cbn [dlen]. rewrite map_length. unfold reshape1. cbn [entries]. assert (E : concat (map (fun a : R => [a]) v) = v) by (induction v; simpl; congruence). rewrite E. auto.
Qed.
(** what is accepted has one value per sample, and samples and gradients of the same length *)
Theorem data_shapes : forall X fX gs d, (forall a, X = Some a -> rect2 a) -> lip_data X fX gs = DOk d ->
  length (l_fX d) = length (l_X d) /\ Forall (fun r => length r = l_dim d) (l_X d) /\ Forall (fun r => length r = l_dim d) (l_grads d) /\
  (forall a, gs = Some a -> concat (l_grads d) = entries a) /\ (gs = None -> l_grads d = []) /\ (X = None <-> fX = None) /\ (forall f, fX = Some (FA f) -> l_fX d = entries f).
Proof.
  intros X fX gs d RX H. unfold lip_data in H. apply dbind_ok in H. destruct H as (m0 & E0 & H). apply dbind_ok in H. destruct H as ([[m xs] v] & E1 & H). apply dbind_ok in H. destruct H as (G & E2 & H). injection H as <-. cbn [fst snd l_dim l_X l_fX l_grads] in *.
  assert (Q : length v = length xs /\ Forall (fun r => length r = m) xs /\ (X = None <-> fX = None) /\ forall f, fX = Some (FA f) -> v = entries f).
  { destruct X as [X|]; destruct fX as [[r|f]|]; try discriminate.
    - destruct (Nat.eqb (dlen f) (dlen X)); [|discriminate]. cbv zeta in E1. apply dbind_ok in E1. destruct E1 as (v' & E3 & E4). injection E4 as <- <- <-. unfold reshape1 in E3. destruct (Nat.eqb_spec (length (entries f)) (length (snd (atleast2 X)))) as [L|]; [|discriminate]. injection E3 as <-.
      split; auto. split; [destruct X as [w|k rows]; [repeat constructor|apply (RX _ eq_refl)]|]. split; [split; discriminate|]. intros f' E. injection E as <-. auto.
    - injection E1 as <- <- <-. repeat split; auto. discriminate. }
  destruct Q as (Q1 & Q2 & Q3 & Q4). split; auto. split; auto.
  destruct gs as [g|].
  - assert (Hm : (0 < m)%nat) by (destruct m; [discriminate|lia]). apply reshape_spec in E2; auto. destruct E2 as [C F]. split; auto. split; [intros a E; injection E as <-; auto|]. split; [discriminate|]. auto.
  - injection E2 as <-. split; [constructor|]. split; [discriminate|]. auto.
Qed.
(** any gradients whose number of entries is a multiple of the dimension are accepted; so are gradients stored by columns *)
Theorem data_grads_accepted : forall m xs v g, (0 < m)%nat -> xs <> [] -> Forall (fun r => length r = m) xs -> length v = length xs ->
  (exists d, lip_data (Some (D2 m xs)) (Some (FA (D1 v))) (Some g) = DOk d) <-> (length (entries g) mod m)%nat = O.
Proof.
  intros m xs v g Hm NE FX LV. unfold lip_data, lip_dim. destruct xs as [|x xs]; [congruence|]. cbn [dlen length Nat.ltb Nat.leb dcols dbind]. rewrite LV. cbn [length]. rewrite Nat.eqb_refl. cbn [atleast2 fst snd]. unfold reshape1. cbn [entries]. rewrite LV, Nat.eqb_refl. cbn [dbind fst snd].
  unfold reshape_rows. destruct m as [|m]; [lia|]. cbv zeta. destruct (Nat.eqb_spec (length (entries g) mod S m) 0) as [E|N]; cbn [dbind]; split; auto; [intros _; eexists; reflexivity|intros [d H]; discriminate|intro; congruence].
Qed.
Theorem mismatch_refuted : exists xs v gs d, Forall (fun r : vec => length r = 3%nat) xs /\ Forall (fun r : vec => length r = 2%nat) gs /\ lip_data (Some (D2 3 xs)) (Some (FA (D1 v))) (Some (D2 2 gs)) = DOk d /\ l_grads d = [[1; 2; 3]; [4; 5; 6]] /\ gs = [[1; 2]; [3; 4]; [5; 6]].
Proof. exists [[0; 0; 0]], [1], [[1; 2]; [3; 4]; [5; 6]]. eexists. split; [repeat constructor|]. split; [repeat constructor|]. split; [reflexivity|]. auto. Qed.
(** gradients stored by columns (one row per coordinate) are accepted whatever their number, and are cut at the wrong places *)
Theorem transposed_accepted : forall m M xs v gs, (0 < m)%nat -> xs <> [] -> Forall (fun r => length r = m) xs -> length v = length xs -> length gs = m -> Forall (fun r => length r = M) gs ->
  exists d, lip_data (Some (D2 m xs)) (Some (FA (D1 v))) (Some (D2 M gs)) = DOk d /\ length (l_grads d) = M.
Proof.
  intros m M xs v gs Hm NE FX LV LG FG. assert (LE : length (entries (D2 M gs)) = (M * m)%nat) by (cbn [entries]; rewrite (concat_length_rect M) by auto; rewrite LG; lia).
  destruct (proj2 (data_grads_accepted m xs v (D2 M gs) Hm NE FX LV)) as [d H]; [rewrite LE; apply Nat.mod_mul; lia|]. exists d. split; auto.
  assert (RX : forall a, Some (D2 m xs) = Some a -> rect2 a) by (intros a E; injection E as <-; auto). destruct (data_shapes _ _ _ _ RX H) as (_ & _ & F & C & _). specialize (C _ eq_refl). assert (LD : l_dim d = m). { clear - H NE. unfold lip_data in H. apply dbind_ok in H. destruct H as (? & _ & H). apply dbind_ok in H. destruct H as (p & E & H). apply dbind_ok in H. destruct H as (G & _ & H). injection H as <-. cbn [l_dim]. cbv iota in E. destruct (Nat.eqb _ _); [|discriminate]. cbv zeta in E. apply dbind_ok in E. destruct E as (? & _ & E). injection E as <-. auto. }
  rewrite LD in F. pose proof (concat_length_rect m _ F) as Q. rewrite C, LE in Q. apply Nat.mul_cancel_r in Q; lia.
Qed.
(** no samples: absent and an array without rows are fine, empty lists raise ValueError *)
Theorem empty_data : forall m gs, (0 < m)%nat -> gs <> [] -> Forall (fun r => length r = m) gs ->
  lip_data (Some (D2 m [])) (Some (FA (D1 []))) (Some (D2 m gs)) = lip_data None None (Some (D2 m gs)) /\ lip_data (Some (D1 [])) (Some (FA (D1 []))) (Some (D2 m gs)) = DErr XValue.
Proof.
  intros m gs Hm NE FG. rewrite data_grads_only by auto. unfold lip_data, lip_dim. destruct gs as [|g gs]; [congruence|]. cbn [dlen length Nat.ltb Nat.leb dcols dbind Nat.eqb atleast2 fst snd reshape1 entries]. split; [|reflexivity]. unfold reshape1. cbn [entries length Nat.eqb dbind fst snd]. rewrite reshape_same; auto.
Qed.
(** samples of a function of one variable must not be a flat list, and one of X, fX does not come alone *)
Theorem flat_samples : forall a v fX gs, lip_data (Some (D1 (a :: v))) fX gs = DErr XType.
Proof. reflexivity. Qed.
Theorem half_data : forall X f gs d, lip_data (Some X) None gs <> DOk d /\ lip_data None (Some f) gs <> DOk d.
Proof. intros X f gs d. unfold lip_data. split; [destruct (lip_dim (Some X) gs); discriminate|destruct (lip_dim None gs); discriminate]. Qed.
Example data_case : lip_data (Some (D2 2 [[0; 1]; [2; 3]])) (Some (FA (D2 1 [[5]; [6]]))) (Some (D2 2 [[1; 1]])) = DOk (mkData 2 [[0; 1]; [2; 3]] [5; 6] [[1; 1]]).
Proof. reflexivity. Qed.
Example transposed_case : exists d, lip_data (Some (D2 2 [[0; 1]; [2; 3]])) (Some (FA (D1 [5; 6]))) (Some (D2 3 [[1; 2; 3]; [4; 5; 6]])) = DOk d /\ l_grads d = [[1; 2]; [3; 4]; [5; 6]].
Proof. eexists. split; reflexivity. Qed.
