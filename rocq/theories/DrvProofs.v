(** What the demos that run simulations through text files evaluate (C149). *)
Require Import Reals Lra Lia List Bool Arith ZArith String.
From Verif Require Import RVec Num DrvModel.
Import ListNotations.
Local Open Scope R_scope.
Local Open Scope list_scope.

(** * Text files *)
Lemma load_rows : forall (f : file) n, (2 <= n)%nat -> (2 <= List.length f)%nat -> Forall (fun l => List.length l = n) f -> loadtxt f = Some (A2 f).
Proof.
  intros f n Hn Hf HF. unfold loadtxt.
  assert (E : filter (fun l : vec => negb (Nat.eqb (List.length l) 0)) f = f).
  { clear Hf. induction HF as [|l f Hl HF IH]; auto. cbn [filter]. destruct (Nat.eqb_spec (List.length l) 0); [lia|]. cbn [negb]. rewrite IH. auto. }
  rewrite E. destruct f as [|v [|w f]]; [simpl in Hf; lia|simpl in Hf; lia|]. cbn [hd].
  replace (forallb _ _) with true.
  - cbn [squeeze]. pose proof (Forall_inv HF) as Hv. cbv beta in Hv. destruct v as [|a [|b v]]; [simpl in Hv; lia|simpl in Hv; lia|]. reflexivity.
  - symmetry. apply forallb_forall. intros l I. rewrite Forall_forall in HF. rewrite (HF l I), (HF v (or_introl eq_refl)). apply Nat.eqb_refl.
Qed.
Lemma load_one : forall v : vec, (2 <= List.length v)%nat -> loadtxt [v] = Some (A1 v).
Proof.
  intros v H. destruct v as [|a [|b v]]; [simpl in H; lia|simpl in H; lia|]. unfold loadtxt. cbn [filter List.length Nat.eqb negb hd forallb]. rewrite Nat.eqb_refl. reflexivity.
Qed.
Lemma load_column : forall v : vec, (2 <= List.length v)%nat -> loadtxt (map (fun x => [x]) v) = Some (A1 v).
Proof.
  intros v H. unfold loadtxt.
  assert (E : filter (fun l : vec => negb (Nat.eqb (List.length l) 0)) (map (fun x => [x]) v) = map (fun x => [x]) v) by (clear H; induction v as [|a v IH]; simpl; [auto|rewrite IH; auto]).
  rewrite E. destruct v as [|a [|b v]]; [simpl in H; lia|simpl in H; lia|]. cbn [map hd List.length]. replace (forallb _ _) with true.
  - cbn [squeeze List.length Nat.eqb map]. do 2 f_equal. unfold vget. cbn [nth]. do 2 f_equal. rewrite map_map. cbn [nth]. apply map_id.
  - symmetry. apply forallb_forall. intros l I. change ([a] :: [b] :: map (fun x => [x]) v) with (map (fun x => [x]) (a :: b :: v)) in I. apply in_map_iff in I. destruct I as [x [<- _]]. auto.
Qed.

(** * OpenAeroStruct *)
(** one point gives the values of the analysis at the printed point *)
Theorem oas_point : forall fmt g un x, (forall y, List.length (g y) = 5%nat) -> List.length (un x) = 12%nat ->
  oas_eval fmt g un (A1 x) = Some (A1 (g (map fmt (un x)))).
Proof.
  intros fmt g un x Hg Hx. unfold oas_eval, eval_vectorized, oas_func. cbn [savetxt]. rewrite <- (map_map fmt (fun y => [y])). unfold oas_main.
  rewrite load_column by (rewrite map_length; lia). cbv zeta. cbn [hd]. rewrite map_length, Hx. cbn [Nat.eqb savetxt map]. rewrite map_id. rewrite load_one by (rewrite Hg; lia). reflexivity.
Qed.
(** two or more points give the values of the analysis at each printed point *)
Theorem oas_rows : forall fmt g un X, (forall y, List.length (g y) = 5%nat) -> (2 <= List.length X)%nat -> Forall (fun x => List.length (un x) = 12%nat) X ->
  oas_eval fmt g un (A2 X) = Some (A2 (map (fun x => g (map fmt (un x))) X)).
Proof.
  intros fmt g un X Hg H2 HX. unfold oas_eval, eval_vectorized, oas_func. cbn [savetxt]. unfold oas_main.
  assert (A12 : Forall (fun l : vec => List.length l = 12%nat) (map (map fmt) (map un X))).
  { rewrite map_map. apply Forall_forall. intros l I. apply in_map_iff in I. destruct I as [x [<- Ix]]. rewrite map_length. rewrite Forall_forall in HX. auto. }
  rewrite (load_rows (map (map fmt) (map un X)) 12 ltac:(lia) ltac:(rewrite !map_length; auto) A12).
  cbv zeta. assert (L : List.length (hd [] (map (map fmt) (map un X))) = 12%nat).
  { destruct X as [|x X]; [simpl in H2; lia|]. cbn [map hd]. rewrite map_length. exact (Forall_inv HX). }
  rewrite L. cbn [Nat.eqb savetxt].
  assert (I : forall M : mat, map (map (fun y : R => y)) M = M) by (intros M; rewrite <- (map_id M) at 2; apply map_ext; intros; apply map_id). rewrite I.
  assert (A5 : Forall (fun l : vec => List.length l = 5%nat) (map g (map (map fmt) (map un X)))) by (apply Forall_forall; intros l J; apply in_map_iff in J; destruct J as [y [<- _]]; auto).
  rewrite (load_rows (map g (map (map fmt) (map un X))) 5 ltac:(lia) ltac:(rewrite !map_length; auto) A5).
  cbn [arr_len]. rewrite !map_length, Nat.eqb_refl. rewrite !map_map. auto.
Qed.
(** so for two or more points each row is what the point alone gives *)
Theorem oas_rowwise : forall fmt g un X Y x i, (forall y, List.length (g y) = 5%nat) -> (2 <= List.length X)%nat -> Forall (fun x => List.length (un x) = 12%nat) X ->
  oas_eval fmt g un (A2 X) = Some (A2 Y) -> nth_error X i = Some x -> exists y, nth_error Y i = Some y /\ oas_eval fmt g un (A1 x) = Some (A1 y).
Proof.
  intros fmt g un X Y x i Hg H2 HX E Hi. rewrite oas_rows in E by auto. injection E as <-. exists (g (map fmt (un x))). split; [apply map_nth_error with (f := fun x => g (map fmt (un x))); auto|].
  apply oas_point; auto. rewrite Forall_forall in HX. apply HX. eapply nth_error_In; eauto.
Qed.
(** a matrix with a single row raises, whatever the point: the file with one line of five values is read as a vector with five entries *)
Theorem oas_single_raises : forall fmt g un x, (forall y, List.length (g y) = 5%nat) -> List.length (un x) = 12%nat -> oas_eval fmt g un (A2 [x]) = None.
Proof.
  intros fmt g un x Hg Hx. unfold oas_eval, eval_vectorized, oas_func. cbn [savetxt map]. unfold oas_main. rewrite load_one by (rewrite map_length; lia). cbv zeta. cbn [hd]. rewrite map_length, Hx. cbn [Nat.eqb savetxt map]. rewrite map_id.
  rewrite load_one by (rewrite Hg; lia). cbn [arr_len]. rewrite Hg. reflexivity.
Qed.
Definition oas_g (x : vec) : vec := [vget x 0; vget x 1; vget x 2; vget x 10; vget x 11].
Definition oas_x : vec := [0; 0; 0; 1/100; 1/100; 1/100; 1; 1; 3; 7 * 10; 3 * 10; 3].
Theorem oas_single_refuted : exists g x y, (forall z, List.length (g z) = 5%nat) /\ List.length x = 12%nat /\
  oas_eval (fun z => z) g (fun z => z) (A1 x) = Some (A1 y) /\ oas_eval (fun z => z) g (fun z => z) (A2 [x; x]) = Some (A2 [y; y]) /\ oas_eval (fun z => z) g (fun z => z) (A2 [x]) = None.
Proof.
  exists oas_g, oas_x, [0; 0; 0; 3 * 10; 3]. split; [reflexivity|]. split; [reflexivity|]. split; [|split].
  - rewrite oas_point by reflexivity. reflexivity.
  - rewrite oas_rows; [reflexivity|reflexivity|simpl; lia|repeat constructor].
  - apply oas_single_raises; reflexivity.
Qed.

(** * Sixteen digits *)
Lemma ln10_pos : 0 < ln 10.
Proof. rewrite <- ln_1. apply ln_increasing; lra. Qed.
Lemma rpow10 : forall t, 0 < Rpower 10 t.
Proof. intros. unfold Rpower. apply exp_pos. Qed.
Lemma dec_exp_le : forall x, x <> 0 -> Rpower 10 (IZR (dec_exp x)) <= Rabs x < Rpower 10 (IZR (dec_exp x) + 1).
Proof.
  intros x Hx. pose proof (Rabs_pos_lt x Hx) as P. pose proof ln10_pos as L. unfold dec_exp. destruct (base_Int_part (ln (Rabs x) / ln 10)) as [H1 H2]. set (e := Int_part _) in *.
  assert (E : ln (Rabs x) = ln (Rabs x) / ln 10 * ln 10) by (field; lra). set (q := ln (Rabs x) / ln 10) in *.
  unfold Rpower. rewrite <- (exp_ln (Rabs x)) at 1 2 by auto. rewrite E. split.
  - assert (IZR e * ln 10 <= q * ln 10) by nra. destruct H as [H|H]; [left; apply exp_increasing; auto|right; rewrite H; auto].
  - apply exp_increasing. nra.
Qed.
(** the printed number is within half a unit of the sixteenth digit *)
Theorem dec16_error : forall x, Rabs (dec16 x - x) <= 5 / 10 ^ 16 * Rabs x.
Proof.
  intros x. unfold dec16. destruct (Reqb x 0) eqn:Q; [apply Reqb_true in Q; subst; rewrite Rminus_0_r, Rabs_R0; lra|]. apply Reqb_false in Q. cbv zeta.
  destruct (dec_exp_le x Q) as [H _]. set (e := dec_exp x) in *. set (u := Rpower 10 (IZR e - 15)). set (s := Rpower 10 (15 - IZR e)).
  assert (US : u * s = 1) by (unfold u, s; rewrite <- Rpower_plus; replace (IZR e - 15 + (15 - IZR e)) with 0 by ring; apply Rpower_O; lra).
  assert (Pu : 0 < u) by apply rpow10.
  assert (U : u = Rpower 10 (IZR e) * / 10 ^ 15).
  { unfold u. replace (IZR e - 15) with (IZR e + - INR 15) by (simpl; lra). rewrite Rpower_plus. f_equal. rewrite Rpower_Ropp. f_equal. apply Rpower_pow. lra. }
  destruct (base_Int_part (Rabs x * s + / 2)) as [B1 B2]. set (n := IZR (Int_part (Rabs x * s + / 2))) in *.
  assert (K : Rabs (n * u - Rabs x) <= u / 2).
  { replace (n * u - Rabs x) with (u * (n - Rabs x * s)) by (transitivity (n * u - (u * s) * Rabs x); [ring|rewrite US; ring]). rewrite Rabs_mult, (Rabs_right u) by lra.
    assert (Rabs (n - Rabs x * s) <= / 2) by (apply Rabs_le; lra). nra. }
  assert (F : u / 2 <= 5 / 10 ^ 16 * Rabs x) by (rewrite U; simpl; lra).
  destruct (Rltb x 0) eqn:Q2; [apply Rltb_true in Q2|apply Rltb_false in Q2].
  - rewrite (Rabs_left x) in * by auto. replace (- (n * u) - x) with (- (n * u - - x)) by ring. rewrite Rabs_Ropp. lra.
  - rewrite (Rabs_right x) in * by lra. lra.
Qed.
Lemma int_part_is : forall r z, IZR z <= r < IZR z + 1 -> Int_part r = z.
Proof. intros r z H. destruct (base_Int_part r) as [A B]. assert (IZR (Int_part r) < IZR z + 1) by lra. assert (IZR z < IZR (Int_part r) + 1) by lra. rewrite <- plus_IZR in *. apply lt_IZR in H0, H1. lia. Qed.
Lemma dec16_tenths : forall x, 1 / 10 <= x < 1 -> dec16 x = IZR (Int_part (x * 10 ^ 16 + / 2)) * / 10 ^ 16.
Proof.
  intros x Hx. unfold dec16. destruct (Reqb x 0) eqn:Q; [apply Reqb_true in Q; lra|]. cbv zeta. pose proof ln10_pos as L.
  assert (E : dec_exp x = (-1)%Z).
  { unfold dec_exp. rewrite Rabs_right by lra. apply int_part_is. assert (N1 : - ln 10 <= ln x). { rewrite <- ln_Rinv by lra. destruct (Rle_lt_or_eq_dec (/ 10) x ltac:(lra)) as [H|H]; [left; apply ln_increasing; lra|right; rewrite H; auto]. }
    assert (N2 : ln x < 0) by (rewrite <- ln_1; apply ln_increasing; lra). assert (ID : ln x / ln 10 * ln 10 = ln x) by (field; lra). set (q := ln x / ln 10) in *. split; nra. }
  rewrite E. destruct (Rltb x 0) eqn:Q2; [apply Rltb_true in Q2; lra|]. rewrite Rabs_right by lra.
  replace (15 - -1) with (INR 16) by (simpl; lra). rewrite Rpower_pow by lra. replace (-1 - 15) with (- INR 16) by (simpl; lra). rewrite Rpower_Ropp, Rpower_pow by lra. auto.
Qed.
(** different points print alike, so the simulation cannot tell them apart *)
Theorem dec16_merge_refuted : exists x y, x <> y /\ dec16 x = dec16 y /\ forall sim : vec -> vec, sim (map dec16 [x]) = sim (map dec16 [y]).
Proof.
  exists (3 / 10), (3 / 10 + 4 / 10 ^ 17). assert (E : dec16 (3 / 10) = dec16 (3 / 10 + 4 / 10 ^ 17)).
  { rewrite !dec16_tenths by (simpl; lra). do 2 f_equal. rewrite (int_part_is _ 3000000000000000%Z) by (simpl; lra). symmetry. apply int_part_is. simpl. lra. }
  split; [simpl; lra|]. split; auto. intros sim. cbn [map]. rewrite E. auto.
Qed.

(** * Working directories *)
Lemma mem_false : forall w l, ~ In w l -> existsb (Nat.eqb w) l = false.
Proof. intros w l H. destruct (existsb (Nat.eqb w) l) eqn:E; auto. apply existsb_exists in E. destruct E as [x [I E]]. apply Nat.eqb_eq in E. subst. contradiction. Qed.
Lemma mem_true : forall w l, In w l -> existsb (Nat.eqb w) l = true.
Proof. intros w l H. apply existsb_exists. exists w. split; auto. apply Nat.eqb_refl. Qed.
(** without keep_data every row is evaluated, whatever their number, and the directories are as before *)
Theorem rows_evaluated : forall ask sim wd tmps X n dirs, (forall w, wd = Some w -> ~ In w dirs) -> Forall (fun x => sim x <> None) X ->
  exists Y, run_rows ask sim wd false tmps n dirs X = (Some Y, dirs) /\ map sim X = map (@Some vec) Y.
Proof.
  intros ask sim wd tmps X. induction X as [|x X IH]; intros n dirs HW HS; [exists []; auto|]. pose proof (Forall_inv HS) as Hx. cbv beta in Hx. destruct (sim x) as [v|] eqn:E; [|congruence].
  assert (P : run_point ask sim wd false (tmps n) dirs x = (Ran v, dirs)).
  { unfold run_point. rewrite E. destruct wd as [w|]; [rewrite mem_false by (apply HW; auto)|rewrite andb_false_r]; auto. }
  destruct (IH (S n) dirs HW (Forall_inv_tail HS)) as [Y [E1 E2]]. exists (v :: Y). cbn [run_rows map]. rewrite P, E1, E, E2. auto.
Qed.
(** with a kept directory the second row raises FileExistsError, and so does every later evaluation *)
Theorem kept_second : forall ask sim w tmps n dirs x X, ~ In w dirs -> sim x <> None -> X <> [] ->
  run_rows ask sim (Some w) true tmps n dirs [x] = (match sim x with Some v => Some [v] | None => None end, w :: dirs) /\
  run_rows ask sim (Some w) true tmps n dirs (x :: X) = (None, w :: dirs).
Proof.
  intros ask sim w tmps n dirs x X HW Hx NX. destruct (sim x) as [v|] eqn:E; [|congruence]. assert (P : run_point ask sim (Some w) true (tmps n) dirs x = (Ran v, w :: dirs)) by (unfold run_point; rewrite mem_false, E; auto).
  cbn [run_rows]. rewrite P. split; auto. destruct X as [|y X]; [congruence|]. cbn [run_rows]. unfold run_point at 1. rewrite (mem_true w (w :: dirs)) by (left; auto). auto.
Qed.
(** a simulation without output leaves its directory behind: no later evaluation in that directory is possible *)
Theorem failed_sticks : forall ask sim w keep tmps n dirs x, ~ In w dirs -> sim x = None ->
  exists dirs', run_rows ask sim (Some w) keep tmps n dirs [x] = (None, dirs') /\ In w dirs' /\ forall keep' n' y Y, run_rows ask sim (Some w) keep' tmps n' dirs' (y :: Y) = (None, dirs').
Proof.
  intros ask sim w keep tmps n dirs x HW Hx. exists (w :: dirs). split; [cbn [run_rows]; unfold run_point; rewrite mem_false, Hx by auto; auto|]. split; [left; auto|].
  intros keep' n' y Y. cbn [run_rows]. unfold run_point. rewrite (mem_true w (w :: dirs)) by (left; auto). auto.
Qed.
(** keeping the data without naming a directory: an exception, and a directory that nobody removes *)
Theorem kept_unnamed : forall sim tmps n dirs x X, run_rows true sim None true tmps n dirs (x :: X) = (None, tmps n :: dirs).
Proof. intros. reflexivity. Qed.
Theorem kept_rows_refuted : exists sim w X, (forall x, sim x <> None) /\ List.length X = 2%nat /\ fst (run_rows true sim (Some w) false (fun n => n) 0 [] X) <> None /\ fst (run_rows true sim (Some w) true (fun n => n) 0 [] X) = None.
Proof.
  exists (fun x => Some x), 7%nat, [[1]; [2]]. split; [discriminate|]. split; [reflexivity|]. split; [discriminate|reflexivity].
Qed.

(** * Keyword arguments *)
Lemma kget_app : forall k a b, kget k (a ++ b) = match kget k a with Some v => Some v | None => kget k b end.
Proof. intros k a b. unfold kget. induction a as [|p a IH]; auto. cbn [find List.app]. destruct (String.eqb (fst p) k); auto. Qed.
(** arguments of the call win over those stored, however often they are merged *)
Theorem merge_twice : forall k stored call, kget k (kmerge stored (kmerge stored call)) = match kget k call with Some v => Some v | None => kget k stored end.
Proof. intros. unfold kmerge. rewrite !kget_app. destruct (kget k call); auto. destruct (kget k stored); auto. Qed.
(** the level that runs is the one of the call, or 0, whatever level the object was built with *)
Theorem multif_level_runs : forall level su2 wd kwargs call, kget "level"%string kwargs = None -> kget "su2_maxiter"%string kwargs = None ->
  multif_level (multif_init level su2 wd kwargs) call = match kget "level"%string call with Some l => l | None => 0%Z end /\
  multif_su2 (multif_init level su2 wd kwargs) call = kget "su2_maxiter"%string call.
Proof. intros level su2 wd kwargs call H1 H2. unfold multif_level, multif_su2, multif_init. rewrite !merge_twice, H1, H2. destruct (kget "level"%string call), (kget "su2_maxiter"%string call); auto. Qed.
Theorem multif_level_refuted : exists level, (0 <= level <= 13)%Z /\ multif_level (multif_init level 5000 None []) [] <> level /\ multif_su2 (multif_init level 5000 None []) [] <> Some 5000%Z.
Proof. exists 5%Z. split; [lia|]. split; [vm_compute; discriminate|discriminate]. Qed.

(** * The log *)
Lemma log_from : forall k n fuel lines ended, (forall i, (n <= i < n + k)%nat -> ended i = false) -> ended (n + k)%nat = true -> (k < fuel)%nat -> log_loop fuel n lines ended = Some (firstn (S k) (skipn n lines)).
Proof.
  assert (H0 : forall n (lines : list string), (match nth_error lines n with Some s => [s] | None => [] end) = firstn 1 (skipn n lines)).
  { induction n as [|n IH]; intros [|a l]; auto. cbn [nth_error skipn]. apply IH. }
  assert (H1 : forall n k (lines : list string), firstn (S (S k)) (skipn n lines) = firstn 1 (skipn n lines) ++ firstn (S k) (skipn (S n) lines)).
  { induction n as [|n IH]; intros k [|a l]; auto. change (skipn (S n) (a :: l)) with (skipn n l). change (skipn (S (S n)) (a :: l)) with (skipn (S n) l). apply IH. }
  induction k as [|k IH]; intros n fuel lines ended HE HT HF; (destruct fuel as [|f]; [lia|]); cbn [log_loop]; cbv zeta; rewrite H0.
  - rewrite Nat.add_0_r in HT. rewrite HT. auto.
  - rewrite (HE n) by lia. rewrite (IH (S n) f lines ended); [rewrite H1; auto| |replace (S n + k)%nat with (n + S k)%nat by lia; auto|lia]. intros i Hi. apply HE. lia.
Qed.
(** the log holds the lines read up to the first time the container was found ended: a prefix of its output, all of it if that is not before the last line was read *)
Theorem log_prefix : forall k fuel lines ended, (forall i, (i < k)%nat -> ended i = false) -> ended k = true -> (k < fuel)%nat ->
  log_loop fuel 0 lines ended = Some (firstn (S k) lines) /\ ((List.length lines <= S k)%nat -> log_loop fuel 0 lines ended = Some lines).
Proof.
  intros k fuel lines ended HE HT HF. assert (E : log_loop fuel 0 lines ended = Some (firstn (S k) lines)) by (rewrite (log_from k 0 fuel lines ended); auto; intros i Hi; apply HE; lia).
  split; auto. intros HL. rewrite E, firstn_all2 by auto. auto.
Qed.
(** a container that has ended while lines wait in the pipe: they are lost *)
Theorem log_refuted : exists lines ended, (forall n, ended n = true) /\ forall fuel, (0 < fuel)%nat -> exists l, log_loop fuel 0 lines ended = Some l /\ l <> lines.
Proof.
  exists ["start"; "Traceback"]%string, (fun _ => true). split; auto. intros fuel H. exists ["start"]%string. split; [|discriminate].
  destruct (log_prefix 0 fuel ["start"; "Traceback"]%string (fun _ => true)) as [E _]; auto. intros i Hi; lia.
Qed.
(** cases *)
Example oas_case : oas_eval (fun z => z) oas_g (fun z => z) (A2 [oas_x; oas_x; oas_x]) = Some (A2 [[0; 0; 0; 3 * 10; 3]; [0; 0; 0; 3 * 10; 3]; [0; 0; 0; 3 * 10; 3]]).
Proof. rewrite oas_rows; [reflexivity|reflexivity|simpl; lia|repeat constructor]. Qed.
Example rows_case : run_rows true (fun x => Some [vget x 0 * 2]) (Some 3%nat) false (fun n => n) 0 [1%nat] [[1]; [2]; [3]] = (Some [[1 * 2]; [2 * 2]; [3 * 2]], [1%nat]).
Proof. reflexivity. Qed.
Example level_case : multif_level (multif_init 5 5000 None [("cores"%string, 4%Z)]) [("level"%string, 2%Z)] = 2%Z /\ multif_level (multif_init 5 5000 None [("cores"%string, 4%Z)]) [] = 0%Z.
Proof. split; reflexivity. Qed.
Example log_case : log_loop 9 0 ["a"; "b"; "c"]%string (fun n => Nat.leb 3 n) = Some ["a"; "b"; "c"]%string /\ log_loop 9 0 ["a"; "b"; "c"]%string (fun n => Nat.leb 1 n) = Some ["a"; "b"]%string.
Proof. split; reflexivity. Qed.
Example dec16_case : dec16 (1 / 3) = 3333333333333333 / 10 ^ 16.
Proof. rewrite dec16_tenths by lra. rewrite (int_part_is _ 3333333333333333%Z) by (simpl; lra). reflexivity. Qed.
