(** Generated by tools/mkprops.py from tools/props/DrvProps.spec: the property theorems. *)
Require Import String.
Require Import Reals List Bool Arith ZArith.
From Verif Require Import RVec Num DrvModel DrvProofs.
Import ListNotations.
Local Open Scope R_scope.

Local Open Scope R_scope.

(** C149 demos that run simulations through text files *)
Theorem C149_oas_point : forall fmt g un x, (forall y, List.length (g y) = 5%nat) -> List.length (un x) = 12%nat ->
  oas_eval fmt g un (A1 x) = Some (A1 (g (map fmt (un x)))).
Proof. exact oas_point. Qed.
Print Assumptions C149_oas_point.

Theorem C149_oas_rows : forall fmt g un X, (forall y, List.length (g y) = 5%nat) -> (2 <= List.length X)%nat -> Forall (fun x => List.length (un x) = 12%nat) X ->
  oas_eval fmt g un (A2 X) = Some (A2 (map (fun x => g (map fmt (un x))) X)).
Proof. exact oas_rows. Qed.
Print Assumptions C149_oas_rows.

Theorem C149_oas_rowwise : forall fmt g un X Y x i, (forall y, List.length (g y) = 5%nat) -> (2 <= List.length X)%nat -> Forall (fun x => List.length (un x) = 12%nat) X ->
  oas_eval fmt g un (A2 X) = Some (A2 Y) -> nth_error X i = Some x -> exists y, nth_error Y i = Some y /\ oas_eval fmt g un (A1 x) = Some (A1 y).
Proof. exact oas_rowwise. Qed.
Print Assumptions C149_oas_rowwise.

Example C149_oas_case : oas_eval (fun z => z) oas_g (fun z => z) (A2 [oas_x; oas_x; oas_x]) = Some (A2 [[0; 0; 0; 3 * 10; 3]; [0; 0; 0; 3 * 10; 3]; [0; 0; 0; 3 * 10; 3]]).
Proof. exact oas_case. Qed.

Theorem C149_oas_single_raises : forall fmt g un x, (forall y, List.length (g y) = 5%nat) -> List.length (un x) = 12%nat -> oas_eval fmt g un (A2 [x]) = None.
Proof. exact oas_single_raises. Qed.
Print Assumptions C149_oas_single_raises.

Theorem C149_oas_single_refuted : exists g x y, (forall z, List.length (g z) = 5%nat) /\ List.length x = 12%nat /\
  oas_eval (fun z => z) g (fun z => z) (A1 x) = Some (A1 y) /\ oas_eval (fun z => z) g (fun z => z) (A2 [x; x]) = Some (A2 [y; y]) /\ oas_eval (fun z => z) g (fun z => z) (A2 [x]) = None.
Proof. exact oas_single_refuted. Qed.
Print Assumptions C149_oas_single_refuted.

Theorem C149_printing_error : forall x, Rabs (dec16 x - x) <= 5 / 10 ^ 16 * Rabs x.
Proof. exact dec16_error. Qed.
Print Assumptions C149_printing_error.

Example C149_printing_case : dec16 (1 / 3) = 3333333333333333 / 10 ^ 16.
Proof. exact dec16_case. Qed.

Theorem C149_printing_refuted : exists x y, x <> y /\ dec16 x = dec16 y /\ forall sim : vec -> vec, sim (map dec16 [x]) = sim (map dec16 [y]).
Proof. exact dec16_merge_refuted. Qed.
Print Assumptions C149_printing_refuted.

Theorem C149_rows_evaluated : forall ask sim wd tmps X n dirs, (forall w, wd = Some w -> ~ In w dirs) -> Forall (fun x => sim x <> None) X ->
  exists Y, run_rows ask sim wd false tmps n dirs X = (Some Y, dirs) /\ map sim X = map (@Some vec) Y.
Proof. exact rows_evaluated. Qed.
Print Assumptions C149_rows_evaluated.

Example C149_rows_case : run_rows true (fun x => Some [vget x 0 * 2]) (Some 3%nat) false (fun n => n) 0 [1%nat] [[1]; [2]; [3]] = (Some [[1 * 2]; [2 * 2]; [3 * 2]], [1%nat]).
Proof. exact rows_case. Qed.

Theorem C149_kept_second : forall ask sim w tmps n dirs x X, ~ In w dirs -> sim x <> None -> X <> [] ->
  run_rows ask sim (Some w) true tmps n dirs [x] = (match sim x with Some v => Some [v] | None => None end, w :: dirs) /\
  run_rows ask sim (Some w) true tmps n dirs (x :: X) = (None, w :: dirs).
Proof. exact kept_second. Qed.
Print Assumptions C149_kept_second.

Theorem C149_failed_sticks : forall ask sim w keep tmps n dirs x, ~ In w dirs -> sim x = None ->
  exists dirs', run_rows ask sim (Some w) keep tmps n dirs [x] = (None, dirs') /\ In w dirs' /\ forall keep' n' y Y, run_rows ask sim (Some w) keep' tmps n' dirs' (y :: Y) = (None, dirs').
Proof. exact failed_sticks. Qed.
Print Assumptions C149_failed_sticks.

Theorem C149_kept_unnamed : forall sim tmps n dirs x X, run_rows true sim None true tmps n dirs (x :: X) = (None, tmps n :: dirs).
Proof. exact kept_unnamed. Qed.
Print Assumptions C149_kept_unnamed.

Theorem C149_kept_rows_refuted : exists sim w X, (forall x, sim x <> None) /\ List.length X = 2%nat /\ fst (run_rows true sim (Some w) false (fun n => n) 0 [] X) <> None /\ fst (run_rows true sim (Some w) true (fun n => n) 0 [] X) = None.
Proof. exact kept_rows_refuted. Qed.
Print Assumptions C149_kept_rows_refuted.

Theorem C149_keywords : forall k stored call, kget k (kmerge stored (kmerge stored call)) = match kget k call with Some v => Some v | None => kget k stored end.
Proof. exact merge_twice. Qed.
Print Assumptions C149_keywords.

Theorem C149_level : forall level su2 wd kwargs call, kget "level"%string kwargs = None -> kget "su2_maxiter"%string kwargs = None ->
  multif_level (multif_init level su2 wd kwargs) call = match kget "level"%string call with Some l => l | None => 0%Z end /\
  multif_su2 (multif_init level su2 wd kwargs) call = kget "su2_maxiter"%string call.
Proof. exact multif_level_runs. Qed.
Print Assumptions C149_level.

Example C149_level_case : multif_level (multif_init 5 5000 None [("cores"%string, 4%Z)]) [("level"%string, 2%Z)] = 2%Z /\ multif_level (multif_init 5 5000 None [("cores"%string, 4%Z)]) [] = 0%Z.
Proof. exact level_case. Qed.

Theorem C149_level_refuted : exists level, (0 <= level <= 13)%Z /\ multif_level (multif_init level 5000 None []) [] <> level /\ multif_su2 (multif_init level 5000 None []) [] <> Some 5000%Z.
Proof. exact multif_level_refuted. Qed.
Print Assumptions C149_level_refuted.

Theorem C149_log : forall k fuel lines ended, (forall i, (i < k)%nat -> ended i = false) -> ended k = true -> (k < fuel)%nat ->
  log_loop fuel 0 lines ended = Some (firstn (S k) lines) /\ ((List.length lines <= S k)%nat -> log_loop fuel 0 lines ended = Some lines).
Proof. exact log_prefix. Qed.
Print Assumptions C149_log.

Example C149_log_case : log_loop 9 0 ["a"; "b"; "c"]%string (fun n => Nat.leb 3 n) = Some ["a"; "b"; "c"]%string /\ log_loop 9 0 ["a"; "b"; "c"]%string (fun n => Nat.leb 1 n) = Some ["a"; "b"]%string.
Proof. exact log_case. Qed.

Theorem C149_log_refuted : exists lines ended, (forall n, ended n = true) /\ forall fuel, (0 < fuel)%nat -> exists l, log_loop fuel 0 lines ended = Some l /\ l <> lines.
Proof. exact log_refuted. Qed.
Print Assumptions C149_log_refuted.
