(** Files of contours are read back as the curves drawn. *)
Require Import Reals Lra Lia ZArith List Bool Arith.
From Verif Require Import ContModel.
Import ListNotations.
Local Open Scope R_scope.

(* ---------------- specification ---------------- *)
(** a curve: its first point, the points after it, and whether it is closed *)
Record curve := mkCurve { c_first : pt; c_rest : list pt; c_closed : bool }.
(** how matplotlib draws it; [e] is the vertex that comes with the closing segment *)
Definition draw (e : pt) (c : curve) : list seg := Move (c_first c) :: map Line (c_rest c) ++ (if c_closed c then [Close e] else []).
Definition points (c : curve) : list pt := c_first c :: c_rest c ++ (if c_closed c then [c_first c] else []).
(** reading: a line with the level and a number n, then n points *)
Fixpoint parse (fuel : nat) (ls : list (R * R)) : option (list (R * list pt)) :=
  match fuel with
  | O => None
  | S fuel' => match ls with
               | [] => Some []
               | (z, c) :: ls' => let n := Z.to_nat (Int_part c) in
                                  if Nat.ltb (length ls') n then None else option_map (cons (z, firstn n ls')) (parse fuel' (skipn n ls'))
               end
  end.
Definition read (ls : list (R * R)) : option (list (R * list pt)) := parse (S (length ls)) ls.
Definition fmt_pt (f : R -> R) (p : pt) : pt := (f (fst p), f (snd p)).
(** level by level, path by path, curve by curve *)
Definition expected (f : R -> R) (cs : list (list (list curve) * R)) : list (R * list pt) :=
  flat_map (fun lv => flat_map (fun p => map (fun c => (f (snd lv), map (fmt_pt f) (points c))) p) (fst lv)) cs.

(* ---------------- reading ---------------- *)
Lemma int_INR : forall n, Z.to_nat (Int_part (INR n)) = n.
Proof. intro n. rewrite INR_IZR_INZ. unfold Int_part. rewrite <- (tech_up (IZR (Z.of_nat n)) (Z.of_nat n + 1)); [lia|rewrite plus_IZR; lra|rewrite plus_IZR; lra]. Qed.
Definition block (b : R * list pt) : list (R * R) := (fst b, INR (length (snd b))) :: snd b.
Lemma parse_blocks : forall bs fuel, (length (flat_map block bs) < fuel)%nat -> parse fuel (flat_map block bs) = Some bs.
Proof.
  induction bs as [|[z ps] bs IH]; intros [|fuel] H; try (simpl in H; lia); [reflexivity|]. cbn [flat_map block fst snd app parse]. rewrite int_INR. rewrite app_length.
  destruct (Nat.ltb_spec (length ps + length (flat_map block bs)) (length ps)); [lia|]. rewrite firstn_app, Nat.sub_diag, firstn_all, firstn_O, app_nil_r. rewrite skipn_app, Nat.sub_diag, skipn_all. cbn [app skipn]. rewrite IH; [reflexivity|]. cbn [flat_map block fst snd length app] in H. rewrite app_length in H. lia.
Qed.
Lemma read_blocks : forall bs, read (flat_map block bs) = Some bs.
Proof. intro bs. apply parse_blocks. lia. Qed.

(* ---------------- writing ---------------- *)
Lemma loop_lines : forall w z ps acc ss, path_loop w z acc (map Line ps ++ ss) = path_loop w z (acc ++ ps) ss.
Proof. intros w z ps. induction ps as [|p ps IH]; intros acc ss; cbn [map app path_loop]; [rewrite app_nil_r; auto|]. rewrite IH, <- app_assoc. reflexivity. Qed.
Lemma loop_rest : forall w z e c ss, path_loop w z [c_first c] (map Line (c_rest c) ++ (if c_closed c then [Close e] else []) ++ ss) = path_loop w z (points c) ss.
Proof.
  intros w z e c ss. rewrite loop_lines. unfold points. destruct (c_closed c); cbn [app path_loop]; [reflexivity|rewrite app_nil_r; reflexivity].
Qed.
Lemma loop_next : forall w z e c q acc ss, path_loop w z (q :: acc) (draw e c ++ ss) = andthen (w (q :: acc) z) (path_loop w z (points c) ss).
Proof. intros w z e c q acc ss. unfold draw. cbn [app path_loop length Nat.eqb]. rewrite <- app_assoc, loop_rest. reflexivity. Qed.
Lemma write_block : forall f ps z, write_matlab f ps z = mkOut (block (f z, map (fmt_pt f) ps)) None.
Proof. intros f ps z. unfold write_matlab, block. cbn [fst snd]. rewrite map_length. reflexivity. Qed.
Lemma loop_curves : forall f z e p c, path_loop (write_matlab f) z (points c) (flat_map (draw e) p) = mkOut (flat_map block (map (fun c => (f z, map (fmt_pt f) (points c))) (c :: p))) None.
Proof.
  intros f z e. induction p as [|d p IH]; intro c.
  - cbn [flat_map path_loop map]. rewrite write_block, app_nil_r. reflexivity.
  - cbn [flat_map]. unfold points at 1. rewrite loop_next. fold (points c). change (c_first c :: c_rest c ++ (if c_closed c then [c_first c] else [])) with (points c). rewrite IH, write_block. reflexivity.
Qed.
Lemma path_curves : forall f z e p, p <> [] -> path_loop (write_matlab f) z [] (flat_map (draw e) p) = mkOut (flat_map block (map (fun c => (f z, map (fmt_pt f) (points c))) p)) None.
Proof.
  intros f z e [|c p] NE; [congruence|]. rewrite <- (loop_curves f z e p c). cbn [flat_map]. unfold draw at 1. cbn [app path_loop length Nat.eqb]. rewrite <- app_assoc, loop_rest. reflexivity.
Qed.
Lemma levels_written : forall f e cs, Forall (fun lv => Forall (fun p => p <> []) (fst lv)) cs ->
  all_levels (write_matlab f) (map (fun lv => (map (flat_map (draw e)) (fst lv), snd lv)) cs) = mkOut (flat_map block (expected f cs)) None.
Proof.
  intros f e cs H. induction H as [|[paths z] cs HP HC IH]; [reflexivity|]. cbn [map fst snd all_levels]. rewrite IH. unfold expected. cbn [flat_map fst snd]. rewrite flat_map_app.
  assert (E : all_paths (write_matlab f) z (map (flat_map (draw e)) paths) = mkOut (flat_map block (flat_map (fun p => map (fun c => (f z, map (fmt_pt f) (points c))) p) paths)) None).
  { clear - HP. cbn [fst] in HP. induction HP as [|p paths Hp HP IHp]; [reflexivity|]. cbn [map all_paths flat_map]. rewrite path_curves, IHp by auto. rewrite flat_map_app. reflexivity. }
  rewrite E. reflexivity.
Qed.
(** what is drawn is read back, level by level in the order of the levels, closed curves ending where they start; levels without a collection ([more], filled contours have one level more) add nothing *)
Theorem contour_roundtrip : forall f e cs more, Forall (fun lv => Forall (fun p => p <> []) (fst lv)) cs ->
  let o := save_contour f Matlab (map (fun lv => map (flat_map (draw e)) (fst lv)) cs) (map snd cs ++ more) in raised o = None /\ read (lines o) = Some (expected f cs).
Proof.
  intros f e cs more H o. unfold o, save_contour. assert (E : combine (map (fun lv : list (list curve) * R => map (flat_map (draw e)) (fst lv)) cs) (map snd cs ++ more) = map (fun lv => (map (flat_map (draw e)) (fst lv), snd lv)) cs) by (clear; induction cs as [|lv cs IH]; [destruct more; reflexivity|cbn [map app combine]; rewrite IH; reflexivity]).
  rewrite E, levels_written by auto. cbn [raised lines]. split; auto. apply read_blocks.
Qed.
(** a path without segments adds a curve without points *)
Theorem contour_empty_refuted : exists cols levels, let o := save_contour (fun x => x) Matlab cols levels in raised o = None /\ concat cols = [[]] /\ read (lines o) = Some [(5, [])].
Proof.
  exists [[[]]], [5]. cbv zeta. split; [reflexivity|]. split; [reflexivity|]. exact (read_blocks [(5, [])]).
Qed.
(** the other format raises NameError as soon as there is a path to write *)
Definition no_curve (ss : list seg) : Prop := Forall (fun s => s <> Curve) ss.
Definition no_close_first (ss : list seg) : Prop := match ss with Close _ :: _ => False | _ => True end.
Lemma prepared_path : forall z ss acc, no_curve ss -> acc <> [] \/ no_close_first ss -> raised (path_loop write_prepared z acc ss) = Some NameErr.
Proof.
  intros z ss. induction ss as [|s ss IH]; intros acc H HA; [reflexivity|]. inversion H as [|? ? Hs Hss]. subst. destruct s; cbn [path_loop]; try congruence.
  - destruct (Nat.eqb (length acc) 0); [apply IH; auto; left; destruct acc; discriminate|reflexivity].
  - apply IH; auto. left. destruct acc; discriminate.
  - destruct HA as [HA|[]]. destruct acc as [|q acc]; [congruence|]. apply IH; auto. left. discriminate.
Qed.
Theorem contour_prepared : forall f p paths cols z levels, no_curve p -> no_close_first p ->
  let o := save_contour f Prepared ((p :: paths) :: cols) (z :: levels) in raised o = Some NameErr /\ lines o = [].
Proof.
  intros f p paths cols z levels H HC o. unfold o, save_contour. cbn [combine all_levels all_paths]. pose proof (prepared_path z p [] H (or_intror HC)) as E.
  assert (L : forall ss acc, lines (path_loop write_prepared z acc ss) = []). { induction ss as [|s ss IH]; intro acc; [reflexivity|]. destruct s; cbn [path_loop]; [destruct (Nat.eqb (length acc) 0); [apply IH|reflexivity]|apply IH|destruct acc; [reflexivity|apply IH]|reflexivity]. }
  assert (A : forall x y, raised x = Some NameErr -> andthen x y = x) by (intros x y Hx; unfold andthen; rewrite Hx; reflexivity).
  rewrite (A _ _ E), (A _ _ E). split; [exact E|apply L].
Qed.
(** a curved segment raises; the curves before it in the same path that were complete stay in the file, the last one is lost *)
Theorem contour_curved : forall f e p c q paths cols z levels,
  let o := save_contour f Matlab (((flat_map (draw e) (p ++ [c]) ++ Curve :: q) :: paths) :: cols) (z :: levels) in
  raised o = Some ValueErr /\ read (lines o) = Some (map (fun d => (f z, map (fmt_pt f) (points d))) p).
Proof.
  intros f e p c q paths cols z levels o. unfold o, save_contour. cbn [combine all_levels all_paths].
  assert (A : forall x y er, raised x = Some er -> andthen x y = x) by (intros x y er Hx; unfold andthen; rewrite Hx; reflexivity).
  assert (G : forall (p : list curve) (d : curve), path_loop (write_matlab f) z (points d) (flat_map (draw e) (p ++ [c]) ++ Curve :: q) = mkOut (flat_map block (map (fun d => (f z, map (fmt_pt f) (points d))) (d :: p))) (Some ValueErr)).
  { clear p o; induction p as [|b p' IH]; intro d; cbn [app flat_map]; rewrite <- ?app_assoc; unfold points at 1; rewrite loop_next; fold (points d); change (c_first d :: c_rest d ++ (if c_closed d then [c_first d] else [])) with (points d).
    - rewrite write_block. reflexivity.
    - rewrite IH, write_block. reflexivity. }
  assert (E : path_loop (write_matlab f) z [] (flat_map (draw e) (p ++ [c]) ++ Curve :: q) = mkOut (flat_map block (map (fun d => (f z, map (fmt_pt f) (points d))) p)) (Some ValueErr)).
  { destruct p as [|b p']; cbn [app flat_map]; rewrite <- ?app_assoc; unfold draw at 1; cbn [app path_loop length Nat.eqb]; rewrite <- ?app_assoc, loop_rest; [reflexivity|]. apply G. }
  rewrite E. rewrite !(A _ _ ValueErr) by reflexivity. cbn [raised lines]. split; [reflexivity|apply read_blocks].
Qed.
Example contour_case : let tri := mkCurve (0, 0) [(1, 0); (0, 1)] true in let ln := mkCurve (2, 2) [(3, 3)] false in let cs := [([[tri; ln]; [ln]], 1); ([], 2); ([[tri]], 3)] in
  Forall (fun lv => Forall (fun p => p <> []) (fst lv)) cs /\ expected (fun x => x) cs = [(1, [(0, 0); (1, 0); (0, 1); (0, 0)]); (1, [(2, 2); (3, 3)]); (1, [(2, 2); (3, 3)]); (3, [(0, 0); (1, 0); (0, 1); (0, 0)])].
Proof. cbv zeta. split; [repeat constructor; discriminate|reflexivity]. Qed.
Example contour_raise_case : let tri := mkCurve (0, 0) [(1, 0); (0, 1)] true in no_curve (draw (0, 0) tri) /\ no_close_first (draw (0, 0) tri) /\ In (Close (0, 0)) (draw (0, 0) tri).
Proof. cbv zeta. unfold no_curve, no_close_first, draw. cbn [c_first c_rest c_closed map app]. split; [|split]; [repeat constructor; discriminate|exact I|simpl; tauto]. Qed.
