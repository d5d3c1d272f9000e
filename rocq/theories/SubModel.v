(** Model of psdr/subspace.py, local_linear.py, opg.py, nonlin.py, misc.py, initialization.py and pgf.py.
    Real arithmetic is exact.  A matrix whose columns matter (U) is given as the list of its columns. *)
Require Import Reals List Bool Arith ZArith Ascii.
From Verif Require Import RVec Num Sums DomMoreModel BasisModel MatLib SpecProofs LipModel.
Import ListNotations.
Local Open Scope R_scope.

(* ---------------- shadow_envelope, subspace.py 130-223 ---------------- *)
(** yy = np.linspace(np.min(y), np.max(y), ngrid) and h = yy[1] - yy[0] *)
Definition se_grid (y : vec) (n : nat) : vec := linspace (vmin y) (vmax y) n.
Definition se_h (y : vec) (n : nat) : R := vget (se_grid y n) 1 - vget (se_grid y n) 0.
(** np.floor((y - yy[0])/h) *)
Definition se_bin (yy0 h y : R) : Z := Int_part ((y - yy0) / h).
(** np.unique(..., return_counts = True): the occupied bins in increasing order with their counts.  The bins are
    searched in 0..n-1: in exact arithmetic no other value occurs (theorem C65_bins). *)
Definition se_count (y : vec) (n k : nat) : nat :=
  length (filter (fun a => Z.eqb (se_bin (vget (se_grid y n) 0) (se_h y n) a) (Z.of_nat k)) y).
Definition se_items (y : vec) (n : nat) : list nat := filter (fun k => Nat.ltb 0 (se_count y n k)) (seq 0 n).
Definition se_counts (y : vec) (n : nat) : list nat := map (se_count y n) (se_items y n).
(** (np.min(counts[:-1]) >= 5) and len(items) == ngrid, subspace.py 173 *)
Definition se_test (y : vec) (n : nat) : bool :=
  forallb (fun c => Nat.leb 5 c) (removelast (se_counts y n)) && Nat.eqb (length (se_items y n)) n.
(** the search for the number of grid points, subspace.py 162-176: ngrid = 25, 24, ... *)
Fixpoint se_search (y : vec) (n : nat) : nat :=
  match n with
  | O => O
  | S n' => if Nat.eqb n 3 then n else if se_test y n then n else se_search y n'
  end.
Definition se_ngrid (y : vec) (ngrid : option nat) : nat := match ngrid with Some n => n | None => se_search y 25 end.
(** one row of the coo matrix A, subspace.py 184-200 (repeated positions are added) *)
Definition se_row (yy0 h : R) (n : nat) (y : R) : vec :=
  let j := se_bin yy0 h y in
  map (fun k => (if Z.eqb (Z.of_nat k) j then (yy0 + (IZR j + 1) * h - y) / h else 0) +
                (if negb (Z.eqb j (Z.of_nat n - 1)) && Z.eqb (Z.of_nat k) (j + 1) then (y - (yy0 + IZR j * h)) / h else 0)) (seq 0 n).
Definition se_A (y : vec) (n : nat) : mat := map (se_row (vget (se_grid y n) 0) (se_h y n) n) y.
(** shadow_envelope: [u] the direction, [solve_ub A f] / [solve_lb A f] the values returned by OSQP for
    min sum(ub) : A ub >= f and max sum(lb) : A lb <= f (contract se_ub_ok, se_lb_ok).
    None: lengths differ; also when all projections coincide (h = 0: division by zero, NaN in the code). *)
Definition shadow_envelope (solve_ub solve_lb : mat -> vec -> vec) (X : mat) (fX : vec) (u : vec) (ngrid : option nat) : option (vec * vec * vec) :=
  if negb (Nat.eqb (length X) (length fX)) then None else
  let y := map (fun x => dot x u) X in
  let n := se_ngrid y ngrid in
  if Reqb (se_h y n) 0 then None else
  Some (y, solve_lb (se_A y n) fX, solve_ub (se_A y n) fX).
(** feasible points and exact solutions of the two linear programs, subspace.py 206, 213 *)
Definition se_above (A : mat) (f v : vec) : Prop := forall i, (i < length A)%nat -> vget f i <= dot (nth i A []) v.
Definition se_below (A : mat) (f v : vec) : Prop := forall i, (i < length A)%nat -> dot (nth i A []) v <= vget f i.
Definition se_ub_ok (n : nat) (A : mat) (f v : vec) : Prop :=
  length v = n /\ se_above A f v /\ forall w, length w = n -> se_above A f w -> vsum v <= vsum w.
Definition se_lb_ok (n : nat) (A : mat) (f v : vec) : Prop :=
  length v = n /\ se_below A f v /\ forall w, length w = n -> se_below A f w -> vsum w <= vsum v.

(* ---------------- ActiveSubspace.fit, subspace.py 314-341 ---------------- *)
(** columns of np.sqrt(weights)*grads.T; negative weights give NaN in the code, theorems assume w >= 0 *)
Definition as_cols (w : vec) (grads : mat) : list vec := zipw (fun a g => vscale (sqrt a) g) w grads.
(** scipy.linalg.svd(A) with full matrices, A of m rows given by its columns: columns of U, s, rows of VT *)
Definition svd_full (m : nat) (cols us : list vec) (s : vec) (vs : list vec) : Prop :=
  onb m us /\ onb (length cols) vs /\ length s = Nat.min m (length cols) /\ Forall (fun a => 0 <= a) s /\
  (forall i j, (i <= j < length s)%nat -> vget s j <= vget s i) /\
  (forall c, (c < length cols)%nat -> nth c cols [] = lincomb m (firstn (length s) us) (vmul s (firstn (length s) (col vs c)))).
Definition as_weights (grads : mat) (weights : option vec) : vec :=
  match weights with Some w => w | None => repeat (1 / INR (length grads)) (length grads) end.
(** s padded with zeros to length m; C = U diag(s^2) U^T (before the signs are fixed); U after the sign fix *)
Definition as_pad (m : nat) (s : vec) : vec := s ++ repeat 0 (m - length s).
Definition as_fit (svd : list vec -> list vec * vec) (m : nat) (grads : mat) (weights : option vec) : list vec * vec * mat :=
  let w := as_weights grads weights in
  let (us, s0) := svd (as_cols w grads) in
  let s := as_pad m s0 in
  (scale_cols (signs_grads us grads) us, s, spec m (map (fun a => a ^ 2) s) us).

(* ---------------- local_linear.py ---------------- *)
(** log_entropy, local_linear.py 42-47 *)
Definition kern (beta : R) (d : vec) : vec := map (fun a => exp (- beta * a)) d.
Definition log_entropy (beta : R) (d : vec) : R :=
  let p := kern beta d in
  beta * vsum (map (fun pd => fst pd * snd pd / vsum p) (combine p d)) + ln (vsum p).
(** _compute_p1, local_linear.py 16-39: p1 = 1 - x/2, x the root found in [0, 1/2] of
    x log M - x log x - log(min(sqrt(2M), perplexity)) *)
Definition p1_fun (M perp x : R) : R := x * ln M - x * ln x - ln (Rmin (sqrt (2 * M)) perp).
Definition p1_post (M perp p1 : R) : Prop := exists x, 0 <= x <= / 2 /\ p1_fun M perp x = 0 /\ p1 = 1 - x / 2.
(** np.min of a selection, ValueError (None) when it is empty *)
Definition omin_list (l : vec) : option R := match l with [] => None | _ => Some (vmin l) end.
Definition positives (l : vec) : vec := filter (fun a => Rltb 0 a) l.
(** the bracket of perplexity_bandwidth, local_linear.py 65-82.  M ** and ** 4 are powers. *)
Definition pb_bracket (p1 : R) (d : vec) (perp : R) : option (R * R) :=
  let M := INR (length d) in
  match omin_list (positives d) with
  | None => None
  | Some d1 =>
      match omin_list (positives (map (fun a => a - d1) d)) with
      | None => None
      | Some delta2 =>
          let dM := vmax d in
          let deltaM := dM - d1 in
          Some (Rmax (M * ln (M / perp) / ((M - 1) * deltaM)) (sqrt (ln (M / perp) / (dM ^ 4 - d1 ^ 4))),
                1 / delta2 * ln (p1 / (1 - p1) * (M - 1)))
      end
  end.
(** perplexity_bandwidth, local_linear.py 50-107; [root f a b]: root_scalar(..., method = 'brenth') on [a, b], None: ValueError *)
Definition perplexity_bandwidth (root : (R -> R) -> R -> R -> option R) (p1 : R) (d : vec) (perp : R) : option R :=
  match pb_bracket p1 d perp with
  | None => None
  | Some (b1, b2) => root (fun beta => log_entropy beta d - ln perp) b1 b2
  end.
(** brenth: raises when the signs at the end points agree, otherwise it finds a root of a continuous function in the
    bracket (exact) *)
Definition root_ok (root : (R -> R) -> R -> R -> option R) : Prop :=
  forall f a b, (0 < f a * f b -> root f a b = None) /\
                (forall r, root f a b = Some r -> f r = 0 /\ Rmin a b <= r <= Rmax a b) /\
                (continuity f -> f a * f b <= 0 -> exists r, root f a b = Some r).

(** squared Euclidean distances of the rows of X to x *)
Definition sqdist (X : mat) (x : vec) : vec := map (fun z => norm2sq (vsub z x)) X.
(** perplexity / bandwidth options of local_linear, local_linear.py 155-166 *)
Inductive bwopt := BwXia | BwVal (b : R).
Definition ll_xia (M : R) : R := 2.34 * Rpower M (- 1 / (Rmax M 3 + 6)).
(** the function giving beta from the distances; None: the assertion on the perplexity fails.  [pb]: perplexity_bandwidth *)
Definition ll_beta (pb : vec -> R -> option R) (M m : nat) (perp : option R) (bw : option bwopt) : option (vec -> option R) :=
  let use p := if Rleb 2 p && Rltb p (INR M) then Some (fun d => pb d p) else None in
  match perp, bw with
  | Some p, _ => use p
  | None, None => use (INR (Nat.min (m + 1) M))
  | None, Some BwXia => Some (fun _ => Some (/ 2 * ll_xia (INR M)))
  | None, Some (BwVal b) => Some (fun _ => Some (/ 2 * b))
  end.
(** sqrt_weights and the weighted system at one point, local_linear.py 183-186; [lstsq A b]: scipy.linalg.lstsq
    (None: LinAlgError, the coefficients are then zero) *)
Definition ll_sw (beta : R) (d : vec) : vec := map (fun a => exp (- (1 / 2) * beta * a)) d.
Definition ll_row (x : vec) : vec := 1 :: x.
Definition ll_coef (lstsq : mat -> vec -> option vec) (m : nat) (X : mat) (fX : vec) (sw : vec) : vec :=
  match lstsq (zipw vscale sw (map ll_row X)) (vmul sw fX) with Some a => a | None => vzero (m + 1) end.
(** the loop over Xt filling A, which has M = len(X) rows (local_linear.py 174-190); None: an exception
    (perplexity_bandwidth, or A[i,:] out of range) *)
Fixpoint ll_loop (coef : vec -> option vec) (Xt : mat) (A : mat) : option mat :=
  match Xt with
  | [] => Some A
  | x :: Xt' => match A with
                | [] => None
                | _ :: A' => match coef x with
                             | None => None
                             | Some a => option_map (cons a) (ll_loop coef Xt' A')
                             end
                end
  end.
Definition local_linear (pb : vec -> R -> option R) (lstsq : mat -> vec -> option vec) (m : nat) (X : mat) (fX : vec)
  (perp : option R) (bw : option bwopt) (Xt : option mat) : option mat :=
  if negb (Nat.eqb (length fX) (length X)) then None else
  match ll_beta pb (length X) m perp bw with
  | None => None
  | Some beta =>
      ll_loop (fun x => match beta (sqdist X x) with
                        | None => None
                        | Some b => Some (ll_coef lstsq m X fX (ll_sw b (sqdist X x)))
                        end)
              (match Xt with Some Z => Z | None => X end) (repeat (vzero (m + 1)) (length X))
  end.
(** local_linear_grads, local_linear.py 193-197 *)
Definition local_linear_grads pb lstsq m X fX perp bw Xt : option mat :=
  option_map (map (@tl R)) (local_linear pb lstsq m X fX perp bw Xt).
(** scipy.linalg.lstsq on a system with n unknowns: a minimizer of |A a - b|_2 (the one of least norm; not needed here) *)
Definition lstsq_post (n : nat) (A : mat) (b a : vec) : Prop :=
  length a = n /\ forall c, length c = n -> norm2sq (vsub (mv A a) b) <= norm2sq (vsub (mv A c) b).
Definition lstsq_ok (n : nat) (lstsq : mat -> vec -> option vec) : Prop :=
  forall A b, (exists a, lstsq_post n A b a) -> exists a, lstsq A b = Some a /\ lstsq_post n A b a.

(* ---------------- OuterProductGradient.fit, opg.py 85-134 ---------------- *)
Definition opg_mean (m : nat) (X : mat) : vec := map (fun k => mean (col X k)) (seq 0 m).
Definition opg_std (m : nat) (X : mat) : vec := map (fun k => pstd (col X k)) (seq 0 m).
Definition opg_z (m : nat) (X : mat) : mat := map (fun x => vmul (vsub x (opg_mean m X)) (map Rinv (opg_std m X))) X.
(** Dinv2.dot(U), Dinv2 = diag(std**(-0.5)), on columns *)
Definition opg_undo (m : nat) (X : mat) (us : list vec) : list vec := map (vmul (map (fun s => / sqrt s) (opg_std m X))) us.
(** [grads Z]: local_linear_grads(Z, fX, perplexity, bandwidth); [qr]: columns of Q of np.linalg.qr(U, mode = 'reduced') *)
Definition opg_fit (grads : mat -> option mat) (svd : list vec -> list vec * vec) (qr : list vec -> list vec) (m : nat) (standardize : bool) (X : mat) : option (list vec * vec * mat) :=
  let Z := if standardize then opg_z m X else X in
  match grads Z with
  | None => None
  | Some zg =>
      let '(us, s, C) := as_fit svd m zg None in
      if standardize then
        let q := qr (opg_undo m X us) in Some (scale_cols (signs_grads q zg) q, s, C)
      else Some (us, s, C)
  end.
(** np.linalg.qr(A, mode = 'reduced'), A (m x n, m >= n) by columns: A_j = sum_{i <= j} R_ij q_i, q orthonormal *)
Definition qr_post (m : nat) (cols q : list vec) (r : mat) : Prop :=
  length q = length cols /\ Forall (fun c => length c = m) q /\ orthonormal q /\ length r = length cols /\
  forall j, (j < length cols)%nat -> length (nth j r []) = length cols /\ nth j cols [] = lincomb m q (nth j r []) /\
    forall i, (j < i)%nat -> vget (nth j r []) i = 0.

(* ---------------- measure_nonlinearity, nonlin.py 5-57 ---------------- *)
Definition nl_diffs (X : mat) (fX : vec) : list (vec * R) :=
  map (fun ij => (vsub (nth (fst ij) X []) (nth (snd ij) X []), vget fX (fst ij) - vget fX (snd ij))) (pairs (length X)).
(** L0, nonlin.py 42: division by zero for repeated points is excluded in the theorems *)
Definition nl_L0 (X : mat) (fX : vec) : R := vmax (map (fun pd => Rabs (snd pd) / norm2 (fst pd)) (nl_diffs X fX)).
(** the constraints, nonlin.py 47-50 *)
Definition nl_feasible (X : mat) (fX : vec) (a : vec) (L : R) : Prop :=
  forall p d, In (p, d) (nl_diffs X fX) -> d + dot p a <= L * norm2 p /\ - (L * norm2 p) <= d + dot p a.
(** exact solution of the program *)
Definition nl_solved (m : nat) (X : mat) (fX : vec) (a : vec) (L : R) : Prop :=
  length a = m /\ nl_feasible X fX a L /\ forall a' L', length a' = m -> nl_feasible X fX a' L' -> L <= L'.
(** the returned pair (L/L0, a); None: np.max of an empty array (less than two samples) *)
Definition measure_nonlinearity (solve : mat -> vec -> vec * R) (X : mat) (fX : vec) : option (R * vec) :=
  match nl_diffs X fX with [] => None | _ => let (a, L) := solve X fX in Some (L / nl_L0 X fX, a) end.

(* ---------------- check_sample_inputs, misc.py 12-31 ---------------- *)
(** a two-dimensional array: number of columns and the rows *)
Record arr := mkArr { acols : nat; arows : mat }.
(** None: AssertionError, or AttributeError when neither samples nor gradients are given *)
Definition check_sample_inputs (X : option arr) (fX : option vec) (grads : option arr) : option (arr * vec * arr) :=
  let Xf := match X, fX with
            | Some X, Some f => if Nat.eqb (length (arows X)) (length f) then Some (Some (X, f)) else None
            | _, _ => Some None
            end in
  match Xf with
  | None => None
  | Some xf =>
      if match grads, xf with Some g, Some (X, _) => negb (Nat.eqb (acols X) (acols g)) | _, _ => false end then None else
      match xf, grads with
      | Some (X, f), Some g => Some (X, f, g)
      | Some (X, f), None => Some (X, f, mkArr (acols X) [])
      | None, Some g => Some (mkArr (acols g) [], [], g)
      | None, None => None
      end
  end.

(* ---------------- initialize_subspace, initialization.py 6-25 ---------------- *)
(** [perm n]: np.random.permutation; [llg X fX Xt]: local_linear_grads with the default perplexity;
    [svd1]: columns of U of the thin SVD of all_grads.T (columns = rows of all_grads) *)
Definition initialize_subspace (perm : nat -> list nat) (llg : mat -> vec -> mat -> option mat) (svd1 : mat -> list vec)
  (X : option arr) (fX : option vec) (grads : option arr) (n_grads : nat) : option (list vec) :=
  match check_sample_inputs X fX grads with
  | None => None
  | Some (X, f, g) =>
      let ng := length (arows g) in
      if Nat.ltb ng n_grads && Nat.leb (acols X + 1) (length (arows X)) then
        let idx := firstn (n_grads - ng) (perm (length (arows X))) in
        match llg (arows X) f (map (fun i => nth i (arows X) []) idx) with
        | None => None
        | Some est => Some (svd1 (arows g ++ est))
        end
      else Some (svd1 (arows g))
  end.

(* ---------------- PGF, pgf.py 7-56 ---------------- *)
(** [F]: the type of the numbers, Python's float *)
Record pgf {F : Type} := mkPgf { pnames : list (list ascii); pcols : list (list F) }.
Arguments pgf F : clear implicits.
Definition tab : ascii := ascii_of_nat 9.
Definition nl : ascii := ascii_of_nat 10.
(** add, pgf.py 12-17: the length is only compared when there are already two columns *)
Definition pgf_add {F} (p : pgf F) (name : list ascii) (c : list F) : option (pgf F) :=
  if match pcols p with c0 :: _ :: _ => negb (Nat.eqb (length c0) (length c)) | _ => false end then None
  else Some (mkPgf _ (pnames p ++ [name]) (pcols p ++ [c])).
(** __getitem__, pgf.py 22-24 *)
Fixpoint index_of (names : list (list ascii)) (key : list ascii) : option nat :=
  match names with
  | [] => None
  | n :: names' => if list_eq_dec ascii_dec n key then Some O else option_map S (index_of names' key)
  end.
Definition pgf_get {F} (p : pgf F) (key : list ascii) : option (list F) :=
  match index_of (pnames p) key with Some i => nth_error (pcols p) i | None => None end.
(** write, pgf.py 26-39: the characters of the file; [fmt x]: "{}".format(float(x)).  None: IndexError, no column or a
    column shorter than the first. *)
Definition header (names : list (list ascii)) : list ascii := flat_map (fun n => n ++ [tab]) names ++ [nl].
Definition pgf_row {F} (fmt : F -> list ascii) (cols : list (list F)) (j : nat) : option (list ascii) :=
  match all_some (map (fun c => nth_error c j) cols) with
  | None => None
  | Some xs => Some (flat_map (fun x => fmt x ++ [tab]) xs ++ [nl])
  end.
Definition pgf_write {F} (fmt : F -> list ascii) (p : pgf F) : option (list ascii) :=
  match pcols p with
  | [] => None
  | c0 :: _ => match all_some (map (pgf_row fmt (pcols p)) (seq 0 (length c0))) with
               | None => None
               | Some rows => Some (header (pnames p) ++ concat rows)
               end
  end.
(** lines of a text file (each ends with a newline, except possibly the last).  Universal newline translation of '\r' is
    not modelled: theorems are about names without that character. *)
Fixpoint lines_of (s cur : list ascii) : list (list ascii) :=
  match s with
  | [] => match cur with [] => [] | _ => [rev cur] end
  | c :: s' => if ascii_dec c nl then rev (c :: cur) :: lines_of s' [] else lines_of s' (c :: cur)
  end.
(** line.replace('\t\n','').replace('\n','') *)
Fixpoint drop_tabnl (s : list ascii) : list ascii :=
  match s with
  | [] => []
  | a :: s1 => match s1 with
               | [] => [a]
               | b :: s' => if ascii_dec a tab then if ascii_dec b nl then drop_tabnl s' else a :: drop_tabnl s1 else a :: drop_tabnl s1
               end
  end.
Definition strip_line (s : list ascii) : list ascii := filter (fun c => if ascii_dec c nl then false else true) (drop_tabnl s).
(** str.split('\t') *)
Fixpoint split_tab (s cur : list ascii) : list (list ascii) :=
  match s with
  | [] => [rev cur]
  | c :: s' => if ascii_dec c tab then rev cur :: split_tab s' [] else split_tab s' (c :: cur)
  end.
(** the inner loop over the cells of a line, pgf.py 49-51; [parse]: float(str), None: ValueError.  None: IndexError as well. *)
Fixpoint add_cells {F} (parse : list ascii -> option F) (cells : list (list ascii)) (cols : list (list F)) : option (list (list F)) :=
  match cells, cols with
  | [], _ => Some cols
  | _ :: _, [] => None
  | a :: cells', c :: cols' =>
      match parse a, add_cells parse cells' cols' with
      | Some x, Some r => Some ((c ++ [x]) :: r)
      | _, _ => None
      end
  end.
Fixpoint read_rows {F} (parse : list ascii -> option F) (ls : list (list ascii)) (cols : list (list F)) : option (list (list F)) :=
  match ls with
  | [] => Some cols
  | l :: ls' => match add_cells parse (split_tab (strip_line l) []) cols with None => None | Some c => read_rows parse ls' c end
  end.
(** read into a fresh object, pgf.py 41-52 *)
Definition pgf_read {F} (parse : list ascii -> option F) (s : list ascii) : option (pgf F) :=
  match lines_of s [] with
  | [] => Some (mkPgf _ [] [])
  | l :: ls => let names := split_tab (strip_line l) [] in
               option_map (mkPgf _ names) (read_rows parse ls (map (fun _ => []) names))
  end.
