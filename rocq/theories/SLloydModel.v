(** Model of minimax_lloyd.py with sampled Voronoi vertices. *)
Require Import Reals List Bool Arith.
From Verif Require Import RVec Num DomModel DomMoreModel LipModel SampModel GeoModel SampMoreModel.
Import ListNotations.
Local Open Scope R_scope.

(** voronoi_vertex_sample for all rows of X0 (vertex.py 121-314, randomize = True as in minimax_lloyd.py 33 and 47): n = m - A_eq.shape[0] iterations,
    [gs i] the random directions drawn for row i.  The rows do not interact. *)
Definition vv_rows (m : nat) (L A : mat) (b : vec) (Aeq : mat) (qr : mat -> mat) (ords : mat -> vec -> list nat) (gs : nat -> nat -> vec) (Xhat X0 : mat) : mat :=
  map (fun p => vv_walk (m - length Aeq) 0 m L A b Aeq Xhat qr true (ords Xhat) (gs (fst p)) (snd p)) (combine (seq 0 (length X0)) X0).

(** [np.outer(np.ones(2*len(domain)), Xhat[k]) + 1e-7*np.random.randn(2*len(domain), len(domain))], minimax_lloyd.py 45; the rows of G are the draws *)
Definition nudge (x : vec) (G : mat) : mat := map (fun g => vadd x (vscale (/ 10000000) g)) G.
(** [V[unique_points(V)]], minimax_lloyd.py 36 and 51 *)
Definition uniq (V : mat) : mat := select (unique_mask V) V.
(** one pass of the loop, minimax_lloyd.py 41-48; D and d are those of the vertices V found first, they are not recomputed *)
Definition add_for (m : nat) (L : mat) (vv : nat -> mat -> mat -> mat) (draws : nat -> mat) (Xhat V acc : mat) (k : nat) : mat :=
  if Nat.ltb (length (owned L Xhat V k)) m then acc ++ vv (S k) Xhat (nudge (nth k Xhat []) (draws k)) else acc.
(** [_update_voronoi_sample], minimax_lloyd.py 11-51; [vv c Xhat X0] is voronoi_vertex_sample(domain, Xhat, X0, L) in the c-th call of this update *)
Definition update_sample (m : nat) (L : mat) (vv : nat -> mat -> mat -> mat) (draws : nat -> mat) (Xhat X0 : mat) : mat :=
  let V := uniq (vv O Xhat X0) in
  uniq (fold_left (add_for m L vv draws Xhat V) (seq 0 (length Xhat)) V).

(** the new design, minimax_lloyd.py 114-126 and 134.  [cc W] is the minimizer over the domain of max over w in W of ||L(x - w)||, [store] what
    assigning to a row of np.zeros_like(Xhat) keeps (everything for an array of floats, the integer part for an array of integers).  Only the rows
    0..M-1 are assigned.  None: IndexError for M > len(Xhat), or a program without data for a node owning no vertex. *)
Definition sl_new (m M : nat) (L : mat) (cc : mat -> vec) (store : vec -> vec) (Xhat V : mat) : option mat :=
  if Nat.ltb (length Xhat) M then None
  else if existsb (fun k => match owned L Xhat V k with [] => true | _ => false end) (seq 0 M) then None
  else Some (map (fun k => if Nat.ltb k M then store (cc (owned L Xhat V k)) else repeat 0 m) (seq 0 (length Xhat))).
(** the loop, minimax_lloyd.py 110-141, for either way of updating: [upd it Xhat V] is _update_voronoi in iteration it.  Also returns the estimates
    np.max(d) printed in each iteration (line 132). *)
Fixpoint sl_loop (n it m M : nat) (L : mat) (upd : nat -> mat -> mat -> mat) (cc : mat -> vec) (store : vec -> vec) (xtol : R) (Xhat V : mat) : option (mat * list R) :=
  match n with
  | O => Some (Xhat, [])
  | S n' => let V1 := upd it Xhat V in
            match sl_new m M L cc store Xhat V1 with
            | None => None
            | Some Xn => let e := fill_dist L Xhat V1 in
                         if Rltb (lloyd_dx Xn Xhat) xtol then Some (Xn, [e])
                         else match sl_loop n' (S it) m M L upd cc store xtol Xn V1 with None => None | Some (X, es) => Some (X, e :: es) end
            end
  end.
(** which update is used, minimax_lloyd.py 73-81; [full] = None, True, False, or anything else (then _update_voronoi is never assigned: UnboundLocalError) *)
Inductive fullarg := FullNone | FullTrue | FullFalse | FullOther.
Definition pick_update (m : nat) (full : fullarg) : option bool :=
  match full with
  | FullNone => Some (Nat.ltb m 3)
  | FullTrue => Some true
  | FullFalse => Some false
  | FullOther => None
  end.
(** [minimax_lloyd], minimax_lloyd.py 58-141.  [oned] is minimax_design_1d(domain, M, L), None for its AssertionError; [X0] the design given or the one from
    maximin_coffeehouse and maximin_block; [V0] = domain.sample(M0); [vfull] = voronoi_vertex(domain, ., L). *)
Definition minimax_lloyd (oned : option mat) (full : fullarg) (maxiter m M : nat) (L : mat) (vfull : mat -> mat) (vv : nat -> nat -> mat -> mat -> mat) (draws : nat -> nat -> mat)
    (cc : mat -> vec) (store : vec -> vec) (xtol : R) (X0 V0 : mat) : option mat :=
  match oned with
  | Some X => Some X
  | None => match pick_update m full with
            | None => None
            | Some b => let upd it Xhat V := if b then vfull Xhat else update_sample m L (vv it) (draws it) Xhat V in
                        match sl_loop maxiter 0 m M L upd cc store xtol X0 V0 with None => None | Some (X, _) => Some X end
            end
  end.
(** storing in an array of integers: C truncation of each entry *)
Definition truncr (r : R) : R := if Rltb r 0 then - IZR (up (- r) - 1) else IZR (up r - 1).
Definition store_int (x : vec) : vec := map truncr x.
