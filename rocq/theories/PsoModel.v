(** Model of minimax_cluster_pso (psdr/sample/minimax.py 139-270): clustering with a swarm of designs. *)
Require Import Reals List Bool Arith.
From Verif Require Import RVec Num DomModel DomMoreModel LipModel SampModel GeoModel SampMoreModel.
Import ListNotations.
Local Open Scope R_scope.

(** [random_init], minimax.py 170-177: [s] is domain.sample(1), [Xt j] is domain.sample(10*N) in the j-th pass.  np.min has no axis: it is one number *)
Definition pso_pick (L : mat) (Xhat Xt : mat) : vec := nth (argmax [vmin (concat (map (fun xh => map (fun x => Ldist L xh x) Xt) Xhat))]) Xt [].
Fixpoint pso_fill (n j : nat) (L : mat) (Xt : nat -> mat) (Xhat : mat) : mat :=
  match n with O => Xhat | S n' => pso_fill n' (S j) L Xt (Xhat ++ [pso_pick L Xhat (Xt j)]) end.
Definition pso_init (N : nat) (L : mat) (s : vec) (Xt : nat -> mat) : mat := pso_fill (N - 1) 1 L Xt [s].
(** [_align_vector], minimax.py 16-28 without L; [lsa D] are the columns of linear_sum_assignment (the rows come sorted) *)
Definition align (lsa : mat -> list nat) (X Xhat : mat) : mat := map (fun c => nth c Xhat []) (lsa (map (fun x => map (edist x) Xhat) X)).
Definition mget (M : mat) (i j : nat) : R := vget (nth i M []) j.
(** the weights and the combination, minimax.py 228-245: [u t i j] is the entry i, j of the t-th np.random.uniform; a weight for each entry *)
Definition mix_entry (a : nat -> R) (u : nat -> nat -> nat -> R) (P1 P2 P3 P4 : mat) (i j : nat) : R :=
  let A t := a t * u t i j in
  let s := A 0%nat + A 1%nat + A 2%nat + A 3%nat in
  A 0%nat / s * mget P1 i j + A 1%nat / s * mget P2 i j + A 2%nat / s * mget P3 i j + A 3%nat / s * mget P4 i j.
Definition mix (N n : nat) (a : nat -> R) (u : nat -> nat -> nat -> R) (P1 P2 P3 P4 : mat) : mat :=
  map (fun i => map (mix_entry a u P1 P2 P3 P4 i) (seq 0 n)) (seq 0 N).
Definition set_nth {A : Type} (k : nat) (v : A) (l : list A) : list A := firstn k l ++ match skipn k l with [] => [] | _ :: r => v :: r end.
(** the particles, the best design of each with its score (None: inf), and the best of all *)
Record swarm := mkSwarm { w_X : list mat; w_loc : list mat; w_sc : list (option R); w_glob : mat * option R }.
(** everything drawn or solved for: weights, centres (_cq_center_cvxpy with the domain; the old centre when it raises ValueError), samples Z, fresh designs *)
Record oracles := mkOr { o_u : nat -> nat -> nat -> nat -> nat -> R; o_center : nat -> nat -> mat -> vec -> vec; o_Z : nat -> nat -> mat; o_new : nat -> mat; o_lsa : mat -> list nat }.
(** the design after one pass of the inner loop, minimax.py 209-248 *)
Definition pso_new (N n : nat) (L X : mat) (a : nat -> R) (o : oracles) (it k : nat) (st : swarm) : mat :=
  let Xhat := nth k (w_X st) [] in
  let I := assign L Xhat X in
  let Xc := map (fun i => o_center o it k (cluster_of I i (map (mv L) X)) (nth i Xhat [])) (seq 0 N) in
  mix N n a (o_u o it k) (align (o_lsa o) Xhat Xc) (align (o_lsa o) Xhat (nth k (w_loc st) [])) (align (o_lsa o) Xhat (fst (w_glob st))) (o_Z o it k).
Definition better (d : R) (b : option R) : bool := match b with None => true | Some b => Rltb d b end.
(** the scores, minimax.py 250-259 *)
Definition pso_step (N n : nat) (L X : mat) (a : nat -> R) (o : oracles) (it : nat) (st : swarm) (k : nat) : swarm :=
  let Xn := pso_new N n L X a o it k st in
  let d := mm_dist L Xn X in
  let up := better d (nth k (w_sc st) None) in
  mkSwarm (set_nth k Xn (w_X st)) (if up then set_nth k Xn (w_loc st) else w_loc st) (if up then set_nth k (Some d) (w_sc st) else w_sc st) (mc_best (w_glob st) Xn d).
(** np.argmax(best_scores_local): the first inf if there is one *)
Fixpoint first_inf (k : nat) (l : list (option R)) : option nat := match l with [] => None | None :: _ => Some k | Some _ :: l' => first_inf (S k) l' end.
Definition worst (l : list (option R)) : nat := match first_inf 0 l with Some k => k | None => argmax (map (fun s => match s with Some r => r | None => 0 end) l) end.
(** the outer loop, minimax.py 206-268; the score and the best design of the particle that is replaced stay *)
Definition pso_round (N n p : nat) (L X : mat) (a : nat -> R) (o : oracles) (rw : bool) (it : nat) (st : swarm) : swarm :=
  let st := fold_left (pso_step N n L X a o it) (seq 0 p) st in
  if rw then mkSwarm (set_nth (worst (w_sc st)) (o_new o it) (w_X st)) (w_loc st) (w_sc st) (w_glob st) else st.
Fixpoint pso_loop (m it N n p : nat) (L X : mat) (a : nat -> R) (o : oracles) (rw : bool) (st : swarm) : swarm :=
  match m with O => st | S m' => pso_loop m' (S it) N n p L X a o rw (pso_round N n p L X a o rw it st) end.
(** [minimax_cluster_pso]: [Xs] the initial designs (at least one) *)
Definition pso (maxiter N n : nat) (L X : mat) (a : nat -> R) (o : oracles) (rw : bool) (Xs : list mat) : mat * option R :=
  w_glob (pso_loop maxiter 0 N n (length Xs) L X a o rw (mkSwarm Xs Xs (repeat None (length Xs)) (nth 0 Xs [], None))).
