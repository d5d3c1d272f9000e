(** High-level minimax designs: minimax_design (minimax.py 474-487) and minimax_optimal_cover (minimax.py 104-137). *)
Require Import Reals List Bool Arith ZArith.
From Verif Require Import RVec Num DomModel DomMoreModel LipModel SampModel GeoModel SampMoreModel.
Import ListNotations.
Local Open Scope R_scope.

(** result of a routine that may raise *)
Inductive dres := DRaise | DDesign (X : mat).
(** the try block of [minimax_design]: [minimax_design_1d], minimax.py 459-472.  m = len(domain); L after np.atleast_2d; [corner a] = domain.corner(a).
    Outer None: one of the two assertions fails; inner None: ZeroDivisionError (1./N). *)
Definition try_1d (m : nat) (L : option mat) (corner : vec -> vec) (N : nat) : option (option mat) :=
  match L with
  | None => if Nat.eqb m 1 then Some (minimax_1d (corner [1]) (corner [-1]) N) else None
  | Some M => if Nat.eqb (length M) 1 then Some (minimax_1d (corner (concat M)) (corner (vscale (-1) (concat M))) N) else None
  end.
(** [minimax_design], minimax.py 484-487: only the AssertionError is caught; [cluster] is what minimax_cluster(domain, N, L) does *)
Definition minimax_design (m : nat) (L : option mat) (corner : vec -> vec) (cluster : dres) (N : nat) : dres :=
  match try_1d m L corner N with
  | Some (Some X) => DDesign X
  | Some None => DRaise
  | None => cluster
  end.

(** L.T for L with m columns *)
Definition mT (m : nat) (L : mat) : mat := map (fun j => map (fun row => vget row j) L) (seq 0 m).
(** [N0], [N1], minimax.py 131-132 (k = 1, 3): int(np.floor((k/r)**len(domain) * (domain_volume/ball_volume) * abs(det(L)))) *)
Definition cover_num (m : nat) (k r vol ball det : R) : Z := Int_part ((k / r) ^ m * (vol / ball) * Rabs det).
(** [maximin_distance], minimax.py 121-125: both sets are mapped by L.T *)
Definition cover_dist (m : nat) (L X : mat) (D : mat) : R := mm_dist (mT m L) D X.
(** [minimax_optimal_cover], minimax.py 104-137.  [design n] = minimax_cluster(domain, n, L = L, X = X) (evaluated once for each n because of lru_cache, hence a function);
    None: an exception.  L = None has no attribute T (line 120); for n = 0 the clustering takes the argmin over no centres and raises.  Not modelled:
    that the clustering also raises for n > len(X). *)
Definition optimal_cover (m : nat) (L : option mat) (X : mat) (design : Z -> mat) (r vol ball det : R) : option mat :=
  match L with
  | None => None
  | Some M => let n0 := cover_num m 1 r vol ball det in
              let n1 := cover_num m 3 r vol ball det in
              if Z.leb n0 0 then None
              else match int_bisect (Z.to_nat (n1 - n0)) (fun n => r - cover_dist m M X (design n)) n0 n1 with
                   | BVal n => Some (design n)
                   | _ => None
                   end
  end.
