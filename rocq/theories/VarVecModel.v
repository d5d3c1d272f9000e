(** Model of the several-output variable projection, polyridge_vec.py 30-117.  fX.reshape(M, -1) is given by its columns [fs], one
    vector per output; a matrix U by its columns.  Simplified: Basis, from the package polyrat, is a tensor product basis of
    BasisModel or the Arnoldi basis of PSDR's basis.py; scipy.linalg.lstsq gives the columns [cs] (contract ls_opt for each). *)
Require Import Reals List Bool Arith.
From Verif Require Import RVec Num Sums DomModel DomMoreModel BasisModel MatLib LipModel PolyfitModel RidgeModel VarArnModel.
Import ListNotations.
Local Open Scope R_scope.

(** r.T.flatten() with r = fX - V @ c, polyridge_vec.py 44-45 *)
Definition vv_residual (V : mat) (fs cs : list vec) : vec := concat (map (fun fc => vp_residual V (fst fc) (snd fc)) (combine fs cs)).
(** np.vstack(Js), polyridge_vec.py 89-91; [Js]: the columns of each J, [N] columns *)
Definition vstack (N : nat) (Js : list (list vec)) : list vec := map (fun i => concat (map (fun J => nth i J []) Js)) (seq 0 N).
(** _varpro_jacobian, polyridge_vec.py 47-91: one J for each pair (ri, ci) of columns *)
Definition vv_jac (B : tbasis) (us : list vec) (m : nat) (X : mat) (ys : list vec) (s : vec) (zs : list vec) (fs cs : list vec) : list vec :=
  vstack (m * length us) (map (fun fc => vp_jac B us m X ys s zs (snd fc) (vp_residual (vp_V B us X) (fst fc) (snd fc))) (combine fs cs)).
(** the same with the Arnoldi basis, polyridge_vec.py 38-39 and 60-64; simplified: the basis, the same for all outputs, is written as
    built for each *)
Definition va_vec_residual (p : nat) (us : list vec) (X : mat) (fs : list vec) : option vec := option_map (@concat R) (all_some (map (va_residual p us X) fs)).
Definition va_vec_jac (p m : nat) (us : list vec) (X : mat) (fs : list vec) : option (list vec) :=
  option_map (vstack (m * length us)) (all_some (map (va_jac p m us X) fs)).
(** _varpro_jacobian_fixed, polyridge_vec.py 108-117, for all M rows of J, given by columns *)
Definition pv_fixed (M m nf n : nat) (uc J : list vec) : list vec :=
  map (fun i => map (fun a => vget (pv_jac_row m nf n uc (map (fun col => vget col a) J)) i) (seq 0 M)) (seq 0 (length uc * n)).
