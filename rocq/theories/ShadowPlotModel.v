(** Model of the shadow plots: SubspaceBasedDimensionReduction.shadow_plot (subspace.py 51-121), RidgeFunction.shadow_plot (ridge.py 15-69) and the curves of
    LipschitzApproximation.shadow_plot (lipschitz_approx.py 73-118): which numbers are drawn and written to the pgf files, under which file names.
    Left out: matplotlib itself (axes, labels, colours). *)
Require Import Reals List Bool Arith Ascii.
From Verif Require Import RVec Num DomModel DomMoreModel LipModel SampModel.
Import ListNotations.
Local Open Scope R_scope.

Inductive perr := PAssert | PIndex | PValue | PNotImpl | PAttr.
(** the argument U: None, a 1-d array, a 2-d array (list of rows) *)
Inductive uarg := UNone | U1 (u : vec) | U2 (V : mat).
Definition ncols (V : mat) : nat := match V with [] => O | r :: _ => length r end.
(** the U used, subspace.py 81-88 *)
Definition pick_u (m : nat) (selfU : mat) (U : uarg) : mat + perr :=
  match U with
  | UNone => inl selfU
  | U1 u => if Nat.eqb (length u) m then inl (map (fun a => [a]) u) else inr PValue
  | U2 V => if Nat.eqb (length V) m then inl V else inr PAssert
  end.
(** subspace.py 51-121: the columns plotted and written ('y', 'fX' or 'y1', 'y2', 'fX'); m = len(self); fX must be given *)
Definition base_plot (m : nat) (selfX selfU : mat) (X : option mat) (fX : vec) (dim : nat) (U : uarg) : list vec + perr :=
  let X' := match X with Some X => X | None => selfX end in
  if negb (forallb (fun x => Nat.eqb (length x) m) X') then inr PAssert
  else match pick_u m selfU U with
       | inr e => inr e
       | inl V => match dim with
                  | 1%nat => if Nat.ltb (ncols V) 1 then inr PIndex else inl [map (fun x => dot x (col V 0)) X'; fX]
                  | 2%nat => if Nat.ltb (ncols V) 2 then inr PIndex else inl [map (fun x => dot x (col V 0)) X'; map (fun x => dot x (col V 1)) X'; fX]
                  | _ => inr PNotImpl
                  end
       end.
(** ridge.py 24-30: the response curve for one direction u = U[:,0]; Y the projected samples; n = 500 *)
Definition ridge_curve (f : vec -> R) (u : vec) (Y : vec) (n : nat) : vec * vec :=
  let xx := linspace (vmin Y) (vmax Y) n in (xx, map (fun a => f (map (fun ui => ui * a) u)) xx).
(** ridge.py 43-58: the mesh of the contour plot; row i, column j of YY belongs to xx1[i] and xx0[j] (np.meshgrid, flatten and reshape are row by row); n = 50 *)
Definition ridge_mesh (f : vec -> R) (V : mat) (Y0 Y1 : vec) (n : nat) : vec * vec * mat :=
  let xx0 := linspace (vmin Y0) (vmax Y0) n in
  let xx1 := linspace (vmin Y1) (vmax Y1) n in
  (xx0, xx1, map (fun b => map (fun a => f (map (fun r => dot r [a; b]) V)) xx0) xx1).
Inductive drawn := Curve (t : list vec) (c : vec * vec) | Mesh (t : list vec) (c : vec * vec * mat).
(** ridge.py 15-69: [dim] None is the number of columns of U; the base class is called without U; the argument X itself is used for the response
    (None.T: AttributeError), so is fX for the levels *)
Definition ridge_plot (m : nat) (f : vec -> R) (selfX V : mat) (X : option mat) (fX : vec) (dim : option nat) (n1 n2 : nat) : drawn + perr :=
  let d := match dim with None => ncols V | Some d => d end in
  if negb (Nat.eqb d (ncols V)) then inr PAssert
  else match base_plot m selfX V X fX d UNone with
       | inr e => inr e
       | inl t => match X with
                  | None => inr PAttr
                  | Some X' => match d with
                               | 1%nat => inl (Curve t (ridge_curve f (col V 0) (map (fun x => dot (col V 0) x) X') n1))
                               | _ => inl (Mesh t (ridge_mesh f V (map (fun x => dot (col V 0) x) X') (map (fun x => dot (col V 1) x) X') n2))
                               end
                  end
       end.

(** str.rfind *)
Fixpoint rfind (c : ascii) (s : list ascii) : option nat :=
  match s with
  | [] => None
  | a :: s' => match rfind c s' with Some k => Some (S k) | None => if Ascii.eqb a c then Some O else None end
  end.
Definition dot_char : ascii := ascii_of_nat 46.
Definition slash : ascii := ascii_of_nat 47.
(** '_response' *)
Definition resp : list ascii := map ascii_of_nat [95; 114; 101; 115; 112; 111; 110; 115; 101]%nat.
(** pgfname[:pgfname.rfind('.')] + '_response' + pgfname[pgfname.rfind('.'):], ridge.py 37; without a dot rfind is -1 and the slices leave out and start at the
    last character *)
Definition resp_name (s : list ascii) : list ascii :=
  match rfind dot_char s with
  | Some k => firstn k s ++ resp ++ skipn k s
  | None => removelast s ++ resp ++ skipn (length s - 1) s
  end.
(** os.path.dirname up to the last slash *)
Definition dirname (s : list ascii) : list ascii := match rfind slash s with Some k => firstn k s | None => [] end.

(** lipschitz_approx.py 88-92: abscissas of the curves, u^T x for the rows of maximin_design_1d (c1 = corner(L), c2 = corner(-L)); the central curve *)
Definition lip_xs (u c1 c2 : vec) (n : nat) : vec := map (dot u) (maximin_1d c1 c2 n).
Definition lip_centre (lb ub : vec) : vec := vmap2 (fun a b => / 2 * (a + b)) lb ub.
