(** Model of the treatment of the data given to LipschitzMatrix.fit (psdr/lipschitz.py 121-139, psdr/subspace.py 226-232).  _preprocess_data
    (psdr/lipschitz_utils.py 122-149) has the same branches, apart from the dimension taken from X.shape[1]; nothing calls it.  Arguments are
    numbers or rectangular arrays; what happens to the data afterwards is in LipModel.v. *)
Require Import Reals List Bool Arith.
From Verif Require Import RVec.
Import ListNotations.
Local Open Scope R_scope.

(** a one-dimensional array, or a two-dimensional one with k columns *)
Inductive darr := D1 (v : vec) | D2 (k : nat) (rows : mat).
Definition dlen (a : darr) : nat := match a with D1 v => length v | D2 _ rows => length rows end.
(** the entries in the order of reshape *)
Definition entries (a : darr) : vec := match a with D1 v => v | D2 _ rows => concat rows end.
Inductive derr := XNoDim | XType | XIndex | XAssert | XValue.
Inductive dres (A : Type) := DOk (a : A) | DErr (e : derr).
Arguments DOk {A} a. Arguments DErr {A} e.
Definition dbind {A B : Type} (r : dres A) (f : A -> dres B) : dres B := match r with DOk a => f a | DErr e => DErr e end.

(** len(a[0]) *)
Definition dcols (a : darr) : dres nat :=
  match a with D1 [] => DErr XIndex | D1 (_ :: _) => DErr XType | D2 _ [] => DErr XIndex | D2 k (_ :: _) => DOk k end.
(** _init_dim, subspace.py 226-232 *)
Definition lip_dim (X grads : option darr) : dres nat :=
  match X, grads with
  | Some X, _ => if Nat.ltb 0 (dlen X) then dcols X else match grads with Some g => dcols g | None => DErr XNoDim end
  | None, Some g => dcols g
  | None, None => DErr XNoDim
  end.
(** np.atleast_2d: the number of columns and the rows *)
Definition atleast2 (a : darr) : nat * mat := match a with D1 v => (length v, [v]) | D2 k rows => (k, rows) end.
(** pieces of length m *)
Fixpoint pieces (n m : nat) (v : vec) : mat := match n with O => [] | S n' => firstn m v :: pieces n' m (skipn m v) end.
(** a.reshape(-1, m) *)
Definition reshape_rows (m : nat) (a : darr) : dres mat :=
  match m with
  | O => DErr XValue
  | _ => let t := length (entries a) in if Nat.eqb (t mod m) 0 then DOk (pieces (t / m) m (entries a)) else DErr XValue
  end.
(** a.reshape(n) *)
Definition reshape1 (n : nat) (a : darr) : dres vec := if Nat.eqb (length (entries a)) n then DOk (entries a) else DErr XValue.
(** values: a number (TypeError of len) or an array *)
Inductive farg := F0 (r : R) | FA (a : darr).
Record ldata := mkData { l_dim : nat; l_X : mat; l_fX : vec; l_grads : mat }.
(** fit up to line 139 *)
Definition lip_data (X : option darr) (fX : option farg) (grads : option darr) : dres ldata :=
  dbind (lip_dim X grads) (fun m =>
  dbind (match X, fX with
         | Some X, Some f =>
             match f with
             | F0 _ => DErr XType
             | FA f => if Nat.eqb (dlen f) (dlen X) then
                         let kx := atleast2 X in
                         dbind (reshape1 (length (snd kx)) f) (fun v => DOk (fst kx, snd kx, v))
                       else DErr XAssert
             end
         | None, None => DOk (m, [], [])
         | _, _ => DErr XAssert
         end) (fun kxv =>
  let m := fst (fst kxv) in
  dbind (match grads with Some g => reshape_rows m g | None => DOk [] end) (fun G => DOk (mkData m (snd (fst kxv)) (snd kxv) G)))).
