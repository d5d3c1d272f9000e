(** Generated by tools/mkprops.py from tools/props/ShadowPlotProps.spec: the property theorems. *)
Require Import Reals List Bool Arith ZArith Ascii.
From Verif Require Import RVec Num Sums DomModel DomSpec DomProofs DomMoreModel SweepProofs HullProofs HullIneqProofs LipModel LipProofs LipMoreProofs MatLib GrassLib SampModel SubModel ShadowProofs ShadowPlotModel ShadowPlotProofs.
Import ListNotations.
Local Open Scope R_scope.

Local Open Scope R_scope.

(** what is drawn *)
Theorem C146_curve_profile : forall m V f g Y n k, length V = m -> ncols V = 1%nat -> orthon V -> ridge_of m V f g -> (k < n)%nat ->
  vget (snd (ridge_curve f (col V 0) Y n)) k = g [vget (fst (ridge_curve f (col V 0) Y n)) k].
Proof. exact curve_profile. Qed.
Print Assumptions C146_curve_profile.

Example C146_curve_ex : orthon [[3/5]; [4/5]] /\ ridge_of 2 [[3/5]; [4/5]] (fun x => 3/5 * vget x 0 + 4/5 * vget x 1) (fun y => vget y 0).
Proof. exact ex_curve. Qed.

Theorem C146_mesh_profile : forall m V f g Y0 Y1 n i j, length V = m -> V <> [] -> Forall (fun r => length r = 2%nat) V -> orthon V -> ridge_of m V f g -> (i < n)%nat -> (j < n)%nat ->
  let '(xx0, xx1, YY) := ridge_mesh f V Y0 Y1 n in vget (nth i YY []) j = g [vget xx0 j; vget xx1 i].
Proof. exact mesh_profile. Qed.
Print Assumptions C146_mesh_profile.

Example C146_mesh_ex : orthon [[1; 0]; [0; 1]] /\ ridge_of 2 [[1; 0]; [0; 1]] (fun x => vget x 0 * vget x 1) (fun y => vget y 0 * vget y 1).
Proof. exact ex_mesh. Qed.

Theorem C146_curve_covers : forall f u X n x, (2 <= n)%nat -> In x X ->
  let xx := fst (ridge_curve f u (map (fun x => dot u x) X) n) in vget xx 0 <= dot u x <= vget xx (n - 1) /\ exists z z', In z X /\ In z' X /\ vget xx 0 = dot u z /\ vget xx (n - 1) = dot u z'.
Proof. exact curve_covers. Qed.
Print Assumptions C146_curve_covers.

Theorem C146_curve_line : forall m V f g Y n k t K, length V = m -> ncols V = 1%nat -> orthon V -> ridge_of m V f g -> Y <> [] -> (S k < n)%nat -> 0 <= t <= 1 ->
  (forall a b, Rabs (g [a] - g [b]) <= K * Rabs (a - b)) ->
  let '(xx, yy) := ridge_curve f (col V 0) Y n in
  Rabs ((1 - t) * vget yy k + t * vget yy (S k) - g [(1 - t) * vget xx k + t * vget xx (S k)]) <= K / 2 * ((vmax Y - vmin Y) / INR (n - 1)).
Proof. exact curve_line. Qed.
Print Assumptions C146_curve_line.

Theorem C146_points_profile : forall m V f g X t i, ncols V = 1%nat -> ridge_of m V f g -> base_plot m X V None (map f X) 1 UNone = inl t -> (i < length X)%nat ->
  exists ys fs, t = [ys; fs] /\ vget fs i = g [vget ys i].
Proof. exact points_profile. Qed.
Print Assumptions C146_points_profile.

Theorem C146_curve_refuted : exists m V f g X t xx yy, ncols V = 1%nat /\ ridge_of m V f g /\ ridge_plot m f X V (Some X) (map f X) None 2 2 = inl (Curve t (xx, yy)) /\
  exists i k, (i < length X)%nat /\ (k < length xx)%nat /\ vget (nth 0 t []) i = vget xx k /\ vget (nth 1 t []) i <> vget yy k /\ vget yy k <> g [vget xx k].
Proof. exact curve_refuted. Qed.
Print Assumptions C146_curve_refuted.

(** which arguments are accepted *)
Theorem C146_base_iff : forall m selfX selfU X fX dim U, let X' := match X with Some X => X | None => selfX end in
  (exists t, base_plot m selfX selfU X fX dim U = inl t) <-> exists V, pick_u m selfU U = inl V /\ dims_ok m X' V dim.
Proof. exact base_iff. Qed.
Print Assumptions C146_base_iff.

Theorem C146_default_refuted : (forall m f selfX V fX dim n1 n2 d, ridge_plot m f selfX V None fX dim n1 n2 <> inl d) /\ exists m selfX V fX t, base_plot m selfX V None fX 1 UNone = inl t.
Proof. exact default_refuted. Qed.
Print Assumptions C146_default_refuted.

Theorem C146_doc_shape_refuted : (forall m selfX selfU X fX u, (1 < m)%nat -> exists e, base_plot m selfX selfU X fX 1 (U2 [u]) = inr e) /\
  exists m X fX t, base_plot m X [] None fX 1 (U2 [[1; 2]; [3; 4]]) = inl t /\ nth 0 t [] <> map (fun x => dot x [1; 2]) X.
Proof. exact doc_shape_refuted. Qed.
Print Assumptions C146_doc_shape_refuted.

(** the names of the files *)
Theorem C146_resp_ext : forall b e, ~ In dot_char e -> resp_name (b ++ dot_char :: e) = b ++ resp ++ dot_char :: e.
Proof. exact resp_ext. Qed.
Print Assumptions C146_resp_ext.

Theorem C146_resp_last : forall p c, ~ In dot_char (p ++ [c]) -> resp_name (p ++ [c]) = p ++ resp ++ [c].
Proof. exact resp_last. Qed.
Print Assumptions C146_resp_last.

Theorem C146_resp_new : forall s, resp_name s <> s.
Proof. exact resp_new. Qed.
Print Assumptions C146_resp_new.

Theorem C146_resp_inj : forall s t, resp_name s = resp_name t -> s = t.
Proof. exact resp_inj. Qed.
Print Assumptions C146_resp_inj.

Theorem C146_resp_dir : forall d b e, ~ In slash b -> ~ In slash e -> ~ In dot_char e -> dirname (resp_name (d ++ slash :: b ++ dot_char :: e)) = dirname (d ++ slash :: b ++ dot_char :: e).
Proof. exact resp_dir. Qed.
Print Assumptions C146_resp_dir.

Theorem C146_resp_refuted : (exists s, resp_name s <> s ++ resp /\ resp_name s <> resp ++ s /\ ~ In dot_char s /\ removelast s ++ resp ++ [last s zero] = resp_name s /\ resp <> [] /\ s <> []) /\ exists s, dirname (resp_name s) <> dirname s.
Proof. exact resp_refuted. Qed.
Print Assumptions C146_resp_refuted.

(** the curves of LipschitzApproximation *)
Theorem C146_lip_sorted : forall u c1 c2 n i j, length c1 = length c2 -> (2 <= n)%nat -> dot u c2 <= dot u c1 -> (i <= j)%nat -> (j < n)%nat ->
  vget (lip_xs u c1 c2 n) i <= vget (lip_xs u c1 c2 n) j /\ vget (lip_xs u c1 c2 n) 0 = dot u c2 /\ vget (lip_xs u c1 c2 n) (n - 1) = dot u c1.
Proof. exact lip_sorted. Qed.
Print Assumptions C146_lip_sorted.

Theorem C146_lip_mid : forall lb ub k, length lb = length ub -> (k < length lb)%nat -> vget lb k <= vget ub k ->
  vget lb k <= vget (lip_centre lb ub) k <= vget ub k /\ vget ub k - vget (lip_centre lb ub) k = vget (lip_centre lb ub) k - vget lb k.
Proof. exact lip_mid. Qed.
Print Assumptions C146_lip_mid.
