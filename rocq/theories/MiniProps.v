(** Generated by tools/mkprops.py from tools/props/MiniProps.spec: the property theorems. *)
Require Import Reals List Bool Arith ZArith.
From Verif Require Import RVec Num DomMoreModel LipModel SampModel MiniModel MiniProofs.
Import ListNotations.
Local Open Scope R_scope.

Local Open Scope R_scope.

(** C114: smallest enclosing ball *)
Theorem C114_optimal : forall solve X L m x r, miniball solve X (Some L) = Some (x, r) -> (forall p, In p X -> length p = m) ->
  solves m solve (mb_obj L X) ->
  encloses L X x r /\ (exists p, In p X /\ norm2 (mv L (vsub x p)) = r) /\
  forall c rho, length c = m -> encloses L X c rho -> r <= rho.
Proof. exact miniball_optimal. Qed.
Print Assumptions C114_optimal.

Theorem C114_growth : forall solve X L m x r, miniball solve X (Some L) = Some (x, r) -> (forall p, In p X -> length p = m) ->
  solves m solve (mb_obj L X) ->
  forall c rho, length c = m -> encloses L X c rho -> r * r + norm2sq (mv L (vsub x c)) <= rho * rho.
Proof. exact miniball_growth. Qed.
Print Assumptions C114_growth.

Theorem C114_unique : forall solve X L m x r, miniball solve X (Some L) = Some (x, r) -> (forall p, In p X -> length p = m) ->
  solves m solve (mb_obj L X) -> forall c, length c = m -> encloses L X c r -> norm2 (mv L (vsub x c)) = 0.
Proof. exact miniball_unique. Qed.
Print Assumptions C114_unique.

Theorem C114_radius : forall solve X L m x r, miniball solve X (Some L) = Some (x, r) -> (forall p, In p X -> length p = m) ->
  solves m solve (mb_obj L X) -> forall d, (forall p q, In p X -> In q X -> norm2 (mv L (vsub p q)) <= d) ->
  r <= d /\ forall p q, In p X -> In q X -> norm2 (mv L (vsub p q)) <= 2 * r.
Proof. exact miniball_radius. Qed.
Print Assumptions C114_radius.

Theorem C114_default : forall solve X m x r, miniball solve X None = Some (x, r) -> (forall p, In p X -> length p = m) ->
  solves m solve (mb_obj (meye m) X) ->
  (forall p, In p X -> norm2 (vsub x p) <= r) /\ (forall c, length c = m -> (forall p, In p X -> norm2 (vsub c p) <= r) -> c = x) /\
  forall a b i, (i < m)%nat -> (forall p, In p X -> a <= vget p i <= b) -> a <= vget x i <= b.
Proof. exact miniball_default. Qed.
Print Assumptions C114_default.

Example C114_case : let solve := fun _ : vec -> R => [3; 4] in
  solves 2 solve (mb_obj (meye 2) [[0; 0]; [6; 8]]) /\ miniball solve [[0; 0]; [6; 8]] None = Some ([3; 4], 5).
Proof. exact miniball_case. Qed.

(** C115: convergence study *)
Theorem C115_angles : forall pi2 angle fit Ns k, Ns <> [] -> let (a, Ms) := subspace_convergence pi2 angle fit Ns k in
  length a = length Ns /\ length Ms = length Ns /\ nth 0 a 0 = pi2 /\
  (forall i, (S i < length Ns)%nat -> nth (S i) a 0 =
     angle (map (firstn k) (snd (fit (nth i Ns 0%nat)))) (map (firstn k) (snd (fit (nth (S i) Ns 0%nat))))) /\
  forall i, (i < length Ns)%nat -> nth i Ms 0%nat = fst (fit (nth i Ns 0%nat)).
Proof. exact study_angles. Qed.
Print Assumptions C115_angles.

Theorem C115_lengths_refuted : exists pi2 angle fit Ns k, let (a, Ms) := subspace_convergence pi2 angle fit Ns k in length a <> length Ms.
Proof. exact study_lengths_refuted. Qed.
Print Assumptions C115_lengths_refuted.

Example C115_case : let (a, Ms) := subspace_convergence 2 (fun U V => vget (nth 0 U []) 0 + vget (nth 0 V []) 0) (fun N => ((N * N)%nat, [[INR N; 7]])) [1; 3]%nat 1 in
  nth 1 a 0 = 1 + 3 /\ Ms = [1; 9]%nat.
Proof. exact study_case. Qed.

(** C116: empirical safety factor *)
Theorem C116_range : forall y q t, percentile y q = Some t -> vmin y <= t <= vmax y.
Proof. exact percentile_range. Qed.
Print Assumptions C116_range.

Theorem C116_upper : forall p y t, safety_factor true p y = Some t ->
  INR (countb (fun a => Rltb t a) y) < p * INR (length y - 1) + 1.
Proof. exact safety_upper. Qed.
Print Assumptions C116_upper.

Theorem C116_lower : forall p y t, safety_factor false p y = Some t ->
  INR (countb (fun a => Rltb a t) y) < p * INR (length y - 1) + 1.
Proof. exact safety_lower. Qed.
Print Assumptions C116_lower.

Theorem C116_share_refuted : exists p y t, 0 < p < 1 /\ safety_factor true p y = Some t /\
  p < INR (countb (fun a => Rltb t a) y) / INR (length y).
Proof. exact safety_share_refuted. Qed.
Print Assumptions C116_share_refuted.

Example C116_case : percentile [0; 1] 75 = Some (3 / 4).
Proof. exact percentile_case. Qed.
