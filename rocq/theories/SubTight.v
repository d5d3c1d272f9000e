(** Tightened statements about the shadow envelope and other parts of subspace.py: the contracts are put on the solvers, not on the results. *)
Require Import Reals List Bool Arith ZArith Lia Lra.
From Verif Require Import RVec Num Sums DomMoreModel SweepProofs HullIneqProofs MatLib LipModel SubModel ShadowProofs.
Import ListNotations.
Local Open Scope R_scope.

(** the second component lies below the data and the third one above, if the two programs are solved *)
Theorem envelope_solvers : forall (solve_ub solve_lb : mat -> vec -> vec) X fX u ngrid y lb ub,
  shadow_envelope solve_ub solve_lb X fX u ngrid = Some (y, lb, ub) ->
  let n := se_ngrid y ngrid in (2 <= n)%nat ->
  se_ub_ok n (se_A y n) fX (solve_ub (se_A y n) fX) -> se_lb_ok n (se_A y n) fX (solve_lb (se_A y n) fX) ->
  (forall i, (i < length X)%nat -> exists k, (S k < n)%nat /\ vget (se_grid y n) k <= dot (nth i X []) u <= vget (se_grid y n) (S k) /\
     on_piece (se_grid y n) lb k (dot (nth i X []) u) <= vget fX i <= on_piece (se_grid y n) ub k (dot (nth i X []) u)) /\
  se_ub_ok n (se_A y n) fX ub /\ se_lb_ok n (se_A y n) fX lb.
Proof.
  intros su sl X fX u ngrid y lb ub E n Hn HU HL. assert (E2 : y = map (fun x => dot x u) X /\ lb = sl (se_A y n) fX /\ ub = su (se_A y n) fX).
  { unfold shadow_envelope in E. destruct (negb _); [discriminate|]. cbv zeta in E. destruct (Reqb _ 0); [discriminate|]. injection E as <- <- <-. auto. }
  destruct E2 as [EY [E1 E2]]. rewrite <- E1 in HL. rewrite <- E2 in HU. split; [|auto]. intros i Hi. destruct (envelope_encloses su sl X fX u ngrid y lb ub E Hn HU HL) as [_ [_ [Hv B]]].
  rewrite EY in Hv. destruct (envelope_pieces X u n i Hn Hv Hi) as [k [Hk P]]. rewrite <- EY in P. exists k. split; auto.
Qed.
