(** Tactics for vector identities: equal lengths, then equal entries. *)
Require Import Reals Lia List.
From Verif Require Import RVec DomMoreModel SweepProofs HullProofs.
Local Open Scope R_scope.

Ltac vlen := 
  repeat first [rewrite vscale_length | rewrite mv_length | rewrite vadd_length by vlen | rewrite vsub_length by vlen | rewrite vmul_length by vlen
               | rewrite repeat_length]; first [assumption | reflexivity | congruence | lia | (symmetry; assumption)].
Ltac vget_simp := repeat first [rewrite vscale_get | rewrite vadd_get by vlen | rewrite vsub_get by vlen | rewrite vzero_get].
Ltac vring := apply vec_ext; [vlen | let i := fresh "i" in let Hi := fresh "Hi" in intros i Hi; vget_simp; try ring].
