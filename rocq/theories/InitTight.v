(** At which samples initialize_subspace (initialization.py 6-25) estimates gradients. *)
Require Import Reals Lra Lia List Bool Arith Permutation.
From Verif Require Import RVec Num DomMoreModel LipModel SubModel.
Import ListNotations.
Local Open Scope R_scope.

Lemma NoDup_firstn : forall (A : Type) k (l : list A), NoDup l -> NoDup (firstn k l).
Proof.
  induction k as [|k IH]; intros l ND; simpl; [constructor|]. destruct l as [|a l]; [constructor|]. inversion ND; subst. constructor; [|auto].
  intro I. apply H1. rewrite <- (firstn_skipn k l). apply in_or_app; auto.
Qed.

(** With samples and gradients given: enough gradients, or too few samples, and the estimator is not consulted (so it may fail); otherwise it is called once, at as many different samples as gradients are missing (all samples if there are fewer), and what it returns is put below the gradients. *)
Theorem init_queries : forall perm svd1 m X f G n_grads,
  Permutation (perm (length X)) (seq 0 (length X)) -> length X = length f ->
  ((n_grads <= length G)%nat \/ (length X <= m)%nat -> forall llg, initialize_subspace perm llg svd1 (Some (mkArr m X)) (Some f) (Some (mkArr m G)) n_grads = Some (svd1 G)) /\
  ((length G < n_grads)%nat -> (m < length X)%nat -> exists idx, NoDup idx /\ (forall i, In i idx -> (i < length X)%nat) /\ length idx = Nat.min (n_grads - length G) (length X) /\
     forall llg, (llg X f (map (fun i => nth i X []) idx) = None -> initialize_subspace perm llg svd1 (Some (mkArr m X)) (Some f) (Some (mkArr m G)) n_grads = None) /\
       (forall est, llg X f (map (fun i => nth i X []) idx) = Some est -> initialize_subspace perm llg svd1 (Some (mkArr m X)) (Some f) (Some (mkArr m G)) n_grads = Some (svd1 (G ++ est)))).
Proof.
  intros perm svd1 m X f G n PM L.
  assert (EC : check_sample_inputs (Some (mkArr m X)) (Some f) (Some (mkArr m G)) = Some (mkArr m X, f, mkArr m G)).
  { unfold check_sample_inputs. cbn [arows acols]. rewrite L, !Nat.eqb_refl. reflexivity. }
  split.
  - intros H llg. unfold initialize_subspace. rewrite EC. cbn [arows acols].
    replace (Nat.ltb (length G) n && Nat.leb (m + 1) (length X)) with false; auto. symmetry. apply andb_false_iff. destruct H; [left; apply Nat.ltb_ge|right; apply Nat.leb_gt]; lia.
  - intros H1 H2. exists (firstn (n - length G) (perm (length X))). split; [|split; [|split]].
    + apply NoDup_firstn. eapply Permutation_NoDup; [apply Permutation_sym; exact PM|apply seq_NoDup].
    + intros i I. assert (I' : In i (perm (length X))) by (rewrite <- (firstn_skipn (n - length G) (perm (length X))); apply in_or_app; auto).
      apply (Permutation_in _ PM) in I'. apply in_seq in I'. lia.
    + rewrite firstn_length. rewrite (Permutation_length PM), seq_length. reflexivity.
    + intro llg. unfold initialize_subspace. rewrite EC. cbn [arows acols].
      replace (Nat.ltb (length G) n && Nat.leb (m + 1) (length X)) with true by (symmetry; apply andb_true_iff; split; [apply Nat.ltb_lt|apply Nat.leb_le]; lia).
      split; [intros ->; reflexivity|intros est ->; reflexivity].
Qed.
(** three samples on a line, one gradient given: with one wanted a failing estimator is not consulted; with two it is *)
Example init_queries_case : Permutation ([2; 0; 1]%nat) (seq 0 (length [[0]; [1]; [2]])) /\ length [[0]; [1]; [2]] = length [1; 3; 5] /\
  initialize_subspace (fun _ => [2; 0; 1]%nat) (fun _ _ _ => None) (fun A => A) (Some (mkArr 1 [[0]; [1]; [2]])) (Some [1; 3; 5]) (Some (mkArr 1 [[2]])) 1 = Some [[2]] /\
  initialize_subspace (fun _ => [2; 0; 1]%nat) (fun _ _ Xt => Some Xt) (fun A => A) (Some (mkArr 1 [[0]; [1]; [2]])) (Some [1; 3; 5]) (Some (mkArr 1 [[7]])) 2 = Some [[7]; [2]].
Proof.
  split; [|repeat split]. simpl. apply Permutation_sym. change [2; 0; 1]%nat with ([2]%nat ++ [0; 1]%nat). change [0; 1; 2]%nat with ([0; 1]%nat ++ [2]%nat). apply Permutation_app_comm.
Qed.
