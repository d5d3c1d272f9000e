(** Derivative rules stated on lambda terms. *)
Require Import Reals Lra Lia List.
From Verif Require Import Sums.
Local Open Scope R_scope.

Lemma d_ext : forall f g x l l', (forall t, f t = g t) -> l = l' -> derivable_pt_lim f x l -> derivable_pt_lim g x l'.
Proof. intros f g x l l' H <- D eps He. destruct (D eps He) as [d Hd]. exists d. intros h H1 H2. rewrite <- !H. auto. Qed.
Lemma d_const : forall c x, derivable_pt_lim (fun _ => c) x 0.
Proof. intros. apply (derivable_pt_lim_const c). Qed.
Lemma d_id : forall x, derivable_pt_lim (fun t => t) x 1.
Proof. intros. apply derivable_pt_lim_id. Qed.
Lemma d_plus : forall f g x a b, derivable_pt_lim f x a -> derivable_pt_lim g x b -> derivable_pt_lim (fun t => f t + g t) x (a + b).
Proof. intros. apply (derivable_pt_lim_plus f g); auto. Qed.
Lemma d_minus : forall f g x a b, derivable_pt_lim f x a -> derivable_pt_lim g x b -> derivable_pt_lim (fun t => f t - g t) x (a - b).
Proof. intros. apply (derivable_pt_lim_minus f g); auto. Qed.
Lemma d_opp : forall f x a, derivable_pt_lim f x a -> derivable_pt_lim (fun t => - f t) x (- a).
Proof. intros. apply (derivable_pt_lim_opp f); auto. Qed.
Lemma d_mult : forall f g x a b, derivable_pt_lim f x a -> derivable_pt_lim g x b -> derivable_pt_lim (fun t => f t * g t) x (a * g x + f x * b).
Proof. intros. apply (derivable_pt_lim_mult f g); auto. Qed.
Lemma d_scal : forall c f x a, derivable_pt_lim f x a -> derivable_pt_lim (fun t => c * f t) x (c * a).
Proof. intros. apply (derivable_pt_lim_scal f c); auto. Qed.
Lemma d_comp : forall f g x a b, derivable_pt_lim g x b -> derivable_pt_lim f (g x) a -> derivable_pt_lim (fun t => f (g t)) x (a * b).
Proof. intros. apply (derivable_pt_lim_comp g f); auto. Qed.
Lemma d_lin : forall a b x, derivable_pt_lim (fun t => a * t + b) x a.
Proof. intros. apply d_ext with (f := fun t => a * t + b) (l := a * 1 + 0); auto; [ring|]. apply d_plus; [apply d_scal, d_id|apply d_const]. Qed.
Lemma d_rsum : forall n (f : nat -> R -> R) (df : nat -> R) x, (forall i, (i < n)%nat -> derivable_pt_lim (f i) x (df i)) ->
  derivable_pt_lim (fun t => rsum n (fun i => f i t)) x (rsum n df).
Proof.
  induction n as [|n IH]; intros f df x H; simpl; [apply d_const|].
  apply d_plus; [apply IH; intros; apply H; lia|apply H; lia].
Qed.
Lemma d_uniq : forall f x a b, derivable_pt_lim f x a -> derivable_pt_lim f x b -> a = b.
Proof. intros. eapply uniqueness_limite; eauto. Qed.
