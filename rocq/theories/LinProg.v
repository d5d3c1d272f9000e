(** Linear programs: Fourier-Motzkin elimination; a linear function bounded above on a nonempty polyhedron attains its maximum. *)
Require Import Reals List Bool Arith Lia Lra.
From Verif Require Import RVec Num Sums.
Import ListNotations.
Local Open Scope R_scope.

(** rows r.z <= c *)
Definition holds (S : list (vec * R)) (z : vec) : Prop := forall r c, In (r, c) S -> dot r z <= c.
Definition hd0 (r : vec) : R := hd 0 r.
(** eliminate the first variable *)
Definition fm (S : list (vec * R)) : list (vec * R) :=
  map (fun rc => (tl (fst rc), snd rc)) (filter (fun rc => if Req_EM_T (hd0 (fst rc)) 0 then true else false) S) ++
  flat_map (fun u => map (fun l => (vadd (vscale (hd0 (fst u)) (tl (fst l))) (vscale (- hd0 (fst l)) (tl (fst u))), hd0 (fst u) * snd l - hd0 (fst l) * snd u))
                         (filter (fun rc => if Rlt_dec (hd0 (fst rc)) 0 then true else false) S))
           (filter (fun rc => if Rlt_dec 0 (hd0 (fst rc)) then true else false) S).

Lemma list_max : forall (l : list R), l <> [] -> exists m, In m l /\ forall a, In a l -> a <= m.
Proof.
  induction l as [|a l IH]; [congruence|]. intros _. destruct l as [|b l]; [exists a; split; [simpl; auto|intros c [<-|[]]; lra]|].
  destruct IH as (m & I & M); [congruence|]. destruct (Rle_dec a m) as [H|H].
  - exists m. split; [right; auto|]. intros c [<-|Ic]; auto.
  - exists a. split; [left; auto|]. intros c [<-|Ic]; [lra|]. specialize (M c Ic). lra.
Qed.
Lemma list_min : forall (l : list R), l <> [] -> exists m, In m l /\ forall a, In a l -> m <= a.
Proof.
  intros l H. destruct (list_max (map Ropp l)) as (m & I & M); [destruct l; simpl; congruence|].
  apply in_map_iff in I. destruct I as (a & <- & Ia). exists a. split; auto. intros b Ib. specialize (M (- b) (in_map _ _ _ Ib)). lra.
Qed.
Lemma between : forall (ls us : list R), (forall l u, In l ls -> In u us -> l <= u) -> exists z, (forall l, In l ls -> l <= z) /\ (forall u, In u us -> z <= u).
Proof.
  intros ls us H. destruct ls as [|a ls].
  - destruct us as [|b us]; [exists 0; simpl; tauto|]. destruct (list_min (b :: us)) as (m & I & M); [congruence|]. exists m. simpl; split; [tauto|auto].
  - destruct (list_max (a :: ls)) as (m & I & M); [congruence|]. exists m. split; auto.
Qed.
Definition rect (n : nat) (S : list (vec * R)) : Prop := forall r c, In (r, c) S -> length r = n.
Lemma fm_rect : forall n S, rect (Datatypes.S n) S -> rect n (fm S).
Proof.
  intros n S H r c I. unfold fm in I. apply in_app_iff in I. destruct I as [I|I].
  - apply in_map_iff in I. destruct I as ([r' c'] & Q & I). injection Q as <- <-. apply filter_In in I. destruct I as [I _]. specialize (H _ _ I). destruct r'; simpl in *; lia.
  - apply in_flat_map in I. destruct I as ([ru cu] & Iu & I). apply in_map_iff in I. destruct I as ([rl cl] & Q & Il). injection Q as <- <-.
    apply filter_In in Iu. apply filter_In in Il. pose proof (H _ _ (proj1 Iu)) as Lu. pose proof (H _ _ (proj1 Il)) as Ll. destruct ru, rl; simpl in *; try lia. rewrite vadd_length; rewrite !vscale_length; lia.
Qed.
Lemma fm_spec : forall n S z, rect (Datatypes.S n) S -> length z = n -> (holds (fm S) z <-> exists z0, holds S (z0 :: z)).
Proof.
  intros n S z RS Lz. split.
  - intro H.
    set (lo := map (fun rc => (snd rc - dot (tl (fst rc)) z) / hd0 (fst rc)) (filter (fun rc => if Rlt_dec (hd0 (fst rc)) 0 then true else false) S)).
    set (up := map (fun rc => (snd rc - dot (tl (fst rc)) z) / hd0 (fst rc)) (filter (fun rc => if Rlt_dec 0 (hd0 (fst rc)) then true else false) S)).
    destruct (between lo up) as (z0 & HL & HU).
    + intros l u Il Iu. apply in_map_iff in Il. destruct Il as ([rl cl] & <- & Il). apply in_map_iff in Iu. destruct Iu as ([ru cu] & <- & Iu).
      assert (K : In (vadd (vscale (hd0 ru) (tl rl)) (vscale (- hd0 rl) (tl ru)), hd0 ru * cl - hd0 rl * cu) (fm S)).
      { unfold fm. apply in_app_iff. right. apply in_flat_map. exists (ru, cu). split; auto. apply in_map_iff. exists (rl, cl). auto. }
      apply H in K. apply filter_In in Il. apply filter_In in Iu. destruct Il as [Il Nl]. destruct Iu as [Iu Pu]. simpl in Nl, Pu.
      pose proof (RS _ _ Il) as Ll. pose proof (RS _ _ Iu) as Lu. destruct rl as [|al rl]; [discriminate|]. destruct ru as [|au ru]; [discriminate|]. simpl in *.
      destruct (Rlt_dec al 0) as [Na|]; [|discriminate]. destruct (Rlt_dec 0 au) as [Pa|]; [|discriminate].
      rewrite dot_vadd_l in K by (rewrite !vscale_length; lia). rewrite !dot_vscale_l in K.
      apply Rmult_le_reg_r with (au * - al); [apply Rmult_lt_0_compat; lra|].
      replace ((cl - dot rl z) / al * (au * - al)) with (- (au * (cl - dot rl z))) by (field; lra). replace ((cu - dot ru z) / au * (au * - al)) with (- al * (cu - dot ru z)) by (field; lra). lra.
    + exists z0. intros r c I. pose proof (RS _ _ I) as Lr. destruct r as [|a r]; [discriminate|]. simpl in Lr. rewrite dot_cons. destruct (Rtotal_order a 0) as [N|[Z|P]].
      * assert (B : (c - dot r z) / a <= z0). { apply HL. apply in_map_iff. exists (a :: r, c). split; auto. apply filter_In. split; auto. simpl. destruct (Rlt_dec a 0); auto; lra. }
        assert (a * z0 <= a * ((c - dot r z) / a)) by nra. replace (a * ((c - dot r z) / a)) with (c - dot r z) in H0 by (field; lra). lra.
      * assert (K : In (r, c) (fm S)). { unfold fm. apply in_app_iff. left. apply in_map_iff. exists (a :: r, c). split; auto. apply filter_In. split; auto. simpl. destruct (Req_EM_T a 0); auto; lra. }
        apply H in K. subst a. lra.
      * assert (B : z0 <= (c - dot r z) / a). { apply HU. apply in_map_iff. exists (a :: r, c). split; auto. apply filter_In. split; auto. simpl. destruct (Rlt_dec 0 a); auto; lra. }
        assert (a * z0 <= a * ((c - dot r z) / a)) by nra. replace (a * ((c - dot r z) / a)) with (c - dot r z) in H0 by (field; lra). lra.
  - intros [z0 H] r c I. unfold fm in I. apply in_app_iff in I. destruct I as [I|I].
    + apply in_map_iff in I. destruct I as ([r' c'] & Q & I). injection Q as <- <-. apply filter_In in I. destruct I as [I Z]. specialize (H _ _ I). pose proof (RS _ _ I) as Lr. destruct r' as [|a r']; [discriminate|]. simpl in *.
      destruct (Req_EM_T a 0); [|discriminate]. rewrite dot_cons in H. subst a. lra.
    + apply in_flat_map in I. destruct I as ([ru cu] & Iu & I). apply in_map_iff in I. destruct I as ([rl cl] & Q & Il). injection Q as <- <-.
      apply filter_In in Il. apply filter_In in Iu. destruct Il as [Il Nl]. destruct Iu as [Iu Pu]. simpl in Nl, Pu. pose proof (RS _ _ Il) as Ll. pose proof (RS _ _ Iu) as Lu.
      pose proof (H _ _ Il) as Hl. pose proof (H _ _ Iu) as Hu. destruct rl as [|al rl]; [discriminate|]. destruct ru as [|au ru]; [discriminate|]. simpl in *. rewrite dot_cons in Hl, Hu.
      destruct (Rlt_dec al 0) as [Na|]; [|discriminate]. destruct (Rlt_dec 0 au) as [Pa|]; [|discriminate].
      rewrite dot_vadd_l by (rewrite !vscale_length; lia). rewrite !dot_vscale_l.
      assert (au * (al * z0 + dot rl z) <= au * cl) by (apply Rmult_le_compat_l; lra). assert (- al * (au * z0 + dot ru z) <= - al * cu) by (apply Rmult_le_compat_l; lra). lra.
Qed.
Fixpoint fm_n (k : nat) (S : list (vec * R)) : list (vec * R) := match k with O => S | Datatypes.S k' => fm_n k' (fm S) end.
Lemma fm_n_spec : forall k n S z, rect (k + n) S -> length z = n -> rect n (fm_n k S) /\ (holds (fm_n k S) z <-> exists y, length y = k /\ holds S (y ++ z)).
Proof.
  induction k as [|k IH]; intros n S z RS Lz; simpl.
  - split; auto. split; [intro H; exists []; auto|]. intros (y & Ly & H). destruct y; [auto|discriminate].
  - destruct (IH n (fm S) z (fm_rect _ _ RS) Lz) as [R1 E]. split; auto. rewrite E. split.
    + intros (y & Ly & H). apply (fm_spec (k + n)) in H; auto; [|rewrite app_length; lia]. destruct H as [z0 H]. exists (z0 :: y). simpl. split; [lia|auto].
    + intros ([|z0 y] & Ly & H); [discriminate|]. simpl in Ly. exists y. split; [lia|]. apply (fm_spec (k + n)); auto; [rewrite app_length; lia|]. exists z0. auto.
Qed.
(** one variable *)
Lemma interval_max : forall S B, rect 1 S -> (exists t, holds S [t]) -> (forall t, holds S [t] -> t <= B) -> exists t, holds S [t] /\ forall u, holds S [u] -> u <= t.
Proof.
  intros S B RS [t0 H0] HB. set (up := map (fun rc => snd rc / hd0 (fst rc)) (filter (fun rc => if Rlt_dec 0 (hd0 (fst rc)) then true else false) S)).
  assert (D : forall r c t, In (r, c) S -> dot r [t] = hd0 r * t). { intros r c t I. specialize (RS _ _ I). destruct r as [|a [|? ?]]; try discriminate. rewrite dot_cons, dot_nil_l. simpl. ring. }
  destruct up as [|u0 up'] eqn:E.
  - exfalso. assert (H : holds S [Rmax t0 (B + 1)]).
    { intros r c I. rewrite (D r c) by auto. specialize (H0 _ _ I). rewrite (D r c) in H0 by auto. assert (hd0 r <= 0).
      { apply Rnot_lt_le. intro P. assert (K : In (c / hd0 r) up). { unfold up. apply in_map_iff. exists (r, c). split; auto. apply filter_In. split; auto. simpl. destruct (Rlt_dec 0 (hd0 r)); auto. } rewrite E in K. destruct K. }
      pose proof (Rmax_l t0 (B + 1)). nra. }
    apply HB in H. pose proof (Rmax_r t0 (B + 1)). lra.
  - destruct (list_min up) as (m & I & M); [rewrite E; congruence|]. unfold up in I. apply in_map_iff in I. destruct I as ([rm cm] & <- & Im). apply filter_In in Im. destruct Im as [Im Pm]. simpl in Pm. destruct (Rlt_dec 0 (hd0 rm)) as [Pm'|]; [|discriminate].
    assert (UB : forall u, holds S [u] -> u <= cm / hd0 rm).
    { intros u Hu. specialize (Hu _ _ Im). rewrite (D rm cm) in Hu by auto. apply Rmult_le_reg_l with (hd0 rm); auto. replace (hd0 rm * (cm / hd0 rm)) with cm by (field; lra). lra. }
    exists (cm / hd0 rm). split; auto. intros r c I. rewrite (D r c) by auto. destruct (Rlt_dec 0 (hd0 r)) as [P|P].
    + assert (K : In (c / hd0 r) up). { unfold up. apply in_map_iff. exists (r, c). split; auto. apply filter_In. split; auto. simpl. destruct (Rlt_dec 0 (hd0 r)); auto. }
      apply M in K. simpl in K. apply Rmult_le_compat_l with (r := hd0 r) in K; [|lra]. replace (hd0 r * (c / hd0 r)) with c in K by (field; lra). lra.
    + specialize (H0 _ _ I) as H1. rewrite (D r c) in H1 by auto. specialize (UB t0 H0). nra.
Qed.
(** the main result *)
Theorem lp_attained : forall n S p B, rect n S -> length p = n -> (exists z, length z = n /\ holds S z) -> (forall z, length z = n -> holds S z -> dot p z <= B) ->
  exists y, length y = n /\ holds S y /\ forall z, length z = n -> holds S z -> dot p z <= dot p y.
Proof.
  intros n S p B RS Lp (z0 & Lz0 & H0) HB.
  set (S' := (p ++ [-1], 0) :: (vscale (-1) p ++ [1], 0) :: map (fun rc => (fst rc ++ [0], snd rc)) S).
  assert (RS' : rect (n + 1) S').
  { intros r c [Q|[Q|I]]; [injection Q as <- <-|injection Q as <- <-|apply in_map_iff in I; destruct I as ([r' c'] & Q & I); injection Q as <- <-; specialize (RS _ _ I)]; simpl; rewrite app_length; rewrite ?vscale_length; simpl; lia. }
  assert (AP : forall r z a t, length r = length z -> dot (r ++ [a]) (z ++ [t]) = dot r z + a * t).
  { induction r as [|x r IH]; intros [|y z] a t L; try discriminate; simpl app; rewrite !dot_cons; rewrite ?dot_nil_l; [ring|]. rewrite IH by (simpl in L; lia). ring. }
  assert (HS : forall z t, length z = n -> (holds S' (z ++ [t]) <-> holds S z /\ t = dot p z)).
  { intros z t Lz. split.
    - intro H. pose proof (H _ _ (or_introl eq_refl)) as A1. pose proof (H _ _ (or_intror (or_introl eq_refl))) as A2. rewrite AP in A1, A2 by (rewrite ?vscale_length; lia). rewrite dot_vscale_l in A2. split; [|lra].
      intros r c I. assert (K : In (r ++ [0], c) S') by (right; right; apply in_map_iff; exists (r, c); auto). apply H in K. rewrite AP in K by (rewrite (RS _ _ I); auto). lra.
    - intros [H ->] r c [Q|[Q|I]].
      + injection Q as <- <-. rewrite AP by lia. lra.
      + injection Q as <- <-. rewrite AP by (rewrite vscale_length; lia). rewrite dot_vscale_l. lra.
      + apply in_map_iff in I. destruct I as ([r' c'] & Q & I). injection Q as <- <-. simpl. rewrite AP by (rewrite (RS _ _ I); auto). specialize (H _ _ I). lra. }
  assert (PR : forall t, holds (fm_n n S') [t] <-> exists z, length z = n /\ holds S z /\ t = dot p z).
  { intro t. destruct (fm_n_spec n 1 S' [t] RS' eq_refl) as [_ E]. rewrite E. split; intros (z & Lz & H); exists z; (split; [auto|]); apply HS; auto. }
  destruct (interval_max (fm_n n S') B) as (t & Ht & Mt).
  - apply (fm_n_spec n 1 S' [0] RS' eq_refl).
  - exists (dot p z0). apply PR. eauto.
  - intros t Ht. apply PR in Ht. destruct Ht as (z & Lz & H & ->). auto.
  - apply PR in Ht. destruct Ht as (y & Ly & Hy & ->). exists y. split; auto. split; auto. intros z Lz Hz. apply Mt. apply PR. eauto.
Qed.
