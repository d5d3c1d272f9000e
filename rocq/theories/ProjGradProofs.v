(** project_grads and the secular equation (C31, C74). *)
Require Import Reals Lra Lia List Bool Arith.
From Verif Require Import RVec Num Sums DomMoreModel SweepProofs HullIneqProofs VecTac ArnoldiMoreProofs MatLib SpecProofs Deriv LipModel LipProofs LipConstProofs ProjProofs.
Import ListNotations.
Local Open Scope R_scope.

(** ** argmin *)
Definition is_argmin (l : vec) (k : nat) : Prop := (k < length l)%nat /\ forall i, (i < length l)%nat -> vget l k <= vget l i.
Lemma argmin_from_spec : forall l pre best, is_argmin pre best -> is_argmin (pre ++ l) (argmin_from (length pre) best (vget pre best) l).
Proof.
  induction l as [|a l IH]; intros pre best [Hb SA]; [rewrite app_nil_r; split; auto|]. cbn [argmin_from].
  assert (EQ : pre ++ a :: l = (pre ++ [a]) ++ l) by (rewrite <- app_assoc; auto).
  assert (L1 : length (pre ++ [a]) = S (length pre)) by (rewrite app_length; simpl; lia).
  assert (NP : forall i, (i < length pre)%nat -> vget (pre ++ [a]) i = vget pre i) by (intros; unfold vget; apply app_nth1; auto).
  assert (NL : vget (pre ++ [a]) (length pre) = a) by (unfold vget; rewrite app_nth2, Nat.sub_diag by lia; auto).
  rewrite EQ. destruct (Rltb a (vget pre best)) eqn:LT.
  - apply Rltb_true in LT. pose proof (IH (pre ++ [a]) (length pre)) as G. rewrite NL, L1 in G. apply G. split; [rewrite L1; lia|]. intros i Hi. rewrite L1 in Hi. rewrite NL. destruct (Nat.eq_dec i (length pre)) as [->|NE]; [rewrite NL; lra|].
    rewrite NP by lia. specialize (SA i ltac:(lia)). lra.
  - apply Rltb_false in LT. pose proof (IH (pre ++ [a]) best) as G. rewrite NP, L1 in G by auto. apply G. split; [rewrite L1; lia|]. intros i Hi. rewrite L1 in Hi. rewrite (NP best) by auto. destruct (Nat.eq_dec i (length pre)) as [->|NE]; [rewrite NL; lra|].
    rewrite NP by lia. apply SA. lia.
Qed.
Lemma argmin_spec : forall l, l <> [] -> is_argmin l (argmin l).
Proof.
  intros [|a l] H; [congruence|]. apply (argmin_from_spec l [a] 0). split; [simpl; lia|]. intros [|i] Hi; simpl in Hi; [lra|lia].
Qed.
Lemma all_some_spec : forall A B (f : A -> option B) (g : A -> B) l, (forall x, In x l -> f x = Some (g x)) -> all_some (map f l) = Some (map g l).
Proof. induction l as [|a l IH]; intro H; auto. cbn [map all_some]. rewrite (H a (or_introl eq_refl)), IH by (intros; apply H; right; auto). reflexivity. Qed.

(** contract of dist_grad_constraints: a number, nonnegative exactly when g g^T <= H *)
Definition dist_ok (m : nat) (dist : mat -> vec -> option R) : Prop :=
  forall H g, sq m H -> msym m H -> length g = m -> exists d, dist H g = Some d /\ (0 <= d <-> loewner m (outer g g) H).
Lemma pg_update_spec : forall m eigh H g, eigh_ok m eigh -> sq m H -> msym m H -> length g = m ->
  sq m (pg_update eigh H g) /\ msym m (pg_update eigh H g) /\ loewner m H (pg_update eigh H g) /\ loewner m (outer g g) (pg_update eigh H g).
Proof.
  intros m eigh H g EI SH MH Lg. unfold pg_update. rewrite Lg. set (S := msub H (outer g g)). assert (SO : sq m (outer g g)) by (apply outer_sq; auto). assert (MO : msym m (outer g g)) by (rewrite <- Lg; apply outer_sym).
  assert (ES : eigh_post m S (eigh S)) by (apply EI; [apply msub_sq; auto|apply msub_sym; auto]). destruct (eigh S) as [w us]. cbn [fst snd]. pose proof ES as [Lw [OB [E _]]]. cbn [fst snd] in *.
  set (P := spec m (map (Rmax 0) w) us). assert (SP : sq m P) by (apply spec_sq; apply OB). assert (MP : msym m P) by (apply spec_sym; apply OB).
  assert (QP : forall x, quad P x = rsum m (fun k => Rmax 0 (vget w k) * (dot (nth k us []) x * dot (nth k us []) x))).
  { intro x. unfold P. rewrite quad_spec_onb by (auto; rewrite map_length; auto). apply rsum_ext. intros k Hk. f_equal. unfold vget. rewrite (nth_map_any _ _ _ w k 0) by lia. auto. }
  assert (QU : forall x, quad (madd (outer g g) P) x = dot g x * dot g x + quad P x) by (intro x; rewrite (quad_madd m), quad_outer by auto; auto).
  split; [apply madd_sq; auto|]. split; [apply madd_sym; auto|]. split; intros x Hx; rewrite QU, QP.
  - assert (QS : quad S x = quad H x - dot g x * dot g x) by (unfold S; rewrite (quad_msub m), quad_outer by auto; auto). rewrite (eigh_quad m S (w, us) x ES) in QS. cbn [fst snd] in QS.
    assert (LE : rsum m (fun k => vget w k * (dot (nth k us []) x * dot (nth k us []) x)) <= rsum m (fun k => Rmax 0 (vget w k) * (dot (nth k us []) x * dot (nth k us []) x))).
    { apply rsum_le. intros k Hk. apply Rmult_le_compat_r; [nra|apply Rmax_r]. }
    lra.
  - rewrite quad_outer. assert (0 <= rsum m (fun k => Rmax 0 (vget w k) * (dot (nth k us []) x * dot (nth k us []) x))); [|lra]. apply rsum_nonneg. intros k Hk. apply Rmult_le_pos; [apply Rmax_l|nra].
Qed.
Section PG.
Context (m : nat) (dist : mat -> vec -> option R) (eigh : mat -> vec * list vec) (grads : mat).
Hypothesis DK : dist_ok m dist.
Hypothesis EK : eigh_ok m eigh.
Hypothesis HG : Forall (dimP m) grads.
Hypothesis NE : grads <> [].
Definition gval (H : mat) (g : vec) : R := match dist H g with Some d => d | None => 0 end.
Definition gviol (H : mat) : nat := length (filter (fun g => Rltb (gval H g) 0) grads).
Lemma gval_ok : forall H g, sq m H -> msym m H -> In g grads -> dist H g = Some (gval H g) /\ (0 <= gval H g <-> loewner m (outer g g) H).
Proof.
  intros H g SH MH I. assert (Lg : length g = m) by (rewrite Forall_forall in HG; apply HG; auto). destruct (DK H g SH MH Lg) as [d [E IFF]]. unfold gval. rewrite E. auto.
Qed.
Lemma pg_step_spec : forall H, sq m H -> msym m H ->
  (pg_step dist eigh grads H = Ret H /\ forall g, In g grads -> loewner m (outer g g) H) \/
  exists g, In g grads /\ gval H g < 0 /\ pg_step dist eigh grads H = Running (pg_update eigh H g).
Proof.
  intros H SH MH. unfold pg_step. rewrite (all_some_spec _ _ (dist H) (gval H)) by (intros g I; apply gval_ok; auto). set (d := map (gval H) grads).
  assert (ND : d <> []) by (intro Z; apply map_eq_nil in Z; auto). destruct (argmin_spec d ND) as [Hk MI]. set (k := argmin d) in *. assert (LD : length d = length grads) by apply map_length.
  assert (GD : forall i, (i < length grads)%nat -> vget d i = gval H (nth i grads [])) by (intros i Hi; apply (map_get _ (gval H) grads i []); auto).
  destruct (Rleb 0 (vget d k)) eqn:LE.
  - left. split; auto. apply Rleb_true in LE. intros g I. apply gval_ok; auto. apply (In_nth _ _ []) in I. destruct I as [i [Hi <-]]. rewrite <- GD by auto. specialize (MI i ltac:(lia)). lra.
  - right. apply Rleb_false in LE. exists (nth k grads []). split; [apply nth_In; lia|]. split; auto. rewrite <- GD by lia. auto.
Qed.
Lemma pg_loop_spec : forall n fuel H, sq m H -> msym m H -> (gviol H <= n)%nat -> (n < fuel)%nat ->
  exists H', pg_loop fuel dist eigh grads H = Ret H' /\ sq m H' /\ msym m H' /\ loewner m H H' /\ forall g, In g grads -> loewner m (outer g g) H'.
Proof.
  induction n as [|n IH]; intros [|fuel] H SH MH V FU; try lia; cbn [pg_loop]; (destruct (pg_step_spec H SH MH) as [[-> OK]|[g [I [GV ->]]]]; [exists H; split; auto; split; auto; split; auto; split; auto; apply loewner_refl|]);
    (assert (Lg : length g = m) by (rewrite Forall_forall in HG; apply HG; auto); destruct (pg_update_spec m eigh H g EK SH MH Lg) as [S' [M' [L' G']]]; set (H' := pg_update eigh H g) in *;
     assert (V' : (gviol H' < gviol H)%nat) by
      (unfold gviol; apply filter_lt with g; [|auto| |apply Rltb_true; auto];
        [intros x Ix F; apply Rltb_true in F; apply Rltb_true; destruct (Rlt_dec (gval H x) 0); auto; exfalso; assert (B : 0 <= gval H x) by lra;
          apply (gval_ok H x SH MH Ix) in B; assert (B2 : loewner m (outer x x) H') by (apply loewner_trans with H; auto); apply (gval_ok H' x S' M' Ix) in B2; lra
        |apply Rltb_false; apply Rge_le, Rle_ge; apply (gval_ok H' g S' M' I); auto])).
  - lia.
  - destruct (IH fuel H' S' M' ltac:(lia) ltac:(lia)) as [H2 [E [S2 [M2 [L2 G2]]]]]. exists H2. split; auto. split; auto. split; auto. split; auto. apply loewner_trans with H'; auto.
Qed.
End PG.
(** the loop stops after at most N updates with a matrix above the starting one and above every g g^T *)
Theorem project_grads_correct : forall m dist eigh H grads fuel, dist_ok m dist -> eigh_ok m eigh -> sq m H -> msym m H -> Forall (dimP m) grads -> (length grads < fuel)%nat ->
  exists H', project_grads fuel dist eigh H grads = Ret H' /\ sq m H' /\ msym m H' /\ loewner m H H' /\ forall g, In g grads -> loewner m (outer g g) H'.
Proof.
  intros m dist eigh H grads fuel DK EK SH MH HG FU. unfold project_grads. destruct grads as [|g0 gs] eqn:EG.
  - exists H. split; auto. split; auto. split; auto. split; [apply loewner_refl|intros g []].
  - rewrite <- EG in *. apply (pg_loop_spec m dist eigh grads DK EK HG) with (n := length grads); auto; [congruence|]. apply filter_length_le.
Qed.
Definition dist1 (H : mat) (g : vec) : option R := Some (mget H 0 0 - vget g 0 * vget g 0).
Lemma dist1_ok : dist_ok 1 dist1.
Proof.
  intros H g [LH FH] _ Lg. destruct H as [|r [|]]; try discriminate. inversion FH; subst. destruct r as [|a [|]]; try discriminate. destruct g as [|b [|]]; try discriminate.
  exists (a - b * b). split; auto. split; intro L.
  - intros [|x [|]] Hx; try discriminate. rewrite quad_outer, quad1, dot1. nra.
  - specialize (L [1] eq_refl). rewrite quad_outer, quad1, dot1 in L. lra.
Qed.
Example ex_project_grads : dist_ok 1 dist1 /\ eigh_ok 1 eigh1 /\ sq 1 [[1]] /\ msym 1 [[1]] /\ project_grads 3 dist1 eigh1 [[1]] [[2]; [-3]] = Ret [[9]].
Proof.
  split; [apply dist1_ok|]. split; [apply ex_eigh1|]. split; [apply sq1|]. split; [intros i j Hi Hj; assert (i = 0 /\ j = 0)%nat as [-> ->] by lia; auto|].
  unfold project_grads. cbn [pg_loop]. unfold pg_step at 1. cbn [map all_some dist1 option_map argmin argmin_from]. unfold dist1, mget, vget. cbn [nth option_map]. cbn [argmin argmin_from].
  destruct (Rltb (1 - -3 * -3) (1 - 2 * 2)) eqn:LT; [|apply Rltb_false in LT; lra]. cbn [nth]. destruct (Rleb 0 (1 - -3 * -3)) eqn:LE; [apply Rleb_true in LE; lra|]. clear LT LE.
  replace (pg_update eigh1 [[1]] [-3]) with [[9]].
  2: { unfold pg_update, eigh1, mget, vget, msub, madd, outer. cbn [map vscale zipw vsub vmap2 nth fst snd length spec mscale outer]. rewrite Rmax_left by lra. cbn. do 2 f_equal. ring. }
  unfold pg_step at 1. cbn [map all_some dist1 option_map argmin argmin_from]. unfold dist1, mget, vget. cbn [nth option_map]. cbn [argmin argmin_from].
  destruct (Rltb (9 - -3 * -3) (9 - 2 * 2)) eqn:LT; [|apply Rltb_false in LT; lra]. cbn [nth]. destruct (Rleb 0 (9 - -3 * -3)) eqn:LE; [|apply Rleb_false in LE; lra]. reflexivity.
Qed.

(** ** the secular equation *)
Lemma nsum_zip_fin : forall (a b : vec) lam, (forall x, In x b -> x - lam <> 0) -> nsum (zipw (fun a b => ndivr (Fin a) (b - lam)) a b) = Fin (vsum (zipw (fun a b => a / (b - lam)) a b)).
Proof.
  induction a as [|x a IH]; intros [|y b] lam H; try reflexivity. cbn [zipw]. cbn [nsum fold_right]. change (fold_right nadd (Fin 0) ?l) with (nsum l). rewrite IH by (intros; apply H; right; auto).
  cbn [ndivr]. destruct (Req_EM_T _ 0) as [Z|Z]; [exfalso; apply (H y); auto; left; auto|]. reflexivity.
Qed.
Lemma vsum_zip : forall (a b : vec) lam, length a = length b -> vsum (zipw (fun a b => a / (b - lam)) a b) = rsum (length b) (fun k => vget a k / (vget b k - lam)).
Proof.
  induction a as [|x a IH]; intros [|y b] lam L; try discriminate; auto. cbn [zipw length]. rewrite vsum_cons, IH by (simpl in L; lia). rewrite rsum_S_first. reflexivity.
Qed.
Lemma last_get : forall (l : vec), l <> [] -> last l 0 = vget l (length l - 1).
Proof.
  induction l as [|a l IH]; intro H; [congruence|]. destruct l as [|b l]; auto. change (last (a :: b :: l) 0) with (last (b :: l) 0). rewrite IH by discriminate. unfold vget. cbn [length].
  replace (S (S (length l)) - 1)%nat with (S (S (length l) - 1)) by lia. reflexivity.
Qed.
(** contract of brenth (idealized: exact root): sound, and ValueError when both end values are positive *)
Definition brenth_sound (brenth : (R -> num) -> R -> R -> option R) : Prop := forall f a b r, brenth f a b = Some r -> f r = Fin 0 /\ a <= r <= b.
Definition brenth_signs (brenth : (R -> num) -> R -> R -> option R) : Prop := forall f a b, nltb (Fin 0) (f a) = true -> nltb (Fin 0) (f b) = true -> brenth f a b = None.
Definition brenth_total (brenth : (R -> num) -> R -> R -> option R) : Prop := forall f phi a b, a <= b -> (forall t, a <= t <= b -> f t = Fin (phi t) /\ continuity_pt phi t) ->
  phi a <= 0 <= phi b -> exists r, brenth f a b = Some r.
(** d is the smallest eigenvalue of H - g g^T *)
Definition lam_min (m : nat) (H : mat) (g : vec) (d : R) : Prop :=
  (forall x, length x = m -> d * norm2sq x <= quad H x - dot g x * dot g x) /\
  (exists x, length x = m /\ 0 < norm2sq x /\ d * norm2sq x = quad H x - dot g x * dot g x).
Lemma dot_nil_l : forall x, dot [] x = 0. Proof. reflexivity. Qed.
Section Secular.
Context (m : nat) (H : mat) (g : vec) (ew : vec) (us : list vec) (lam : R).
Hypothesis Hm : (1 <= m)%nat.
Hypothesis SH : sq m H.
Hypothesis EP : eigh_post m (mscale (-1) H) (ew, us).
Hypothesis Lg : length g = m.
Definition gh (k : nat) : R := dot (nth k us []) g.
Definition ug2 : vec := map (fun u => dot u g * dot u g) us.
Lemma ug2_get : forall k, (k < m)%nat -> vget ug2 k = gh k * gh k.
Proof using EP. clear Hm SH Lg. intros k Hk. destruct EP as [_ [[LU _] _]]. cbn [snd] in LU. unfold ug2. rewrite (map_get _ (fun u => dot u g * dot u g) us k []) by lia. reflexivity. Qed.
Lemma ug2_len : length ug2 = m.
Proof using EP. clear Hm SH Lg. destruct EP as [_ [[LU _] _]]. unfold ug2. rewrite map_length. auto. Qed.
Lemma quadH : forall x, quad H x = rsum m (fun k => - vget ew k * (dot (nth k us []) x * dot (nth k us []) x)).
Proof using EP. clear Hm SH Lg.
  intro x. pose proof (eigh_quad m _ _ x EP) as Q. cbn [fst snd] in Q. rewrite quad_mscale in Q. replace (quad H x) with (- (-1 * quad H x)) by ring. rewrite Q. rewrite <- rsum_opp. apply rsum_ext. intros. ring.
Qed.
Lemma ew_last : forall k, (k < m)%nat -> vget ew k <= last ew 0.
Proof using EP. clear Hm SH Lg.
  intros k Hk. destruct EP as [LE [_ [_ SO]]]. cbn [fst snd] in *. rewrite last_get by (intros ->; simpl in LE; lia). rewrite LE. apply SO. lia.
Qed.
Lemma secular_fin : last ew 0 < lam -> secular ew ug2 lam = Fin (1 + rsum m (fun k => gh k * gh k / (vget ew k - lam))).
Proof using EP. clear Hm SH Lg.
  intro LT. pose proof ew_last as EL. pose proof ug2_get as UG. pose proof ug2_len as UL. destruct EP as [LE [_ [_ _]]]. cbn [fst snd] in *. unfold secular. rewrite nsum_zip_fin.
  - rewrite vsum_zip by lia. rewrite LE. cbn [nadd]. do 2 f_equal. apply rsum_ext. intros k Hk. rewrite UG by auto. auto.
  - intros x I. apply (In_nth _ _ 0) in I. destruct I as [i [Hi <-]]. change (nth i ew 0) with (vget ew i). specialize (EL i ltac:(lia)). lra.
Qed.
(** a root to the right of all eigenvalues of -H *)
Lemma secular_root : last ew 0 < lam -> secular ew ug2 lam = Fin 0 -> lam_min m H g (- lam).
Proof using EP Lg. clear Hm SH.
  intros LT RT. rewrite secular_fin in RT by auto. injection RT as RT. pose proof ew_last as EL. pose proof quadH as QH. destruct EP as [LE [OB [_ _]]]. cbn [fst snd] in *.
  set (c := fun k => lam - vget ew k). assert (CP : forall k, (k < m)%nat -> 0 < c k) by (intros k Hk; unfold c; specialize (EL k Hk); lra).
  assert (S1 : rsum m (fun k => gh k * gh k / c k) = 1).
  { replace (rsum m (fun k => gh k * gh k / c k)) with (- rsum m (fun k => gh k * gh k / (vget ew k - lam))); [lra|]. rewrite <- rsum_opp. apply rsum_ext. intros k Hk. specialize (CP k Hk). unfold c in *. field. lra. }
  assert (QL : forall x, length x = m -> quad H x + lam * norm2sq x = rsum m (fun k => c k * (dot (nth k us []) x * dot (nth k us []) x))).
  { intros x Hx. rewrite QH, (parseval m us x OB Hx), <- rsum_scal_l, <- rsum_plus. apply rsum_ext. intros k Hk. unfold c. ring. }
  assert (GX : forall x, length x = m -> dot g x = rsum m (fun k => gh k * dot (nth k us []) x)) by (intros x Hx; apply parseval_dot; auto).
  split.
  - intros x Hx. specialize (QL x Hx). specialize (GX x Hx). set (y := fun k => dot (nth k us []) x) in *. set (t := dot g x) in *.
    assert (P : 0 <= rsum m (fun k => c k * ((y k - t * (gh k / c k)) * (y k - t * (gh k / c k))))) by (apply rsum_nonneg; intros k Hk; specialize (CP k Hk); apply Rmult_le_pos; [lra|apply Rle_0_sqr]).
    replace (rsum m (fun k => c k * ((y k - t * (gh k / c k)) * (y k - t * (gh k / c k))))) with (rsum m (fun k => c k * (y k * y k)) - 2 * t * rsum m (fun k => gh k * y k) + t * t * rsum m (fun k => gh k * gh k / c k)) in P.
    + rewrite S1 in P. change (rsum m (fun k => gh k * dot (nth k us []) x)) with (rsum m (fun k => gh k * y k)) in GX. rewrite <- GX in P. change (rsum m (fun k => c k * (dot (nth k us []) x * dot (nth k us []) x))) with (rsum m (fun k => c k * (y k * y k))) in QL. nra.
    + rewrite <- !rsum_scal_l. rewrite <- rsum_minus, <- rsum_plus. apply rsum_ext. intros k Hk. specialize (CP k Hk). field. lra.
  - set (cs := map (fun k => gh k / c k) (seq 0 m)). destruct OB as [LU [F OR]]. assert (LC : length cs = length us) by (unfold cs; rewrite map_length, seq_length; auto). exists (lincomb m us cs).
    assert (LX : length (lincomb m us cs) = m) by (apply lincomb_length; auto).
    assert (Y : forall k, (k < m)%nat -> dot (nth k us []) (lincomb m us cs) = gh k / c k).
    { intros k Hk. rewrite dot_comm, dot_lincomb_l by auto. rewrite (rsum_single (length us) k); [|lia|].
      - rewrite (OR k k) by lia. rewrite Nat.eqb_refl. unfold cs. rewrite vget_map_seq by auto. ring.
      - intros j Hj NEj. rewrite (OR j k) by lia. destruct (Nat.eqb_spec j k); [contradiction|ring]. }
    split; auto. assert (G1 : dot g (lincomb m us cs) = 1) by (rewrite GX by auto; rewrite <- S1; apply rsum_ext; intros k Hk; rewrite Y by auto; unfold Rdiv; ring).
    assert (Q1 : quad H (lincomb m us cs) + lam * norm2sq (lincomb m us cs) = 1).
    { rewrite QL by auto. rewrite <- S1. apply rsum_ext. intros k Hk. rewrite Y by auto. specialize (CP k Hk). field. lra. }
    split; [|rewrite G1; lra]. pose proof (norm2sq_nonneg (lincomb m us cs)) as N. destruct (Req_dec (norm2sq (lincomb m us cs)) 0) as [Z|Z]; [|lra]. exfalso.
    pose proof (cauchy_schwarz_sq g (lincomb m us cs) ltac:(lia)) as CS. rewrite G1, Z in CS. lra.
Qed.
(** the right end point always has a nonnegative value, so brenth needs a nonpositive value at the left end point *)
Lemma secular_right : 0 < norm2sq g -> lam = dg_right ew ug2 -> exists v, secular ew ug2 lam = Fin v /\ 0 <= v.
Proof using EP Lg. clear Hm SH.
  intros GP EL. assert (NG : norm2sq g = rsum m (fun k => gh k * gh k)) by (apply parseval; auto; apply EP). 
  assert (VS : vsum ug2 = norm2sq g). { rewrite NG. rewrite vsum_rsum, ug2_len. apply rsum_ext. intros k Hk. apply ug2_get. auto. }
  assert (LT : last ew 0 < lam) by (rewrite EL; unfold dg_right; lra). rewrite secular_fin by auto. eexists. split; [reflexivity|].
  assert (B : rsum m (fun k => - (gh k * gh k / (vget ew k - lam))) <= rsum m (fun k => / norm2sq g * (gh k * gh k))).
  { apply rsum_le. intros k Hk. pose proof (ew_last k Hk) as EK. rewrite EL in *. unfold dg_right in *. rewrite VS in *. replace (- (gh k * gh k / (vget ew k - (last ew 0 + norm2sq g)))) with (/ (last ew 0 + norm2sq g - vget ew k) * (gh k * gh k)) by (field; lra).
    apply Rmult_le_compat_r; [nra|]. apply Rinv_le_contravar; lra. }
  rewrite rsum_opp, rsum_scal_l, <- NG, Rinv_l in B by lra. lra.
Qed.
End Secular.
(** the fall back implementation: whatever it returns is the smallest eigenvalue of H - g g^T, for positive semidefinite H *)
Theorem dist_slow_correct : forall m brenth eigh feps H g d, (1 <= m)%nat -> brenth_sound brenth -> eigh_ok m eigh -> 0 < feps < 1 -> sq m H -> msym m H -> psd m H -> length g = m ->
  dist_grad_slow brenth eigh feps H g = Some d -> lam_min m H g d.
Proof.
  intros m brenth eigh feps H g d Hm BS EK FE SH MH PS Lg E. unfold dist_grad_slow in E.
  assert (EP : eigh_post m (mscale (-1) H) (eigh (mscale (-1) H))) by (apply EK; [apply mscale_sq; auto|apply mscale_sym; auto]). destruct (eigh (mscale (-1) H)) as [ew us]. cbn [fst snd] in E. fold (ug2 g us) in E.
  destruct (brenth (secular ew (ug2 g us)) (dg_left feps ew) (dg_right ew (ug2 g us))) as [r|] eqn:B; [|discriminate]. injection E as <-. apply BS in B. destruct B as [RT [LB _]].
  pose proof (quadH m H ew us EP) as QH. pose proof (ug2_get m H g ew us EP) as UG. pose proof (ug2_len m H g ew us EP) as UL.
  pose proof EP as [LE [OB [_ SO]]]. cbn [fst snd] in LE, OB, SO. assert (LN : ew <> []) by (intros ->; simpl in LE; lia). assert (EL : last ew 0 = vget ew (m - 1)) by (rewrite last_get, LE by auto; auto).
  assert (NP : last ew 0 <= 0).
  { pose proof (onb_row m us (m - 1) OB ltac:(lia)) as LR. specialize (PS (nth (m - 1) us []) LR). rewrite QH in PS. destruct OB as [LU [F OR]]. rewrite (rsum_single m (m - 1)) in PS; [|lia|].
    - rewrite (OR (m - 1)%nat (m - 1)%nat) in PS by lia. rewrite Nat.eqb_refl in PS. lra.
    - intros j Hj NEj. rewrite (OR j (m - 1)%nat) by lia. destruct (Nat.eqb_spec j (m - 1)); [contradiction|ring]. }
  assert (LT : last ew 0 < r).
  { unfold dg_left in LB. destruct (Req_dec (last ew 0) 0) as [Z|Z]; [|nra]. rewrite Z in LB. destruct (Req_dec r 0) as [Zr|Zr]; [|lra]. exfalso. subst r. unfold secular in RT.
    (* the last term divides by zero *)
    assert (G : forall a b : vec, length a = length b -> b <> [] -> last b 0 = 0 -> (forall i, (i < length a)%nat -> 0 <= vget a i) -> forall z, nadd (Fin z) (nsum (zipw (fun a b => ndivr (Fin a) (b - 0)) a b)) <> Fin 0).
    { clear. induction a as [|x a IH]; intros [|y b] L N LS P z; try discriminate; [congruence|]. cbn [zipw nsum fold_right]. change (fold_right nadd (Fin 0) ?l) with (nsum l).
      destruct b as [|y' b].
      - destruct a; [|discriminate]. simpl in LS. subst y. cbn [zipw nsum fold_right ndivr]. rewrite Rminus_0_r. destruct (Req_EM_T 0 0); [|lra]. destruct (Req_EM_T x 0); [discriminate|]. destruct (Rltb 0 x); discriminate.
      - assert (IH' : forall z, nadd (Fin z) (nsum (zipw (fun a b => ndivr (Fin a) (b - 0)) a (y' :: b))) <> Fin 0).
        { apply IH; [simpl in *; lia|discriminate|exact LS|]. intros i Hi. apply (P (S i)). simpl. lia. }
        set (T := nsum _) in *. assert (TN : forall t, T <> Fin t) by (intros t ET; apply (IH' (- t)); rewrite ET; cbn [nadd]; f_equal; ring).
        cbn [ndivr]. destruct (Req_EM_T (y - 0) 0); [destruct (Req_EM_T x 0); [discriminate|destruct (Rltb 0 x); destruct T; discriminate]|]. destruct T; try discriminate. exfalso. eapply TN. reflexivity. }
    apply (G (ug2 g us) ew) in RT; auto; [lia|]. intros i Hi. rewrite UL in Hi. rewrite UG by auto. nra. }
  apply (secular_root m H g ew us r); auto.
Qed.
(** hence its sign decides the constraint *)
Theorem dist_slow_sign : forall m H g d, lam_min m H g d -> (0 <= d <-> loewner m (outer g g) H).
Proof.
  intros m H g d [LB [x [Hx [NX EX]]]]. split; intro D.
  - intros z Hz. rewrite quad_outer. specialize (LB z Hz). pose proof (norm2sq_nonneg z). nra.
  - specialize (D x Hx). rewrite quad_outer in D. nra.
Qed.
(** it does return when H is definite and g has a component along the eigenvector of the smallest eigenvalue that is large compared with the rounding unit *)
Theorem dist_slow_total : forall m brenth eigh feps H g, (1 <= m)%nat -> brenth_total brenth -> eigh_ok m eigh -> 0 < feps < 1 -> sq m H -> msym m H -> length g = m ->
  let e := eigh (mscale (-1) H) in last (fst e) 0 < 0 -> feps * - last (fst e) 0 <= (dot (last (snd e) []) g) ^ 2 ->
  exists d, dist_grad_slow brenth eigh feps H g = Some d.
Proof.
  intros m brenth eigh feps H g Hm BT EK FE SH MH Lg e NEG BIG. unfold dist_grad_slow. fold e.
  assert (EP : eigh_post m (mscale (-1) H) e) by (apply EK; [apply mscale_sq; auto|apply mscale_sym; auto]). destruct e as [ew us]. cbn [fst snd] in *. fold (ug2 g us). cbv zeta.
  pose proof EP as [LE [OB [_ SO]]]. cbn [fst snd] in LE, OB, SO. pose proof (ew_last m H ew us EP) as EL.
  assert (LU : last us [] = nth (m - 1) us []).
  { destruct OB as [L _]. clear - L Hm. revert m L Hm. induction us as [|u us IH]; intros m L Hm; [simpl in L; lia|]. destruct us as [|u' us]; [simpl in L; subst; auto|]. change (last (u :: u' :: us) []) with (last (u' :: us) []).
    rewrite (IH (m - 1)%nat) by (simpl in *; lia). replace (m - 1)%nat with (S (m - 1 - 1)) at 2 by (simpl in L; lia). reflexivity. }
  assert (LEW : last ew 0 = vget ew (m - 1)) by (rewrite last_get, LE by (intros ->; simpl in LE; lia); auto).
  rewrite LU in BIG. set (gl := dot (nth (m - 1) us []) g) in *. assert (GN : norm2sq g = rsum m (fun k => dot (nth k us []) g * dot (nth k us []) g)) by (apply parseval; auto).
  assert (GB : gl * gl <= norm2sq g).
  { rewrite GN. replace m with (S (m - 1)) at 1 by lia. cbn [rsum]. fold gl. assert (0 <= rsum (m - 1) (fun k => dot (nth k us []) g * dot (nth k us []) g)) by (apply rsum_nonneg; intros; nra). lra. }
  set (phi := fun t => 1 + rsum m (fun k => gh g us k * gh g us k / (vget ew k - t))).
  assert (LFT : last ew 0 < dg_left feps ew) by (unfold dg_left; nra).
  assert (VS : vsum (ug2 g us) = norm2sq g). { rewrite GN, vsum_rsum, (ug2_len m H g ew us EP). apply rsum_ext. intros k Hk. apply (ug2_get m H g ew us EP). auto. }
  assert (LR : dg_left feps ew <= dg_right ew (ug2 g us)) by (unfold dg_left, dg_right; rewrite VS; simpl in BIG; nra).
  destruct (BT (secular ew (ug2 g us)) phi (dg_left feps ew) (dg_right ew (ug2 g us)) LR) as [r ->]; [| |exists (- r); reflexivity].
  - intros t [T1 _]. assert (LT : last ew 0 < t) by lra. split; [apply (secular_fin m H); auto|]. unfold phi. apply derivable_continuous_pt. eexists. apply d_plus; [apply d_const|]. apply d_rsum. intros k Hk. pose proof (EL k Hk).
    unfold Rdiv. apply d_scal. apply (d_comp (fun s => / s) (fun t => vget ew k - t) t (- / ((vget ew k - t) * (vget ew k - t))) (0 - 1)); [apply d_minus; [apply d_const|apply d_id]|].
    apply d_ext with (f := fun s => 1 / s) (l := (0 * (vget ew k - t) - 1 * 1) / (Rsqr (vget ew k - t))); [intro; unfold Rdiv; ring|unfold Rsqr; field; lra|].
    apply (derivable_pt_lim_div (fun _ => 1) (fun s => s) (vget ew k - t) 0 1); [apply d_const|apply d_id|lra].
  - split.
    + unfold phi. assert (B : gl * gl / (feps * - last ew 0) <= rsum m (fun k => - (gh g us k * gh g us k / (vget ew k - dg_left feps ew)))).
      { replace m with (S (m - 1)) at 1 by lia. cbn [rsum]. unfold gh at 3 4. fold gl. rewrite <- LEW.
        assert (P : 0 <= rsum (m - 1) (fun k => - (gh g us k * gh g us k / (vget ew k - dg_left feps ew)))).
        { apply rsum_nonneg. intros k Hk. specialize (EL k ltac:(lia)). replace (- (gh g us k * gh g us k / (vget ew k - dg_left feps ew))) with (gh g us k * gh g us k * / (dg_left feps ew - vget ew k)) by (field; lra).
          apply Rmult_le_pos; [nra|]. apply Rlt_le, Rinv_0_lt_compat. lra. }
        replace (- (gl * gl / (last ew 0 - dg_left feps ew))) with (gl * gl / (feps * - last ew 0)) by (unfold dg_left; field; split; [|nra]; nra). lra. }
      assert (O : 1 <= gl * gl / (feps * - last ew 0)).
      { apply Rmult_le_reg_r with (feps * - last ew 0); [nra|]. unfold Rdiv. rewrite Rmult_assoc, Rinv_l, Rmult_1_r by nra. simpl in BIG. nra. }
      rewrite rsum_opp in B. lra.
    + assert (GP : 0 < norm2sq g) by (simpl in BIG; nra). destruct (secular_right m H g ew us (dg_right ew (ug2 g us)) EP Lg GP eq_refl) as [v [E V]]. rewrite (secular_fin m H g ew us) in E by (auto; unfold dg_right; rewrite VS; lra). injection E as E. unfold phi. lra.
Qed.

(** ** the fall back can fail although the constraint holds *)
Lemma dot2 : forall a b c d, dot [a; b] [c; d] = a * c + b * d.
Proof. intros. rewrite !dot_cons. change (dot [] []) with 0. ring. Qed.
Lemma quad2 : forall a b c d x y, quad [[a; b]; [c; d]] [x; y] = a * x * x + (b + c) * x * y + d * y * y.
Proof. intros. unfold quad. cbn [mv map]. rewrite !dot2. ring. Qed.
Example ex_eigh2 : eigh_post 2 (mscale (-1) [[1; 0]; [0; 2]]) ([-2; -1], [[0; 1]; [1; 0]]).
Proof.
  split; auto. split; [split; [auto|split; [repeat constructor|]]|split].
  - intros a b Ha Hb. simpl in Ha, Hb. destruct a as [|[|a]]; [| |lia]; (destruct b as [|[|b]]; [| |lia]); cbn [snd nth Nat.eqb]; rewrite dot2; ring.
  - cbn. repeat (apply f_equal2); ring || reflexivity.
  - intros i j Hij. cbn [fst]. destruct i as [|[|i]]; [| |lia]; (destruct j as [|[|j]]; [| |lia]); unfold vget; cbn [nth]; try lra; lia.
Qed.
Theorem dist_slow_refuted : exists H g e, sq 2 H /\ msym 2 H /\ length g = 2%nat /\ eigh_post 2 (mscale (-1) H) e /\ psd 2 H /\ loewner 2 (outer g g) H /\ forall brenth eigh feps, brenth_signs brenth -> eigh (mscale (-1) H) = e -> 0 < feps < 1 -> dist_grad_slow brenth eigh feps H g = None.
Proof.
  exists [[1; 0]; [0; 2]], [0; 1], ([-2; -1], [[0; 1]; [1; 0]]). split; [split; [auto|repeat constructor]|]. split; [|split; [auto|split; [apply ex_eigh2|split; [|split]]]].
  - intros i j Hi Hj. destruct i as [|[|i]]; [| |lia]; (destruct j as [|[|j]]; [| |lia]); reflexivity.
  - intros [|x [|y [|]]] Hx; try discriminate. rewrite quad2. nra.
  - intros [|x [|y [|]]] Hx; try discriminate. rewrite quad_outer, quad2, dot2. nra.
  - intros brenth eigh feps BS EE FE. unfold dist_grad_slow. rewrite EE. cbn [fst snd map]. rewrite !dot2. rewrite BS; [reflexivity| |].
    + unfold secular, dg_left. cbn [last zipw ndivr nsum fold_right]. destruct (Req_EM_T (-2 - -1 * (1 - feps)) 0) as [Z|Z]; [lra|]. destruct (Req_EM_T (-1 - -1 * (1 - feps)) 0) as [Z'|Z']; [lra|]. cbn [nadd nltb]. apply Rltb_true.
      replace ((0 * 0 + 1 * 1) * (0 * 0 + 1 * 1) / (-2 - -1 * (1 - feps))) with (- / (1 + feps)) by (field; lra). replace ((1 * 0 + 0 * 1) * (1 * 0 + 0 * 1)) with 0 by ring. unfold Rdiv. rewrite Rmult_0_l.
      assert (/ (1 + feps) < 1) by (rewrite <- Rinv_1 at 2; apply Rinv_lt_contravar; lra). lra.
    + unfold secular, dg_right. cbn [last zipw ndivr nsum fold_right]. rewrite !vsum_cons. change (vsum []) with 0.
      replace (-1 + ((0 * 0 + 1 * 1) * (0 * 0 + 1 * 1) + ((1 * 0 + 0 * 1) * (1 * 0 + 0 * 1) + 0))) with 0 by ring.
      destruct (Req_EM_T (-2 - 0) 0) as [Z|Z]; [lra|]. destruct (Req_EM_T (-1 - 0) 0) as [Z'|Z']; [lra|]. cbn [nadd nltb]. apply Rltb_true.
      replace ((0 * 0 + 1 * 1) * (0 * 0 + 1 * 1) / (-2 - 0)) with (- / 2) by field. replace ((1 * 0 + 0 * 1) * (1 * 0 + 0 * 1)) with 0 by ring. unfold Rdiv. lra.
Qed.
(** so project_grads with the fall back raises on an already feasible matrix *)
Theorem project_grads_slow_refuted : exists H g e, eigh_post 2 (mscale (-1) H) e /\ loewner 2 (outer g g) H /\ forall brenth eigh feps n, brenth_signs brenth -> eigh (mscale (-1) H) = e -> 0 < feps < 1 -> project_grads (S n) (dist_grad_slow brenth eigh feps) eigh H [g] = Raised.
Proof.
  destruct dist_slow_refuted as [H [g [e [_ [_ [_ [EP [_ [LO R]]]]]]]]]. exists H, g, e. split; auto. split; auto. intros brenth eigh feps n BS EE FE.
  unfold project_grads. cbn [pg_loop]. unfold pg_step. cbn [map all_some]. rewrite R by auto. reflexivity.
Qed.
(** for a singular H the left end point is a pole of the secular function (+inf), so brenth raises even when the constraint is violated *)
Theorem dist_slow_singular_refuted : exists H g e, sq 2 H /\ psd 2 H /\ eigh_post 2 (mscale (-1) H) e /\ forall brenth eigh feps, brenth_signs brenth -> eigh (mscale (-1) H) = e -> 0 < feps < 1 -> dist_grad_slow brenth eigh feps H g = None.
Proof.
  exists [[1; 0]; [0; 0]], [1; 1], ([-1; 0], [[1; 0]; [0; 1]]). split; [split; [auto|repeat constructor]|]. split; [intros [|x [|y [|]]] Hx; try discriminate; rewrite quad2; nra|]. split.
  - split; auto. split; [split; [auto|split; [repeat constructor|]]|split].
    + intros a b Ha Hb. simpl in Ha, Hb. destruct a as [|[|a]]; [| |lia]; (destruct b as [|[|b]]; [| |lia]); cbn [snd nth Nat.eqb]; rewrite dot2; ring.
    + cbn. repeat (apply f_equal2); ring || reflexivity.
    + intros i j Hij. cbn [fst]. destruct i as [|[|i]]; [| |lia]; (destruct j as [|[|j]]; [| |lia]); unfold vget; cbn [nth]; try lra; lia.
  - intros brenth eigh feps BS EE FE. unfold dist_grad_slow. rewrite EE. cbn [fst snd map]. rewrite !dot2. rewrite BS; [reflexivity| |].
    + unfold secular, dg_left. cbn [last zipw ndivr nsum fold_right]. rewrite Rmult_0_l. destruct (Req_EM_T (-1 - 0) 0) as [Z|Z]; [lra|]. destruct (Req_EM_T (0 - 0) 0) as [Z'|Z']; [|exfalso; apply Z'; ring].
      destruct (Req_EM_T ((0 * 1 + 1 * 1) * (0 * 1 + 1 * 1)) 0) as [Z2|Z2]; [lra|]. destruct (Rltb 0 ((0 * 1 + 1 * 1) * (0 * 1 + 1 * 1))) eqn:LT; [reflexivity|apply Rltb_false in LT; lra].
    + unfold secular, dg_right. cbn [last zipw ndivr nsum fold_right]. rewrite !vsum_cons. change (vsum []) with 0.
      replace (0 + ((1 * 1 + 0 * 1) * (1 * 1 + 0 * 1) + ((0 * 1 + 1 * 1) * (0 * 1 + 1 * 1) + 0))) with 2 by ring.
      destruct (Req_EM_T (-1 - 2) 0) as [Z|Z]; [lra|]. destruct (Req_EM_T (0 - 2) 0) as [Z'|Z']; [lra|]. cbn [nadd nltb]. apply Rltb_true. lra.
Qed.
