(** The classes without solver options: UnboundedDomain and LogNormalDomain; products of random domains; the uncertain borehole (C140). *)
Require Import Reals Lra Lia List Bool Arith.
From Verif Require Import RVec Num DomModel DomMoreModel DomProofs NormProofs PredModel NbModel DemoModel ObjModel ObjProofs.
Import ListNotations.
Local Open Scope R_scope.

(** an UnboundedDomain: no query that needs a solver ever returns; normalizing is always the identity; the derivative of the normalization
    raises the first two times and is the identity afterwards *)
Lemma unb_forall : forall (m : nat), (0 < m)%nat -> forallb is_fin (repeat NInf m) = false /\ forallb is_fin (repeat PInf m) = false.
Proof. intros [|m] H; [lia|]. split; reflexivity. Qed.
Lemma low_first : forall m nu, (0 < m)%nat -> low_inner (repeat NInf m) (repeat PInf m) (fun _ _ _ => EmptyExc) (seq 0 m) (repeat NInf m) nu = (false, repeat NInf m).
Proof. intros [|m] nu H; [lia|]. reflexivity. Qed.
Lemma up_first : forall m nl, (0 < m)%nat -> up_inner (repeat NInf m) (repeat PInf m) (fun _ _ _ => EmptyExc) (seq 0 m) nl (repeat PInf m) = (false, repeat PInf m).
Proof. intros [|m] nl H; [lia|]. reflexivity. Qed.
Lemma uslopes_unb : forall m, uslopes (repeat NInf m) (repeat PInf m) = repeat 1 m.
Proof. induction m; [reflexivity|]. cbn. f_equal. exact IHm. Qed.

Definition ders (ops : list op) : nat := length (filter (fun a => match a with Der => true | _ => false end) ops).
(** the answer to the operation [a] when [k] derivatives were asked before *)
Definition unb_answer (m k : nat) (a : op) : option vec :=
  match a with Nrm x => Some (firstn m x) | Unn z => Some (firstn m z) | Der => if Nat.ltb k 2 then None else Some (repeat 1 m) end.
Definition unb_state (m k : nat) : nst :=
  match k with O => mkNst None None | S O => mkNst None (Some (repeat PInf m)) | _ => mkNst (Some (repeat NInf m)) (Some (repeat PInf m)) end.
Lemma unb_step : forall m k a, (0 < m)%nat -> runT [(unbounded_obj m, unb_state m k)] a = (unb_answer m k a, [(unbounded_obj m, unb_state m (match a with Der => S k | _ => k end))]).
Proof.
  intros m k a H. cbn [runT unbounded_obj o_lb]. rewrite repeat_length. destruct a as [x|z|]; cbn [op_head op_tail run1 o_kind unb_answer].
  - cbn [o_kind unbounded_obj]; cbv beta iota zeta; rewrite app_nil_r; reflexivity.
  - cbn [o_kind unbounded_obj]; cbv beta iota zeta; rewrite app_nil_r; reflexivity.
  - unfold do_der. destruct k as [|[|k]]; cbn [unb_state]; unfold get_ub, get_lb; cbn [o_kw o_lb o_ub unbounded_obj s_lb s_ub].
    + rewrite repeat_length, up_first by auto. reflexivity.
    + rewrite repeat_length, low_first by auto. reflexivity.
    + cbv beta iota zeta; rewrite uslopes_unb; rewrite app_nil_r; reflexivity.
Qed.
Lemma unb_hist : forall m ops k i a, (0 < m)%nat -> nth_error ops i = Some a ->
  nth_error (fst (history [(unbounded_obj m, unb_state m k)] ops)) i = Some (unb_answer m (k + ders (firstn i ops)) a).
Proof.
  intros m ops. induction ops as [|b ops IH]; intros k i a H Hi; [destruct i; discriminate|]. cbn [history]. rewrite unb_step by auto.
  destruct i as [|i]; cbn [nth_error firstn] in *.
  - destruct (history _ ops) as [rs fs2]. cbn [fst nth_error]. inversion Hi; subst. unfold ders. cbn. rewrite Nat.add_0_r. reflexivity.
  - specialize (IH (match b with Der => S k | _ => k end) i a H Hi). destruct (history _ ops) as [rs fs2]. cbn [fst nth_error] in *. rewrite IH. f_equal. f_equal.
    unfold ders. destruct b; cbn [filter length]; lia.
Qed.
Theorem unbounded_history : forall m ops i a, (0 < m)%nat -> nth_error ops i = Some a ->
  nth_error (fst (history (new [unbounded_obj m]) ops)) i =
    Some (match a with Nrm x => Some (firstn m x) | Unn z => Some (firstn m z) | Der => if Nat.ltb (ders (firstn i ops)) 2 then None else Some (repeat 1 m) end).
Proof. intros m ops i a H Hi. change (new [unbounded_obj m]) with [(unbounded_obj m, unb_state m 0)]. rewrite (unb_hist m ops 0 i a H Hi). reflexivity. Qed.

(** every point is a member of R^m and is its own closest point; the object cannot say so *)
Theorem unbounded_queries_refuted : exists m x, (0 < m)%nat /\ length x = m /\
  (forall nl nu p, corner (unbounded_obj m) nl nu p = None) /\ (forall nl nu, euclid_is_empty (unbounded_obj m) nl nu = None) /\ (forall cl, closest_point (unbounded_obj m) cl x = None).
Proof. exists 1%nat, [0]. repeat split; auto. Qed.

(** what a factor is built from *)
Inductive desc :=
| DPlain (l u : list num) (cor : list num -> list num -> vec -> answer)
| DNormal (mean : vec) (cor : list num -> list num -> vec -> answer)
| DLog (offset scaling : R) (trunc : option (R * R)).
Definition build (d : desc) : obj :=
  match d with DPlain l u cor => linquad_obj l u cor | DNormal mean cor => normal_obj mean cor | DLog o s t => lognormal_obj o s t end.
(** the solver of a factor never reports an empty domain *)
Definition fine (d : desc) : Prop :=
  match d with
  | DPlain l u cor => length u = length l /\ forall nl nu p, cor nl nu p <> EmptyExc
  | DNormal _ cor => forall nl nu p, cor nl nu p <> EmptyExc
  | DLog _ _ _ => True
  end.
(** log-normal factors that are not truncated *)
Definition open_logs (ds : list desc) : nat := length (filter (fun d => match d with DLog _ _ None => true | _ => false end) ds).

Lemma build_usable : forall d, fine d -> usable (build d) /\ scaled (build d).
Proof.
  intros [l u cor|mean cor|o s t] H; cbn [build fine] in *; unfold usable, scaled; cbn [linquad_obj normal_obj lognormal_obj o_kind o_kw o_lb o_ub o_cor].
  - destruct H as [H1 H2]. split; [split; auto|discriminate].
  - split; [split; [rewrite !repeat_length; auto|auto]|discriminate].
  - split; [split; [reflexivity|discriminate]|discriminate].
Qed.
Lemma new_debt : forall ds, debt (new (map build ds)) = open_logs ds.
Proof.
  induction ds as [|d ds IH]; [reflexivity|]. unfold debt, new, open_logs in *. cbn [map list_sum fold_right fst snd filter] in *.
  destruct d as [l u cor|mean cor|o s [t|]]; cbn [build]; unfold debt1 at 1; cbn [linquad_obj normal_obj lognormal_obj o_kw o_lb o_ub s_lb s_ub]; try (exact IH).
  - destruct t as [a b]. unfold owes, unfin. cbn [logn_lb logn_ub forallb is_fin andb negb]. exact IH.
  - unfold owes, unfin. cbn [logn_lb logn_ub forallb is_fin andb negb length]. rewrite <- IH. reflexivity.
Qed.
Lemma new_ok : forall ds, Forall fine ds -> Forall (fun p => usable (fst p)) (new (map build ds)) /\ Forall (fun p => scaled (fst p)) (new (map build ds)).
Proof.
  intros ds H. unfold new. rewrite map_map. split; rewrite Forall_map; (eapply Forall_impl; [|exact H]); intros d Hd; apply build_usable; auto.
Qed.

(** a product with k log-normal factors that are not truncated: the first k operations raise, no later one does *)
Theorem product_attempts : forall ds ops i a, Forall fine ds -> nth_error ops i = Some a ->
  (nth_error (fst (history (new (map build ds)) ops)) i = Some None <-> (i < open_logs ds)%nat).
Proof. intros ds ops i a H Hi. rewrite <- new_debt. destruct (new_ok ds H) as [U S]. eapply history_exact; eauto. Qed.
(** in particular a product of the other classes never raises *)
Theorem product_never : forall ds ops i a, Forall fine ds -> Forall (fun d => forall o s, d <> DLog o s None) ds -> nth_error ops i = Some a ->
  exists y, nth_error (fst (history (new (map build ds)) ops)) i = Some (Some y).
Proof.
  intros ds ops i a H N Hi. assert (Z : open_logs ds = 0%nat).
  { unfold open_logs. clear H. induction N as [|d ds Hd N IH]; [reflexivity|]. cbn [filter]. destruct d as [| |o s [t|]]; auto. destruct (Hd o s eq_refl). }
  pose proof (product_attempts ds ops i a H Hi) as E. rewrite Z in E.
  assert (L : forall ops fs, length (fst (history fs ops)) = length ops).
  { clear. induction ops as [|b ops IH]; intro fs; [reflexivity|]. cbn [history]. destruct (runT fs b) as [r fs1]. specialize (IH fs1). destruct (history fs1 ops). cbn in *. lia. }
  assert (Q : nth_error (fst (history (new (map build ds)) ops)) i <> None) by (apply nth_error_Some; rewrite L; apply nth_error_Some; congruence).
  destruct (nth_error (fst (history (new (map build ds)) ops)) i) as [[y|]|] eqn:F; [exists y; reflexivity| |congruence]. destruct E as [E _]. specialize (E eq_refl). lia.
Qed.

(** a log-normal variable that is not truncated is never scaled: after the first exception its normalization is the identity *)
Lemma log_first : forall o s a, runT (new [lognormal_obj o s None]) a = (None, [(lognormal_obj o s None, mkNst (match a with Der => None | _ => Some [Fin 0] end) (Some [PInf]))]).
Proof. intros o s [x|z|]; reflexivity. Qed.
Theorem lognormal_identity : forall o s ops i a, nth_error ops i = Some a -> (match a with Nrm x => length x | Unn z => length z | Der => 1 end = 1)%nat ->
  nth_error (fst (history (new [lognormal_obj o s None]) ops)) i = Some (match i with O => None | S _ => Some (match a with Nrm x => x | Unn z => z | Der => [1] end) end).
Proof.
  intros o s ops i a Hi La.
  assert (V : forall sl a, (match a with Nrm x => length x | Unn z => length z | Der => 1 end = 1)%nat -> sl = None \/ sl = Some [Fin 0] ->
    exists sl', (sl' = None \/ sl' = Some [Fin 0]) /\ runT [(lognormal_obj o s None, mkNst sl (Some [PInf]))] a = (Some (match a with Nrm x => x | Unn z => z | Der => [1] end), [(lognormal_obj o s None, mkNst sl' (Some [PInf]))])).
  { intros sl b Lb Hs. exists (Some [Fin 0]). split; [auto|].
    assert (X : forall v : R, dot [1] [v] = v) by (intro v; rewrite dot_cons, dot_nil_l; ring).
    destruct b as [x|z|]; cbn in Lb.
    - destruct x as [|v [|]]; try discriminate. destruct Hs as [-> | ->]; unfold runT, run1, do_center, do_der, get_lb, get_ub; cbn -[dot Rminus]; unfold center_i; rewrite ?X; repeat f_equal; try ring.
    - destruct z as [|v [|]]; try discriminate. destruct Hs as [-> | ->]; unfold runT, run1, do_center, do_der, get_lb, get_ub; cbn -[dot Rplus]; rewrite ?X; repeat f_equal; try ring.
    - destruct Hs as [-> | ->]; reflexivity. }
  assert (W : forall b ops sl j, (forall j' b', nth_error ops j' = Some b' -> True) -> sl = None \/ sl = Some [Fin 0] -> nth_error ops j = Some b ->
    (match b with Nrm x => length x | Unn z => length z | Der => 1 end = 1)%nat ->
    nth_error (fst (history [(lognormal_obj o s None, mkNst sl (Some [PInf]))] ops)) j = Some (Some (match b with Nrm x => x | Unn z => z | Der => [1] end))).
  { intros b ops'. induction ops' as [|c ops' IH]; intros sl j _ Hs Hj Lb; [destruct j; discriminate|]. cbn [history].
    assert (St : exists r sl', (sl' = None \/ sl' = Some [Fin 0]) /\ runT [(lognormal_obj o s None, mkNst sl (Some [PInf]))] c = (r, [(lognormal_obj o s None, mkNst sl' (Some [PInf]))])).
    { destruct c as [x|z|]; destruct Hs as [-> | ->]; (eexists; exists (Some [Fin 0]); split; [auto|reflexivity]). }
    destruct St as [r [sl' [Hs' E]]]. destruct j as [|j]; cbn [nth_error] in Hj.
    - inversion Hj; subst c. destruct (V sl b Lb Hs) as [sl'' [_ E']]. rewrite E'. destruct (history _ ops'). reflexivity.
    - rewrite E. specialize (IH sl' j (fun _ _ _ => I) Hs' Hj Lb). destruct (history [(lognormal_obj o s None, mkNst sl' (Some [PInf]))] ops'). cbn [fst nth_error] in *. exact IH. }
  destruct ops as [|b ops]; [destruct i; discriminate|]. cbn [history]. rewrite log_first. destruct i as [|i]; cbn [nth_error] in *.
  - destruct (history _ ops). reflexivity.
  - pose proof (W a ops (match b with Der => None | _ => Some [Fin 0] end) i (fun _ _ _ => I) ltac:(destruct b; auto) Hi La) as E.
    destruct (history [(lognormal_obj o s None, mkNst (match b with Der => None | _ => Some [Fin 0] end) (Some [PInf]))] ops). exact E.
Qed.

(** truncated: both bounds are finite and the unit interval goes onto the interval between them, at the first call already *)
Theorem lognormal_truncated : forall o s a b z, 0 < s -> a < b ->
  let l := o + s * exp a in let u := o + s * exp b in
  fst (runT (new [lognormal_obj o s (Some (a, b))]) (Unn [z])) = Some [(l + u) / 2 + z * ((u - l) / 2)] /\ l < u.
Proof.
  intros o s a b z Hs Hab l u. assert (Hlu : l < u) by (unfold l, u; pose proof (exp_increasing a b Hab); nra). split; [|exact Hlu].
  assert (X : forall c v : R, dot [c] [v] = c * v) by (intros; rewrite dot_cons, dot_nil_l; ring).
  unfold new, lognormal_obj. cbn [map logn_lb logn_ub]. fold l u. unfold runT, run1, do_center, do_der, get_lb, get_ub.
  cbn [o_kind o_kw o_lb o_ub o_cor op_head op_tail firstn skipn length seq repeat low_inner up_inner low_given up_given nth is_fin s_lb s_ub].
  assert (E1 : nmin2 (Fin l) (Fin u) = Fin l). { unfold nmin2. cbn [nltb]. destruct (Rltb u l) eqn:E; [apply Rltb_true in E; lra|reflexivity]. }
  assert (E2 : nmax (Fin u) (Fin l) = Fin u). { unfold nmax. cbn [nltb]. destruct (Rltb u l) eqn:E; [apply Rltb_true in E; lra|reflexivity]. }
  rewrite E1, E2. cbn -[dot Rplus Rmult Rdiv Rminus]. unfold uslope, center_i. destruct (Req_EM_T u l); [lra|]. rewrite X. do 2 f_equal. lra.
Qed.

(** the uncertain borehole: the first evaluation raises whatever the point; from the second on it works, with the radius of influence unscaled *)
Definition half (l u z : R) : R := (l + u) / 2 + z * ((u - l) / 2).
Definition borehole_point (z : vec) : vec :=
  [0.10 + vget z 0; vget z 1; half 63070 115600 (vget z 2); half 990 1110 (vget z 3); half 63.1 116 (vget z 4); half 700 820 (vget z 5); half 1120 1680 (vget z 6); half 9855 12045 (vget z 7)].
Definition unif (cor : list num -> list num -> vec -> answer) (l u : R) (st : nst) : obj * nst := (linquad_obj [Fin l] [Fin u] cor, st).
Definition no_st : nst := mkNst None None.
Definition nf_st : nst := mkNst (Some [NInf]) (Some [PInf]).
Definition ln_st : nst := mkNst (Some [Fin 0]) (Some [PInf]).
Definition bh_state (cor : list num -> list num -> vec -> answer) (seen : bool) : list (obj * nst) :=
  (normal_free [0.10], nf_st) :: (lognormal_obj 0 1 None, ln_st) ::
  map (fun p => unif cor (fst p) (snd p) (if seen then mkNst (Some [Fin (fst p)]) (Some [Fin (snd p)]) else no_st))
      [(63070, 115600); (990, 1110); (63.1, 116); (700, 820); (1120, 1680); (9855, 12045)].
Lemma dot11 : forall c v : R, dot [c] [v] = c * v. Proof. intros; rewrite dot_cons, dot_nil_l; ring. Qed.
Lemma unif_run : forall cor l u st z, l < u -> st = no_st \/ st = mkNst (Some [Fin l]) (Some [Fin u]) ->
  run1 (linquad_obj [Fin l] [Fin u] cor) (Unn [z]) st = (Some [half l u z], mkNst (Some [Fin l]) (Some [Fin u])).
Proof.
  intros cor l u st z H Hs.
  assert (E1 : nmin2 (Fin l) (Fin u) = Fin l). { unfold nmin2. cbn [nltb]. destruct (Rltb u l) eqn:E; [apply Rltb_true in E; lra|reflexivity]. }
  assert (E2 : nmax (Fin u) (Fin l) = Fin u). { unfold nmax. cbn [nltb]. destruct (Rltb u l) eqn:E; [apply Rltb_true in E; lra|reflexivity]. }
  destruct Hs as [-> | ->]; unfold run1, do_center, do_der, get_lb, get_ub, linquad_obj, norm_lb, norm_ub, no_st;
  cbn [o_kind o_kw o_lb o_ub o_cor length seq repeat low_outer up_outer low_given up_given nth is_fin s_lb s_ub set_nth firstn skipn app]; rewrite ?E1, ?E2;
  cbn -[dot Rplus Rmult Rdiv Rminus]; unfold uslope, center_i; (destruct (Req_EM_T u l); [lra|]); rewrite dot11; unfold half; do 3 f_equal; lra.
Qed.
Lemma bh_later : forall cor seen z, length z = 8%nat -> runT (bh_state cor seen) (Unn z) = (Some (borehole_point z), bh_state cor true).
Proof.
  intros cor seen z L. do 8 (destruct z as [|? z]; [discriminate|]). destruct z; [|discriminate].
  assert (N : forall v, run1 (normal_free [0.10]) (Unn [v]) nf_st = (Some [0.10 + v], nf_st)).
  { intro v. cbn -[dot Rplus]. rewrite dot11. do 3 f_equal. lra. }
  assert (G : forall v, run1 (lognormal_obj 0 1 None) (Unn [v]) ln_st = (Some [v], ln_st)).
  { intro v. cbn -[dot Rplus]. rewrite dot11. do 3 f_equal. lra. }
  unfold bh_state, unif. cbn [map fst snd runT o_lb normal_free normal_obj lognormal_obj linquad_obj length repeat op_head op_tail firstn skipn].
  fold (normal_obj [0.10] (fun _ _ _ => UnboundedExc)). change (mkObj (KMean [0.10]) true [NInf] [PInf] (fun _ _ _ => UnboundedExc)) with (normal_free [0.10]).
  rewrite N. change (mkObj KPlain false [logn_lb 0 1 None] [logn_ub 0 1 None] (fun _ _ _ => EmptyExc)) with (lognormal_obj 0 1 None). rewrite G.
  repeat (match goal with |- context [mkObj KPlain true [Fin ?a] [Fin ?b] cor] => change (mkObj KPlain true [Fin a] [Fin b] cor) with (linquad_obj [Fin a] [Fin b] cor) end).
  rewrite !unif_run by (try lra; destruct seen; auto). reflexivity.
Qed.
Lemma bh_first : forall cor z, (2 <= length z)%nat -> runT (new (borehole_uncertain cor)) (Unn z) = (None, bh_state cor false).
Proof.
  intros cor z L. destruct z as [|a [|b z]]; [cbn in L; lia|cbn in L; lia|]. reflexivity.
Qed.
Theorem borehole_uncertain_evals : forall cor z0 zs z, length z0 = 8%nat -> Forall (fun y => length y = 8%nat) zs -> length z = 8%nat ->
  let fs0 := new (borehole_uncertain cor) in
  fst (borehole_eval fs0 z0) = None /\ fst (borehole_eval (snd (history fs0 (map Unn (z0 :: zs)))) z) = Some (borehole (borehole_point z)).
Proof.
  intros cor z0 zs z L0 Ls L fs0. split.
  - unfold borehole_eval, fs0. rewrite bh_first by lia. reflexivity.
  - assert (E : exists seen, snd (history fs0 (map Unn (z0 :: zs))) = bh_state cor seen).
    { cbn [map history]. unfold fs0. rewrite bh_first by lia.
      assert (G : forall seen, exists seen', snd (history (bh_state cor seen) (map Unn zs)) = bh_state cor seen').
      { clear L0 z0. induction Ls as [|y ys Hy Hys IH]; intro seen; [exists seen; reflexivity|]. cbn [map history]. rewrite bh_later by auto. specialize (IH true).
        destruct (history (bh_state cor true) (map Unn ys)). exact IH. }
      specialize (G false). destruct (history (bh_state cor false) (map Unn zs)). exact G. }
    destruct E as [seen ->]. unfold borehole_eval. rewrite bh_later by auto. reflexivity.
Qed.
(** the same point evaluated twice: an exception, then a value *)
Theorem evaluation_history_refuted : exists fs z, fst (borehole_eval fs z) = None /\ fst (borehole_eval (snd (borehole_eval fs z)) z) = Some (borehole (borehole_point z)) /\ borehole_point z = [0.10; 3000; 89335; 1050; 89.55; 760; 1400; 10950].
Proof.
  exists (new (borehole_uncertain (fun _ _ _ => EmptyExc))), [0; 3000; 0; 0; 0; 0; 0; 0].
  destruct (borehole_uncertain_evals (fun _ _ _ => EmptyExc) [0; 3000; 0; 0; 0; 0; 0; 0] [] [0; 3000; 0; 0; 0; 0; 0; 0] eq_refl (Forall_nil _) eq_refl) as [A B].
  split; [exact A|split]. { unfold borehole_eval at 2. cbn [map history] in B. destruct (runT _ _) as [r fs1]. cbn [snd] in *. exact B. }
  unfold borehole_point, half. cbn [vget nth]. unfold vget. cbn [nth]. repeat (apply f_equal2; [lra|]). reflexivity.
Qed.

(** three log-normal factors, one of them truncated: the first two of four operations raise *)
Definition three_logs : list desc := [DLog 0 1 None; DLog 1 2 (Some (0, 1)); DPlain [Fin 0] [Fin 1] (fun _ _ _ => UnboundedExc); DLog 0 3 None].
Example logs_case : Forall fine three_logs /\ open_logs three_logs = 2%nat /\
  map raised (fst (history (new (map build three_logs)) [Unn [1; 1; 1; 1]; Der; Der; Nrm [1; 1; 1; 1]])) = [true; true; false; false].
Proof.
  assert (F : Forall fine three_logs) by (unfold three_logs; repeat constructor; discriminate). split; [exact F|split; [reflexivity|]].
  pose proof (product_attempts three_logs [Unn [1; 1; 1; 1]; Der; Der; Nrm [1; 1; 1; 1]]) as P. change (open_logs three_logs) with 2%nat in P.
  pose proof (P 0%nat _ F eq_refl) as P0. pose proof (P 1%nat _ F eq_refl) as P1. pose proof (P 2%nat _ F eq_refl) as P2. pose proof (P 3%nat _ F eq_refl) as P3. clear P.
  cbn [history] in *. destruct (runT _ (Unn _)) as [r0 f0]. destruct (runT f0 Der) as [r1 f1]. destruct (runT f1 Der) as [r2 f2]. destruct (runT f2 _) as [r3 f3]. cbn [fst nth_error map raised] in *.
  assert (r0 = None) by (destruct P0 as [_ P0]; specialize (P0 ltac:(lia)); congruence). assert (r1 = None) by (destruct P1 as [_ P1]; specialize (P1 ltac:(lia)); congruence).
  destruct r2; [|destruct P2 as [P2 _]; specialize (P2 eq_refl); lia]. destruct r3; [|destruct P3 as [P3 _]; specialize (P3 eq_refl); lia]. subst. reflexivity.
Qed.
Example unbounded_case : fst (history (new [unbounded_obj 2]) [Unn [3; 4]; Der; Nrm [5; 6]; Der; Der]) = [Some [3; 4]; None; Some [5; 6]; None; Some [1; 1]].
Proof. reflexivity. Qed.

(** every other object returns what the solver finds: the point of the domain nearest to x0 if the solver finds it *)
Theorem closest_nearest : forall d cl x0 (P : vec -> Prop), match d with DLog _ _ _ => False | _ => True end ->
  (forall z, P (cl z) /\ forall w, P w -> norm2 (vsub (cl z) z) <= norm2 (vsub w z)) ->
  exists y, closest_point (build d) cl x0 = Some y /\ P y /\ forall w, P w -> norm2 (vsub y x0) <= norm2 (vsub w x0).
Proof. intros d cl x0 P K H. exists (cl x0). split; [|apply H]. destruct d; [| |contradiction]; reflexivity. Qed.
Example closest_case : exists y, closest_point (build (DPlain [Fin 0] [Fin 1] (fun _ _ _ => UnboundedExc))) (fun z => [Rmin 1 (Rmax 0 (vget z 0))]) [7] = Some y /\ y = [1].
Proof. eexists. split; [reflexivity|]. cbn. f_equal. unfold Rmin, Rmax. destruct (Rle_dec 0 7); [|lra]. destruct (Rle_dec 1 7); lra. Qed.
