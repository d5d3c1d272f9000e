(** Vandermonde with Arnoldi, continued: the construction, its derivative, polyvalA (C24). *)
Require Import Reals Lra Lia List Bool Arith ZArith Sorted Factorial.
From Verif Require Import RVec Num Sums NormProofs DomMoreModel HullProofs ChebProofs VecTac Deriv BasisModel IndexProofs PolyProofs ArnoldiProofs.
Import ListNotations.
Local Open Scope R_scope.

(* ---------------- modified Gram-Schmidt ---------------- *)
Lemma mgs_length : forall w Q q, length (fst (mgs w Q q)) = length Q.
Proof. induction Q as [|u Q IH]; intro q; simpl; auto. specialize (IH (vsub q (vscale (dot u q / w) u))). destruct (mgs w Q _). simpl in *. auto. Qed.
Lemma mgs_vec : forall w L Q q, Forall (fun u => length u = L) Q -> length q = L ->
  length (snd (mgs w Q q)) = L /\ forall s, (s < L)%nat -> vget (snd (mgs w Q q)) s = vget q s - rsum (length Q) (fun t => vget (fst (mgs w Q q)) t * vget (nth t Q []) s).
Proof.
  induction Q as [|u Q IH]; intros q HQ Hq.
  - simpl. split; auto. intros. ring.
  - inversion HQ as [|? ? Hu HQ']; subst. simpl mgs. set (r := dot u q / w). assert (L1 : length (vsub q (vscale r u)) = length q) by (apply vsub_length; rewrite vscale_length; auto).
    destruct (IH (vsub q (vscale r u)) HQ' L1) as [I1 I2]. destruct (mgs w Q (vsub q (vscale r u))) as [rs q'] eqn:E. cbn [fst snd] in *. split; auto.
    intros s Hs. rewrite I2 by auto. rewrite vsub_get by (rewrite vscale_length; auto). rewrite vscale_get. cbn [length]. rewrite rsum_S_first.
    cbv beta. rewrite (rsum_ext (length Q) (fun i => vget (r :: rs) (S i) * vget (nth (S i) (u :: Q) []) s) (fun t => vget rs t * vget (nth t Q []) s)) by (intros; reflexivity).
    change (vget (r :: rs) 0) with r. change (nth 0 (u :: Q) []) with u. ring.
Qed.
Lemma mgs_perp_keep : forall w L v Q q, length v = L -> Forall (fun u => length u = L) Q -> length q = L ->
  dot v q = 0 -> (forall u, In u Q -> dot v u = 0) -> dot v (snd (mgs w Q q)) = 0.
Proof.
  induction Q as [|u Q IH]; intros q Hv HQ Hq D0 DQ; simpl; auto. inversion HQ as [|? ? Hu HQ'].
  set (r := dot u q / w). assert (L1 : length (vsub q (vscale r u)) = L) by (rewrite vsub_length; rewrite ?vscale_length; lia).
  specialize (IH (vsub q (vscale r u)) Hv HQ' L1). destruct (mgs w Q (vsub q (vscale r u))) as [rs q'] eqn:E. cbn [snd] in *. apply IH.
  - rewrite dot_vsub_r by (rewrite vscale_length; lia). rewrite dot_vscale_r, D0, (DQ u) by (simpl; auto). ring.
  - intros u' Hu'. apply DQ. simpl. auto.
Qed.
Definition orthw (w : R) (Q : list vec) (n : nat) : Prop := forall a b, (a < n)%nat -> (b < n)%nat -> dot (nth a Q []) (nth b Q []) = if Nat.eqb a b then w else 0.
Lemma mgs_orth : forall w L Q q, w <> 0 -> Forall (fun u => length u = L) Q -> length q = L -> orthw w Q (length Q) ->
  forall u, In u Q -> dot u (snd (mgs w Q q)) = 0.
Proof.
  induction Q as [|u Q IH]; intros q Hw HQ Hq OR v Hv; [inversion Hv|]. inversion HQ as [|? ? Hu HQ']; subst.
  set (r := dot u q / w). assert (L1 : length (vsub q (vscale r u)) = length q) by (apply vsub_length; rewrite vscale_length; auto).
  assert (O' : orthw w Q (length Q)) by (intros a b Ha Hb; apply (OR (S a) (S b)); simpl; lia).
  assert (UU : dot u u = w) by (apply (OR O O); simpl; lia).
  simpl mgs. fold r. specialize (IH (vsub q (vscale r u)) Hw HQ' L1 O').
  pose proof (mgs_perp_keep w (length q) u Q (vsub q (vscale r u)) Hu HQ' L1) as K.
  destruct (mgs w Q (vsub q (vscale r u))) as [rs q'] eqn:E. cbn [snd] in *. destruct Hv as [<-|Hv]; [|apply IH; auto].
  apply K.
  - rewrite dot_vsub_r by (rewrite vscale_length; lia). rewrite dot_vscale_r, UU. unfold r. field. auto.
  - intros z Hz. apply In_nth with (d := []) in Hz. destruct Hz as [b [Hb <-]]. exact (OR O (S b) ltac:(simpl; lia) ltac:(simpl; lia)).
Qed.

(** one new column *)
Lemma new_col_spec : forall w L Q q v rs r, Forall (fun u => length u = L) Q -> length q = L -> new_col w Q q = (v, (rs, r)) ->
  length v = L /\ length rs = length Q /\ (forall s, (s < L)%nat -> vget v s = (vget q s - rsum (length Q) (fun t => vget rs t * vget (nth t Q []) s)) / r) /\
  (0 < w -> r <> 0 -> orthw w Q (length Q) -> dot v v = w /\ forall u, In u Q -> dot u v = 0).
Proof.
  intros w L Q q v rs r HQ Hq E. unfold new_col in E. pose proof (mgs_vec w L Q q HQ Hq) as [V1 V2]. pose proof (mgs_length w Q q) as ML.
  pose proof (fun Hw => mgs_orth w L Q q Hw HQ Hq) as MO. destruct (mgs w Q q) as [rs' q']. cbn [fst snd] in *. injection E as <- <- <-.
  split; [rewrite vscale_length; auto|]. split; auto. split.
  - intros s Hs. rewrite vscale_get, V2 by auto. unfold Rdiv. ring.
  - intros Hw Hr O. assert (SW : 0 < sqrt w) by (apply sqrt_lt_R0; auto). assert (SS : sqrt w * sqrt w = w) by (apply sqrt_sqrt; lra).
    assert (NN : norm2 q' * norm2 q' = dot q' q') by (unfold norm2; rewrite sqrt_sqrt; [reflexivity|apply norm2sq_nonneg]).
    assert (NZ : norm2 q' <> 0) by (intro Z; apply Hr; rewrite Z; unfold Rdiv; ring).
    split.
    + rewrite dot_vscale_l, dot_vscale_r, <- NN. transitivity (sqrt w * sqrt w); [|exact SS]. field. split; [lra|auto].
    + intros u Hu. rewrite dot_vscale_r, MO by (auto; lra). ring.
Qed.

Lemma const_get : forall (A : Type) (X : list A) (c : R) s, (s < length X)%nat -> vget (map (fun _ => c) X) s = c.
Proof. induction X as [|x X IH]; intros c s Hs; simpl in Hs; [lia|]. destruct s; [reflexivity|]. apply (IH c s). lia. Qed.
Lemma map_get : forall (A : Type) (g : A -> R) (X : list A) s d, (s < length X)%nat -> vget (map g X) s = g (nth s X d).
Proof. induction X as [|x X IH]; intros s d Hs; simpl in Hs; [lia|]. destruct s; [reflexivity|]. apply (IH s d). lia. Qed.

Lemma skipn_nth : forall (A : Type) (l : list A) k d, (k < length l)%nat -> skipn k l = nth k l d :: skipn (S k) l.
Proof. induction l as [|a l IH]; intros k d Hk; simpl in Hk; [lia|]. destruct k; simpl; auto. apply IH. lia. Qed.
Lemma firstn_app_len : forall (A : Type) (l l' : list A), firstn (length l) (l ++ l') = l.
Proof. intros. rewrite firstn_app, Nat.sub_diag, firstn_all. simpl. apply app_nil_r. Qed.
Lemma firstn_nth : forall (A : Type) (l : list A) k t d, (t < k)%nat -> nth t (firstn k l) d = nth t l d.
Proof. induction l as [|a l IH]; intros k t d H; [rewrite firstn_nil; auto|]. destruct k; [lia|]. destruct t; simpl; auto. apply IH. lia. Qed.
Lemma firstn_Forall : forall (A : Type) (P : A -> Prop) k l, Forall P l -> Forall P (firstn k l).
Proof. intros A P k l H. rewrite Forall_forall in *. intros x Hx. apply H. rewrite <- (firstn_skipn k l). apply in_or_app. auto. Qed.

Section CON.
Variables p m : nat.
Hypothesis Hm : (1 <= m)%nat.
Let idx := index_set p m.
Let N := length idx.
Variable lookup : nat -> list (list nat).
Hypothesis LOOK : look_ok p m lookup.
Variable X : mat.
Variable w : R.
Let L := length X.


(** a finished construction *)
Definition built (Q : list vec) (Rs : list (vec * R)) (from : nat) : Prop :=
  length Q = N /\ length Rs = N /\ Forall (fun u => length u = L) Q /\
  forall k, (from <= k < N)%nat -> new_col w (firstn k Q) (vmul (col X (fst (pick p m lookup k))) (nth (snd (pick p m lookup k)) Q [])) = (nth k Q [], nth k Rs ([], 0)).

Lemma col_length : forall i, length (col X i) = L.
Proof. intro. unfold col. apply map_length. Qed.

Lemma arnoldi_loop_spec : forall n Q Rs, (1 <= length Q <= N)%nat -> length Rs = length Q -> Forall (fun u => length u = L) Q -> (N - length Q = n)%nat ->
  exists Q' R', arnoldi_loop w lookup X (skipn (length Q) idx) (Q, Rs) = Some (Q ++ Q', Rs ++ R') /\ built (Q ++ Q') (Rs ++ R') (length Q).
Proof.
  induction n as [|n IH]; intros Q Rs HQ HR HF E.
  - exists [], []. rewrite !app_nil_r. rewrite skipn_all2 by (fold N; lia). split; [reflexivity|]. split; [lia|]. split; [lia|]. split; auto. intros; lia.
  - assert (Hk : (1 <= length Q < N)%nat) by lia. rewrite (skipn_nth _ idx (length Q) []) by (fold N; lia). cbn [arnoldi_loop fst snd].
    destruct (pick_ok p m lookup LOOK (length Q) Hk) as [U [P1 [P2 P3]]]. fold idx in U. rewrite U. destruct (pick p m lookup (length Q)) as [i j] eqn:PK. cbn [fst snd] in *.
    assert (LJ : length (nth j Q []) = L) by (rewrite Forall_forall in HF; apply HF, nth_In; auto).
    set (q := vmul (col X i) (nth j Q [])). assert (Lq : length q = L) by (unfold q; rewrite vmul_length; rewrite col_length; auto).
    destruct (new_col w Q q) as [v [rs r]] eqn:NC. destruct (new_col_spec w L Q q v rs r HF Lq NC) as [Lv [Lr _]].
    destruct (IH (Q ++ [v]) (Rs ++ [(rs, r)])) as [Q' [R' [A B]]].
    { rewrite app_length. cbn [length]. lia. }
    { rewrite !app_length. cbn [length]. lia. }
    { apply Forall_app. split; auto. }
    { rewrite app_length. cbn [length]. lia. }
    exists (v :: Q'), ((rs, r) :: R'). rewrite app_length in A, B. cbn [length] in A, B. rewrite Nat.add_1_r in A, B. rewrite <- !app_assoc in A, B. cbn [app] in A, B.
    split; [exact A|]. destruct B as [B1 [B2 [B3 B4]]]. split; auto. split; auto. split; auto. intros k Hk2. destruct (Nat.eq_dec k (length Q)) as [->|NE]; [|apply B4; lia].
    rewrite PK. cbn [fst snd]. rewrite firstn_app_len. rewrite app_nth1 by auto. fold q. rewrite NC. rewrite app_nth2 by lia. rewrite <- HR. rewrite app_nth2 by lia. rewrite HR, !Nat.sub_diag. reflexivity.
Qed.

Variables (Q : list vec) (Rs : list (vec * R)).
Hypothesis BU : built Q Rs 1.
Hypothesis INIT : nth 0 Q [] = map (fun _ => 1 / snd (nth 0 Rs ([], 0))) X /\ fst (nth 0 Rs ([], 0)) = [].

Lemma NQ : (1 <= N)%nat.
Proof. apply idx_N, Hm. Qed.
Lemma built_col : forall k, (1 <= k < N)%nat -> length (nth (snd (pick p m lookup k)) Q []) = L /\ length (firstn k Q) = k.
Proof.
  intros k Hk. destruct BU as [B1 [B2 [B3 B4]]]. destruct (pick_ok p m lookup LOOK k Hk) as [_ [_ [P2 _]]].
  split; [rewrite Forall_forall in B3; apply B3, nth_In; lia|rewrite firstn_length; lia].
Qed.
Lemma built_wfR : wfR p m Rs.
Proof.
  destruct BU as [B1 [B2 [B3 B4]]]. split; auto. intros k Hk. fold idx in Hk. fold N in Hk. destruct k as [|k]; [destruct INIT as [_ I0]; rewrite I0; auto|].
  destruct (built_col (S k) ltac:(lia)) as [LJ LF]. specialize (B4 (S k) ltac:(lia)). destruct (nth (S k) Rs ([], 0)) as [rs r].
  apply new_col_spec with (L := L) in B4; [|apply firstn_Forall; auto|rewrite vmul_length; rewrite col_length; auto]. destruct B4 as [_ [B _]]. cbn [fst]. lia.
Qed.
(** row s of Q satisfies the recurrence of the basis functions *)
Lemma built_rows : forall s, (s < L)%nat -> recurrence p m lookup Rs (nth s X []) (fun k => vget (nth k Q []) s).
Proof.
  intros s Hs. destruct BU as [B1 [B2 [B3 B4]]]. split.
  - destruct INIT as [I0 _]. cbv beta. rewrite I0. unfold rdiag. apply const_get. auto.
  - intros k Hk. fold idx in Hk. fold N in Hk. destruct (built_col k Hk) as [LJ LF]. specialize (B4 k Hk). unfold rdiag, rcoef. destruct (nth k Rs ([], 0)) as [rs r].
    apply new_col_spec with (L := L) in B4; [|apply firstn_Forall; auto|rewrite vmul_length; rewrite col_length; auto]. destruct B4 as [_ [_ [B _]]]. cbn [fst snd].
    rewrite B by auto. rewrite LF. rewrite vmul_get by (rewrite col_length; auto). f_equal. f_equal.
    + f_equal. unfold col. rewrite (map_get _ _ X s []) by auto. reflexivity.
    + apply rsum_ext. intros t Ht. rewrite firstn_nth by auto. reflexivity.
Qed.
Theorem reeval : forall s, (s < L)%nat -> arnoldi_X lookup idx Rs (nth s X []) = Some (map (fun q => vget q s) Q).
Proof.
  intros s Hs. destruct (arnoldi_X_spec p m Hm lookup LOOK Rs (nth s X []) built_wfR) as [W [E [LW RC]]]. fold idx in E. rewrite E. f_equal.
  destruct BU as [B1 _]. apply vec_ext; [rewrite map_length, B1; exact LW|]. intros k Hk. rewrite LW in Hk.
  rewrite (recurrence_unique p m Hm lookup LOOK Rs (nth s X []) _ _ RC (built_rows s Hs) k Hk).
  rewrite (map_get _ _ Q k []) by (rewrite B1; exact Hk). reflexivity.
Qed.
Theorem orthogonal : 0 < w -> dot (nth 0 Q []) (nth 0 Q []) = w -> (forall k, (k < N)%nat -> rdiag Rs k <> 0) -> orthw w Q N.
Proof.
  intros Hw D0 NZ. destruct BU as [B1 [B2 [B3 B4]]].
  assert (G : forall n, (1 <= n <= N)%nat -> orthw w Q n).
  { induction n as [|n IH]; intro Hn; [lia|]. destruct n as [|n].
    - intros a b Ha Hb. assert (a = O) by lia. assert (b = O) by lia. subst. auto.
    - specialize (IH ltac:(lia)). destruct (built_col (S n) ltac:(lia)) as [LJ LF]. specialize (B4 (S n) ltac:(lia)). specialize (NZ (S n) ltac:(lia)). unfold rdiag in NZ. destruct (nth (S n) Rs ([], 0)) as [rs r].
      apply new_col_spec with (L := L) in B4; [|apply firstn_Forall; auto|rewrite vmul_length; rewrite col_length; auto]. destruct B4 as [_ [_ [_ B]]].
      destruct B as [V1 V2]; [auto|auto| |].
      { rewrite LF. intros a b Ha Hb. rewrite !firstn_nth by auto. apply IH; auto. }
      assert (V3 : forall a, (a < S n)%nat -> dot (nth a Q []) (nth (S n) Q []) = 0).
      { intros a Ha. apply V2. rewrite <- (firstn_nth _ Q (S n) a []) by auto. apply nth_In. rewrite LF. auto. }
      intros a b Ha Hb. destruct (Nat.eq_dec a (S n)) as [->|Na], (Nat.eq_dec b (S n)) as [->|Nb].
      + rewrite Nat.eqb_refl. auto.
      + destruct (Nat.eqb_spec (S n) b); [lia|]. rewrite dot_comm. apply V3. lia.
      + destruct (Nat.eqb_spec a (S n)); [lia|]. apply V3. lia.
      + apply IH; lia. }
  apply G. pose proof NQ. lia.
Qed.
End CON.

(* ---------------- derivative ---------------- *)
Section DER.
Variables p m : nat.
Hypothesis Hm : (1 <= m)%nat.
Let idx := index_set p m.
Let N := length idx.
Variables (Rs : list (vec * R)) (ell : nat).
Hypothesis WF : wfR p m Rs.
Hypothesis Hell : (ell < m)%nat.
Let lookup := fun _ : nat => idx.
Let LOOK := look_all p m Hm.

Lemma arnoldi_DV_loop_spec : forall x V, forall n D, (1 <= length D <= N)%nat -> (N - length D = n)%nat ->
  exists D', arnoldi_DV_loop idx x V ell (skipn (length D) idx) (skipn (length D) Rs) D = Some (D ++ D') /\ length (D ++ D') = N /\
  forall k, (length D <= k < N)%nat -> vget (D ++ D') k = ((if Nat.eqb (fst (pick p m lookup k)) ell then vget V (snd (pick p m lookup k)) else 0) +
    vget x (fst (pick p m lookup k)) * vget (D ++ D') (snd (pick p m lookup k)) - rsum k (fun s => rcoef Rs k s * vget (D ++ D') s)) / rdiag Rs k.
Proof.
  intros x V. destruct WF as [WL WR]. fold idx in WL. fold N in WL. induction n as [|n IH]; intros D HD E.
  - exists []. rewrite app_nil_r. rewrite !skipn_all2 by (rewrite ?WL; fold N; lia). simpl. split; auto. split; [lia|]. intros; lia.
  - assert (Hk : (1 <= length D < N)%nat) by lia. rewrite (skipn_nth _ idx (length D) []) by (fold N; lia). rewrite (skipn_nth _ Rs (length D) ([], 0)) by lia.
    cbn [arnoldi_DV_loop]. destruct (pick_ok p m lookup LOOK (length D) Hk) as [U [P1 [P2 P3]]]. change (lookup (length D)) with idx in U. fold idx in U.
    pose proof (WR (length D) ltac:(fold idx; fold N; lia)) as RL. destruct (nth (length D) Rs ([], 0)) as [rs r] eqn:NR. cbn [fst] in RL. rewrite U.
    destruct (pick p m lookup (length D)) as [i j] eqn:PK. cbn [fst snd] in *.
    set (d := (if Nat.eqb i ell then vget V j + vget x i * vget D j - dot D rs else vget x i * vget D j - dot D rs) / r).
    destruct (IH (D ++ [d])) as [D' [I1 [I2 I3]]]; [rewrite app_length; cbn [length]; lia|rewrite app_length; cbn [length]; lia|].
    exists (d :: D'). replace (D ++ d :: D') with ((D ++ [d]) ++ D') by (rewrite <- app_assoc; reflexivity). rewrite app_length in *. cbn [length] in *. rewrite Nat.add_1_r in *.
    split; [exact I1|]. split; [exact I2|]. intros k Hk2. destruct (Nat.eq_dec k (length D)) as [->|NE]; [|apply I3; lia].
    rewrite PK. cbn [fst snd]. unfold rdiag, rcoef. rewrite NR. cbn [fst snd].
    assert (G : forall s, (s < length D)%nat -> vget ((D ++ [d]) ++ D') s = vget D s) by (intros s Hs; unfold vget; rewrite <- app_assoc; apply app_nth1; auto).
    rewrite (G j) by auto. rewrite (rsum_ext (length D) (fun s => vget rs s * vget ((D ++ [d]) ++ D') s) (fun s => vget rs s * vget D s)) by (intros s Hs; rewrite G by auto; auto).
    rewrite <- (dot_short p m Hm rs D (length D)) by (auto; lia). rewrite (dot_comm rs D). unfold vget at 1. rewrite <- app_assoc. rewrite app_nth2 by lia. rewrite Nat.sub_diag. cbn [app nth]. unfold d.
    destruct (Nat.eqb i ell); f_equal; ring.
Qed.

(** DV of the Arnoldi basis is the derivative of its values *)
Theorem arnoldi_DV_deriv : forall x, length x = m -> exists W D, arnoldi_X lookup idx Rs x = Some W /\ arnoldi_DV idx Rs x W ell = Some D /\ length D = N /\
  forall k, (k < N)%nat -> derivable_pt_lim (fun t => wval p m lookup Rs (vadd x (vscale t (unit_row_ m ell))) k) 0 (vget D k).
Proof.
  intros x Lx. destruct (arnoldi_X_spec p m Hm lookup LOOK Rs x WF) as [W [EW [LW RW]]]. fold idx in EW. exists W.
  pose proof (idx_N p m Hm) as HN. fold idx in HN. fold N in HN.
  destruct (arnoldi_DV_loop_spec x W (N - 1) [0]) as [D' [ED [LD RD]]]; [cbn [length]; lia|cbn [length]; lia|].
  exists ([0] ++ D'). split; auto. split.
  { destruct WF as [WL _]. unfold arnoldi_DV. destruct Rs as [|[r0s r0] Rs']; [simpl in WL; fold idx in WL; fold N in WL; lia|]. rewrite <- ED. reflexivity. }
  split; [exact LD|]. set (D := [0] ++ D') in *.
  assert (MV : forall t i, (i < m)%nat -> vget (vadd x (vscale t (unit_row_ m ell))) i = vget x i + t * (if Nat.eqb i ell then 1 else 0)).
  { intros t i Hi. rewrite vadd_get by (rewrite vscale_length, unit_row_length; auto). rewrite vscale_get. unfold unit_row_. rewrite vget_map_seq by auto. reflexivity. }
  assert (WX : forall k, (k < N)%nat -> wval p m lookup Rs x k = vget W k) by (intros k Hk; unfold wval; fold idx; rewrite EW; auto).
  assert (X0 : vadd x (vscale 0 (unit_row_ m ell)) = x).
  { apply vec_ext; [apply vadd_length; rewrite vscale_length, unit_row_length; auto|]. intros i Hi. rewrite vadd_length in Hi by (rewrite vscale_length, unit_row_length; auto). rewrite MV by lia. ring. }
  induction k as [k IH] using (well_founded_induction lt_wf). intro Hk. destruct k as [|k].
  - apply d_ext with (f := fun _ => 1 / rdiag Rs 0) (l := 0); [|reflexivity|apply d_const]. intro t. destruct (wval_rec p m Hm lookup LOOK Rs (vadd x (vscale t (unit_row_ m ell))) WF) as [W0 _]. auto.
  - destruct (pick_ok p m lookup LOOK (S k) ltac:(fold idx; fold N; lia)) as [_ [P1 [P2 _]]].
    set (i := fst (pick p m lookup (S k))) in *. set (j := snd (pick p m lookup (S k))) in *.
    set (g := fun k t => wval p m lookup Rs (vadd x (vscale t (unit_row_ m ell))) k).
    apply d_ext with (f := fun t => / rdiag Rs (S k) * ((vget x i + (if Nat.eqb i ell then 1 else 0) * t) * g j t - rsum (S k) (fun s => rcoef Rs (S k) s * g s t)))
      (l := / rdiag Rs (S k) * (((0 + (if Nat.eqb i ell then 1 else 0) * 1) * g j 0 + (vget x i + (if Nat.eqb i ell then 1 else 0) * 0) * vget D j) - rsum (S k) (fun s => rcoef Rs (S k) s * vget D s))).
    + intro t. destruct (wval_rec p m Hm lookup LOOK Rs (vadd x (vscale t (unit_row_ m ell))) WF) as [_ WS]. rewrite (WS (S k)) by (fold idx; fold N; lia). fold i. fold j. rewrite MV by auto. fold (g j t).
      unfold Rdiv. rewrite Rmult_comm. f_equal. unfold Rminus. f_equal. ring.
    + rewrite (RD (S k)) by (cbn [length]; lia). fold i. fold j. unfold g. rewrite X0. rewrite WX by lia. unfold Rdiv. rewrite Rmult_comm. f_equal. destruct (Nat.eqb i ell); ring.
    + apply d_scal. apply d_minus.
      * apply (d_mult (fun t => vget x i + (if Nat.eqb i ell then 1 else 0) * t) (g j)); [apply d_plus; [apply d_const|apply d_scal, d_id]|apply IH; lia].
      * apply (d_rsum (S k) (fun s t => rcoef Rs (S k) s * g s t) (fun s => rcoef Rs (S k) s * vget D s)). intros s Hs. apply d_scal. apply IH; lia.
Qed.
End DER.

(* ---------------- the two constructions ---------------- *)
Definition no_breakdown (Rs : list (vec * R)) : Prop := forall k, (k < length Rs)%nat -> snd (nth k Rs ([], 0)) <> 0.

Lemma const_dot : forall (X : mat) c, dot (map (fun _ => c) X) (map (fun _ => c) X) = INR (length X) * (c * c).
Proof. induction X as [|x X IH]; intro c; [simpl; unfold dot; simpl; ring|]. cbn [map length]. rewrite dot_cons, IH, S_INR. ring. Qed.

(** basis.py: exists, orthonormal, reproduces its columns at the construction points *)
Theorem arnoldi_correct : forall X p m, (1 <= m)%nat -> X <> [] -> exists Q Rs, arnoldi X (index_set p m) = Some (Q, Rs) /\
  length Q = length (index_set p m) /\ wfR p m Rs /\
  (forall s, (s < length X)%nat -> arnoldi_X (fun _ => index_set p m) (index_set p m) Rs (nth s X []) = Some (map (fun q => vget q s) Q)) /\
  (no_breakdown Rs -> forall a b, (a < length Q)%nat -> (b < length Q)%nat -> dot (nth a Q []) (nth b Q []) = if Nat.eqb a b then 1 else 0).
Proof.
  intros X p m Hm NE. pose proof (look_all p m Hm) as LK. pose proof (idx_N p m Hm) as HN. assert (PX : 0 < INR (length X)) by (apply lt_0_INR; destruct X; [contradiction|simpl; lia]).
  assert (SM : 0 < sqrt (INR (length X))) by (apply sqrt_lt_R0; auto).
  set (v0 := map (fun _ : vec => 1 / sqrt (INR (length X))) X).
  destruct (arnoldi_loop_spec p m Hm (fun _ => index_set p m) LK X 1 (length (index_set p m) - 1) [v0] [([], sqrt (INR (length X)))]) as [Q' [R' [E BU]]].
  { cbn [length]. lia. } { reflexivity. } { constructor; [unfold v0; apply map_length|constructor]. } { cbn [length]. lia. }
  assert (INIT : nth 0 ([v0] ++ Q') [] = map (fun _ => 1 / snd (nth 0 ([([], sqrt (INR (length X)))] ++ R') ([], 0))) X /\ fst (nth 0 ([([], sqrt (INR (length X)))] ++ R') ([], 0)) = []) by (split; reflexivity).
  exists ([v0] ++ Q'), ([([], sqrt (INR (length X)))] ++ R'). split; [exact E|]. split; [apply BU|]. split; [exact (built_wfR p m Hm (fun _ => index_set p m) LK X 1 _ _ BU INIT)|]. split.
  - exact (reeval p m Hm (fun _ => index_set p m) LK X 1 _ _ BU INIT).
  - intros NB a b Ha Hb. destruct BU as [B1 [B2 B3]]. pose proof (conj B1 (conj B2 B3)) as BU.
    apply (orthogonal p m Hm (fun _ => index_set p m) LK X 1 _ _ BU); [lra| | |lia|lia].
    + cbn [app nth]. unfold v0. rewrite const_dot. set (M := INR (length X)) in *. assert (SS : sqrt M * sqrt M = M) by (apply sqrt_sqrt; lra). rewrite <- SS at 1. field. lra.
    + intros k Hk. apply NB. rewrite B2. exact Hk.
Qed.
(** vandermonde.py: V^T V = M I *)
Theorem vandermonde_correct : forall X p m, (1 <= m)%nat -> X <> [] -> exists Q Rs, vandermonde_arnoldi X p m = Some (Q, Rs) /\
  length Q = length (index_set p m) /\ wfR p m Rs /\
  (forall s, (s < length X)%nat -> arnoldi_X (fun k => firstn k (index_set p m)) (index_set p m) Rs (nth s X []) = Some (map (fun q => vget q s) Q)) /\
  (no_breakdown Rs -> forall a b, (a < length Q)%nat -> (b < length Q)%nat -> dot (nth a Q []) (nth b Q []) = if Nat.eqb a b then INR (length X) else 0).
Proof.
  intros X p m Hm NE. pose proof (look_prefix p m Hm) as LK. pose proof (idx_N p m Hm) as HN. assert (PX : 0 < INR (length X)) by (apply lt_0_INR; destruct X; [contradiction|simpl; lia]).
  assert (SM : 0 < sqrt (INR (length X))) by (apply sqrt_lt_R0; auto).
  assert (R1 : norm2 (map (fun _ : vec => 1) X) / sqrt (INR (length X)) = 1).
  { unfold norm2, norm2sq. rewrite const_dot. rewrite !Rmult_1_r. field. lra. }
  assert (NC : new_col (INR (length X)) [] (map (fun _ : vec => 1) X) = (map (fun _ : vec => 1) X, ([], 1))).
  { unfold new_col. simpl mgs. cbv zeta beta iota. rewrite R1. f_equal. rewrite Rinv_1. apply vec_ext; [apply vscale_length|]. intros i Hi. rewrite vscale_get. ring. }
  destruct (arnoldi_loop_spec p m Hm (fun k => firstn k (index_set p m)) LK X (INR (length X)) (length (index_set p m) - 1) [map (fun _ : vec => 1) X] [([], 1)]) as [Q' [R' [E BU]]].
  { cbn [length]. lia. } { reflexivity. } { constructor; [apply map_length|constructor]. } { cbn [length]. lia. }
  assert (INIT : nth 0 ([map (fun _ : vec => 1) X] ++ Q') [] = map (fun _ => 1 / snd (nth 0 ([([], 1)] ++ R') ([], 0))) X /\ fst (nth 0 ([([] : vec, 1)] ++ R') ([], 0)) = []).
  { split; [|reflexivity]. simpl. apply map_ext. intro. field. }
  exists ([map (fun _ : vec => 1) X] ++ Q'), ([([], 1)] ++ R'). split; [unfold vandermonde_arnoldi; rewrite NC; exact E|]. split; [apply BU|].
  split; [exact (built_wfR p m Hm _ LK X _ _ _ BU INIT)|]. split.
  - exact (reeval p m Hm _ LK X _ _ _ BU INIT).
  - intros NB a b Ha Hb. destruct BU as [B1 [B2 B3]]. pose proof (conj B1 (conj B2 B3)) as BU.
    apply (orthogonal p m Hm _ LK X _ _ _ BU); [lra| | |lia|lia].
    + cbn [app nth]. rewrite const_dot. ring.
    + intros k Hk. apply NB. rewrite B2. exact Hk.
Qed.

(** the first k basis functions and the first k monomials have the same span *)
Theorem arnoldi_span : forall X p m Q Rs, (1 <= m)%nat -> X <> [] -> arnoldi X (index_set p m) = Some (Q, Rs) -> no_breakdown Rs ->
  forall k, (k < length (index_set p m))%nat ->
  let W := fun l x => wval p m (fun _ => index_set p m) Rs x l in
  let mon := fun l x => mono (nth l (index_set p m) []) x in
  (exists c, c k <> 0 /\ forall x, length x = m -> W k x = rsum (S k) (fun l => c l * mon l x)) /\
  (exists d, forall x, length x = m -> mon k x = rsum (S k) (fun l => d l * W l x)).
Proof.
  intros X p m Q Rs Hm NE E NB k Hk W mon. destruct (arnoldi_correct X p m Hm NE) as [Q' [Rs' [E' [LQ [WF _]]]]]. rewrite E in E'. injection E' as <- <-.
  assert (NZ : forall k, (k < length (index_set p m))%nat -> rdiag Rs k <> 0) by (intros l Hl; apply NB; destruct WF as [WL _]; lia).
  split.
  - exact (leading p m Hm (fun _ => index_set p m) (look_all p m Hm) Rs WF NZ k Hk).
  - exact (spans_back p m Hm (fun _ => index_set p m) (look_all p m Hm) Rs WF NZ k Hk).
Qed.
Theorem arnoldi_DV_correct : forall X p m Q Rs ell x, (1 <= m)%nat -> X <> [] -> arnoldi X (index_set p m) = Some (Q, Rs) -> (ell < m)%nat -> length x = m ->
  exists W D, arnoldi_X (fun _ => index_set p m) (index_set p m) Rs x = Some W /\ arnoldi_DV (index_set p m) Rs x W ell = Some D /\ length D = length (index_set p m) /\
  forall k, (k < length (index_set p m))%nat -> derivable_pt_lim (fun t => match arnoldi_X (fun _ => index_set p m) (index_set p m) Rs (vadd x (vscale t (unit_row_ m ell))) with Some W => vget W k | None => 0 end) 0 (vget D k).
Proof.
  intros X p m Q Rs ell x Hm NE E He Lx. destruct (arnoldi_correct X p m Hm NE) as [Q' [Rs' [E' [LQ [WF _]]]]]. rewrite E in E'. injection E' as <- <-.
  exact (arnoldi_DV_deriv p m Hm Rs ell WF He x Lx).
Qed.

(* ---------------- polyvalA ---------------- *)
Lemma choose_mono : forall m p, (choose (m + p) p < choose (m + S p) (S p))%nat \/ m = O.
Proof.
  intros m p. destruct m as [|m]; auto. left. replace (S m + S p)%nat with (S (S m + p)) by lia.
  change (choose (S (S m + p)) (S p)) with (choose (S m + p) p + choose (S m + p) (S p))%nat.
  assert (P : forall n k, (k <= n)%nat -> (0 < choose n k)%nat).
  { induction n as [|n IH]; intros k Hk; [assert (k = O) by lia; subst; simpl; lia|]. destruct k as [|k]; simpl; [lia|]. specialize (IH k ltac:(lia)). lia. }
  specialize (P (S m + p)%nat (S p) ltac:(lia)). lia.
Qed.
Lemma find_degree_correct : forall m p fuel q, (1 <= m)%nat -> (q <= p)%nat -> (p < fuel + q)%nat -> find_degree fuel m (choose (m + p) p) q = Some p.
Proof.
  intros m p fuel. induction fuel as [|f IH]; intros q Hm Hq HF; [lia|]. simpl.
  assert (MON : forall d, (choose (m + q) q + d <= choose (m + (q + d)) (q + d))%nat).
  { induction d as [|d IHd]; [rewrite !Nat.add_0_r; lia|]. destruct (choose_mono m (q + d)) as [H|H]; [|lia]. replace (q + S d)%nat with (S (q + d)) by lia. lia. }
  destruct (Nat.leb_spec (choose (m + p) p) (choose (m + q) q)) as [H|H].
  - specialize (MON (p - q)%nat). replace (q + (p - q))%nat with p in MON by lia. assert (p = q) by lia. subst. auto.
  - assert (q <> p) by (intro; subst; lia). apply IH; lia.
Qed.
(** the polynomial of polyfitA evaluated at a construction point is the row of Q times the coefficients *)
Theorem polyvalA_correct : forall X p m Q Rs d fuel, (1 <= m)%nat -> X <> [] -> vandermonde_arnoldi X p m = Some (Q, Rs) -> length d = length Q -> (p < fuel)%nat ->
  (forall s, (s < length X)%nat -> polyvalA fuel m d Rs (nth s X []) = Some (dot (map (fun q => vget q s) Q) d)) /\
  (forall x, exists v, polyvalA fuel m d Rs x = Some v).
Proof.
  intros X p m Q Rs d fuel Hm NE E Ld HF. destruct (vandermonde_correct X p m Hm NE) as [Q' [Rs' [E' [LQ [WF [RE _]]]]]]. rewrite E in E'. injection E' as <- <-.
  assert (FD : find_degree fuel m (length d) 0 = Some p).
  { rewrite Ld, LQ, index_set_length by auto. rewrite (Nat.add_comm p m). replace (choose (m + p) m) with (choose (m + p) p); [apply find_degree_correct; lia|].
    pose proof (choose_fact p m) as A. pose proof (choose_fact m p) as B. rewrite (Nat.add_comm p m) in A.
    pose proof (lt_O_fact p). pose proof (lt_O_fact m). assert (0 < fact m * fact p)%nat by (apply Nat.mul_pos_pos; auto).
    rewrite (Nat.mul_comm (fact p)) in A. apply Nat.mul_cancel_r with (p := (fact m * fact p)%nat); [lia|]. congruence. }
  destruct WF as [WL WR]. unfold polyvalA. rewrite FD. cbv zeta. rewrite WL, Nat.eqb_refl. split.
  - intros s Hs. rewrite RE by auto. reflexivity.
  - intro x. destruct (arnoldi_X_spec p m Hm (fun k => firstn k (index_set p m)) (look_prefix p m Hm) Rs x (conj WL WR)) as [W [EW _]]. rewrite EW. eauto.
Qed.

(** finding: fewer samples than basis functions always break down (division by zero) *)
(* proved in ArnoldiCases *)
