(** Shadow plots: the response drawn is the profile of the ridge function, for orthonormal directions; names of the files written. *)
Require Import Reals Lra Lia List Bool Arith Ascii.
From Verif Require Import RVec Num Sums DomModel DomSpec DomProofs DomMoreModel SweepProofs HullProofs HullIneqProofs LipModel LipProofs LipMoreProofs MatLib GrassLib SampModel SubModel ShadowProofs ShadowPlotModel.
Import ListNotations.
Local Open Scope R_scope.

(** f is a ridge function with directions the columns of V and profile g *)
Definition ridge_of (m : nat) (V : mat) (f : vec -> R) (g : vec -> R) : Prop := forall x, length x = m -> f x = g (map (fun i => dot (col V i) x) (seq 0 (ncols V))).
Definition orthon (V : mat) : Prop := forall i j, (i < ncols V)%nat -> (j < ncols V)%nat -> dot (col V i) (col V j) = if Nat.eqb i j then 1 else 0.
Lemma scale_map : forall a u, map (fun ui => ui * a) u = vscale a u.
Proof. intros a u. apply map_ext. intro. apply Rmult_comm. Qed.
Theorem curve_profile : forall m V f g Y n k, length V = m -> ncols V = 1%nat -> orthon V -> ridge_of m V f g -> (k < n)%nat ->
  vget (snd (ridge_curve f (col V 0) Y n)) k = g [vget (fst (ridge_curve f (col V 0) Y n)) k].
Proof.
  intros m V f g Y n k LV NV O H Hk. unfold ridge_curve. cbn [fst snd]. set (xx := linspace (vmin Y) (vmax Y) n). assert (Lx : length xx = n) by apply linspace_length.
  unfold vget. rewrite (nth_indep _ 0 (f (map (fun ui => ui * 0) (col V 0)))) by (rewrite map_length; lia). rewrite (map_nth (fun a => f (map (fun ui => ui * a) (col V 0)))). set (a := nth k xx 0).
  rewrite scale_map, H by (unfold vscale; rewrite map_length, col_len; auto). rewrite NV. cbn [seq map]. rewrite dot_vscale_r, (O 0 0)%nat by lia. cbn [Nat.eqb]. f_equal. f_equal. ring.
Qed.
Lemma comb2 : forall V a b, Forall (fun r => length r = 2%nat) V -> map (fun r => dot r [a; b]) V = vadd (vscale a (col V 0)) (vscale b (col V 1)).
Proof.
  intros V a b F. induction F as [|r V Hr F IH]; auto. cbn [map col]. unfold col in IH. cbn [vscale map vadd vmap2]. unfold vadd, vscale in IH. rewrite IH. f_equal. destruct r as [|x [|y [|]]]; try discriminate. rewrite !dot_cons, dot_nil_l. unfold vget. cbn [nth]. ring.
Qed.
Theorem mesh_profile : forall m V f g Y0 Y1 n i j, length V = m -> V <> [] -> Forall (fun r => length r = 2%nat) V -> orthon V -> ridge_of m V f g -> (i < n)%nat -> (j < n)%nat ->
  let '(xx0, xx1, YY) := ridge_mesh f V Y0 Y1 n in vget (nth i YY []) j = g [vget xx0 j; vget xx1 i].
Proof.
  intros m V f g Y0 Y1 n i j LV NV F O H Hi Hj. unfold ridge_mesh. set (xx0 := linspace (vmin Y0) (vmax Y0) n). set (xx1 := linspace (vmin Y1) (vmax Y1) n).
  assert (L0 : length xx0 = n) by apply linspace_length. assert (L1 : length xx1 = n) by apply linspace_length.
  set (row := fun b => map (fun a => f (map (fun r => dot r [a; b]) V)) xx0). rewrite (nth_indep _ [] (row 0)) by (rewrite map_length; lia). rewrite (map_nth row). unfold row, vget.
  set (b := nth i xx1 0). rewrite (nth_indep _ 0 (f (map (fun r => dot r [0; b]) V))) by (rewrite map_length; lia). rewrite (map_nth (fun a => f (map (fun r => dot r [a; b]) V))). set (a := nth j xx0 0).
  assert (N2 : ncols V = 2%nat) by (destruct V as [|r V']; [congruence|inversion F; auto]). rewrite comb2 by auto.
  assert (E0 : length (vscale a (col V 0)) = length (vscale b (col V 1))) by (unfold vscale; rewrite !map_length, !col_len; auto).
  rewrite H. 2:{ unfold vadd. rewrite vmap2_length; unfold vscale; rewrite ?map_length, !col_len; auto. }
  rewrite N2. cbn [seq map]. rewrite !dot_vadd_r, !dot_vscale_r by auto. rewrite (O 0 0)%nat, (O 0 1)%nat, (O 1 0)%nat, (O 1 1)%nat by lia. cbn [Nat.eqb]. f_equal. f_equal; [ring|]. f_equal. ring.
Qed.
(** the curve reaches over all samples *)
Theorem curve_covers : forall f u X n x, (2 <= n)%nat -> In x X ->
  let xx := fst (ridge_curve f u (map (fun x => dot u x) X) n) in vget xx 0 <= dot u x <= vget xx (n - 1) /\ exists z z', In z X /\ In z' X /\ vget xx 0 = dot u z /\ vget xx (n - 1) = dot u z'.
Proof.
  intros f u X n x Hn Ix. unfold ridge_curve. cbn [fst]. set (Y := map (fun x => dot u x) X). destruct (linspace_ends (vmin Y) (vmax Y) n Hn) as [-> ->].
  assert (NY : Y <> []) by (unfold Y; destruct X; [destruct Ix|discriminate]). destruct (vmin_spec Y NY) as [A1 A2]. destruct (vmax_spec Y NY) as [B1 B2]. assert (IY : In (dot u x) Y) by (apply (in_map (fun x => dot u x)); auto).
  split; [split; auto|]. apply in_map_iff in A2, B2. destruct A2 as [z [E1 I1]], B2 as [z' [E2 I2]]. exists z, z'. auto.
Qed.
(** and the line drawn between its points is close to the profile: within half a step times the Lipschitz constant of the profile *)
Theorem curve_line : forall m V f g Y n k t K, length V = m -> ncols V = 1%nat -> orthon V -> ridge_of m V f g -> Y <> [] -> (S k < n)%nat -> 0 <= t <= 1 ->
  (forall a b, Rabs (g [a] - g [b]) <= K * Rabs (a - b)) ->
  let '(xx, yy) := ridge_curve f (col V 0) Y n in
  Rabs ((1 - t) * vget yy k + t * vget yy (S k) - g [(1 - t) * vget xx k + t * vget xx (S k)]) <= K / 2 * ((vmax Y - vmin Y) / INR (n - 1)).
Proof.
  intros m V f g Y n k t K LV NV O H NY Hk Ht HK. pose proof (curve_profile m V f g Y n k LV NV O H ltac:(lia)) as E1. pose proof (curve_profile m V f g Y n (S k) LV NV O H ltac:(lia)) as E2.
  destruct (ridge_curve f (col V 0) Y n) as [xx yy] eqn:E. cbn [fst snd] in E1, E2. unfold ridge_curve in E. injection E as Ex _. rewrite E1, E2.
  set (h := (vmax Y - vmin Y) / INR (n - 1)). assert (D : vget xx (S k) = vget xx k + h). { rewrite <- Ex, !linspace_get, S_INR by lia. fold h. ring. }
  assert (Hh : 0 <= h). { destruct (vmin_spec Y NY) as [A _]. destruct (vmax_spec Y NY) as [_ B]. apply Rmult_le_pos; [specialize (A _ B); lra|]. apply Rlt_le, Rinv_0_lt_compat. apply lt_0_INR. lia. }
  set (a := vget xx k) in *. rewrite D. replace ((1 - t) * a + t * (a + h)) with (a + t * h) by ring.
  pose proof (HK a (a + t * h)) as H1. pose proof (HK (a + h) (a + t * h)) as H2. replace (a - (a + t * h)) with (- (t * h)) in H1 by ring. rewrite Rabs_Ropp, (Rabs_right (t * h)) in H1 by (apply Rle_ge, Rmult_le_pos; lra).
  replace (a + h - (a + t * h)) with ((1 - t) * h) in H2 by ring. rewrite (Rabs_right ((1 - t) * h)) in H2 by (apply Rle_ge, Rmult_le_pos; lra).
  set (ga := g [a]) in *. set (gb := g [a + h]) in *. set (gc := g [a + t * h]) in *. replace ((1 - t) * ga + t * gb - gc) with ((1 - t) * (ga - gc) + t * (gb - gc)) by ring.
  assert (KK : 0 <= K). { pose proof (HK 1 0) as Q. replace (1 - 0) with 1 in Q by ring. rewrite Rabs_R1 in Q. pose proof (Rabs_pos (g [1] - g [0])). lra. }
  eapply Rle_trans; [apply Rabs_triang|]. rewrite !Rabs_mult, (Rabs_right (1 - t)), (Rabs_right t) by lra.
  assert (T1 : (1 - t) * Rabs (ga - gc) <= (1 - t) * (K * (t * h))) by (apply Rmult_le_compat_l; lra). assert (T2 : t * Rabs (gb - gc) <= t * (K * ((1 - t) * h))) by (apply Rmult_le_compat_l; lra).
  assert (Q : t * (1 - t) <= / 4) by (pose proof (Rle_0_sqr (t - / 2)) as W; unfold Rsqr in W; lra). assert (KH : 0 <= K * h) by (apply Rmult_le_pos; lra). assert (Q2 : K * h * (t * (1 - t)) <= K * h * / 4) by (apply Rmult_le_compat_l; lra). apply Rle_trans with (2 * (K * h * (t * (1 - t)))); [|change ((vmax Y - vmin Y) / INR (n - 1)) with h]; lra.
Qed.
(** when a table is plotted, and which *)
Definition dims_ok (m : nat) (X' V : mat) (dim : nat) : Prop := (forall x, In x X' -> length x = m) /\ (dim = 1 \/ dim = 2)%nat /\ (dim <= ncols V)%nat.
Theorem base_iff : forall m selfX selfU X fX dim U, let X' := match X with Some X => X | None => selfX end in
  (exists t, base_plot m selfX selfU X fX dim U = inl t) <-> exists V, pick_u m selfU U = inl V /\ dims_ok m X' V dim.
Proof.
  intros m selfX selfU X fX dim U X'. unfold base_plot. fold X'. unfold dims_ok. destruct (forallb (fun x => (length x =? m)%nat) X') eqn:F; cbn [negb].
  - assert (FX : forall x, In x X' -> length x = m). { intros x I. rewrite forallb_forall in F. apply Nat.eqb_eq. auto. }
    destruct (pick_u m selfU U) as [V|e]; [|split; [intros [t E]; discriminate|intros [V [E _]]; discriminate]].
    destruct dim as [|[|[|dim]]].
    + split; [intros [t E]; discriminate|intros [V' [E [_ [[|] _]]]]; discriminate].
    + destruct (Nat.ltb (ncols V) 1) eqn:Q.
      * split; [intros [t E]; discriminate|]. intros [V' [E [_ [_ Hd]]]]. injection E as <-. apply Nat.ltb_lt in Q. lia.
      * apply Nat.ltb_ge in Q. split; [intros _; exists V; auto|intros _; eexists; reflexivity].
    + destruct (Nat.ltb (ncols V) 2) eqn:Q.
      * split; [intros [t E]; discriminate|]. intros [V' [E [_ [_ Hd]]]]. injection E as <-. apply Nat.ltb_lt in Q. lia.
      * apply Nat.ltb_ge in Q. split; [intros _; exists V; auto|intros _; eexists; reflexivity].
    + split; [intros [t E]; discriminate|intros [V' [E [_ [[|] _]]]]; discriminate].
  - split; [intros [t E]; discriminate|]. intros [V [_ [H _]]]. exfalso. assert (G : forallb (fun x => (length x =? m)%nat) X' = true) by (apply forallb_forall; intros x I; apply Nat.eqb_eq; auto). congruence.
Qed.
(** the points of a ridge function lie on its profile, whatever the directions *)
Theorem points_profile : forall m V f g X t i, ncols V = 1%nat -> ridge_of m V f g -> base_plot m X V None (map f X) 1 UNone = inl t -> (i < length X)%nat ->
  exists ys fs, t = [ys; fs] /\ vget fs i = g [vget ys i].
Proof.
  intros m V f g X t i NV H E Hi. destruct (base_iff m X V None (map f X) 1 UNone) as [B _]. destruct (B (ex_intro _ t E)) as [V' [EV [FX _]]]. cbn in EV. injection EV as <-.
  unfold base_plot in E. assert (G : forallb (fun x => (length x =? m)%nat) X = true) by (apply forallb_forall; intros x I; apply Nat.eqb_eq; auto). rewrite G in E. cbn [negb pick_u] in E. rewrite NV in E. cbn [Nat.ltb Nat.leb] in E. injection E as <-.
  eexists _, _. split; [reflexivity|]. unfold vget. rewrite (nth_indep _ 0 (f [])) by (rewrite map_length; auto). rewrite map_nth. rewrite (nth_indep _ 0 (dot [] (col V 0))) by (rewrite map_length; auto). rewrite (map_nth (fun x => dot x (col V 0))).
  rewrite H by (apply FX, nth_In; auto). rewrite NV. cbn [seq map]. f_equal. f_equal. apply dot_comm.
Qed.
(** a direction that is not a unit vector: the curve is not the profile, and the points are off the curve *)
Theorem curve_refuted : exists m V f g X t xx yy, ncols V = 1%nat /\ ridge_of m V f g /\ ridge_plot m f X V (Some X) (map f X) None 2 2 = inl (Curve t (xx, yy)) /\
  exists i k, (i < length X)%nat /\ (k < length xx)%nat /\ vget (nth 0 t []) i = vget xx k /\ vget (nth 1 t []) i <> vget yy k /\ vget yy k <> g [vget xx k].
Proof.
  exists 1%nat, [[2]], (fun x => 2 * vget x 0), (fun y => vget y 0), [[0]; [1]].
  eexists _, _, _. split; [reflexivity|]. split. { intros x L. destruct x as [|a [|]]; try discriminate. cbn [ncols length seq map col]. unfold vget. cbn [nth]. rewrite !dot_cons, !dot_nil_l. ring. }
  split; [reflexivity|]. exists 1%nat, 1%nat. cbn [length map nth col]. split; [lia|]. split; [rewrite linspace_length; lia|].
  set (Y := [dot [vget [2] 0] [0]; dot [vget [2] 0] [1]]). assert (EY : Y = [0; 2]). { unfold Y, vget. cbn [nth]. rewrite !dot_cons, !dot_nil_l. f_equal; [ring|]. f_equal. ring. }
  rewrite EY. assert (E1 : vget (linspace (vmin [0; 2]) (vmax [0; 2]) 2) 1 = 2). { destruct (linspace_ends (vmin [0; 2]) (vmax [0; 2]) 2 (le_n 2)) as [_ E]. change (2 - 1)%nat with 1%nat in E. rewrite E. unfold vmax. cbn. rewrite Rmax_right; lra. }
  rewrite E1. unfold vget at 1. cbn [nth]. rewrite !dot_cons, !dot_nil_l. unfold vget at 1. cbn [nth]. split; [ring|].
  assert (E2 : vget (map (fun a => 2 * vget [vget [2] 0 * a] 0) (linspace (vmin [0; 2]) (vmax [0; 2]) 2)) 1 = 8).
  { unfold vget at 1. rewrite (nth_indep _ 0 ((fun a => 2 * vget [vget [2] 0 * a] 0) 0)) by (rewrite map_length, linspace_length; lia). rewrite (map_nth (fun a => 2 * vget [vget [2] 0 * a] 0)). unfold vget in E1. rewrite E1. unfold vget. cbn [nth]. ring. }
  unfold vget at 1 3 4 5. cbn [nth]. unfold vget in E2. unfold vget. cbn [nth] in *. rewrite E2. split; lra.
Qed.
(** the samples kept by the object: accepted by the plot of the points, not by that of the response *)
Theorem default_refuted : (forall m f selfX V fX dim n1 n2 d, ridge_plot m f selfX V None fX dim n1 n2 <> inl d) /\ exists m selfX V fX t, base_plot m selfX V None fX 1 UNone = inl t.
Proof.
  split; [|exists 1%nat, [[0]], [[1]], [0]; eexists; reflexivity]. intros m f selfX V fX dim n1 n2 d. unfold ridge_plot. destruct (negb _); [discriminate|]. destruct (base_plot _ _ _ _ _ _ _); discriminate.
Qed.
(** U as documented, (?, m): one direction as a row is refused, and a square array is read by columns *)
Theorem doc_shape_refuted : (forall m selfX selfU X fX u, (1 < m)%nat -> exists e, base_plot m selfX selfU X fX 1 (U2 [u]) = inr e) /\
  exists m X fX t, base_plot m X [] None fX 1 (U2 [[1; 2]; [3; 4]]) = inl t /\ nth 0 t [] <> map (fun x => dot x [1; 2]) X.
Proof.
  split. { intros m selfX selfU X fX u Hm. unfold base_plot. destruct (negb _); [eexists; reflexivity|]. cbn [pick_u length]. destruct m as [|[|m]]; [lia|lia|]. cbn [Nat.eqb]. eexists. reflexivity. }
  exists 2%nat, [[0; 1]], [0]. eexists. split; [reflexivity|]. cbn [nth map col]. unfold vget. cbn [nth]. rewrite !dot_cons, !dot_nil_l. intro E. injection E as E. lra.
Qed.

(** * names *)
Lemma rfind_none : forall c s, rfind c s = None <-> ~ In c s.
Proof.
  intros c. induction s as [|a s IH]; cbn [rfind]; [split; [intros _ []|auto]|]. destruct (rfind c s) as [k|].
  - split; [discriminate|]. intro N. exfalso. assert (X : Some k = None) by (apply IH; intro I; apply N; right; auto). discriminate.
  - destruct (Ascii.eqb a c) eqn:E; [apply Ascii.eqb_eq in E; subst; split; [discriminate|intro N; exfalso; apply N; left; auto]|]. apply Ascii.eqb_neq in E. split; auto. intros _ [I|I]; [congruence|]. apply IH in I; auto.
Qed.
Lemma rfind_app : forall c b e, ~ In c e -> rfind c (b ++ c :: e) = Some (length b).
Proof.
  intros c b e N. induction b as [|a b IH]; cbn [app rfind length].
  - apply rfind_none in N. rewrite N, Ascii.eqb_refl. auto.
  - rewrite IH. auto.
Qed.
Lemma rfind_some : forall (c : ascii) (s : list ascii), In c s -> exists b e, s = b ++ c :: e /\ ~ In c e.
Proof.
  intros c. induction s as [|a s IH]; intros I; [destruct I|]. destruct (in_dec Ascii.ascii_dec c s) as [J|J]; [destruct (IH J) as [b [e [-> N]]]; exists (a :: b), e; auto|].
  destruct I as [->|I]; [|contradiction]. exists [], s. auto.
Qed.
Theorem resp_ext : forall b e, ~ In dot_char e -> resp_name (b ++ dot_char :: e) = b ++ resp ++ dot_char :: e.
Proof. intros b e N. unfold resp_name. rewrite rfind_app by auto. rewrite firstn_app, firstn_all, Nat.sub_diag, app_nil_r. rewrite skipn_app, skipn_all, Nat.sub_diag. auto. Qed.
Theorem resp_last : forall p c, ~ In dot_char (p ++ [c]) -> resp_name (p ++ [c]) = p ++ resp ++ [c].
Proof.
  intros p c N. unfold resp_name. apply rfind_none in N. rewrite N, removelast_last, app_length. cbn [length]. replace (length p + 1 - 1)%nat with (length p) by lia. rewrite skipn_app, skipn_all, Nat.sub_diag. auto.
Qed.
Lemma resp_nodot : ~ In dot_char resp.
Proof. intro I. unfold resp in I. apply in_map_iff in I. destruct I as [n [E I]]. repeat destruct I as [<-|I]; try discriminate. destruct I. Qed.
Theorem resp_new : forall s, resp_name s <> s.
Proof.
  intros s E. apply (f_equal (@length ascii)) in E. unfold resp_name in E. assert (L : length resp = 9%nat) by reflexivity. destruct (rfind dot_char s) as [k|].
  - rewrite !app_length, L, firstn_length, skipn_length in E. lia.
  - destruct s as [|a s] using rev_ind; [discriminate|]. rewrite removelast_last, !app_length, L, skipn_length in E. rewrite app_length in E. cbn [length] in E. lia.
Qed.
Lemma split_last : forall c (b1 b2 e1 e2 : list ascii), ~ In c e1 -> ~ In c e2 -> b1 ++ c :: e1 = b2 ++ c :: e2 -> b1 = b2 /\ e1 = e2.
Proof.
  intros c b1 b2 e1 e2 N1 N2 E. pose proof (rfind_app c b1 e1 N1) as R1. pose proof (rfind_app c b2 e2 N2) as R2. rewrite E in R1. rewrite R2 in R1. injection R1 as L.
  assert (F : firstn (length b1) (b1 ++ c :: e1) = firstn (length b2) (b2 ++ c :: e2)) by (rewrite E, L; auto). rewrite !firstn_app, !firstn_all, !Nat.sub_diag in F. cbn [firstn] in F. rewrite !app_nil_r in F. subst b2. apply app_inv_head in E. injection E as ->. auto.
Qed.
(** different names stay different *)
Theorem resp_inj : forall s t, resp_name s = resp_name t -> s = t.
Proof.
  assert (S : forall s, In dot_char s -> exists b e, s = b ++ dot_char :: e /\ ~ In dot_char e /\ resp_name s = (b ++ resp) ++ dot_char :: e).
  { intros s I. destruct (rfind_some _ _ I) as [b [e [-> N]]]. exists b, e. rewrite resp_ext by auto. rewrite app_assoc. auto. }
  assert (T : forall s, ~ In dot_char s -> ~ In dot_char (resp_name s) /\ (s = [] \/ exists p c, s = p ++ [c] /\ resp_name s = (p ++ resp) ++ [c])).
  { intros s N. destruct s as [|a s _] using rev_ind; [split; [cbn; intro I; apply resp_nodot; auto|auto]|]. rewrite resp_last by auto. split; [|right; exists s, a; rewrite app_assoc; auto].
    intro I. apply in_app_or in I. destruct I as [I|I]; [apply N, in_or_app; auto|]. apply in_app_or in I. destruct I as [I|I]; [apply resp_nodot; auto|apply N, in_or_app; auto]. }
  intros s t E. destruct (in_dec Ascii.ascii_dec dot_char s) as [I|I], (in_dec Ascii.ascii_dec dot_char t) as [J|J].
  - destruct (S s I) as [b1 [e1 [-> [N1 R1]]]], (S t J) as [b2 [e2 [-> [N2 R2]]]]. rewrite R1, R2 in E. destruct (split_last _ _ _ _ _ N1 N2 E) as [EB ->]. apply app_inv_tail in EB. subst. auto.
  - exfalso. destruct (S s I) as [b1 [e1 [_ [_ R1]]]]. destruct (T t J) as [N _]. apply N. rewrite <- E, R1. apply in_or_app. right. left. auto.
  - exfalso. destruct (S t J) as [b1 [e1 [_ [_ R1]]]]. destruct (T s I) as [N _]. apply N. rewrite E, R1. apply in_or_app. right. left. auto.
  - destruct (T s I) as [_ [->|[p [c [-> R1]]]]], (T t J) as [_ [->|[q [d [-> R2]]]]]; auto.
    + exfalso. rewrite R2 in E. apply (f_equal (@length ascii)) in E. rewrite !app_length in E. cbn in E. lia.
    + exfalso. rewrite R1 in E. apply (f_equal (@length ascii)) in E. rewrite !app_length in E. cbn in E. lia.
    + rewrite R1, R2 in E. apply app_inj_tail in E. destruct E as [E ->]. apply app_inv_tail in E. subst. auto.
Qed.
(** the directory is kept if the file itself has an extension *)
Theorem resp_dir : forall d b e, ~ In slash b -> ~ In slash e -> ~ In dot_char e -> dirname (resp_name (d ++ slash :: b ++ dot_char :: e)) = dirname (d ++ slash :: b ++ dot_char :: e).
Proof.
  intros d b e N1 N2 N3. assert (NR : ~ In slash resp). { intro I. unfold resp in I. apply in_map_iff in I. destruct I as [n [E I]]. repeat destruct I as [<-|I]; try discriminate. destruct I. }
  assert (ND : slash <> dot_char) by discriminate. replace (d ++ slash :: b ++ dot_char :: e) with ((d ++ slash :: b) ++ dot_char :: e) by (rewrite <- app_assoc; auto). rewrite resp_ext by auto. rewrite <- !app_assoc. cbn [app]. unfold dirname.
  rewrite !rfind_app; [rewrite !firstn_app, !firstn_all, !Nat.sub_diag; auto| |]; intro I; apply in_app_or in I; destruct I as [I|I]; auto; [destruct I; congruence|]. apply in_app_or in I. destruct I as [I|[I|I]]; auto.
Qed.
(** otherwise the last character is moved behind the suffix, or the name of a directory is changed *)
Theorem resp_refuted : (exists s, resp_name s <> s ++ resp /\ resp_name s <> resp ++ s /\ ~ In dot_char s /\ removelast s ++ resp ++ [last s zero] = resp_name s /\ resp <> [] /\ s <> []) /\ exists s, dirname (resp_name s) <> dirname s.
Proof.
  split.
  - exists (map ascii_of_nat [112; 108; 111; 116]%nat). split; [discriminate|]. split; [discriminate|]. split; [intro I; cbn in I; repeat destruct I as [I|I]; try discriminate; auto|]. split; [reflexivity|]. split; discriminate.
  - exists (map ascii_of_nat [97; 46; 98; 47; 99]%nat). discriminate.
Qed.

(** * the curves of LipschitzApproximation *)
Lemma lip_get : forall u c1 c2 n k, length c1 = length c2 -> (k < n)%nat -> vget (lip_xs u c1 c2 n) k = dot u c2 + INR k / INR (n - 1) * (dot u c1 - dot u c2).
Proof.
  intros u c1 c2 n k L Hk. unfold lip_xs, maximin_1d. rewrite map_map. unfold vget. set (F := fun a => dot u (vadd (vscale a c1) (vscale (1 - a) c2))). rewrite (nth_indep _ 0 (F 0)) by (rewrite map_length, linspace_length; auto). rewrite (map_nth F).
  pose proof (linspace_get 0 1 n k Hk) as E. unfold vget in E. rewrite E. unfold F. rewrite dot_vadd_r by (unfold vscale; rewrite !map_length; auto). rewrite !dot_vscale_r. unfold Rdiv. ring.
Qed.
(** abscissas in order, from one end of the domain to the other *)
Theorem lip_sorted : forall u c1 c2 n i j, length c1 = length c2 -> (2 <= n)%nat -> dot u c2 <= dot u c1 -> (i <= j)%nat -> (j < n)%nat ->
  vget (lip_xs u c1 c2 n) i <= vget (lip_xs u c1 c2 n) j /\ vget (lip_xs u c1 c2 n) 0 = dot u c2 /\ vget (lip_xs u c1 c2 n) (n - 1) = dot u c1.
Proof.
  intros u c1 c2 n i j L Hn Hu Hij Hj. rewrite !lip_get by (auto; lia). assert (P : 0 < INR (n - 1)) by (apply lt_0_INR; lia). split; [|split; [cbn [INR]; field; lra|field; lra]].
  apply Rplus_le_compat_l, Rmult_le_compat_r; [lra|]. apply Rmult_le_compat_r; [apply Rlt_le, Rinv_0_lt_compat; auto|apply le_INR; auto].
Qed.
(** the central curve is within the band, at equal distance from both sides *)
Theorem lip_mid : forall lb ub k, length lb = length ub -> (k < length lb)%nat -> vget lb k <= vget ub k ->
  vget lb k <= vget (lip_centre lb ub) k <= vget ub k /\ vget ub k - vget (lip_centre lb ub) k = vget (lip_centre lb ub) k - vget lb k.
Proof.
  intros lb ub k. assert (G : forall k lb ub, length lb = length ub -> (k < length lb)%nat -> vget (lip_centre lb ub) k = / 2 * (vget lb k + vget ub k)).
  { clear. intro k. induction k as [|k0 IH]; intros [|a l] [|b u] L H; simpl in L, H; try lia; [reflexivity|]. apply (IH l u); simpl; lia. }
  intros L H Q. rewrite G by auto. lra.
Qed.
Example ex_curve : orthon [[3/5]; [4/5]] /\ ridge_of 2 [[3/5]; [4/5]] (fun x => 3/5 * vget x 0 + 4/5 * vget x 1) (fun y => vget y 0).
Proof.
  split.
  - intros i j Hi Hj. cbn in Hi, Hj. assert (i = O) by lia. assert (j = O) by lia. subst. cbn [col map Nat.eqb]. unfold vget. cbn [nth]. rewrite !dot_cons, !dot_nil_l. lra.
  - intros x L. destruct x as [|a [|b [|]]]; try discriminate. cbn [ncols length seq map col]. unfold vget. cbn [nth]. rewrite !dot_cons, !dot_nil_l. ring.
Qed.
Example ex_mesh : orthon [[1; 0]; [0; 1]] /\ ridge_of 2 [[1; 0]; [0; 1]] (fun x => vget x 0 * vget x 1) (fun y => vget y 0 * vget y 1).
Proof.
  split.
  - intros i j Hi Hj. cbn in Hi, Hj. destruct i as [|[|]]; try lia; destruct j as [|[|]]; try lia; cbn [col map Nat.eqb]; unfold vget; cbn [nth]; rewrite !dot_cons, !dot_nil_l; lra.
  - intros x L. destruct x as [|a [|b [|]]]; try discriminate. cbn [ncols length seq map col]. unfold vget. cbn [nth]. rewrite !dot_cons, !dot_nil_l. ring.
Qed.
