(** Builders of the demonstration domains. *)
Require Import String Reals Lra Lia List Bool Arith.
From Verif Require Import NamesModel NamesProofs BldModel.
Import ListNotations.
Local Open Scope R_scope.
Local Open Scope list_scope.

(** a domain with a name and bounds for each of its n variables, the names distinct *)
Definition well_named (d : bdom) (n : nat) : Prop := ndim (b_dom d) = n /\ List.length (names (b_dom d)) = n /\ List.length (b_bounds d) = n /\ NoDup (names (b_dom d)).
Definition in_bounds (d : bdom) (x : list R) : Prop := List.length x = List.length (b_bounds d) /\ forall i, (i < List.length x)%nat -> fst (nth i (b_bounds d) (0, 0)) <= nth i x 0 <= snd (nth i (b_bounds d) (0, 0)).

(** only three control points are possible *)
Theorem oas_control_points : forall n, (exists d, oas_design n = Some d) <-> n = 3%nat.
Proof.
  intro n. unfold oas_design, tensor, box, three. cbn [map].
  split.
  - intros (d & E). destruct (Nat.eq_dec n 3) as [|NE]; auto. exfalso. unfold make at 1 in E. unfold init_names at 1 in E. cbn [List.length] in E. destruct (Nat.eqb_spec n 3); [congruence|]. discriminate.
  - intros ->. eexists. reflexivity.
Qed.
Theorem oas_named : exists d, oas_domain = Some d /\ well_named d 12 /\ names (b_dom d) = ["twist 1"; "twist 2"; "twist 3"; "thickness 1"; "thickness 2"; "thickness 3"; "root chord"; "taper ratio"; "angle of attack"; "Young's modulus of the spar [Pa]"; "sheear modulus of the spar [Pa]"; "material density [kg/m^3]"]%string /\
  forall t1 t2 t3 h1 h2 h3 c r a E G rho, in_bounds d [t1; t2; t3; h1; h2; h3; c; r; a; E; G; rho] <->
    Forall (fun t => Rabs t <= 1) [t1; t2; t3] /\ Forall (fun h => 0.005 <= h <= 0.05) [h1; h2; h3] /\ Rabs (c - 1) <= 0.3 /\ Rabs (r - 1) <= 0.25 /\ 2 <= a <= 5 /\
    Rabs (E - 70e9) <= 0.2 * 70e9 /\ Rabs (G - 30e9) <= 0.2 * 30e9 /\ Rabs (rho - 3e3) <= 0.2 * 3e3.
Proof.
  eexists. split; [reflexivity|]. split; [|split; [reflexivity|]].
  - split; [reflexivity|]. split; [reflexivity|]. split; [reflexivity|]. vm_compute. repeat (constructor; [intro H; repeat (destruct H as [H|H]; [discriminate H|]); exact H|]). constructor.
  - assert (RA : forall x b, Rabs x <= b <-> - b <= x <= b) by (intros x b; split; [unfold Rabs; destruct (Rcase_abs x); lra|apply Rabs_le]).
    intros t1 t2 t3 h1 h2 h3 c r a E G rho. unfold in_bounds. cbn [b_bounds flat_map repeat app List.length]. split.
    + intros (_ & H).
      pose proof (H 0%nat ltac:(lia)) as H0. pose proof (H 1%nat ltac:(lia)) as H1. pose proof (H 2%nat ltac:(lia)) as H2. pose proof (H 3%nat ltac:(lia)) as H3.
      pose proof (H 4%nat ltac:(lia)) as H4. pose proof (H 5%nat ltac:(lia)) as H5. pose proof (H 6%nat ltac:(lia)) as H6. pose proof (H 7%nat ltac:(lia)) as H7.
      pose proof (H 8%nat ltac:(lia)) as H8. pose proof (H 9%nat ltac:(lia)) as H9. pose proof (H 10%nat ltac:(lia)) as H10. pose proof (H 11%nat ltac:(lia)) as H11. clear H.
      cbn [nth fst snd] in *. rewrite !RA. repeat first [apply conj | apply Forall_cons | apply Forall_nil]; rewrite ?RA; lra.
    + intros (T & Hh & H1 & H2 & H3 & H4 & H5 & H6). split; [reflexivity|]. rewrite RA in H1, H2, H4, H5, H6.
      inversion_clear T as [|? ? T1 T']. inversion_clear T' as [|? ? T2 T'']. inversion_clear T'' as [|? ? T3 _]. rewrite RA in T1, T2, T3.
      inversion_clear Hh as [|? ? U1 T']. inversion_clear T' as [|? ? U2 T'']. inversion_clear T'' as [|? ? U3 _].
      intros i Hi. do 12 (destruct i as [|i]; [cbn [nth fst snd]; lra|]). lia.
Qed.
Example oas_case : exists d, oas_domain = Some d /\ in_bounds d [0; 0; 0; 0.0275; 0.0275; 0.0275; 1; 1; 3.5; 70e9; 30e9; 3e3].
Proof. eexists. split; [reflexivity|]. split; [reflexivity|]. cbn [b_bounds flat_map repeat app List.length]. intros i Hi. do 12 (destruct i as [|i]; [cbn [nth fst snd]; lra|]). lia. Qed.
(** the airfoil: all numbers of bumps; lower bumps first, each between -fraction and fraction *)
Theorem airfoil_named : forall nl nu f, exists d, hicks_henne nl nu f = Some d /\ well_named d (nl + nu) /\
  (forall i, (i < nl)%nat -> exists s, nth_error (names (b_dom d)) i = Some ("lower bump" ++ s)%string) /\ (forall i, (nl <= i < nl + nu)%nat -> exists s, nth_error (names (b_dom d)) i = Some ("upper bump" ++ s)%string) /\
  forall x, in_bounds d x <-> List.length x = (nl + nu)%nat /\ Forall (fun t => Rabs t <= f) x.
Proof.
  intros nl nu f. unfold hicks_henne, tensor, box.
  assert (M : forall n s, exists d, make n (Base s) = Some d) by (intros; eexists; reflexivity).
  destruct (M nl "lower bump"%string) as (a & Ea), (M nu "upper bump"%string) as (b & Eb). rewrite Ea, Eb. cbn [all_some option_map map b_dom b_bounds flat_map]. eexists. split; [reflexivity|]. cbn [b_dom b_bounds].
  destruct (constructor_names nl _ a Ea) as (A1 & A2 & A3), (constructor_names nu _ b Eb) as (B1 & B2 & B3).
  assert (P : forall n s d, make n (Base s) = Some d -> Forall (fun t => exists r, t = (s ++ r)%string) (leaf_names d)).
  { intros n s d E. unfold make, init_names in E. injection E as <-. unfold leaf_names. cbn [n_stored]. destruct (Nat.eqb n 1); [constructor; [|constructor]|].
    - exists ""%string. clear. induction s as [|c s IH]; cbn; [auto|rewrite <- IH; auto].
    - apply Forall_forall. intros t I. apply in_map_iff in I. destruct I as (j & <- & _). eexists. reflexivity. }
  assert (EN : names (product [Single a; Single b]) = leaf_names a ++ leaf_names b) by (rewrite product_names; cbn; rewrite app_nil_r; reflexivity).
  assert (NE : forall s t, ("lower bump" ++ s)%string <> ("upper bump" ++ t)%string) by (intros s t H; discriminate H).
  pose proof (P _ _ _ Ea) as PA. pose proof (P _ _ _ Eb) as PB. rewrite Forall_forall in PA, PB.
  split; [|split; [|split]].
  - unfold well_named. cbn [b_dom b_bounds]. split; [|split; [|split]].
    + unfold ndim. cbn. lia.
    + rewrite EN, app_length. lia.
    + rewrite !app_length, !repeat_length. cbn. lia.
    + apply product_distinct. cbn [names]. split; [apply A3; exact I|]. split; [apply B3; exact I|]. intros n IA IB. destruct (PA n IA) as (s & ->). destruct (PB _ IB) as (t & E). exact (NE _ _ E).
  - intros i Hi. rewrite EN. rewrite nth_error_app1 by lia. destruct (nth_error (leaf_names a) i) as [t|] eqn:E; [|apply nth_error_None in E; lia]. destruct (PA t (nth_error_In _ _ E)) as (s & ->). eauto.
  - intros i Hi. rewrite EN. rewrite nth_error_app2 by lia. destruct (nth_error (leaf_names b) (i - List.length (leaf_names a))) as [t|] eqn:E; [|apply nth_error_None in E; lia]. destruct (PB t (nth_error_In _ _ E)) as (s & ->). eauto.
  - intro x. unfold in_bounds. cbn [b_bounds]. rewrite app_nil_r, <- repeat_app, repeat_length. split.
    + intros (HL & H). split; auto. apply Forall_forall. intros t I. apply (In_nth _ _ 0) in I. destruct I as (i & Hi & <-). specialize (H i Hi).
      assert (Q : nth i (repeat (- f, f) (nl + nu)) (0, 0) = (- f, f)) by (apply (repeat_spec (nl + nu)); apply nth_In; rewrite repeat_length; lia). rewrite Q in H. cbn [fst snd] in H. apply Rabs_le. auto.
    + intros (HL & H). split; auto. intros i Hi. assert (Q : nth i (repeat (- f, f) (nl + nu)) (0, 0) = (- f, f)) by (apply (repeat_spec (nl + nu)); apply nth_In; rewrite repeat_length; lia). rewrite Q. cbn [fst snd].
      rewrite Forall_forall in H. specialize (H (nth i x 0) (nth_In _ _ Hi)). pose proof (Rle_abs (nth i x 0)). pose proof (Rle_abs (- nth i x 0)). rewrite Rabs_Ropp in *. lra.
Qed.
Example airfoil_case : exists d, hicks_henne 1 2 0.01 = Some d /\ names (b_dom d) = ["lower bump"; "upper bump 1"; "upper bump 2"]%string.
Proof. eexists. split; reflexivity. Qed.
(** whatever clip is, no value of the random variables of the gearbox is excluded; clip is handed to the solvers instead *)
Theorem gearbox_clip_refuted : forall isf clip x, List.length (golinski_random isf clip) = 6%nat /\ Forall (fun d => in_normal d x /\ n_solver d = [("clip"%string, clip)]) (golinski_random isf clip).
Proof. intros isf clip x. split; [reflexivity|]. unfold golinski_random. apply Forall_forall. intros d I. apply in_map_iff in I. destruct I as (s & <- & _). split; [exact Logic.I|reflexivity]. Qed.
(** with truncate the same factors are intervals *)
Theorem gearbox_truncate : forall isf s t x, 0 < s -> 0 <= isf t -> (in_normal (normal isf 0 (s ^ 2) [("truncate"%string, Some t)]) x <-> Rabs x <= s * sqrt (isf t)).
Proof.
  intros isf s t x Hs Hc. unfold in_normal, normal. cbn [n_clip option_map n_mean n_var lookup String.eqb Ascii.eqb Bool.eqb]. pose proof (sqrt_pos (isf t)) as Q. assert (S2 : sqrt (isf t) * sqrt (isf t) = isf t) by (apply sqrt_sqrt; auto). rewrite Rminus_0_r.
  assert (E : x ^ 2 / s ^ 2 <= isf t <-> x ^ 2 <= (s * sqrt (isf t)) ^ 2).
  { replace ((s * sqrt (isf t)) ^ 2) with (s ^ 2 * isf t) by (rewrite <- S2 at 1; ring). assert (0 < s ^ 2) by (apply pow_lt; auto). split; intro H0.
    - apply (Rmult_le_compat_l (s ^ 2)) in H0; [|lra]. replace (s ^ 2 * (x ^ 2 / s ^ 2)) with (x ^ 2) in H0 by (field; lra). auto.
    - apply (Rmult_le_reg_l (s ^ 2)); [auto|]. replace (s ^ 2 * (x ^ 2 / s ^ 2)) with (x ^ 2) by (field; lra). auto. }
  rewrite E. assert (0 <= s * sqrt (isf t)) by nra. split; intro H0.
  - rewrite <- !Rsqr_pow2 in H0. apply Rsqr_le_abs_0 in H0. rewrite (Rabs_right (s * sqrt (isf t))) in H0 by lra. auto.
  - rewrite <- !Rsqr_pow2. apply Rsqr_le_abs_1. rewrite (Rabs_right (s * sqrt (isf t))) by lra. auto.
Qed.
Example gearbox_truncate_case : 0 < 21e-4 /\ 0 <= (fun _ : R => 9) (1/1000).
Proof. split; lra. Qed.
(** build_multif_domain takes no further keyword argument; build_multif_random_domain returns only if the module has a global kwargs *)
Theorem nozzle_keywords : forall lin kw, lin [] = true -> (multif_domain lin kw = BOk <-> kw = []).
Proof.
  intros lin kw H0. split; [|intros ->; unfold multif_domain, design_domain; cbn; rewrite H0; reflexivity]. unfold multif_domain, design_domain, random_domain. destruct kw as [|k kw]; [auto|].
  destruct (String.eqb "output" k) eqn:E; cbn [existsb forallb]; rewrite E; cbn [orb andb]; [discriminate|]. destruct (existsb _ kw); [discriminate|]. destruct (lin (k :: kw)); discriminate.
Qed.
Theorem nozzle_random_refuted : forall globals, multif_random globals = BOk <-> In "kwargs"%string globals.
Proof.
  intro g. unfold multif_random. cbn [app existsb]. change (String.eqb "kwargs" "truncate") with false. cbn [orb]. split.
  - destruct (existsb _ g) eqn:E; [|discriminate]. intros _. apply existsb_exists in E. destruct E as (k & I & E). apply String.eqb_eq in E. subst. auto.
  - intro I. replace (existsb (String.eqb "kwargs") g) with true; [reflexivity|]. symmetry. apply existsb_exists. exists "kwargs"%string. split; [exact I|reflexivity].
Qed.
Example nozzle_random_case : multif_random ["MULTIF"; "multif"; "build_multif_domain"]%string = BNameErr.
Proof. reflexivity. Qed.
Example nozzle_case : (fun kw => negb (existsb (String.eqb "names") kw)) [] = true /\ multif_domain (fun kw => negb (existsb (String.eqb "names") kw)) ["solver"%string] = BTypeErr.
Proof. split; reflexivity. Qed.
