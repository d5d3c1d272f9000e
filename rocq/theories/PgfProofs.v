(** PGF tables (pgf.py 7-56): writing and reading back. *)
Require Import List Bool Arith Ascii Lia.
From Verif Require Import Num DomMoreModel LipModel SubModel.
Import ListNotations.

(** specification: a cell that survives in a tab-separated text file *)
Definition cr : ascii := ascii_of_nat 13.
Definition clean (s : list ascii) : Prop := forall c, In c s -> c <> tab /\ c <> nl /\ c <> cr.
Definition float_text {F} (fmt : F -> list ascii) (parse : list ascii -> option F) : Prop := forall x, clean (fmt x) /\ parse (fmt x) = Some x.
(** a table: as many names as columns, at least one, all columns of the same length *)
Definition table {F} (p : pgf F) : Prop := length (pnames p) = length (pcols p) /\ exists c0 cs, pcols p = c0 :: cs /\ forall c, In c cs -> length c = length c0.

Definition cells (strs : list (list ascii)) : list ascii := flat_map (fun n => n ++ [tab]) strs.
Fixpoint joined (s : list ascii) (r : list (list ascii)) : list ascii := match r with [] => s | t :: r' => s ++ tab :: joined t r' end.
Lemma tab_nl : tab <> nl. Proof. intros H. discriminate. Qed.
Lemma cells_joined : forall r s, cells (s :: r) = joined s r ++ [tab].
Proof.
  unfold cells. induction r as [|t r IH]; intros s; simpl; [rewrite app_nil_r; auto|]. simpl in IH. rewrite (IH t). rewrite <- !app_assoc. auto.
Qed.
Lemma joined_nl : forall r s, clean s -> Forall clean r -> forall c, In c (joined s r) -> c <> nl.
Proof.
  induction r as [|t r IH]; intros s Cs Fr c I; simpl in I.
  - apply Cs; auto.
  - inversion Fr; subst. apply in_app_or in I. destruct I as [I|[I|I]]; [apply Cs; auto|subst; apply tab_nl|apply (IH t); auto].
Qed.
Lemma drop_end : forall s, (forall c, In c s -> c <> nl) -> drop_tabnl (s ++ [tab; nl]) = s.
Proof.
  induction s as [|a s IH]; intros H; [reflexivity|]. specialize (IH ltac:(intros; apply H; simpl; auto)). destruct s as [|b s].
  - simpl. destruct (ascii_dec a tab); reflexivity.
  - change (((a :: b :: s) ++ [tab; nl])) with (a :: b :: (s ++ [tab; nl])). assert (b <> nl) by (apply H; simpl; auto).
    assert (E : drop_tabnl (a :: b :: s ++ [tab; nl]) = a :: drop_tabnl (b :: s ++ [tab; nl])). { cbn [drop_tabnl]. destruct (ascii_dec a tab); auto. destruct (ascii_dec b nl); [contradiction|auto]. }
    rewrite E. f_equal. apply IH.
Qed.
Lemma filter_nl : forall s, (forall c, In c s -> c <> nl) -> filter (fun c => if ascii_dec c nl then false else true) s = s.
Proof.
  induction s as [|a s IH]; intros H; auto. cbn [filter]. destruct (ascii_dec a nl) as [e|]; [exfalso; apply (H a); simpl; auto|]. f_equal. apply IH. intros; apply H; simpl; auto.
Qed.
Lemma split_app : forall s rest cur, (forall c, In c s -> c <> tab) -> split_tab (s ++ rest) cur = split_tab rest (rev s ++ cur).
Proof.
  induction s as [|a s IH]; intros rest cur H; auto. cbn [app split_tab]. destruct (ascii_dec a tab) as [e|]; [exfalso; apply (H a); simpl; auto|]. rewrite IH by (intros; apply H; simpl; auto). simpl. rewrite <- app_assoc. auto.
Qed.
Lemma split_joined : forall r s, clean s -> Forall clean r -> split_tab (joined s r) [] = s :: r.
Proof.
  induction r as [|t r IH]; intros s Cs Fr; cbn [joined].
  - rewrite <- (app_nil_r s) at 1. rewrite split_app by (intros; apply Cs; auto). simpl. rewrite app_nil_r, rev_involutive. auto.
  - inversion Fr; subst. rewrite split_app by (intros; apply Cs; auto). cbn [split_tab]. destruct (ascii_dec tab tab); [|congruence]. rewrite app_nil_r, rev_involutive. f_equal. apply IH; auto.
Qed.
Lemma line_cells : forall strs, strs <> [] -> Forall clean strs -> split_tab (strip_line (cells strs ++ [nl])) [] = strs.
Proof.
  intros [|s r] N F; [congruence|]. inversion F; subst. rewrite cells_joined, <- app_assoc. unfold strip_line. simpl app at 2. rewrite drop_end by (apply joined_nl; auto). rewrite filter_nl by (apply joined_nl; auto). apply split_joined; auto.
Qed.
Lemma lines_app : forall s rest cur, (forall c, In c s -> c <> nl) -> lines_of (s ++ nl :: rest) cur = (rev cur ++ s ++ [nl]) :: lines_of rest [].
Proof.
  induction s as [|a s IH]; intros rest cur H; cbn [app lines_of].
  - destruct (ascii_dec nl nl); [|congruence]. simpl. auto.
  - destruct (ascii_dec a nl) as [e|]; [exfalso; apply (H a); simpl; auto|]. rewrite IH by (intros; apply H; simpl; auto). simpl. rewrite <- app_assoc. auto.
Qed.
Lemma cells_nl : forall strs, Forall clean strs -> forall c, In c (cells strs) -> c <> nl.
Proof.
  intros strs F c I. unfold cells in I. apply in_flat_map in I. destruct I as [s [Is I]]. rewrite Forall_forall in F. apply in_app_or in I. destruct I as [I|[<-|[]]]; [apply (F s Is); auto|apply tab_nl].
Qed.
Lemma lines_concat : forall rows, (forall r, In r rows -> exists strs, r = cells strs ++ [nl] /\ Forall clean strs) -> lines_of (concat rows) [] = rows.
Proof.
  induction rows as [|r rows IH]; intros H; auto. destruct (H r) as [strs [-> F]]; simpl; auto. rewrite <- app_assoc. cbn [app]. rewrite lines_app by (apply cells_nl; auto). simpl. f_equal. apply IH. intros; apply H; simpl; auto.
Qed.
Lemma add_cells_spec : forall F (fmt : F -> list ascii) parse xs cols, float_text fmt parse -> length xs = length cols ->
  add_cells parse (map fmt xs) cols = Some (zipw (fun c x => c ++ [x]) cols xs).
Proof.
  intros F fmt parse. induction xs as [|x xs IH]; intros [|c cols] FT L; simpl in *; try discriminate; auto. destruct (FT x) as [_ ->]. rewrite IH by auto. auto.
Qed.
Lemma all_some_in : forall A (l : list (option A)) r, all_some l = Some r -> l = map Some r.
Proof.
  intros A. induction l as [|a l IH]; intros r E; simpl in E; [injection E as <-; auto|]. destruct a as [x|]; [|discriminate]. destruct (all_some l) as [r'|] eqn:E'; [|discriminate]. injection E as <-. simpl. f_equal. apply IH. auto.
Qed.
Lemma all_some_map : forall A (r : list A), all_some (map Some r) = Some r.
Proof. intros A. induction r as [|a r IH]; simpl; auto. rewrite IH. auto. Qed.

(** row j of the table and the text of it *)
Lemma row_some : forall F (fmt : F -> list ascii) cols j, (forall c, In c cols -> j < length c) -> exists xs, map (fun c => nth_error c j) cols = map Some xs /\ pgf_row fmt cols j = Some (cells (map fmt xs) ++ [nl]).
Proof.
  intros F fmt cols j H. assert (E : exists xs, map (fun c => nth_error c j) cols = map Some xs).
  { induction cols as [|c cols IH]; [exists []; auto|]. destruct IH as [xs E]; [intros; apply H; simpl; auto|]. destruct (nth_error c j) as [x|] eqn:Ec.
    - exists (x :: xs). simpl. rewrite Ec, E. auto.
    - apply nth_error_None in Ec. specialize (H c ltac:(simpl; auto)). lia. }
  destruct E as [xs E]. exists xs. split; auto. unfold pgf_row. rewrite E, all_some_map. f_equal. f_equal. unfold cells. rewrite !flat_map_concat_map, map_map. auto.
Qed.
Lemma firstn_step : forall F (c : list F) k x, nth_error c k = Some x -> firstn (S k) c = firstn k c ++ [x].
Proof. intros F. induction c as [|a c IH]; intros [|k] x E; simpl in E; try discriminate; [injection E as <-; auto|]. change (firstn (S (S k)) (a :: c)) with (a :: firstn (S k) c). rewrite (IH k x E). auto. Qed.
Lemma read_rows_spec : forall F (fmt : F -> list ascii) parse cols n k d rows, float_text fmt parse -> cols <> [] -> (forall c, In c cols -> length c = n) -> k + d = n ->
  all_some (map (pgf_row fmt cols) (seq k d)) = Some rows -> read_rows parse rows (map (firstn k) cols) = Some cols.
Proof.
  intros F fmt parse cols n k d. revert k. induction d as [|d IH]; intros k rows FT N H L E; simpl in E.
  - injection E as <-. simpl. f_equal. rewrite <- (map_id cols) at 2. apply map_ext_in. intros c Ic. apply firstn_all2. rewrite (H c Ic). lia.
  - destruct (row_some F fmt cols k) as [xs [Ex Er]]; [intros c Ic; rewrite (H c Ic); lia|]. rewrite Er in E. destruct (all_some (map (pgf_row fmt cols) (seq (S k) d))) as [rows'|] eqn:E'; [|discriminate]. injection E as <-. cbn [read_rows].
    assert (Lx : length xs = length cols) by (rewrite <- (map_length Some xs), <- Ex, map_length; auto).
    rewrite line_cells.
    + rewrite (add_cells_spec F fmt parse) by (auto; rewrite map_length; auto).
      replace (zipw _ _ _) with (map (firstn (S k)) cols); [apply IH; auto; lia|]. clear - Ex. revert xs Ex. induction cols as [|c cols IH]; intros [|x xs] Ex; cbn [map] in Ex; try discriminate; auto. injection Ex as E1 E2. change (firstn (S k) c :: map (firstn (S k)) cols = (firstn k c ++ [x]) :: zipw (fun c x => c ++ [x]) (map (firstn k) cols) xs). rewrite (firstn_step F c k x E1). f_equal. apply IH. auto.
    + destruct xs; [destruct cols; [congruence|discriminate]|discriminate].
    + apply Forall_forall. intros s Is. apply in_map_iff in Is. destruct Is as [x [<- _]]. apply FT.
Qed.
Theorem pgf_round_trip : forall F (fmt : F -> list ascii) parse p, float_text fmt parse -> table p -> Forall clean (pnames p) -> exists s, pgf_write fmt p = Some s /\ pgf_read parse s = Some p.
Proof.
  intros F fmt parse [names cols] FT [Ln [c0 [cs [Ec Hc]]]] FN. cbn [pnames pcols] in *.
  assert (HA : forall c, In c cols -> length c = length c0) by (rewrite Ec; intros c [<-|I]; auto).
  assert (E : exists rows, all_some (map (pgf_row fmt cols) (seq 0 (length c0))) = Some rows /\ forall r, In r rows -> exists strs, r = cells strs ++ [nl] /\ Forall clean strs).
  { assert (G : forall d k, k + d = length c0 -> exists rows, all_some (map (pgf_row fmt cols) (seq k d)) = Some rows /\ forall r, In r rows -> exists strs, r = cells strs ++ [nl] /\ Forall clean strs); [|apply G; auto].
    induction d as [|d IH]; intros k L; [exists []; split; auto; intros r []|]. destruct (IH (S k) ltac:(lia)) as [rows [E H]]. destruct (row_some F fmt cols k) as [xs [_ Er]]; [intros c Ic; rewrite (HA c Ic); lia|].
    exists ((cells (map fmt xs) ++ [nl]) :: rows). cbn [seq map all_some]. rewrite Er, E. split; auto. intros r [<-|Ir]; auto. eexists. split; auto. apply Forall_forall. intros s Is. apply in_map_iff in Is. destruct Is as [x [<- _]]. apply FT. }
  destruct E as [rows [E HR]]. exists (header names ++ concat rows). unfold pgf_write, pgf_read. cbn [pnames pcols]. split; [rewrite Ec at 1; rewrite E; auto|].
  assert (EL : lines_of (header names ++ concat rows) [] = (cells names ++ [nl]) :: rows).
  { change (header names ++ concat rows) with (concat ((cells names ++ [nl]) :: rows)). apply lines_concat. intros r [<-|Ir]; auto. exists names. auto. }
  rewrite EL. rewrite line_cells by (auto; intros ->; rewrite Ec in Ln; discriminate).
  assert (ER : read_rows parse rows (map (fun _ => []) names) = Some cols).
  { replace (map (fun _ => []) names) with (map (firstn 0) cols). { apply (read_rows_spec F fmt parse cols (length c0) 0 (length c0)); auto. rewrite Ec. discriminate. }
    clear - Ln. revert cols Ln. induction names as [|a names IH]; intros [|c cols] Ln; simpl in *; try discriminate; auto. f_equal. apply IH. lia. }
  rewrite ER. auto.
Qed.

(** a table built by add: every column from the third on has the length of the first *)
Fixpoint adds {F} (p : pgf F) (l : list (list ascii * list F)) : option (pgf F) :=
  match l with [] => Some p | (n, c) :: l' => match pgf_add p n c with None => None | Some q => adds q l' end end.
Definition empty {F} : pgf F := mkPgf F [] [].
Lemma adds_app : forall F l (p q : pgf F), adds p l = Some q -> pnames q = pnames p ++ map fst l /\ pcols q = pcols p ++ map snd l.
Proof.
  intros F. induction l as [|[n c] l IH]; intros p q E; simpl in E; [injection E as <-; rewrite !app_nil_r; auto|]. destruct (pgf_add p n c) as [p'|] eqn:EA; [|discriminate]. destruct (IH p' q E) as [E1 E2]. unfold pgf_add in EA. destruct (match pcols p with [] => false | c0 :: l0 => match l0 with [] => false | _ => _ end end); [discriminate|]. injection EA as <-. cbn [pnames pcols] in *. rewrite E1, E2. simpl. rewrite <- !app_assoc. auto.
Qed.
Theorem pgf_adds_keep : forall F l (q : pgf F), adds empty l = Some q -> pnames q = map fst l /\ pcols q = map snd l.
Proof. intros F l q E. destruct (adds_app F l empty q E) as [E1 E2]. auto. Qed.
Lemma adds_lens : forall F l (p q : pgf F) c0 c1 cs, adds p l = Some q -> pcols p = c0 :: c1 :: cs -> (forall c, In c cs -> length c = length c0) -> exists cs', pcols q = c0 :: c1 :: cs' /\ forall c, In c cs' -> length c = length c0.
Proof.
  intros F. induction l as [|[n c] l IH]; intros p q c0 c1 cs E Ep H; simpl in E; [injection E as <-; eauto|]. destruct (pgf_add p n c) as [p'|] eqn:EA; [|discriminate]. unfold pgf_add in EA. rewrite Ep in EA. destruct (Nat.eqb_spec (length c0) (length c)); [|discriminate]. simpl in EA. injection EA as <-.
  apply (IH _ q c0 c1 (cs ++ [c]) E); auto. intros x Ix. apply in_app_or in Ix. destruct Ix as [Ix|[<-|[]]]; auto.
Qed.
Theorem pgf_lengths_partial : forall F l (q : pgf F), adds empty l = Some q -> forall i, 2 <= i -> i < length l -> length (nth i (pcols q) []) = length (nth 0 (pcols q) []).
Proof.
  intros F l q E i H2 Hi. destruct l as [|[n0 c0] [|[n1 c1] l]]; simpl in Hi; try lia. cbn [adds] in E. unfold pgf_add at 1 in E. cbn [empty pcols pnames app] in E. unfold pgf_add at 1 in E. cbn [pcols pnames app] in E.
  destruct (adds_lens F l _ q c0 c1 [] E eq_refl ltac:(intros c [])) as [cs [Eq H]]. pose proof (adds_app F l _ q E) as [_ EC]. cbn [pcols] in EC. rewrite Eq in *. injection EC as EC. destruct i as [|[|i]]; try lia. cbn [nth]. apply H, nth_In. rewrite EC, map_length. lia.
Qed.
(** lengths agree at every call: a table, and every name is found again *)
Theorem pgf_adds_table : forall F (l : list (list ascii * list F)) n0 c0 l', l = (n0, c0) :: l' -> (forall nc, In nc l' -> length (snd nc) = length c0) -> exists q, adds empty l = Some q /\ table q.
Proof.
  intros F l n0 c0 l' -> H. assert (G : forall l (p : pgf F) c0 cs, pcols p = c0 :: cs -> (forall c, In c cs -> length c = length c0) -> (forall nc, In nc l -> length (snd nc) = length c0) -> exists q, adds p l = Some q).
  { clear. induction l as [|[n c] l IH]; intros p c0 cs Ep Hc H; simpl; eauto. assert (Lc : length c = length c0) by (apply (H (n, c)); simpl; auto). unfold pgf_add. rewrite Ep. rewrite Lc, Nat.eqb_refl.
    replace (match cs with [] => false | _ :: _ => negb true end) with false by (destruct cs; auto). eapply IH; [cbn [pcols]; reflexivity| |intros; apply H; simpl; auto]. intros x Ix. apply in_app_or in Ix. destruct Ix as [Ix|[<-|[]]]; auto. }
  destruct (G l' (mkPgf F [n0] [c0]) c0 [] eq_refl ltac:(intros c []) H) as [q E]. exists q. split; auto. destruct (adds_app F l' _ q E) as [E1 E2]. cbn [pnames pcols] in *. split; [rewrite E1, E2, !app_length, !map_length; auto|]. exists c0, (map snd l'). split; auto. intros c Ic. apply in_map_iff in Ic. destruct Ic as [nc [<- I]]. auto.
Qed.
Lemma index_first : forall names key i, index_of names key = Some i <-> (nth_error names i = Some key /\ forall j, j < i -> nth_error names j <> Some key).
Proof.
  induction names as [|n names IH]; intros key i; cbn [index_of].
  - split; [discriminate|]. intros [H _]. destruct i; discriminate.
  - destruct (list_eq_dec ascii_dec n key) as [e|ne].
    + split.
      * intros Q. injection Q as <-. split; [simpl; congruence|lia].
      * intros [H1 H2]. destruct i as [|i]; auto. exfalso. apply (H2 0); simpl; [lia|congruence].
    + split.
      * destruct (index_of names key) as [k|] eqn:E; [|discriminate]. intros Q. injection Q as <-. apply IH in E. destruct E as [E1 E2]. split; auto. intros [|j] Hj; simpl; [congruence|]. apply E2. lia.
      * intros [H1 H2]. destruct i as [|i]; [simpl in H1; congruence|]. assert (E : index_of names key = Some i). { apply IH. split; auto. intros j Hj. apply (H2 (S j)). lia. } rewrite E. auto.
Qed.
(** p[name] is the column added first under that name *)
Theorem pgf_lookup : forall F l (q : pgf F) key c, adds empty l = Some q -> (pgf_get q key = Some c <-> exists l1 l2, l = l1 ++ (key, c) :: l2 /\ ~ In key (map fst l1)).
Proof.
  intros F l q key c E. destruct (adds_app F l empty q E) as [E1 E2]. cbn [pnames pcols empty app] in *. unfold pgf_get. rewrite E1, E2. split.
  - destruct (index_of (map fst l) key) as [i|] eqn:EI; [|discriminate]. intros EC. apply index_first in EI. destruct EI as [I1 I2]. rewrite nth_error_map in EC, I1. destruct (nth_error l i) as [[n c']|] eqn:EL; [|discriminate]. simpl in EC, I1. injection EC as ->. injection I1 as ->.
    destruct (nth_error_split l i EL) as [l1 [l2 [-> L]]]. exists l1, l2. split; auto. intros I. apply In_nth_error in I. destruct I as [j Ej]. assert (Hj : j < length l1) by (rewrite <- (map_length fst l1); apply nth_error_Some; congruence). apply (I2 j); [lia|]. rewrite map_app, nth_error_app1 by (rewrite map_length; auto). auto.
  - intros [l1 [l2 [-> N]]]. replace (index_of (map fst (l1 ++ (key, c) :: l2)) key) with (Some (length l1)).
    + rewrite map_app, nth_error_app2 by (rewrite map_length; auto). rewrite map_length, Nat.sub_diag. auto.
    + symmetry. apply index_first. rewrite map_app. split.
      * rewrite nth_error_app2 by (rewrite map_length; auto). rewrite map_length, Nat.sub_diag. auto.
      * intros j Hj Q. rewrite nth_error_app1 in Q by (rewrite map_length; auto). apply N. apply nth_error_In with j. auto.
Qed.

Local Open Scope char_scope.
Definition bfmt (b : bool) : list ascii := if b then ["1"] else ["0"; "."].
Definition bparse (s : list ascii) : option bool := match s with [c] => if ascii_dec c "1" then Some true else None | c :: _ :: _ => if ascii_dec c "0" then Some false else None | _ => None end.
Lemma b_text : float_text bfmt bparse.
Proof. intros [|]; split; try reflexivity; intros c [<-|I]; try (destruct I as [<-|[]] || destruct I); repeat split; discriminate. Qed.
Ltac b_clean := apply Forall_forall; let s := fresh in let H := fresh in intros s H; repeat (destruct H as [<-|H]; [intros c I; repeat (destruct I as [<-|I]; [repeat split; discriminate|]); destruct I|]); destruct H.
Definition ex_table : list (list ascii * list bool) := [(["x"], [true; false; true]); (["f"; "x"], [false; false; true])].
Example pgf_case : float_text bfmt bparse /\ exists q : pgf bool, adds empty ex_table = Some q /\ table q /\ Forall clean (pnames q).
Proof.
  split; [apply b_text|]. eexists. split; [reflexivity|]. split.
  - split; auto. exists [true; false; true], [[false; false; true]]. split; auto. intros c [<-|[]]. auto.
  - b_clean.
Qed.
(** the length of the second column is not checked: a shorter one cannot be written, of a longer one the surplus is lost *)
Theorem pgf_add_refuted : exists (l : list (list ascii * list bool)) q, adds empty l = Some q /\ (exists i j, i < length l /\ j < length l /\ length (nth i (pcols q) []) <> length (nth j (pcols q) [])) /\ pgf_write bfmt q = None.
Proof.
  exists [(["x"], [true; false]); (["y"], [true])]. eexists. split; [reflexivity|]. split; [exists 0, 1; simpl; repeat split; lia|reflexivity].
Qed.
Theorem pgf_surplus_refuted : exists (l : list (list ascii * list bool)) q s q', float_text bfmt bparse /\ adds empty l = Some q /\ Forall clean (pnames q) /\ pgf_write bfmt q = Some s /\ pgf_read bparse s = Some q' /\ pcols q' <> pcols q.
Proof.
  exists [(["x"], [true; false]); (["y"], [true; true; false])]. eexists _, _, _. split; [apply b_text|]. split; [reflexivity|]. split; [b_clean|]. split; [reflexivity|]. split; [reflexivity|]. discriminate.
Qed.
(** a name containing the separator is split when read back *)
Theorem pgf_name_refuted : exists (l : list (list ascii * list bool)) q s, adds empty l = Some q /\ table q /\ pgf_write bfmt q = Some s /\ pgf_read bparse s <> Some q.
Proof.
  exists [(["a"; tab; "b"], [true; false])]. eexists _, _. split; [reflexivity|]. split; [split; auto; exists [true; false], []; split; auto; intros c []|]. split; [reflexivity|]. vm_compute. discriminate.
Qed.
