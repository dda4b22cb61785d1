(** C181: the equation a custom material uses. *)
From Coq Require Import ZArith Ascii String List Bool Lia Arith.
From Verif Require Import Base.Res Expr.ExprModel Expr.BingoModel.
Import ListNotations.

(** ** Specification *)
(** A file of lines that all end with a newline; the last one may go on without it. *)
Definition written (ls : list text) : text := concat (map (fun l => l ++ [newline]) ls).
Definition one_line (l : text) : Prop := ~ In newline l.
(** The line that announces the equations. *)
Definition mentions (w : string) (l : text) : Prop := exists a b, l = a ++ chars w ++ b.
Definition announces (l : text) : Prop := mentions "FITNESS" l /\ mentions "COMPLEXITY" l /\ mentions "EQUATION" l.
(** The last of the entries of a line that commas separate. *)
Definition last_entry (l e : text) : Prop := exists a, l = a ++ comma :: e /\ ~ In comma e.
(** Which equation is asked for: by the caller, else by the parameters, else the first. *)
Definition asked (m : custom) (index i : Z) : Prop := (0 <= index /\ i = index)%Z \/ (index < 0 /\ cm_index m = Some i)%Z \/ (index < 0 /\ cm_index m = None /\ i = 0)%Z.
(** The Bingo file of the material has these lines before, at and after its only announcement. *)
Definition bingo (m : custom) (t : text) : Prop := cm_equation m = None /\ cm_file m = Some (Some t).

(** ** The functions meet the specification *)
Lemma prefix_iff s t : prefix s t = true <-> exists b, t = s ++ b.
Proof.
  revert t. induction s as [|a s IH]; intros t; [split; [intros _; exists t; reflexivity|reflexivity]|]. destruct t as [|c t]; cbn.
  - split; [discriminate|intros (b & E); discriminate].
  - rewrite andb_true_iff, Ascii.eqb_eq, IH. split; [intros (-> & b & ->); exists b; reflexivity|intros (b & E); injection E as -> ->; split; [reflexivity|exists b; reflexivity]].
Qed.
Lemma contains_iff s t : contains s t = true <-> exists a b, t = a ++ s ++ b.
Proof.
  induction t as [|c t IH]; cbn [contains]; rewrite orb_true_iff, prefix_iff.
  - split; [intros [(b & E)|H]; [exists [], b; exact E|discriminate]|]. intros (a & b & E). left. exists b. destruct a; [exact E|discriminate].
  - rewrite IH. split.
    + intros [(b & E)|(a & b & ->)]; [exists [], b; exact E|exists (c :: a), b; reflexivity].
    + intros (a & b & E). destruct a as [|x a]; [left; exists b; exact E|right; injection E as -> ->; exists a, b; reflexivity].
Qed.
Lemma header_iff l : is_header l = true <-> announces l.
Proof. unfold is_header, announces, mentions. rewrite !andb_true_iff, !contains_iff. tauto. Qed.
Lemma no_comma l : after_last_comma l = None <-> ~ In comma l.
Proof.
  induction l as [|c l IH]; cbn [after_last_comma]; [split; [intros _ []|reflexivity]|]. destruct (after_last_comma l) as [e|] eqn:E.
  - split; [discriminate|]. intros N. assert (H : ~ In comma l) by (intros I; apply N; right; exact I). apply IH in H. discriminate.
  - destruct (Ascii.eqb_spec c comma) as [->|Nc]; [split; [discriminate|intros N; exfalso; apply N; left; reflexivity]|]. split; [|reflexivity]. intros _ [I|I]; [exact (Nc I)|apply (proj1 IH eq_refl I)].
Qed.
Lemma last_entry_iff l e : after_last_comma l = Some e <-> last_entry l e.
Proof.
  revert e. induction l as [|c l IH]; intros e; cbn [after_last_comma]; [split; [discriminate|intros (a & E & _); destruct a; discriminate]|].
  destruct (after_last_comma l) as [e'|] eqn:E.
  - split.
    + intros H. injection H as <-. destruct (proj1 (IH e') eq_refl) as (a & -> & N). exists (c :: a). split; [reflexivity|exact N].
    + intros (a & El & N). destruct a as [|x a].
      * assert (l = e) by (cbn [app] in El; congruence). subst l. exfalso. apply (proj2 (no_comma e)) in N. congruence.
      * assert (l = a ++ comma :: e) by (cbn [app] in El; congruence). apply IH. exists a. split; assumption.
  - destruct (Ascii.eqb_spec c comma) as [->|Nc].
    + pose proof (proj1 (no_comma l) E) as N. split.
      * intros H. injection H as <-. exists []. split; [reflexivity|exact N].
      * intros (a & El & Ne). destruct a as [|x a]; [assert (l = e) by (cbn [app] in El; congruence); subst l; reflexivity|]. assert (l = a ++ comma :: e) by (cbn [app] in El; congruence). subst l. exfalso. apply N. apply in_or_app. right. left. reflexivity.
    + split; [discriminate|]. intros (a & El & Ne). destruct a as [|x a]; [cbn [app] in El; congruence|]. assert (l = a ++ comma :: e) by (cbn [app] in El; congruence). subst l. exfalso. apply (proj1 (no_comma _) E). apply in_or_app. right. left. reflexivity.
Qed.
Lemma read_line cur l t : one_line l -> read_lines cur (l ++ newline :: t) = (let (ls, o) := read_lines [] t in ((cur ++ l) :: ls, o)).
Proof.
  revert cur. induction l as [|c l IH]; intros cur N.
  - cbn [app read_lines]. rewrite Ascii.eqb_refl, app_nil_r. reflexivity.
  - cbn [app read_lines]. destruct (Ascii.eqb_spec c newline) as [->|Nc]; [exfalso; apply N; left; reflexivity|]. rewrite IH by (intros I; apply N; right; exact I). rewrite <- app_assoc. reflexivity.
Qed.
Lemma read_rest cur l : one_line l -> read_lines cur l = (if is_empty (cur ++ l) then ([], false) else ([cur ++ l], true)).
Proof.
  revert cur. induction l as [|c l IH]; intros cur N; [cbn; rewrite app_nil_r; reflexivity|]. cbn [read_lines]. destruct (Ascii.eqb_spec c newline) as [->|Nc]; [exfalso; apply N; left; reflexivity|].
  rewrite IH by (intros I; apply N; right; exact I). rewrite <- app_assoc. reflexivity.
Qed.
Lemma read_written ls last : Forall one_line ls -> one_line last -> read_lines [] (written ls ++ last) = (ls ++ (if is_empty last then [] else [last]), negb (is_empty last)).
Proof.
  intros F Hl. induction F as [|l ls N F IH].
  - cbn [written map concat app]. rewrite read_rest by exact Hl. cbn [app]. destruct (is_empty last); reflexivity.
  - unfold written in *. cbn [map concat]. rewrite <- !app_assoc. cbn [app]. rewrite read_line by exact N. rewrite IH. reflexivity.
Qed.
(** The loops *)
Lemma pick_found eqs rest opn i line l : nth_error eqs i = Some l -> pick (eqs ++ rest) opn (Z.of_nat i) line = (l, 0%Z, skipn (S i) eqs ++ rest).
Proof.
  revert eqs line. induction i as [|i IH]; intros eqs line H; (destruct eqs as [|x eqs]; [discriminate|]).
  - injection H as ->. reflexivity.
  - change (pick ((x :: eqs) ++ rest) opn (Z.of_nat (S i)) line) with (if Z.gtb (Z.of_nat (S i)) 0 then pick (eqs ++ rest) opn (Z.of_nat (S i) - 1) x else (x, Z.of_nat (S i), eqs ++ rest)).
    replace (Z.gtb (Z.of_nat (S i)) 0) with true by (symmetry; apply Z.gtb_lt; lia). replace (Z.of_nat (S i) - 1)%Z with (Z.of_nat i) by lia. rewrite IH by exact H. reflexivity.
Qed.
Lemma pick_missing eqs idx line : (Z.of_nat (List.length eqs) <= idx)%Z -> exists idx', pick eqs false idx line = ([], idx', []).
Proof.
  revert idx line. induction eqs as [|x eqs IH]; intros idx line H; [exists idx; reflexivity|]. cbn [pick]. cbn [List.length] in H. replace (Z.gtb idx 0) with true by (symmetry; apply Z.gtb_lt; lia). apply IH. lia.
Qed.
Lemma pick_negative eqs opn idx : (idx < 0)%Z -> exists l rest, pick eqs opn idx [] = (l, idx, rest).
Proof. intros H. destruct eqs as [|x eqs]; cbn [pick]; [exists (if opn then [] else []), []; reflexivity|]. replace (Z.gtb idx 0) with false by (symmetry; rewrite Z.gtb_ltb; apply Z.ltb_ge; lia). exists x, eqs. reflexivity. Qed.
Lemma scan_quiet pre : Forall (fun l => ~ announces l) pre -> forall fuel rest opn idx eq, scan (List.length pre + fuel) (pre ++ rest) opn idx eq = scan fuel rest opn idx eq.
Proof.
  intros F. induction F as [|l pre N F IH]; intros fuel rest opn idx eq; [reflexivity|]. cbn [List.length Nat.add app scan]. destruct (is_empty l); [apply IH|].
  destruct (is_header l) eqn:E; [exfalso; apply N; apply header_iff; exact E|apply IH].
Qed.
Lemma announced_not_empty l : announces l -> is_empty l = false /\ is_header l = true.
Proof. intros H. split; [|apply header_iff; exact H]. destruct l; [|reflexivity]. destruct H as ((a & b & E) & _). destruct a; discriminate. Qed.
Lemma scan_header fuel head rest opn idx eq : announces head -> scan (S fuel) (head :: rest) opn idx eq =
  (let '(line, idx', rest'') := pick rest opn idx [] in if is_empty line || negb (Z.eqb idx' 0) then Throw else match after_last_comma line with Some e => scan fuel rest'' opn idx' e | None => Throw end).
Proof. intros H. destruct (announced_not_empty head H) as [E1 E2]. cbn [scan]. rewrite E1, E2. reflexivity. Qed.
Lemma asked_index m index i : asked m index i -> (if Z.ltb index 0 then match cm_index m with Some i => i | None => 0%Z end else index) = i.
Proof.
  intros [(H & ->)|[(H & ->)|(H & -> & ->)]]; [replace (Z.ltb index 0) with false by (symmetry; apply Z.ltb_ge; lia)|replace (Z.ltb index 0) with true by (symmetry; apply Z.ltb_lt; lia)..]; reflexivity.
Qed.
Lemma skipn_quiet {A} (P : A -> Prop) k (l : list A) : Forall P l -> Forall P (skipn k l).
Proof. revert l. induction k as [|k IH]; intros l F; [exact F|]. destruct F; [constructor|]. apply IH. assumption. Qed.

(** ** C181 *)
(** An equation in the parameters is used, whatever else they say. *)
Theorem C181_direct : forall m index e, cm_equation m = Some e -> e <> [] -> custom_equation m index = Ok e.
Proof. intros m index e E N. unfold custom_equation. rewrite E. cbn [rbind]. destruct e; [contradiction|reflexivity]. Qed.
Print Assumptions C181_direct.
(** In a file with one announcement, every asked line below it that has entries gives the last of them, whether the file ends with a newline or not. *)
Theorem C181_found_partial : forall m index i pre head eqs last l e, Forall one_line pre -> one_line head -> Forall one_line eqs -> one_line last ->
  bingo m (written (pre ++ head :: eqs) ++ last) -> asked m index (Z.of_nat i) ->
  Forall (fun l => ~ announces l) pre -> announces head -> Forall (fun l => ~ announces l) (eqs ++ [last]) ->
  nth_error (eqs ++ (if is_empty last then [] else [last])) i = Some l -> last_entry l e -> e <> [] -> custom_equation m index = Ok e.
Proof.
  intros m index i pre head eqs last l e F1 Hh F2 Hl (B1 & B2) HA Q1 A Q2 Hn He Ne. unfold custom_equation. rewrite B1, B2. rewrite (asked_index m index _ HA).
  rewrite read_written; [|apply Forall_app; split; [exact F1|constructor; assumption]|exact Hl]. set (o := negb (is_empty last)). set (tl := if is_empty last then [] else [last]) in *.
  rewrite <- app_assoc. cbn [app]. rewrite app_length. cbn [List.length]. replace (S (List.length pre + S (List.length (eqs ++ tl)))) with (List.length pre + S (S (List.length (eqs ++ tl)))) by lia.
  rewrite scan_quiet by exact Q1. rewrite scan_header by exact A. pose proof (pick_found _ [] o i [] l Hn) as PF. rewrite !app_nil_r in PF. rewrite PF. cbn [Z.eqb negb]. rewrite orb_false_r.
  assert (El : is_empty l = false) by (destruct l; [destruct He as (a & E & _); destruct a; discriminate|reflexivity]). rewrite El. rewrite (proj2 (last_entry_iff l e) He).
  assert (Q3 : Forall (fun l => ~ announces l) (skipn (S i) (eqs ++ tl))).
  { apply skipn_quiet. apply Forall_app in Q2. destruct Q2 as [Q2 Q3]. apply Forall_app. split; [exact Q2|]. unfold tl. destruct (is_empty last); [constructor|exact Q3]. }
  assert (Hlen : (List.length (skipn (S i) (eqs ++ tl)) <= List.length (eqs ++ tl))%nat) by (rewrite skipn_length; lia).
  set (sk := skipn (S i) (eqs ++ tl)) in *. replace (S (List.length (eqs ++ tl))) with (List.length sk + S (List.length (eqs ++ tl) - List.length sk)) by lia.
  pose proof (scan_quiet sk Q3 (S (List.length (eqs ++ tl) - List.length sk)) [] o 0%Z e) as SQ. rewrite app_nil_r in SQ. rewrite SQ. cbn [scan rbind]. destruct e; [contradiction|reflexivity].
Qed.
Print Assumptions C181_found_partial.
(** In a file whose lines all end with a newline, asking for a line that is not there, is empty or has no entries is an error. *)
Theorem C181_missing_partial : forall m index i pre head eqs, Forall one_line pre -> one_line head -> Forall one_line eqs -> bingo m (written (pre ++ head :: eqs)) -> asked m index i ->
  Forall (fun l => ~ announces l) pre -> announces head ->
  (i < 0 \/ Z.of_nat (List.length eqs) <= i)%Z \/ (exists l, nth_error eqs (Z.to_nat i) = Some l /\ ~ In comma l) -> custom_equation m index = Throw.
Proof.
  intros m index i pre head eqs F1 Hh F2 (B1 & B2) HA Q1 A H. unfold custom_equation. rewrite B1, B2. rewrite (asked_index m index _ HA).
  rewrite <- (app_nil_r (written _)). rewrite read_written; [|apply Forall_app; split; [exact F1|constructor; assumption]|intros []]. cbn [is_empty negb]. rewrite app_nil_r.
  rewrite app_length. cbn [List.length]. replace (S (List.length pre + S (List.length eqs))) with (List.length pre + S (S (List.length eqs))) by lia.
  rewrite scan_quiet by exact Q1. rewrite scan_header by exact A.
  destruct (Z.ltb_spec i 0) as [Hi|Hi].
  { destruct (pick_negative eqs false i Hi) as (l & rest & ->). replace (Z.eqb i 0) with false by (symmetry; apply Z.eqb_neq; lia). rewrite orb_true_r. reflexivity. }
  destruct (Z.leb_spec (Z.of_nat (List.length eqs)) i) as [Hj|Hj].
  { destruct (pick_missing eqs i [] Hj) as (idx' & ->). reflexivity. }
  destruct H as [H|(l & Hn & N)]; [lia|]. replace i with (Z.of_nat (Z.to_nat i)) by lia. pose proof (pick_found eqs [] false _ [] l Hn) as PF. rewrite !app_nil_r in PF. rewrite PF. rewrite (proj2 (no_comma l) N).
  cbn [Z.eqb negb]. destruct (is_empty l || false); reflexivity.
Qed.
Print Assumptions C181_missing_partial.
(** A file that cannot be opened, that announces nothing, or no file at all is an error. *)
Theorem C181_no_file : forall m index, cm_equation m = None ->
  cm_file m = None \/ cm_file m = Some None \/ (exists ls last, Forall one_line ls /\ one_line last /\ Forall (fun l => ~ announces l) (ls ++ [last]) /\ cm_file m = Some (Some (written ls ++ last))) ->
  custom_equation m index = Throw.
Proof.
  intros m index E [H|[H|(ls & last & F & Hl & Q & H)]]; unfold custom_equation; rewrite E, H; [reflexivity|reflexivity|]. rewrite read_written by assumption.
  apply Forall_app in Q. destruct Q as [Q Ql]. set (L := ls ++ (if is_empty last then [] else [last])).
  assert (QL : Forall (fun l => ~ announces l) L) by (apply Forall_app; split; [exact Q|destruct (is_empty last); [constructor|exact Ql]]).
  replace (S (List.length L)) with (List.length L + 1) by lia. pose proof (scan_quiet L QL 1) as SQ. match goal with |- context [scan _ L ?o ?i ?q] => specialize (SQ [] o i q) end. rewrite app_nil_r in SQ. rewrite SQ. reflexivity.
Qed.
Print Assumptions C181_no_file.

(** ** The hypotheses met, and where the claim fails *)
Definition head_line : text := chars "FITNESS    COMPLEXITY    EQUATION".
Definition two_lines : list text := [chars "0, 0, E/((1.0+v)(1.0-2.0*v))"; chars "0.6253582149736167, 3, (X_1)(X_0)"].
Definition from_file (t : text) (i : option Z) : custom := mkCustom None (Some (Some t)) i.
Ltac line_ok := let H := fresh in intros H; cbn in H; repeat (destruct H as [H|H]; [discriminate|]); exact H.
Ltac quiet := let H := fresh in intros H; apply header_iff in H; vm_compute in H; discriminate.
Example C181_case : Forall one_line [chars "Pareto front"] /\ one_line head_line /\ Forall one_line two_lines /\ Forall (fun l => ~ announces l) [chars "Pareto front"] /\ announces head_line /\
  Forall (fun l => ~ announces l) (two_lines ++ [[]]) /\ last_entry (chars "0.6253582149736167, 3, (X_1)(X_0)") (chars " (X_1)(X_0)") /\
  custom_equation (from_file (written (chars "Pareto front" :: head_line :: two_lines)) (Some 1%Z)) (-1) = Ok (chars " (X_1)(X_0)") /\
  custom_equation (from_file (written (chars "Pareto front" :: head_line :: two_lines)) (Some 2%Z)) (-1) = Throw.
Proof.
  split; [constructor; [line_ok|constructor]|]. split; [line_ok|]. split; [repeat (constructor; [line_ok|]); constructor|]. split; [constructor; [quiet|constructor]|].
  split; [apply header_iff; reflexivity|]. split; [repeat (constructor; [quiet|]); constructor|]. split; [apply last_entry_iff; reflexivity|]. split; reflexivity.
Qed.
(** Asked for the line after the last of a file that does not end with a newline, the code returns the last one's equation instead of an error. *)
Theorem C181_refuted : ~ (forall m index i pre head eqs last, Forall one_line pre -> one_line head -> Forall one_line eqs -> one_line last -> bingo m (written (pre ++ head :: eqs) ++ last) -> asked m index i ->
  Forall (fun l => ~ announces l) pre -> announces head -> Forall (fun l => ~ announces l) (eqs ++ [last]) -> (Z.of_nat (List.length (eqs ++ (if is_empty last then [] else [last]))) <= i)%Z ->
  custom_equation m index = Throw).
Proof.
  intros H. specialize (H (from_file (written [head_line] ++ chars "1.0, 1, X_0") None) 1%Z 1%Z [] head_line [] (chars "1.0, 1, X_0")).
  assert (E : custom_equation (from_file (written [head_line] ++ chars "1.0, 1, X_0") None) 1 = Ok (chars " X_0")) by reflexivity. rewrite E in H. 
  assert (F : Ok (chars " X_0") = Throw); [|discriminate F]. apply H.
  - constructor.
  - line_ok.
  - constructor.
  - line_ok.
  - split; reflexivity.
  - left. split; [lia|reflexivity].
  - constructor.
  - apply header_iff. reflexivity.
  - constructor; [quiet|constructor].
  - cbn. lia.
Qed.
Print Assumptions C181_refuted.
(** A second announcement further down replaces the equation asked for by the first one below it. *)
Theorem C181_second_refuted : ~ (forall m index i pre head eqs l e, Forall one_line pre -> one_line head -> Forall one_line eqs -> bingo m (written (pre ++ head :: eqs)) -> asked m index (Z.of_nat i) ->
  Forall (fun l => ~ announces l) pre -> announces head -> nth_error eqs i = Some l -> last_entry l e -> e <> [] -> custom_equation m index = Ok e).
Proof.
  intros H. specialize (H (from_file (written ([] ++ head_line :: two_lines ++ [head_line; chars "1.0, 1, X_0"])) None) 1%Z 1%nat [] head_line (two_lines ++ [head_line; chars "1.0, 1, X_0"])
    (chars "0.6253582149736167, 3, (X_1)(X_0)") (chars " (X_1)(X_0)")).
  assert (E : custom_equation (from_file (written ([] ++ head_line :: two_lines ++ [head_line; chars "1.0, 1, X_0"])) None) 1 = Ok (chars " X_0")) by reflexivity. rewrite E in H.
  assert (F : Ok (chars " X_0") = Ok (chars " (X_1)(X_0)")); [|discriminate F]. apply H.
  - constructor.
  - line_ok.
  - repeat (constructor; [line_ok|]); constructor.
  - split; reflexivity.
  - left. split; [lia|reflexivity].
  - constructor.
  - apply header_iff. reflexivity.
  - reflexivity.
  - apply last_entry_iff. reflexivity.
  - discriminate.
Qed.
Print Assumptions C181_second_refuted.
