(** C182: the report of unused parameters names exactly what was not used. *)
From Coq Require Import Ascii String List Bool Arith Lia.
From Verif Require Import Base.Res Params.ParamsModel.
Import ListNotations.

(** ** Specification *)
(** What a path of names leads to. *)
Inductive leads : entry -> list string -> entry -> Prop :=
| leads_here e : leads e [] e
| leads_in l n e p x : In (n, e) l -> leads e p x -> leads (Sub l) (n :: p) x.
(** A used parameter is in it. *)
Inductive has_used : entry -> Prop :=
| hu_value v : has_used (Val true v)
| hu_in l n e : In (n, e) l -> has_used e -> has_used (Sub l).
(** Led to through lists in which something is used. *)
Inductive reaches : entry -> list string -> entry -> Prop :=
| reaches_here e : reaches e [] e
| reaches_in l n e p x : has_used (Sub l) -> In (n, e) l -> reaches e p x -> reaches (Sub l) (n :: p) x.

(** ** Proofs *)
Section Ind.
Variable P : entry -> Prop.
Hypothesis HV : forall u v, P (Val u v).
Hypothesis HS : forall l, (forall n e, In (n, e) l -> P e) -> P (Sub l).
Fixpoint entry_all (e : entry) : P e :=
  match e with
  | Val u v => HV u v
  | Sub l => HS l ((fix go (l : plist) : forall n e, In (n, e) l -> P e :=
      match l with
      | [] => fun n e I => match I with end
      | (m, x) :: l' => fun n e I => match I with
                                     | or_introl E => eq_ind (m, x) (fun q => P (snd q)) (entry_all x) (n, e) E
                                     | or_intror I' => go l' n e I'
                                     end
      end) l)
  end.
End Ind.
Definition line_of (path : list string) (n : string) (e : entry) (b : bool) (x : line) : Prop :=
  match e with Val true _ => False | Val false v => x = LParam (path ++ [n]) v | Sub _ => b = true /\ x = LBlock (path ++ [n]) end.
Definition still (e : entry) (b : bool) : Prop := match e with Val u _ => u = false | Sub _ => b = true end.
Lemma walk_spec f path l : forall all os nu, let '(a, o, m) := walk f path l all os nu in
  (a = true <-> all = true /\ forall n e, In (n, e) l -> still e (fst (f e (path ++ [n])))) /\
  (forall x, In x o <-> In x os \/ exists n l', In (n, Sub l') l /\ In x (snd (f (Sub l') (path ++ [n])))) /\
  (forall x, In x m <-> In x nu \/ exists n e, In (n, e) l /\ line_of path n e (fst (f e (path ++ [n]))) x).
Proof.
  induction l as [|(n, e) l IH]; intros all os nu; cbn [walk].
  { split; [split; [intros H; split; [exact H|intros n e []]|intros (H & _); exact H]|]. split; intros x; (split; [intros I; left; exact I|intros [I|(n & e & [] & _)]; exact I]). }
  destruct e as [[|] v|sl].
  - specialize (IH false os nu). destruct (walk f path l false os nu) as ((a, o), m). destruct IH as (H1 & H2 & H3). split; [|split].
    + rewrite H1. split; [intros (E & _); discriminate|]. intros (_ & H). discriminate (H n (Val true v) (or_introl eq_refl)).
    + intros x. rewrite H2. split; intros [I|(k & q & I & J)]; try (left; exact I); right; exists k, q; (split; [|exact J]); [right; exact I|]. destruct I as [E|I]; [discriminate|exact I].
    + intros x. rewrite H3. split; intros [I|(k & q & I & J)]; try (left; exact I); [right; exists k, q; split; [right; exact I|exact J]|]. destruct I as [E|I]; [injection E as <- <-; destruct J|right; exists k, q; split; assumption].
  - specialize (IH all os (nu ++ [LParam (path ++ [n]) v])). destruct (walk f path l all os (nu ++ [LParam (path ++ [n]) v])) as ((a, o), m). destruct IH as (H1 & H2 & H3). split; [|split].
    + rewrite H1. split; intros (E & H); (split; [exact E|]); intros k q I; [|apply H; right; exact I]. destruct I as [E'|I]; [injection E' as <- <-; reflexivity|apply H; exact I].
    + intros x. rewrite H2. split; intros [I|(k & q & I & J)]; try (left; exact I); right; exists k, q; (split; [|exact J]); [right; exact I|]. destruct I as [E|I]; [discriminate|exact I].
    + intros x. rewrite H3, in_app_iff. split.
      * intros [[I|[<-|[]]]|(k & q & I & J)]; [left; exact I|right; exists n, (Val false v); split; [left; reflexivity|reflexivity]|right; exists k, q; split; [right; exact I|exact J]].
      * intros [I|(k & q & [E|I] & J)]; [left; left; exact I|injection E as <- <-; left; right; left; symmetry; exact J|right; exists k, q; split; assumption].
  - destruct (f (Sub sl) (path ++ [n])) as (su, o') eqn:Ef. destruct su.
    + specialize (IH all (os ++ o') (nu ++ [LBlock (path ++ [n])])). destruct (walk f path l all (os ++ o') (nu ++ [LBlock (path ++ [n])])) as ((a, o), m). destruct IH as (H1 & H2 & H3). split; [|split].
      * rewrite H1. split; intros (E & H); (split; [exact E|]); intros k q I; [|apply H; right; exact I]. destruct I as [E'|I]; [injection E' as <- <-; rewrite Ef; reflexivity|apply H; exact I].
      * intros x. rewrite H2, in_app_iff. split.
        -- intros [[I|I]|(k & q & I & J)]; [left; exact I|right; exists n, sl; split; [left; reflexivity|rewrite Ef; exact I]|right; exists k, q; split; [right; exact I|exact J]].
        -- intros [I|(k & q & [E|I] & J)]; [left; left; exact I|injection E as <- <-; rewrite Ef in J; left; right; exact J|right; exists k, q; split; assumption].
      * intros x. rewrite H3, in_app_iff. split.
        -- intros [[I|[<-|[]]]|(k & q & I & J)]; [left; exact I|right; exists n, (Sub sl); split; [left; reflexivity|rewrite Ef; split; reflexivity]|right; exists k, q; split; [right; exact I|exact J]].
        -- intros [I|(k & q & [E|I] & J)]; [left; left; exact I|injection E as <- <-; destruct J as [_ ->]; left; right; left; reflexivity|right; exists k, q; split; assumption].
    + specialize (IH false (os ++ o') nu). destruct (walk f path l false (os ++ o') nu) as ((a, o), m). destruct IH as (H1 & H2 & H3). split; [|split].
      * rewrite H1. split; [intros (E & _); discriminate|]. intros (_ & H). pose proof (H n (Sub sl) (or_introl eq_refl)) as C. rewrite Ef in C. discriminate C.
      * intros x. rewrite H2, in_app_iff. split.
        -- intros [[I|I]|(k & q & I & J)]; [left; exact I|right; exists n, sl; split; [left; reflexivity|rewrite Ef; exact I]|right; exists k, q; split; [right; exact I|exact J]].
        -- intros [I|(k & q & [E|I] & J)]; [left; left; exact I|injection E as <- <-; rewrite Ef in J; left; right; exact J|right; exists k, q; split; assumption].
      * intros x. rewrite H3. split; intros [I|(k & q & I & J)]; try (left; exact I); [right; exists k, q; split; [right; exact I|exact J]|]. destruct I as [E|I]; [injection E as <- <-; rewrite Ef in J; destruct J as [C _]; discriminate C|right; exists k, q; split; assumption].
Qed.
Lemma used_dec e : has_used e \/ ~ has_used e.
Proof.
  induction e as [[|] v|k IHk] using entry_all; [left; constructor|right; intros U; inversion U|]. induction k as [|(n, e) k IH]; [right; intros U; inversion U; subst; contradiction|].
  destruct (IHk n e (or_introl eq_refl)) as [U|U]; [left; apply (hu_in _ n e); [left; reflexivity|exact U]|]. destruct IH as [U'|U']; [intros n' e' I; apply (IHk n'); right; exact I| |].
  - left. inversion U' as [|? n' e' I U1]; subst. apply (hu_in _ n' e'); [right; exact I|exact U1].
  - right. intros V. inversion V as [|? n' e' I U1]; subst. destruct I as [E|I]; [injection E as <- <-; exact (U U1)|]. apply U'. apply (hu_in _ n' e'); assumption.
Qed.
(** What the line says of what it names. *)
Definition tells (x : line) (path : list string) (e : entry) : Prop :=
  match x with
  | LParam q v => exists p, p <> [] /\ q = path ++ p /\ reaches e p (Val false v)
  | LBlock q => exists p l, p <> [] /\ q = path ++ p /\ reaches e p (Sub l) /\ ~ has_used (Sub l)
  end.
Lemma tells_in l n e path x : has_used (Sub l) -> In (n, e) l -> tells x (path ++ [n]) e -> tells x path (Sub l).
Proof.
  intros U I. destruct x as [q v|q]; cbn [tells].
  - intros (p & N & -> & H). exists (n :: p). split; [discriminate|]. split; [rewrite <- app_assoc; reflexivity|]. apply (reaches_in l n e); assumption.
  - intros (p & sl & N & -> & H & Hn). exists (n :: p), sl. split; [discriminate|]. split; [rewrite <- app_assoc; reflexivity|]. split; [apply (reaches_in l n e); assumption|exact Hn].
Qed.
Lemma unused_spec e : forall path, match e with Val _ _ => True | Sub _ => (fst (unused e path) = true <-> ~ has_used e) /\ forall x, In x (snd (unused e path)) <-> tells x path e end.
Proof.
  induction e as [u v|l IH] using entry_all; intros path; [exact I|]. cbn [unused]. pose proof (walk_spec unused path l true [] []) as W.
  destruct (walk unused path l true [] []) as ((a, o), m). destruct W as (H1 & H2 & H3). cbn [fst snd].
  assert (Ha : a = true <-> ~ has_used (Sub l)).
  { rewrite H1. split.
    - intros (_ & H) U. inversion U as [|? n e I0 U0]; subst. specialize (H n e I0). specialize (IH n e I0 (path ++ [n])). destruct e as [u v|sl]; [inversion U0; subst; discriminate|]. apply (proj1 (proj1 IH) H). exact U0.
    - intros N. split; [reflexivity|]. intros n e I0. specialize (IH n e I0 (path ++ [n])). destruct e as [[|] v|sl]; cbn [still]; [exfalso; apply N; apply (hu_in l n (Val true v)); [exact I0|constructor]|reflexivity|].
      apply (proj1 IH). intros U. apply N. apply (hu_in l n (Sub sl)); assumption. }
  split; [exact Ha|]. intros x. destruct a.
  - pose proof (proj1 Ha eq_refl) as N. split.
    + intros I0. apply H2 in I0. destruct I0 as [[]|(n & sl & I0 & J)]. specialize (IH n _ I0 (path ++ [n])). cbn beta iota in IH. apply (proj2 IH) in J. exfalso. apply N. destruct x as [q v|q].
      * destruct J as (p & Np & _ & R). apply (hu_in l n (Sub sl)); [exact I0|]. inversion R; subst; try contradiction; assumption.
      * destruct J as (p & s & Np & _ & R & _). apply (hu_in l n (Sub sl)); [exact I0|]. inversion R; subst; try contradiction; assumption.
    + intros T. exfalso. apply N. destruct x as [q v|q].
      * destruct T as (p & Np & _ & R). inversion R; subst; try contradiction; assumption.
      * destruct T as (p & s & Np & _ & R & _). inversion R; subst; try contradiction; assumption.
  - assert (D : has_used (Sub l)).
    { destruct (used_dec (Sub l)) as [U|U]; [exact U|]. apply Ha in U. discriminate. }
    rewrite in_app_iff, H2, H3. split.
    + intros [[[]|(n & sl & I0 & J)]|[[]|(n & e & I0 & J)]].
      * specialize (IH n _ I0 (path ++ [n])). cbn beta iota in IH. apply (proj2 IH) in J. apply (tells_in l n (Sub sl)); assumption.
      * specialize (IH n _ I0 (path ++ [n])). destruct e as [[|] v|sl]; cbn [line_of] in J; [contradiction| |].
        -- subst x. exists [n]. split; [discriminate|]. split; [reflexivity|]. apply (reaches_in l n (Val false v)); [exact D|exact I0|constructor].
        -- destruct J as [J ->]. apply (proj1 IH) in J. exists [n], sl. split; [discriminate|]. split; [reflexivity|]. split; [|exact J]. apply (reaches_in l n (Sub sl)); [exact D|exact I0|constructor].
    + intros T. assert (S : exists n e p y, In (n, e) l /\ reaches e p y /\ ((exists v, x = LParam (path ++ n :: p) v /\ y = Val false v) \/ (exists s, x = LBlock (path ++ n :: p) /\ y = Sub s /\ ~ has_used (Sub s)))).
      { destruct x as [q v|q].
        - destruct T as (p & Np & -> & R). inversion R as [|? n e p' ? _ I0 R']; subst. exists n, e, p', (Val false v). split; [exact I0|]. split; [exact R'|]. left. exists v. split; reflexivity.
        - destruct T as (p & s & Np & -> & R & Nu). inversion R as [|? n e p' ? _ I0 R']; subst; [contradiction|]. exists n, e, p', (Sub s). split; [exact I0|]. split; [exact R'|]. right. exists s. repeat split; assumption. }
      destruct S as (n & e & p & y & I0 & R & C). specialize (IH n e I0 (path ++ [n])). destruct p as [|k p].
      * right. right. exists n, e. split; [exact I0|]. inversion R; subst. destruct C as [(v & -> & ->)|(s & -> & -> & Nu)]; cbn [line_of]; [reflexivity|]. split; [apply (proj1 IH); exact Nu|reflexivity].
      * left. right. inversion R as [|sl k' e' p' y' U I1 R']; subst. exists n, sl. split; [exact I0|]. apply (proj2 IH). destruct C as [(v & -> & ->)|(s & -> & -> & Nu)]; cbn [tells].
        -- exists (k :: p). split; [discriminate|]. split; [rewrite <- app_assoc; reflexivity|exact R].
        -- exists (k :: p), s. split; [discriminate|]. split; [rewrite <- app_assoc; reflexivity|]. split; [exact R|exact Nu].
Qed.
Lemma leads_of_reaches e p x : reaches e p x -> leads e p x.
Proof. intros H. induction H; [constructor|econstructor; eassumption]. Qed.
Lemma reported e p v : leads e p (Val false v) -> has_used e -> reaches e p (Val false v) \/ exists q r s, p = q ++ r /\ q <> [] /\ reaches e q (Sub s) /\ ~ has_used (Sub s).
Proof.
  intros H. remember (Val false v) as x eqn:Ex. induction H as [e|l n e p x I H IH]; intros U; [subst; inversion U|]. destruct (used_dec e) as [Ue|Ue].
  - destruct (IH Ex Ue) as [R|(q & r & s & -> & Nq & R & Ns)]; [left; apply (reaches_in l n e); assumption|]. right. exists (n :: q), r, s. split; [reflexivity|]. split; [discriminate|]. split; [apply (reaches_in l n e); assumption|exact Ns].
  - destruct e as [u w|s].
    + left. inversion H; subst. apply (reaches_in l n (Val u w)); [exact U|exact I|]. match goal with E : Val u w = _ |- _ => rewrite E end. constructor.
    + right. exists [n], p, s. split; [reflexivity|]. split; [discriminate|]. split; [|exact Ue]. apply (reaches_in l n (Sub s)); [exact U|exact I|constructor].
Qed.
Lemma in_set n e l q : In q (set_entry n e l) -> q = (n, e) \/ In q l.
Proof.
  induction l as [|(m, x) l IH]; cbn [set_entry]; [intros [<-|[]]; left; reflexivity|]. destruct (String.eqb_spec n m) as [->|N]; intros [<-|I]; [left; reflexivity|right; right; exact I|right; left; reflexivity|].
  destruct (IH I) as [->|J]; [left; reflexivity|right; right; exact J].
Qed.
Lemma set_in n e l : In (n, e) (set_entry n e l).
Proof. induction l as [|(m, x) l IH]; cbn [set_entry]; [left; reflexivity|]. destruct (String.eqb_spec n m) as [->|N]; [left; reflexivity|right; exact IH]. Qed.
Lemma set_keeps n e l m x : m <> n -> In (m, x) l -> In (m, x) (set_entry n e l).
Proof.
  intros N. induction l as [|(k, y) l IH]; intros I; [contradiction|]. cbn [set_entry]. destruct (String.eqb_spec n k) as [->|Nk]; destruct I as [E|I]; [injection E as -> ->; contradiction|right; exact I|left; exact E|right; apply IH; exact I].
Qed.
Lemma find_in n l e : find_entry n l = Some e -> In (n, e) l.
Proof. induction l as [|(m, x) l IH]; cbn [find_entry]; [discriminate|]. destruct (String.eqb_spec n m) as [->|N]; [intros E; injection E as ->; left; reflexivity|intros E; right; apply IH; exact E]. Qed.
(** Names of a list are distinct. *)
Definition distinct (l : plist) : Prop := NoDup (map fst l).
Lemma in_find n l e : distinct l -> In (n, e) l -> find_entry n l = Some e.
Proof.
  unfold distinct. induction l as [|(m, x) l IH]; intros D I; [contradiction|]. cbn [map fst] in D. inversion D as [|? ? Nm D']; subst. cbn [find_entry]. destruct (String.eqb_spec n m) as [->|N]; destruct I as [E|I].
  - injection E as ->. reflexivity.
  - exfalso. apply Nm. apply (in_map fst) in I. exact I.
  - injection E as -> ->. contradiction.
  - apply IH; assumption.
Qed.
Lemma echo_ok l sec rep : echo l sec = Ok rep -> exists r, sublist "Runtime" l = Ok r /\
  rep = snd (unused (Sub (set_entry "Runtime" (Sub (set_entry "Execution Time in Sec" (Val true sec) r)) l)) []).
Proof. unfold echo, add_timings. destruct (sublist "Runtime" l) as [r| |]; cbn [rbind]; intros E; try discriminate. injection E as <-. exists r. split; reflexivity. Qed.
Lemma sublist_in n l r q : sublist n l = Ok r -> In q r -> In (n, Sub r) l.
Proof. unfold sublist. destruct (find_entry n l) as [[u v|s]|] eqn:E; intros H I; try discriminate; injection H as <-; [apply find_in; exact E|contradiction]. Qed.
Lemma timed_used l sec r : has_used (Sub (set_entry "Runtime" (Sub (set_entry "Execution Time in Sec" (Val true sec) r)) l)).
Proof. eapply hu_in; [apply set_in|]. eapply hu_in; [apply set_in|]. constructor. Qed.

(** ** C182 *)
(** What is listed: every unused parameter all whose blocks contain used ones, with its value, and every block without used parameters that is not inside such a block. *)
Theorem C182_report : forall l p, (forall v, In (LParam p v) (snd (unused (Sub l) [])) <-> reaches (Sub l) p (Val false v)) /\
  (In (LBlock p) (snd (unused (Sub l) [])) <-> p <> [] /\ exists s, reaches (Sub l) p (Sub s) /\ ~ has_used (Sub s)).
Proof.
  intros l p. destruct (unused_spec (Sub l) []) as [_ H]. split; [intros v|]; rewrite H; cbn [tells app].
  - split; [intros (q & _ & -> & R); exact R|]. intros R. exists p. split; [intros ->; inversion R|]. split; [reflexivity|exact R].
  - split; [intros (q & s & N & -> & R & U); split; [exact N|exists s; split; assumption]|]. intros (N & s & R & U). exists p, s. repeat split; assumption.
Qed.
Print Assumptions C182_report.
(** Every unused parameter is listed, by its name or by that of a block it is in. *)
Theorem C182_complete : forall l sec rep p v, distinct l -> echo l sec = Ok rep -> leads (Sub l) p (Val false v) -> (forall r, p <> ["Runtime"; "Execution Time in Sec"]%string ++ r) ->
  In (LParam p v) rep \/ exists q r, p = q ++ r /\ In (LBlock q) rep.
Proof.
  intros l sec rep p v D E L N. destruct (echo_ok l sec rep E) as (r & S & ->). set (l' := set_entry "Runtime" (Sub (set_entry "Execution Time in Sec" (Val true sec) r)) l).
  assert (L' : leads (Sub l') p (Val false v)).
  { inversion L as [|? n e p1 ? I L1]; subst. destruct (string_dec n "Runtime") as [->|Nn].
    - apply (leads_in l' _ (Sub (set_entry "Execution Time in Sec" (Val true sec) r))); [apply set_in|]. unfold sublist in S. rewrite (in_find _ _ _ D I) in S. destruct e as [u w|s]; [discriminate|]. injection S as ->.
      inversion L1 as [|? n2 e2 p2 ? I2 L2]; subst. destruct (string_dec n2 "Execution Time in Sec") as [->|Nn2]; [exfalso; apply (N p2); reflexivity|]. apply (leads_in _ n2 e2); [|exact L2]. apply set_keeps; assumption.
    - apply (leads_in l' n e); [apply set_keeps; assumption|exact L1]. }
  destruct (reported _ p v L' (timed_used l sec r)) as [R|(q & t & s & -> & Nq & R & Ns)].
  - left. apply (C182_report l' p). exact R.
  - right. exists q, t. split; [reflexivity|]. apply (C182_report l' q). split; [exact Nq|]. exists s. split; assumption.
Qed.
Print Assumptions C182_complete.
(** Nothing used is listed. *)
Theorem C182_sound : forall l sec rep p, echo l sec = Ok rep ->
  (forall v, In (LParam p v) rep -> leads (Sub l) p (Val false v)) /\ (In (LBlock p) rep -> exists s, leads (Sub l) p (Sub s) /\ ~ has_used (Sub s)).
Proof.
  intros l sec rep p E. destruct (echo_ok l sec rep E) as (r & S & ->). set (l' := set_entry "Runtime" (Sub (set_entry "Execution Time in Sec" (Val true sec) r)) l).
  assert (B : forall x, p <> [] -> ~ has_used x -> leads (Sub l') p x -> leads (Sub l) p x).
  { intros x N U L. inversion L as [|? n e p1 ? I L1]; subst; [contradiction|]. apply in_set in I. destruct I as [E1|I]; [|apply (leads_in l n e); assumption]. injection E1 as -> ->.
    inversion L1 as [|? n2 e2 p2 ? I2 L2]; subst; [exfalso; apply U; eapply hu_in; [apply set_in|constructor]|]. apply in_set in I2. destruct I2 as [E2|I2].
    - injection E2 as -> ->. inversion L2; subst. exfalso. apply U. constructor.
    - apply (leads_in l _ (Sub r)); [exact (sublist_in _ _ _ _ S I2)|]. apply (leads_in r n2 e2); assumption. }
  split.
  - intros v I. apply (C182_report l' p) in I. apply B; [intros ->; inversion I|intros U; inversion U|apply leads_of_reaches; exact I].
  - intros I. apply (C182_report l' p) in I. destruct I as (N & s & R & U). exists s. split; [|exact U]. apply B; [exact N|exact U|apply leads_of_reaches; exact R].
Qed.
Print Assumptions C182_sound.
(** The report fails only when Runtime is a parameter instead of a block. *)
Theorem C182_fails : forall l sec, distinct l -> (forall rep, echo l sec <> Ok rep) <-> exists u v, In ("Runtime"%string, Val u v) l.
Proof.
  intros l sec D. unfold echo, add_timings, sublist. split.
  - intros H. destruct (find_entry "Runtime" l) as [[u v|s]|] eqn:E; [exists u, v; apply find_in; exact E|exfalso; eapply H; reflexivity..].
  - intros (u & v & I) rep. rewrite (in_find _ _ _ D I). discriminate.
Qed.
Print Assumptions C182_fails.
Local Open Scope string_scope.
Definition sample : plist := [("Query", Val true "0"); ("Solver", Sub [("Tolerance", Val false "1e-8"); ("Type", Sub [])]); ("Physics", Sub [("Dim", Val true "3"); ("Plane", Val false "xy")]); ("Runtime", Sub [("Input Config", Val true "input.xml")])].
Example C182_case : distinct sample /\ leads (Sub sample) ["Solver"; "Tolerance"] (Val false "1e-8") /\ echo sample "12" = Ok [LParam ["Physics"; "Plane"] "xy"; LBlock ["Solver"]].
Proof.
  split; [repeat constructor; cbn; intuition discriminate|]. split; [|reflexivity]. apply (leads_in sample _ (Sub [("Tolerance", Val false "1e-8"); ("Type", Sub [])])); [right; left; reflexivity|].
  apply (leads_in _ _ (Val false "1e-8")); [left; reflexivity|constructor].
Qed.
