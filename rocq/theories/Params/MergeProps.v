(** C183: merging parameter lists. *)
From Coq Require Import Ascii String List Bool Arith Lia.
From Verif Require Import Base.Res Params.ParamsModel Params.ParamsProps.
Import ListNotations.

(** ** Specification *)
(** What reading the parameters of a list by names gives. *)
Inductive reads : plist -> list string -> entry -> Prop :=
| reads_one l n e : find_entry n l = Some e -> reads l [n] e
| reads_in l n s p e : find_entry n l = Some (Sub s) -> reads s p e -> reads l (n :: p) e.
(** Names are distinct in every list of the tree. *)
Inductive well_named : entry -> Prop :=
| wn_value u v : well_named (Val u v)
| wn_list l : distinct l -> (forall n e, In (n, e) l -> well_named e) -> well_named (Sub l).
(** The source puts a value on the way to p or at its end. *)
Definition covers (src : plist) (p : list string) : Prop := exists q r u v, p = q ++ r /\ reads src q (Val u v).
(** The source has a list where the destination has a value. *)
Definition clash (src dest : plist) : Prop := exists p u v s, reads dest p (Val u v) /\ reads src p (Sub s).

(** ** Proofs *)
Lemma find_set n e l m : find_entry m (set_entry n e l) = if String.eqb m n then Some e else find_entry m l.
Proof.
  induction l as [|(k, x) l IH]; cbn [set_entry find_entry]; [reflexivity|]. destruct (String.eqb_spec n k) as [->|N]; cbn [find_entry].
  - destruct (String.eqb m k); reflexivity.
  - rewrite IH. destruct (String.eqb_spec m k) as [->|Nm]; [|reflexivity]. destruct (String.eqb_spec k n) as [->|]; [contradiction|reflexivity].
Qed.
Lemma sublist_set n e l m : m <> n -> sublist m (set_entry n e l) = sublist m l.
Proof. intros N. unfold sublist. rewrite find_set. destruct (String.eqb_spec m n); [contradiction|reflexivity]. Qed.
Lemma not_named n l : ~ In n (map fst l) -> find_entry n l = None.
Proof. induction l as [|(m, x) l IH]; intros N; [reflexivity|]. cbn [find_entry]. destruct (String.eqb_spec n m) as [->|]; [exfalso; apply N; left; reflexivity|]. apply IH. intros I. apply N. right. exact I. Qed.
(** One list, name by name. *)
Lemma each_find f src : distinct src -> forall dest r, set_each f src dest = Ok r -> forall n,
  match find_entry n src with
  | None => find_entry n r = find_entry n dest
  | Some (Val u v) => find_entry n r = Some (Val u v)
  | Some (Sub s) => exists d d', sublist n dest = Ok d /\ f (Sub s) d = Ok d' /\ find_entry n r = Some (Sub d')
  end.
Proof.
  unfold distinct. induction src as [|(m, e) src IH]; intros D dest r E n; [injection E as <-; reflexivity|]. cbn [map fst] in D. inversion D as [|? ? Nm D']; subst. cbn [set_each] in E. cbn [find_entry]. destruct e as [u v|s].
  - specialize (IH D' _ _ E n). destruct (String.eqb_spec n m) as [->|N].
    + rewrite (not_named m src Nm) in IH. rewrite IH, find_set, String.eqb_refl. reflexivity.
    + rewrite find_set, sublist_set in IH by exact N. destruct (String.eqb_spec n m); [contradiction|]. exact IH.
  - destruct (sublist m dest) as [d| |] eqn:Es; cbn [rbind] in E; try discriminate. destruct (f (Sub s) d) as [d'| |] eqn:Ef; cbn [rbind] in E; try discriminate. specialize (IH D' _ _ E n). destruct (String.eqb_spec n m) as [->|N].
    + rewrite (not_named m src Nm) in IH. exists d, d'. split; [exact Es|]. split; [exact Ef|]. rewrite IH, find_set, String.eqb_refl. reflexivity.
    + rewrite find_set, sublist_set in IH by exact N. destruct (String.eqb_spec n m); [contradiction|]. exact IH.
Qed.
Lemma each_fails f src : distinct src -> forall dest, (forall r, set_each f src dest <> Ok r) <->
  exists n s, find_entry n src = Some (Sub s) /\ ((exists u v, find_entry n dest = Some (Val u v)) \/ exists d, sublist n dest = Ok d /\ forall r, f (Sub s) d <> Ok r).
Proof.
  unfold distinct. induction src as [|(m, e) src IH]; intros D dest; [split; [intros H; exfalso; apply (H dest); reflexivity|intros (n & s & E & _); discriminate]|].
  cbn [map fst] in D. inversion D as [|? ? Nm D']; subst. cbn [set_each find_entry]. destruct e as [u v|s].
  - rewrite (IH D'). split; intros (n & s & E & H).
    + assert (N : n <> m) by (intros ->; rewrite (not_named m src Nm) in E; discriminate). exists n, s. rewrite find_set, sublist_set in H by exact N. destruct (String.eqb_spec n m); [contradiction|]. split; assumption.
    + destruct (String.eqb_spec n m) as [->|N]; [discriminate|]. exists n, s. split; [exact E|]. rewrite find_set, sublist_set by exact N. destruct (String.eqb_spec n m); [contradiction|]. exact H.
  - destruct (sublist m dest) as [d| |] eqn:Es; cbn [rbind].
    2,3: split; [|intros _ r; discriminate]; intros _; exists m, s; rewrite String.eqb_refl; split; [reflexivity|]; left; unfold sublist in Es; destruct (find_entry m dest) as [[u v|k]|]; try discriminate; exists u, v; reflexivity.
    destruct (f (Sub s) d) as [d'| |] eqn:Ef; cbn [rbind].
    2,3: split; [|intros _ r; discriminate]; intros _; exists m, s; rewrite String.eqb_refl; split; [reflexivity|]; right; exists d; split; [exact Es|]; rewrite Ef; discriminate.
    rewrite (IH D'). split; intros (n & k & E & H).
    + assert (N : n <> m) by (intros ->; rewrite (not_named m src Nm) in E; discriminate). exists n, k. rewrite find_set, sublist_set in H by exact N. destruct (String.eqb_spec n m); [contradiction|]. split; assumption.
    + destruct (String.eqb_spec n m) as [->|N].
      * exfalso. injection E as ->. destruct H as [(u & v & H)|(d0 & H & H')]; [unfold sublist in Es; rewrite H in Es; discriminate|]. rewrite Es in H. injection H as <-. apply (H' d'). exact Ef.
      * exists n, k. split; [exact E|]. rewrite find_set, sublist_set by exact N. destruct (String.eqb_spec n m); [contradiction|]. exact H.
Qed.
Lemma named_inside l n e : well_named (Sub l) -> find_entry n l = Some e -> well_named e.
Proof. intros H E. inversion H as [|? _ W]; subst. apply (W n). apply find_in. exact E. Qed.
Lemma named_distinct l : well_named (Sub l) -> distinct l.
Proof. intros H. inversion H; assumption. Qed.
Lemma reads_sub n d l p e : sublist n l = Ok d -> reads d p e -> reads l (n :: p) e.
Proof. unfold sublist. destruct (find_entry n l) as [[u v|s]|] eqn:E; intros H R; try discriminate; injection H as <-; [apply (reads_in l n s); assumption|]. inversion R; subst; discriminate. Qed.

(** ** C183 *)
(** Merging succeeds unless the source has a list where the destination has a value. *)
Theorem C183_fails : forall src dest, well_named (Sub src) -> (forall r, set_parameters (Sub src) dest <> Ok r) <-> clash src dest.
Proof.
  intros src. remember (Sub src) as e eqn:Ee. revert src Ee. induction e as [u v|l IH] using entry_all; intros src Ee dest W; [discriminate|]. injection Ee as <-. cbn [set_parameters]. rewrite (each_fails _ l (named_distinct l W)). split.
  - intros (n & s & E & [(u & v & H)|(d & Hd & Hf)]).
    + exists [n], u, v, s. split; [apply reads_one; exact H|apply reads_one; exact E].
    + apply (IH n (Sub s) (find_in _ _ _ E) s eq_refl d (named_inside l n _ W E)) in Hf. destruct Hf as (p & u & v & t & H1 & H2). exists (n :: p), u, v, t. split; [apply (reads_sub n d); assumption|apply (reads_in l n s); assumption].
  - intros (p & u & v & t & H1 & H2). inversion H2 as [? n ? E|? n s q ? E R]; subst.
    + inversion H1 as [? ? ? E1|? ? ? ? ? _ R1]; subst; [|inversion R1]. exists n, t. split; [exact E|]. left. exists u, v. exact E1.
    + exists n, s. split; [exact E|]. inversion H1 as [? ? ? E1|? ? k ? ? E1 R1]; subst; [inversion R|]. right. exists k. split; [unfold sublist; rewrite E1; reflexivity|].
      apply (IH n (Sub s) (find_in _ _ _ E) s eq_refl k (named_inside l n _ W E)). exists q, u, v, t. split; assumption.
Qed.
Print Assumptions C183_fails.
(** Afterwards every value of the source is in the result, and every value of the destination that the source does not replace; there are no others. *)
Theorem C183_merged : forall src dest r, well_named (Sub src) -> set_parameters (Sub src) dest = Ok r -> forall p u v,
  reads r p (Val u v) <-> reads src p (Val u v) \/ (reads dest p (Val u v) /\ ~ covers src p).
Proof.
  intros src. remember (Sub src) as e eqn:Ee. revert src Ee. induction e as [a0 b0|l IH] using entry_all; intros src Ee dest r W E p u v; [discriminate|]. injection Ee as <-. cbn [set_parameters] in E.
  pose proof (each_find _ l (named_distinct l W) dest r E) as F. 
  assert (C0 : forall n q, covers l (n :: q) -> exists e, find_entry n l = Some e).
  { intros n q (q1 & r1 & a & b & Eq & R). inversion R as [? m ? Em|? m s ? ? Em _]; subst; injection Eq as <- _; eexists; exact Em. }
  split.
  - intros R. inversion R as [? n ? En|? n s q ? En R1]; subst; specialize (F n); destruct (find_entry n l) as [[a b|k]|] eqn:El.
    + left. apply reads_one. congruence.
    + destruct F as (d & d' & _ & _ & F). congruence.
    + right. split; [apply reads_one; congruence|]. intros C. destruct (C0 _ _ C) as (e & C1). congruence.
    + congruence.
    + destruct F as (d & d' & Hd & Hf & F). assert (d' = s) by congruence. subst d'. apply (IH n (Sub k) (find_in _ _ _ El) k eq_refl d s (named_inside l n _ W El) Hf q u v) in R1. destruct R1 as [R1|[R1 N]].
      * left. apply (reads_in l n k); assumption.
      * right. split; [apply (reads_sub n d); assumption|]. intros (q1 & r1 & a & b & Eq & R2). apply N. inversion R2 as [? m ? Em|? m k' q2 ? Em R3]; subst; injection Eq as -> Eq; [congruence|]. assert (k' = k) by congruence. subst k'. exists q2, r1, a, b. split; assumption.
    + right. split; [apply (reads_in dest n s); [congruence|exact R1]|]. intros C. destruct (C0 _ _ C) as (e & C1). congruence.
  - intros [R|[R N]].
    + inversion R as [? n ? En|? n s q ? En R1]; subst; specialize (F n); rewrite En in F; [apply reads_one; exact F|]. destruct F as (d & d' & Hd & Hf & F). apply (reads_in r n d'); [exact F|].
      apply (IH n (Sub s) (find_in _ _ _ En) s eq_refl d d' (named_inside l n _ W En) Hf q u v). left. exact R1.
    + inversion R as [? n ? En|? n s q ? En R1]; subst; specialize (F n); destruct (find_entry n l) as [[a b|k]|] eqn:El.
      * exfalso. apply N. exists [n], [], a, b. split; [reflexivity|apply reads_one; exact El].
      * destruct F as (d & d' & Hd & _ & _). unfold sublist in Hd. rewrite En in Hd. discriminate.
      * apply reads_one. congruence.
      * exfalso. apply N. exists [n], q, a, b. split; [reflexivity|apply reads_one; exact El].
      * destruct F as (d & d' & Hd & Hf & F). unfold sublist in Hd. rewrite En in Hd. injection Hd as <-. apply (reads_in r n d'); [exact F|].
        apply (IH n (Sub k) (find_in _ _ _ El) k eq_refl s d' (named_inside l n _ W El) Hf q u v). right. split; [exact R1|]. intros (q1 & r1 & a & b & -> & R2). apply N. exists (n :: q1), r1, a, b. split; [reflexivity|]. apply (reads_in l n k); assumption.
      * apply (reads_in r n s); [congruence|exact R1].
Qed.
Print Assumptions C183_merged.
Local Open Scope string_scope.
Definition defaults : plist := [("Solver", Sub [("Tolerance", Val false "1e-8"); ("Iterations", Val false "100")]); ("Query", Val false "0"); ("Physics", Sub [("Dim", Val false "2")])].
Definition given : plist := [("Solver", Sub [("Tolerance", Val false "1e-4")]); ("Physics", Val false "Mechanical"); ("Loads", Sub [("Body", Sub [])])].
Example C183_case : well_named (Sub given) /\ set_parameters (Sub given) defaults = Ok [("Solver", Sub [("Tolerance", Val false "1e-4"); ("Iterations", Val false "100")]); ("Query", Val false "0"); ("Physics", Val false "Mechanical"); ("Loads", Sub [("Body", Sub [])])] /\
  clash [("Query", Sub [])] defaults.
Proof.
  split; [|split; [reflexivity|exists ["Query"], false, "0", []; split; apply reads_one; reflexivity]]. constructor; [repeat constructor; cbn; intuition discriminate|].
  intros n e [E|[E|[E|[]]]]; injection E as <- <-; [constructor; [repeat constructor; cbn; intuition discriminate|intros n e [E|[]]; injection E as <- <-; constructor]|constructor|].
  constructor; [repeat constructor; cbn; intuition discriminate|]. intros n e [E|[]]; injection E as <- <-. constructor; [constructor|intros n e []].
Qed.
