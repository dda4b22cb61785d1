(** C137: the state in the written files.  C138: the element data in the written files. *)
From Coq Require Import String List Arith Bool Lia.
From Verif Require Import Base.Res Blocks.BlocksModel Output.OutputModel Output.OutputSpec Output.OutputProof.
Import ListNotations.
Local Open Scope string_scope.
Local Open Scope nat_scope.

(** ** C137 *)

(** The fields of a physics account for each unknown of a node exactly once, so that nothing of the state is lost. *)
Theorem C137_fields : forall p d c, c < dofs p d -> exists! x, In x (fields p d) /\ snd (fst x) <= c < snd (fst x) + snd x.
Proof.
  intros p d c H.
  assert (U : forall (l : list (string * nat * nat)) x, In x l -> snd (fst x) <= c < snd (fst x) + snd x ->
    (forall y, In y l -> snd (fst y) <= c < snd (fst y) + snd y -> y = x) -> exists! x, In x l /\ snd (fst x) <= c < snd (fst x) + snd x).
  { intros l x I B Q. exists x. split; [split; assumption|]. intros y [Iy By]. symmetry. apply Q; assumption. }
  destruct p; cbn [dofs fields] in *;
    destruct (lt_dec c d) as [L|L];
    try (eapply U; [left; reflexivity|cbn; lia|cbn; intros y [<- |[<- |[<- |[]]]]; cbn; intros; [reflexivity|exfalso; lia|exfalso; lia]]);
    try (eapply U; [left; reflexivity|cbn; lia|cbn; intros y [<- |[<- |[]]]; cbn; intros; [reflexivity|exfalso; lia]]);
    try (eapply U; [left; reflexivity|cbn; lia|cbn; intros y [<- |[]]; reflexivity]);
    try lia;
    destruct (Nat.eq_dec c d) as [->|N];
    try (eapply U; [right; left; reflexivity|cbn; lia|cbn; intros y [<- |[<- |[<- |[]]]]; cbn; intros; [exfalso; lia|reflexivity|exfalso; lia]]);
    try (eapply U; [right; left; reflexivity|cbn; lia|cbn; intros y [<- |[<- |[]]]; cbn; intros; [exfalso; lia|reflexivity]]);
    try (eapply U; [right; right; left; reflexivity|cbn; lia|cbn; intros y [<- |[<- |[<- |[]]]]; cbn; intros; [exfalso; lia|exfalso; lia|reflexivity]]);
    lia.
Qed.

Section State.
Context {A : Type}.

(** The frame of a step shows the fields [fl] of the row. *)
Definition frame_shows (f : frame A) (nv nd : nat) (row : list A) (fl : list (string * nat * nat)) : Prop :=
  forall name off w, In (name, off, w) fl -> shows (f_nodal f) name nv nd row off w.

(** What each step of an output function does with the vertex tags. *)
Lemma vtag_shows (m m' : mesh A) name nd row off w v : shows [(name, (w, v))] name (nverts m) nd row off w -> vtags m' = vtags (add_vtag m name w v) -> shows (vtags m') name (nverts m) nd row off w.
Proof. intros S E. apply (shows_tag _ _ _ _ _ _ _ _ S). rewrite E. cbn. rewrite tag_add, String.eqb_refl. reflexivity. Qed.
Lemma vtag_keeps (m : mesh A) name name' w v nv nd row off w' : name' <> name -> shows (vtags m) name' nv nd row off w' -> shows (vtags (add_vtag m name w v)) name' nv nd row off w'.
Proof. intros N S. apply (shows_tag _ _ _ _ _ _ _ _ S). cbn. rewrite tag_add. destruct (String.eqb_spec name' name); [contradiction|reflexivity]. Qed.

Definition puts (nd : nat) (row : list A) (fl : list (string * nat * nat)) (m : mesh A) : res (mesh A) := foldR (fun x m => put nd row (fst (fst x)) (snd (fst x)) (snd x) m) fl m.
Lemma puts_ok nd row nv ne fl : List.length row = nv * nd -> (forall name off w, In (name, off, w) fl -> off + w <= nd) -> NoDup (map (fun x => fst (fst x)) fl) ->
  forall m, nverts m = nv -> nelems m = ne ->
  exists m', puts nd row fl m = Ok m' /\ nverts m' = nv /\ nelems m' = ne /\ etags m' = etags m /\ (forall name off w, In (name, off, w) fl -> shows (vtags m') name nv nd row off w) /\
             (forall name, ~ In name (map (fun x => fst (fst x)) fl) -> tag (vtags m') name = tag (vtags m) name).
Proof.
  intros L. induction fl as [|[[name off] w] fl IH]; intros B D m V E.
  - exists m. cbn. repeat split; auto. intros ? ? ? [].
  - cbn [puts foldR fst snd]. cbn [map fst] in D. inversion_clear D as [|? ? D1 D2].
    destruct (put_spec nd row name off w m) as [v [Ev Sv]]; [rewrite V; exact L|apply (B name); left; reflexivity|].
    rewrite Ev. cbn [rbind].
    destruct (IH (fun n o x I => B n o x (or_intror I)) D2 (add_vtag m name w v) V E) as [m' [E' [V' [N' [T' [S' K']]]]]].
    exists m'. split; [exact E'|]. split; [exact V'|]. split; [exact N'|]. split; [exact T'|]. split.
    + intros n o x [I|I].
      * injection I as <- <- <-. rewrite V in Sv. apply (shows_tag _ _ _ _ _ _ _ _ Sv). rewrite (K' name D1). cbn. rewrite tag_add, String.eqb_refl. reflexivity.
      * apply S'. exact I.
    + intros n I. cbn [map fst] in I. rewrite K' by (intros J; apply I; right; exact J). cbn. rewrite tag_add.
      destruct (String.eqb_spec n name) as [->|]; [exfalso; apply I; left; reflexivity|reflexivity].
Qed.

(** A writer whose steps put some fields and then touch no vertex tag. *)
Lemma writer_ok nd rows nv ne fl (post : nat -> mesh A -> res (mesh A)) body :
  well_sized nv nd rows -> (forall name off w, In (name, off, w) fl -> off + w <= nd) -> NoDup (map (fun x => fst (fst x)) fl) ->
  (forall k row m, body k row m = rbind (puts nd row fl m) (post k)) ->
  (forall k row m, nth_error rows k = Some row -> nverts m = nv -> nelems m = ne -> exists m', post k m = Ok m' /\ nverts m' = nv /\ nelems m' = ne /\ forall name, In name (map (fun x => fst (fst x)) fl) -> tag (vtags m') name = tag (vtags m) name) ->
  forall m, nverts m = nv -> nelems m = ne ->
  exists m' fs, steps body rows m = Ok (m', fs) /\ List.length fs = List.length rows /\
    forall k row, nth_error rows k = Some row -> exists f, nth_error fs k = Some f /\ f_step f = k /\ f_time f = k /\ frame_shows f nv nd row fl.
Proof.
  intros W B D Eb Hp m V E.
  destruct (steps_spec body rows nv ne (fun k row m => forall name off w, In (name, off, w) fl -> shows (vtags m) name nv nd row off w)) with (m := m) as [m' [fs [E' [L F]]]]; [|exact V|exact E|].
  - intros k row m0 R V0 E0. rewrite Eb. destruct (puts_ok nd row nv ne fl (W row (nth_error_In _ _ R)) B D m0 V0 E0) as [m1 [E1 [V1 [N1 [_ [S1 _]]]]]].
    rewrite E1. cbn [rbind]. destruct (Hp k row m1 R V1 N1) as [m2 [E2 [V2 [N2 T2]]]]. exists m2. split; [exact E2|]. split; [exact V2|]. split; [exact N2|].
    intros name off w I. apply (shows_tag _ _ _ _ _ _ _ _ (S1 name off w I)). apply T2. apply in_map_iff. exists (name, off, w). split; [reflexivity|exact I].
  - exists m', fs. split; [exact E'|]. split; [exact L|]. intros k row R. destruct (F k row R) as [f [mk [N [-> P]]]]. exists (write_frame k k mk). repeat split; [exact N|exact P].
Qed.
Lemma element_tags_post rows nv ne fl dm : forall k (row : list A) (m : mesh A), nth_error rows k = Some row -> nverts m = nv -> nelems m = ne ->
  exists m', element_tags m dm k = Ok m' /\ nverts m' = nv /\ nelems m' = ne /\ forall name, In name (map (fun x : string * nat * nat => fst (fst x)) fl) -> tag (vtags m') name = tag (vtags m) name.
Proof. intros k row m _ V E. destruct (element_tags_ok m dm k) as [m' [E1 [E2 [E3 E4]]]]. exists m'. rewrite E4. split; [exact E1|]. split; [congruence|]. split; [congruence|reflexivity]. Qed.
Lemma nothing_post rows nv ne fl : forall k (row : list A) (m : mesh A), nth_error rows k = Some row -> nverts m = nv -> nelems m = ne ->
  exists m', Ok m = Ok m' /\ nverts m' = nv /\ nelems m' = ne /\ forall name, In name (map (fun x : string * nat * nat => fst (fst x)) fl) -> tag (vtags m') name = tag (vtags m) name.
Proof. intros k row m _ V E. exists m. auto. Qed.
Lemma rbind_assoc {B C D} (x : res B) (f : B -> res C) (g : C -> res D) : rbind (rbind x f) g = rbind x (fun y => rbind (f y) g).
Proof. destruct x; reflexivity. Qed.
Lemma rbind_ok {B} (x : res B) : rbind x Ok = x.
Proof. destruct x; reflexivity. Qed.
Lemma rbind_ext {B C} (x : res B) (f g : B -> res C) : (forall y, f y = g y) -> rbind x f = rbind x g.
Proof. intros H. destruct x; cbn; auto. Qed.

(** A rate is put, or there is none. *)
Lemma put_rate_ok nd (rows rate : view A) nv ne name k row m : rate_of nv nd (List.length rows) rate -> nth_error rows k = Some row -> nverts m = nv -> nelems m = ne ->
  exists m', put_rate nd rate name k m = Ok m' /\ nverts m' = nv /\ nelems m' = ne /\ (forall n, n <> name -> tag (vtags m') n = tag (vtags m) n) /\
             (forall r, nth_error rate k = Some r -> shows (vtags m') name nv nd r 0 nd).
Proof.
  intros HR R V E. destruct HR as [-> |[L W]].
  - exists m. cbn. repeat split; auto. destruct k; discriminate.
  - assert (K : k < List.length rate) by (rewrite L; apply nth_error_Some; rewrite R; discriminate).
    destruct (nth_error rate k) as [r|] eqn:Rk; [|apply nth_error_None in Rk; lia].
    assert (Er : put_rate nd rate name k m = put nd r name 0 nd m). { unfold put_rate. destruct rate as [|r0 rate]; [cbn in K; lia|]. rewrite Rk. reflexivity. }
    destruct (put_spec nd r name 0 nd m) as [v [Ev Sv]]; [rewrite V; apply (W r (nth_error_In _ _ Rk))|lia|].
    exists (add_vtag m name nd v). rewrite Er. split; [exact Ev|]. split; [exact V|]. split; [exact E|]. split.
    + intros n N. cbn. rewrite tag_add. destruct (String.eqb_spec n name); [contradiction|reflexivity].
    + intros r' I. injection I as <-. rewrite V in Sv. apply (shows_tag _ _ _ _ _ _ _ _ Sv). cbn. rewrite tag_add, String.eqb_refl. reflexivity.
Qed.

(** Which writer belongs to which problem. *)
Lemma create_names b phys pde s p : create b phys pde = Ok (Problem s p) ->
  (phys = "Mechanical" /\ p = Mechanics) \/ (phys = "Plasticity" /\ p = Plasticity) \/ (phys = "Thermoplasticity" /\ p = ThermoPlasticity) \/
  (phys = "Stabilized Mechanical" /\ p = StabilizedMechanics) \/ (phys = "Thermal" /\ p = Thermal) \/ (phys = "Electromechanical" /\ p = Electromechanics) \/
  (phys = "Stabilized Thermomechanical" /\ p = StabilizedThermomechanics) \/
  (phys = "Thermomechanical" /\ p = Thermomechanics /\ (pde = "Parabolic" \/ pde = "Elliptic")).
Proof.
  unfold create, choice. intros H.
  repeat match type of H with
  | context [String.eqb ?x ?y] => destruct (String.eqb_spec x y); cbn [andb] in H
  | context [if ?c && _ then _ else _] => destruct c; cbn [andb] in H
  | context [if ?c then _ else _] => destruct c
  end; try discriminate; injection H as <- <-; tauto.
Qed.
Lemma create_exists : forall p, exists b phys pde s, create b phys pde = Ok (Problem s p).
Proof.
  pose (b := mkBuild true true true true).
  intros []; exists b.
  - exists "Mechanical", "Elliptic"; eexists; reflexivity.
  - exists "Plasticity", "Elliptic"; eexists; reflexivity.
  - exists "Thermoplasticity", "Elliptic"; eexists; reflexivity.
  - exists "Stabilized Mechanical", "Elliptic"; eexists; reflexivity.
  - exists "Thermal", "Elliptic"; eexists; reflexivity.
  - exists "Electromechanical", "Elliptic"; eexists; reflexivity.
  - exists "Stabilized Thermomechanical", "Elliptic"; eexists; reflexivity.
  - exists "Thermomechanical", "Elliptic"; eexists; reflexivity.
Qed.

Ltac inlist := cbn; intros ? ? ?; intros H; repeat (destruct H as [H|H]; [injection H as <- <- <-; lia|]); destruct H.
Ltac nodup := cbn; repeat (constructor; [cbn; intros H; repeat (destruct H as [H|H]; [discriminate|]); exact H|]); constructor.
Lemma frame_shows_perm (f : frame A) nv nd row fl fl' : (forall x, In x fl' -> In x fl) -> frame_shows f nv nd row fl -> frame_shows f nv nd row fl'.
Proof. intros P H name off w I. apply H, P, I. Qed.

(** Every step of a problem the factory builds is written to its own frame, numbered by the step, and the frame shows every field of the
    state; the two physics left out are below. *)
Theorem C137_state_partial : forall b phys pde s p, create b phys pde = Ok (Problem s p) -> p <> Electromechanics -> p <> StabilizedThermomechanics ->
  forall d (x : solution A) dm (m : mesh A),
  well_sized (nverts m) (dofs p d) (s_state x) ->
  (p = Mechanics -> rate_of (nverts m) d (List.length (s_state x)) (s_dot x) /\ rate_of (nverts m) d (List.length (s_state x)) (s_ddot x)) ->
  exists m' fs, output d phys pde x dm m = Ok (m', fs) /\ List.length fs = List.length (s_state x) /\
    forall k row, nth_error (s_state x) k = Some row -> exists f, nth_error fs k = Some f /\ f_step f = k /\ f_time f = k /\ frame_shows f (nverts m) (dofs p d) row (fields p d).
Proof.
  intros b phys pde s p C NE NS d x dm m W HM.
  destruct (create_names b phys pde s p C) as [[-> ->]|[[-> ->]|[[-> ->]|[[-> ->]|[[-> ->]|[[-> ->]|[[-> ->]|[-> [-> HP]]]]]]]]]; try congruence; unfold output; cbn [String.eqb Ascii.eqb Bool.eqb].
  - destruct (HM eq_refl) as [H1 H2]. unfold mechanical_output.
    apply (writer_ok d (s_state x) (nverts m) (nelems m) (fields Mechanics d) (fun k m => let! m := put_rate d (s_dot x) "Velocity" k m in let! m := put_rate d (s_ddot x) "Acceleration" k m in element_tags m dm k));
      [exact W|inlist|nodup| | |reflexivity|reflexivity].
    + intros k row m0. cbn. rewrite rbind_assoc. reflexivity.
    + intros k row m0 R V E. destruct (put_rate_ok d (s_state x) (s_dot x) (nverts m) (nelems m) "Velocity" k row m0 H1 R V E) as [m1 [E1 [V1 [N1 [K1 _]]]]]. rewrite E1. cbn [rbind].
      destruct (put_rate_ok d (s_state x) (s_ddot x) (nverts m) (nelems m) "Acceleration" k row m1 H2 R V1 N1) as [m2 [E2 [V2 [N2 [K2 _]]]]]. rewrite E2. cbn [rbind].
      destruct (element_tags_ok m2 dm k) as [m3 [E3 [V3 [N3 T3]]]]. exists m3. split; [exact E3|]. split; [congruence|]. split; [congruence|].
      intros name [<- |[]]. rewrite T3, K2, K1; [reflexivity|discriminate|discriminate].
  - apply (writer_ok (d + 1) (s_state x) (nverts m) (nelems m) (fields Plasticity d) (fun k m => element_tags m dm k)); [exact W|inlist|nodup| |apply element_tags_post|reflexivity|reflexivity].
    intros k row m0. cbn. rewrite !rbind_assoc. apply rbind_ext. intros y. cbn [rbind]. destruct (put (d + 1) row "Pressure" d 1 y); reflexivity.
  - unfold stabilized_thermoplasticity_output.
    destruct (writer_ok (d + 2) (s_state x) (nverts m) (nelems m) [("Displacements", 0, d); ("Pressure", d + 1, 1); ("Temperature", d, 1)] (fun k m => Ok m)
      (fun _ row m => let! m := put (d + 2) row "Displacements" 0 d m in let! m := put (d + 2) row "Pressure" (d + 1) 1 m in put (d + 2) row "Temperature" d 1 m))
      with (m := m) as [m' [fs [E [L F]]]]; [exact W|inlist|nodup| |apply nothing_post|reflexivity|reflexivity|].
    + intros k row m0. cbn. rewrite rbind_ok. apply rbind_ext. intros y. apply rbind_ext. intros z. rewrite rbind_ok. reflexivity.
    + exists m', fs. split; [exact E|]. split; [exact L|]. intros k row R. destruct (F k row R) as [f [F1 [F2 [F3 F4]]]]. exists f. repeat split; try assumption.
      apply (frame_shows_perm _ _ _ _ _ _ (fun y I => I)). revert F4. apply frame_shows_perm. cbn. tauto.
  - apply (writer_ok (d + 1) (s_state x) (nverts m) (nelems m) (fields StabilizedMechanics d) (fun k m => element_tags m dm k)); [exact W|inlist|nodup| |apply element_tags_post|reflexivity|reflexivity].
    intros k row m0. cbn. rewrite !rbind_assoc. apply rbind_ext. intros y. cbn [rbind]. destruct (put (d + 1) row "Pressure" d 1 y); reflexivity.
  - apply (writer_ok 1 (s_state x) (nverts m) (nelems m) (fields Thermal d) (fun k m => element_tags m dm k)); [exact W|inlist|nodup| |apply element_tags_post|reflexivity|reflexivity].
    intros k row m0. cbn. rewrite !rbind_assoc. apply rbind_ext. reflexivity.
  - assert (E : String.eqb pde "Stabilized Elliptic" = false) by (destruct HP as [-> | ->]; reflexivity). rewrite E.
    apply (writer_ok (d + 1) (s_state x) (nverts m) (nelems m) (fields Thermomechanics d) (fun k m => element_tags m dm k)); [exact W|inlist|nodup| |apply element_tags_post|reflexivity|reflexivity].
    intros k row m0. cbn. rewrite !rbind_assoc. apply rbind_ext. intros y. cbn [rbind]. destruct (put (d + 1) row "Temperature" d 1 y); reflexivity.
Qed.

(** A dynamic run also shows velocity and acceleration of each step. *)
Theorem C137_rates : forall d pde (x : solution A) dm (m : mesh A),
  well_sized (nverts m) d (s_state x) -> rate_of (nverts m) d (List.length (s_state x)) (s_dot x) -> rate_of (nverts m) d (List.length (s_state x)) (s_ddot x) ->
  exists m' fs, output d "Mechanical" pde x dm m = Ok (m', fs) /\ List.length fs = List.length (s_state x) /\
    forall k f, nth_error fs k = Some f ->
      (forall v, nth_error (s_dot x) k = Some v -> shows (f_nodal f) "Velocity" (nverts m) d v 0 d) /\
      (forall a, nth_error (s_ddot x) k = Some a -> shows (f_nodal f) "Acceleration" (nverts m) d a 0 d).
Proof.
  intros d pde x dm m W H1 H2. unfold output; cbn [String.eqb Ascii.eqb Bool.eqb]. unfold mechanical_output.
  match goal with |- context [steps ?body _ _] => destruct (steps_spec body (s_state x) (nverts m) (nelems m)
    (fun k row m' => (forall v, nth_error (s_dot x) k = Some v -> shows (vtags m') "Velocity" (nverts m) d v 0 d) /\ (forall a, nth_error (s_ddot x) k = Some a -> shows (vtags m') "Acceleration" (nverts m) d a 0 d)))
    with (m := m) as [m' [fs [E [L F]]]]; [|reflexivity|reflexivity|] end.
  - intros k row m0 R V E.
    destruct (put_spec d row "Displacements" 0 d m0) as [v0 [Ev Sv]]; [rewrite V; apply (W row (nth_error_In _ _ R))|lia|]. rewrite Ev. cbn [rbind].
    destruct (put_rate_ok d (s_state x) (s_dot x) (nverts m) (nelems m) "Velocity" k row (add_vtag m0 "Displacements" d v0) H1 R V E) as [m1 [E1 [V1 [N1 [K1 S1]]]]]. rewrite E1. cbn [rbind].
    destruct (put_rate_ok d (s_state x) (s_ddot x) (nverts m) (nelems m) "Acceleration" k row m1 H2 R V1 N1) as [m2 [E2 [V2 [N2 [K2 S2]]]]]. rewrite E2. cbn [rbind].
    destruct (element_tags_ok m2 dm k) as [m3 [E3 [V3 [N3 T3]]]]. exists m3. split; [exact E3|]. split; [congruence|]. split; [congruence|]. split.
    + intros v Rv. apply (shows_tag _ _ _ _ _ _ _ _ (S1 v Rv)). rewrite T3. apply K2. discriminate.
    + intros a Ra. rewrite T3. apply S2. exact Ra.
  - exists m', fs. split; [exact E|]. split; [exact L|]. intros k f Nf.
    destruct (nth_error (s_state x) k) as [row|] eqn:R; [|apply nth_error_None in R; rewrite <- L in R; apply nth_error_None in R; congruence].
    destruct (F k row R) as [f' [mk [N [Ef P]]]]. rewrite N in Nf. injection Nf as <-. subst f'. exact P.
Qed.

(** The electromechanical problem, which has a single step: it is written as frame 1. *)
Theorem C137_electromechanical : forall d pde (x : solution A) dm (m : mesh A) row rest, s_state x = row :: rest -> List.length row = nverts m * (d + 1) ->
  exists m' f, output d "Electromechanical" pde x dm m = Ok (m', [f]) /\ f_step f = 1 /\ f_time f = 1 /\ frame_shows f (nverts m) (dofs Electromechanics d) row (fields Electromechanics d).
Proof.
  intros d pde x dm m row rest S L. unfold output; cbn [String.eqb Ascii.eqb Bool.eqb]. unfold electromechanical_output. rewrite S. cbn [nth_error ub rbind].
  destruct (copy_spec (d + 1) d 0 (nverts m) row L) as [v1 [E1 [L1 N1]]]; [lia|]. destruct (copy_spec (d + 1) 1 d (nverts m) row L) as [v2 [E2 [L2 N2]]]; [lia|].
  rewrite E1. cbn [rbind]. rewrite E2. cbn [rbind]. eexists. eexists. split; [reflexivity|]. split; [reflexivity|]. split; [reflexivity|].
  intros name off w I. cbn [fields In] in I. destruct I as [I|[I|[]]]; injection I as <- <- <-; cbn [f_nodal write_frame vtags add_vtag].
  - exists v1. rewrite !tag_add. cbn [String.eqb Ascii.eqb Bool.eqb]. split; [reflexivity|]. split; assumption.
  - exists v2. rewrite !tag_add. cbn [String.eqb Ascii.eqb Bool.eqb]. split; [reflexivity|]. split; assumption.
Qed.

(** The stabilised thermomechanical problem is built and solved, and nothing of its solution is ever written; the writer that was meant for
    it is only called for keywords no build accepts. *)
Theorem C137_stabilized_refuted :
  (exists b s, create b "Stabilized Thermomechanical" "Elliptic" = Ok (Problem s StabilizedThermomechanics)) /\
  (forall d pde (x : solution A) dm m, output d "Stabilized Thermomechanical" pde x dm m = Ok (m, [])) /\
  (forall b, create b "Thermomechanical" "Stabilized Elliptic" = Throw).
Proof.
  split; [exists (mkBuild true true true true); eexists; reflexivity|]. split; [reflexivity|].
  intros [[] [] [] []]; reflexivity.
Qed.
End State.

(** Two nodes in the plane, two steps of a thermomechanical problem. *)
Example C137_reachable :
  exists m' f0 f1, output 2 "Thermomechanical" "Parabolic" (mkSol [[1; 2; 30; 4; 5; 60]; [7; 8; 90; 10; 11; 120]] [] []) (mkData (mkDmap [] []) []) (mkMesh 2 1 [] []) = Ok (m', [f0; f1]) /\
  tag (f_nodal f1) "Temperature" = Some (1, [90; 120]) /\ tag (f_nodal f0) "Displacements" = Some (2, [1; 2; 4; 5]) /\
  well_sized 2 (dofs Thermomechanics 2) [[1; 2; 30; 4; 5; 60]; [7; 8; 90; 10; 11; 120]] /\
  create (mkBuild true true true true) "Thermomechanical" "Parabolic" = Ok (Problem ParabolicProblem Thermomechanics).
Proof.
  eexists. eexists. eexists. split; [reflexivity|]. split; [reflexivity|]. split; [reflexivity|]. split; [|reflexivity].
  intros row [<- |[<- |[]]]; reflexivity.
Qed.

(** ** C138 *)
Section Elements.
Context {A : Type}.

Lemma fold_tags {E} (nm : E -> string) (c : E -> nat) (val : E -> list A) (len : E -> nat) l : NoDup (map nm l) ->
  forall m : mesh A, let m' := fold_left (fun m e => if Nat.eqb (len e) (nelems m) then add_etag m (nm e) (c e) (val e) else m) l m in
  nelems m' = nelems m /\
  (forall e, In e l -> len e = nelems m -> tag (etags m') (nm e) = Some (c e, val e)) /\
  (forall name, (forall e, In e l -> len e = nelems m -> nm e <> name) -> tag (etags m') name = tag (etags m) name).
Proof.
  induction l as [|e l IH]; intros D m; cbn [fold_left]; [cbn; repeat split; intros; try tauto; reflexivity|].
  cbn [map] in D. inversion_clear D as [|? ? D1 D2].
  set (m1 := if Nat.eqb (len e) (nelems m) then add_etag m (nm e) (c e) (val e) else m).
  assert (N1 : nelems m1 = nelems m) by (unfold m1; destruct (Nat.eqb _ _); reflexivity).
  destruct (IH D2 m1) as [I1 [I2 I3]]. rewrite N1 in I1, I2, I3. split; [exact I1|]. split.
  - intros e' [<- |I] L.
    + rewrite I3.
      * unfold m1. rewrite (proj2 (Nat.eqb_eq _ _) L). cbn. rewrite tag_add, String.eqb_refl. reflexivity.
      * intros e' I L' Q. apply D1. rewrite <- Q. apply in_map. exact I.
    + apply I2; assumption.
  - intros name H. rewrite I3 by (intros e' I; apply H; right; exact I).
    unfold m1. destruct (Nat.eqb_spec (len e) (nelems m)) as [L|]; [|reflexivity]. cbn. rewrite tag_add.
    destruct (String.eqb_spec name (nm e)) as [->|]; [|reflexivity]. exfalso. apply (H e (or_introl eq_refl) L). reflexivity.
Qed.

(** What a frame shows of the data of a step. *)
Definition shows_data (t : tags A) (ne : nat) (s : dmap A) : Prop :=
  (forall name n rows, has_table s name n rows -> List.length rows = ne -> tag t name = Some (n, concat rows)) /\
  (forall name v, has_vector s name v -> List.length v = ne -> (forall n rows, has_table s name n rows -> List.length rows <> ne) -> tag t name = Some (1, v)).
Lemma element_tags_data (m : mesh A) dm k s : nth_error (d_saved dm) k = Some s -> unique_names s ->
  exists m', element_tags m dm k = Ok m' /\ nverts m' = nverts m /\ nelems m' = nelems m /\ shows_data (etags m') (nelems m) s.
Proof.
  intros S [U1 U2]. destruct (element_tags_ok m dm k) as [m' [E [V [N _]]]]. exists m'. split; [exact E|]. split; [exact V|]. split; [exact N|].
  unfold element_tags in E. assert (K : k < List.length (d_saved dm)) by (apply nth_error_Some; rewrite S; discriminate).
  rewrite (proj2 (Nat.ltb_lt _ _) K) in E. unfold add_element_state_tags, get_state in E.
  destruct (d_saved dm) as [|s0 l] eqn:Q; [cbn in K; lia|]. rewrite S in E. cbn [rbind] in E. injection E as <-.
  destruct (fold_tags (fun e : string * list A => fst e) (fun _ => 1) (fun e => snd e) (fun e => List.length (snd e)) (d_vectors s) U1 m) as [N1 [A1 B1]].
  set (m1 := fold_left _ (d_vectors s) m) in *.
  destruct (fold_tags (fun e : string * (nat * view A) => fst e) (fun e => fst (snd e)) (fun e => concat (snd (snd e))) (fun e => List.length (snd (snd e))) (d_multi s) U2 m1) as [N2 [A2 B2]].
  split.
  - intros name n rows I L. apply (A2 (name, (n, rows)) I). cbn. rewrite N1. exact L.
  - intros name v I L F. rewrite B2.
    + apply (A1 (name, v) I). exact L.
    + intros [name' [n rows]] J Lr En. cbn in *. subst name'. rewrite N1 in Lr. apply (F n rows J Lr).
Qed.

Lemma element_writer (body pre : nat -> list A -> mesh A -> res (mesh A)) rows dm nv ne :
  (forall k row m, body k row m = rbind (pre k row m) (fun m => element_tags m dm k)) ->
  (forall k row m, nth_error rows k = Some row -> nverts m = nv -> nelems m = ne -> exists m', pre k row m = Ok m' /\ nverts m' = nv /\ nelems m' = ne) ->
  forall m, nverts m = nv -> nelems m = ne ->
  exists m' fs, steps body rows m = Ok (m', fs) /\ List.length fs = List.length rows /\
    forall k f s, nth_error fs k = Some f -> nth_error (d_saved dm) k = Some s -> unique_names s -> shows_data (f_elem f) ne s.
Proof.
  intros Eb Hp m V E.
  destruct (steps_spec body rows nv ne (fun k row m' => forall s, nth_error (d_saved dm) k = Some s -> unique_names s -> shows_data (etags m') ne s)) with (m := m) as [m' [fs [E' [L F]]]]; [|exact V|exact E|].
  - intros k row m0 R V0 N0. rewrite Eb. destruct (Hp k row m0 R V0 N0) as [m1 [E1 [V1 N1]]]. rewrite E1. cbn [rbind].
    destruct (element_tags_ok m1 dm k) as [m2 [E2 [V2 [N2 _]]]]. exists m2. split; [exact E2|]. split; [congruence|]. split; [congruence|].
    intros s S U. destruct (element_tags_data m1 dm k s S U) as [m3 [E3 [_ [_ D]]]]. rewrite E2 in E3. injection E3 as <-. rewrite N1 in D. exact D.
  - exists m', fs. split; [exact E'|]. split; [exact L|]. intros k f s Nf S U.
    destruct (nth_error rows k) as [row|] eqn:R; [|apply nth_error_None in R; rewrite <- L in R; apply nth_error_None in R; congruence].
    destruct (F k row R) as [f' [mk [N [Ef P]]]]. rewrite N in Nf. injection Nf as <-. subst f'. apply P; assumption.
Qed.
Lemma puts_pre nd (rows : view A) nv ne fl : well_sized nv nd rows -> (forall name off w, In (name, off, w) fl -> off + w <= nd) -> NoDup (map (fun x => fst (fst x)) fl) ->
  forall k row m, nth_error rows k = Some row -> nverts m = nv -> nelems m = ne -> exists m', puts nd row fl m = Ok m' /\ nverts m' = nv /\ nelems m' = ne.
Proof. intros W B D k row m R V E. destruct (puts_ok nd row nv ne fl (W row (nth_error_In _ _ R)) B D m V E) as [m' [H1 [H2 [H3 _]]]]. exists m'. auto. Qed.

Ltac inlist := cbn; intros ? ? ?; intros H; repeat (destruct H as [H|H]; [injection H as <- <- <-; lia|]); destruct H.
Ltac nodup := cbn; repeat (constructor; [cbn; intros H; repeat (destruct H as [H|H]; [discriminate|]); exact H|]); constructor.
(** For the physics whose writers look at the data map, the frame of a step whose data were saved shows them: every table and vector with one
    entry per element (a table hides a vector of the same name). *)
Theorem C138_data_partial : forall b phys pde s p, create b phys pde = Ok (Problem s p) -> p <> Electromechanics -> p <> StabilizedThermomechanics -> p <> ThermoPlasticity ->
  forall d (x : solution A) dm (m : mesh A),
  well_sized (nverts m) (dofs p d) (s_state x) ->
  (p = Mechanics -> rate_of (nverts m) d (List.length (s_state x)) (s_dot x) /\ rate_of (nverts m) d (List.length (s_state x)) (s_ddot x)) ->
  exists m' fs, output d phys pde x dm m = Ok (m', fs) /\ List.length fs = List.length (s_state x) /\
    forall k f sk, nth_error fs k = Some f -> nth_error (d_saved dm) k = Some sk -> unique_names sk -> shows_data (f_elem f) (nelems m) sk.
Proof.
  intros b phys pde s p C N1 N2 N3 d x dm m W HM.
  destruct (create_names b phys pde s p C) as [[-> ->]|[[-> ->]|[[-> ->]|[[-> ->]|[[-> ->]|[[-> ->]|[[-> ->]|[-> [-> HP]]]]]]]]]; try congruence; unfold output; cbn [String.eqb Ascii.eqb Bool.eqb].
  - destruct (HM eq_refl) as [H1 H2]. unfold mechanical_output.
    apply (element_writer _ (fun k row m => let! m := puts d row (fields Mechanics d) m in let! m := put_rate d (s_dot x) "Velocity" k m in put_rate d (s_ddot x) "Acceleration" k m) _ dm (nverts m)); [| |reflexivity|reflexivity].
    + intros k row m0. cbn. rewrite !rbind_assoc. apply rbind_ext. intros y. cbn [rbind]. rewrite !rbind_assoc. reflexivity.
    + intros k row m0 R V E. destruct (puts_pre d (s_state x) (nverts m) (nelems m) (fields Mechanics d) W ltac:(inlist) ltac:(nodup) k row m0 R V E) as [m1 [E1 [V1 M1]]]. rewrite E1. cbn [rbind].
      destruct (put_rate_ok d (s_state x) (s_dot x) (nverts m) (nelems m) "Velocity" k row m1 H1 R V1 M1) as [m2 [E2 [V2 [M2 _]]]]. rewrite E2. cbn [rbind].
      destruct (put_rate_ok d (s_state x) (s_ddot x) (nverts m) (nelems m) "Acceleration" k row m2 H2 R V2 M2) as [m3 [E3 [V3 [M3 _]]]]. exists m3. auto.
  - apply (element_writer _ (fun k row m => puts (d + 1) row (fields Plasticity d) m) _ dm (nverts m)); [| |reflexivity|reflexivity].
    + intros k row m0. cbn. rewrite !rbind_assoc. apply rbind_ext. intros y. cbn [rbind]. destruct (put (d + 1) row "Pressure" d 1 y); reflexivity.
    + apply puts_pre; [exact W|inlist|nodup].
  - apply (element_writer _ (fun k row m => puts (d + 1) row (fields StabilizedMechanics d) m) _ dm (nverts m)); [| |reflexivity|reflexivity].
    + intros k row m0. cbn. rewrite !rbind_assoc. apply rbind_ext. intros y. cbn [rbind]. destruct (put (d + 1) row "Pressure" d 1 y); reflexivity.
    + apply puts_pre; [exact W|inlist|nodup].
  - apply (element_writer _ (fun k row m => puts 1 row (fields Thermal d) m) _ dm (nverts m)); [| |reflexivity|reflexivity].
    + intros k row m0. cbn. rewrite !rbind_assoc. apply rbind_ext. reflexivity.
    + apply puts_pre; [exact W|inlist|nodup].
  - assert (E : String.eqb pde "Stabilized Elliptic" = false) by (destruct HP as [-> | ->]; reflexivity). rewrite E.
    apply (element_writer _ (fun k row m => puts (d + 1) row (fields Thermomechanics d) m) _ dm (nverts m)); [| |reflexivity|reflexivity].
    + intros k row m0. cbn. rewrite !rbind_assoc. apply rbind_ext. intros y. cbn [rbind]. destruct (put (d + 1) row "Temperature" d 1 y); reflexivity.
    + apply puts_pre; [exact W|inlist|nodup].
Qed.

(** The thermoplastic problem saves the data of every step, and none of it is written. *)
Theorem C138_thermoplastic_refuted : forall d pde (x : solution A) dm (m : mesh A), well_sized (nverts m) (dofs ThermoPlasticity d) (s_state x) ->
  exists m' fs, output d "Thermoplasticity" pde x dm m = Ok (m', fs) /\ List.length fs = List.length (s_state x) /\ forall f, In f fs -> f_elem f = etags m.
Proof.
  intros d pde x dm m W. unfold output; cbn [String.eqb Ascii.eqb Bool.eqb]. unfold stabilized_thermoplasticity_output, steps.
  assert (G : forall n, n <= List.length (s_state x) -> exists m' fs,
    foldR (fun k st => let! row := ub (nth_error (s_state x) k) in
      let! m' := (let! m := put (d + 2) row "Displacements" 0 d (fst st) in let! m := put (d + 2) row "Pressure" (d + 1) 1 m in put (d + 2) row "Temperature" d 1 m) in
      Ok (m', (snd st ++ [write_frame k k m'])%list)) (seq 0 n) (m, []) = Ok (m', fs)
    /\ nverts m' = nverts m /\ nelems m' = nelems m /\ etags m' = etags m /\ List.length fs = n /\ forall f, In f fs -> f_elem f = etags m).
  { induction n as [|n IH]; intros Hn.
    - exists m, []. cbn. repeat split. intros ? [].
    - destruct IH as [m1 [fs [E [V [N [T [L F]]]]]]]; [lia|]. rewrite seq_S, foldR_app, E. cbn [rbind foldR Nat.add fst snd].
      destruct (nth_error (s_state x) n) as [row|] eqn:R; [|apply nth_error_None in R; lia]. cbn [ub rbind].
      destruct (puts_ok (d + 2) row (nverts m) (nelems m) [("Displacements", 0, d); ("Pressure", d + 1, 1); ("Temperature", d, 1)] (W row (nth_error_In _ _ R)) ltac:(inlist) ltac:(nodup) m1 V N) as [m2 [E2 [V2 [M2 [T2 _]]]]].
      unfold puts in E2. cbn [foldR fst snd] in E2.
      destruct (put (d + 2) row "Displacements" 0 d m1) as [y| |]; try discriminate. cbn [rbind] in *.
      destruct (put (d + 2) row "Pressure" (d + 1) 1 y) as [z| |]; try discriminate. cbn [rbind] in *.
      rewrite rbind_ok in E2. rewrite E2. cbn [rbind].
      exists m2, (fs ++ [write_frame n n m2])%list. split; [reflexivity|]. split; [exact V2|]. split; [exact M2|]. split; [congruence|].
      split; [rewrite app_length, L; cbn; lia|]. intros f I. apply in_app_iff in I. destruct I as [I|[<- |[]]]; [apply F; exact I|]. cbn. congruence. }
  destruct (G (List.length (s_state x)) (le_n _)) as [m' [fs [E [_ [_ [_ [L F]]]]]]]. exists m', fs. split; [exact E|]. split; [exact L|exact F].
Qed.
End Elements.

(** A transient problem without plot variables saves the data map once, before its first step (HyperbolicProblem.hpp 281-282 and 359-364,
    parabolic/Problem.hpp 286-287 and 358-363).  What the map holds then is shown at every later step as well. *)
Theorem C138_stale_refuted : exists b s, create b "Thermal" "Parabolic" = Ok (Problem s Thermal) /\
  exists (x : solution nat) dm m m' f0 f1, List.length (s_state x) = 2 /\ List.length (d_saved dm) = 1 /\ well_sized (nverts m) 1 (s_state x) /\
  output 1 "Thermal" "Parabolic" x dm m = Ok (m', [f0; f1]) /\ tag (f_elem f0) "flux" = Some (1, [5]) /\ tag (f_elem f1) "flux" = Some (1, [5]) /\
  d_vectors (d_current dm) = [("flux", [6])].
Proof.
  exists (mkBuild true true true true). eexists. split; [reflexivity|].
  exists (mkSol [[1; 2]; [3; 4]] [] []), (mkData (mkDmap [("flux", [6])] []) [mkDmap [("flux", [5])] []]), (mkMesh 2 1 [] []). eexists. eexists. eexists.
  split; [reflexivity|]. split; [reflexivity|]. split; [intros row [<- |[<- |[]]]; reflexivity|]. split; [reflexivity|]. repeat split.
Qed.
Example C138_reachable :
  exists m' f0 f1, output 1 "Thermal" "Parabolic" (mkSol [[1; 2; 3]; [3; 4; 5]] [] []) (mkData (mkDmap [] []) [mkDmap [("flux", [5; 6]); ("norm", [9])] [("gradient", (2, [[1; 2]; [3; 4]]))]; mkDmap [("flux", [7; 8])] []])
    (mkMesh 3 2 [] []) = Ok (m', [f0; f1]) /\
  tag (f_elem f0) "gradient" = Some (2, [1; 2; 3; 4]) /\ tag (f_elem f0) "norm" = None /\ tag (f_elem f1) "flux" = Some (1, [7; 8]) /\
  unique_names (mkDmap [("flux", [5; 6]); ("norm", [9])] [("gradient", (2, [[1; 2]; [3; 4]]))]).
Proof.
  eexists. eexists. eexists. split; [reflexivity|]. split; [reflexivity|]. split; [reflexivity|]. split; [reflexivity|].
  split; cbn; repeat (constructor; [cbn; intros H; repeat (destruct H as [H|H]; [discriminate|]); exact H|]); constructor.
Qed.

Print Assumptions C137_fields.
Print Assumptions C137_state_partial.
Print Assumptions C137_rates.
Print Assumptions C137_electromechanical.
Print Assumptions C137_stabilized_refuted.
Print Assumptions C138_data_partial.
Print Assumptions C138_thermoplastic_refuted.
Print Assumptions C138_stale_refuted.
