(** C111: which problem a description selects. *)
From Coq Require Import String List Bool.
From Verif Require Import Base.Res Blocks.BlocksModel Blocks.BlocksSpec.
Import ListNotations.

(** ** C111: every description selects the problem it names, or is refused *)

Lemma not_eqb (x y : string) : x <> y -> String.eqb x y = false.
Proof. apply String.eqb_neq. Qed.
(** Looking a description up in the offers. *)
Definition found (phys pde : string) (l : list (string * string * created)) : option created :=
  match find (fun x => String.eqb phys (fst (fst x)) && String.eqb pde (snd (fst x))) l with Some x => Some (snd x) | None => None end.
Lemma answers b phys pde o : o = match found phys pde (offers b) with Some p => Ok p | None => Throw end -> answered b phys pde o.
Proof.
  unfold found, answered. intros ->. destruct (find _ (offers b)) as [[[x y] p]|] eqn:E.
  - left. apply find_some in E. destruct E as [E1 E2]. cbn in E2. apply andb_true_iff in E2 as [E2 E3].
    apply String.eqb_eq in E2, E3. subst. exists p. split; [exact E1|reflexivity].
  - right. split; [|reflexivity]. intros p Hp. apply (find_none _ _ E) in Hp. cbn in Hp. rewrite !String.eqb_refl in Hp. discriminate.
Qed.

Lemma offers_problem b x : In x (offers b) -> snd x <> Null.
Proof.
  intros H. enough (G : forallb (fun x => match snd x with Null => false | _ => true end) (offers b) = true).
  { rewrite forallb_forall in G. specialize (G x H). intros E. rewrite E in G. discriminate. }
  destruct b as [[] [] [] []]; reflexivity.
Qed.
Lemma offers_found b phys pde p : In (phys, pde, p) (offers b) -> existsb (fun x => String.eqb phys (fst (fst x)) && String.eqb pde (snd (fst x))) (offers b) = true.
Proof. intros H. apply existsb_exists. eexists. split; [exact H|]. cbn. rewrite !String.eqb_refl. reflexivity. Qed.

(** The statement for all builds and descriptions is refuted below.  Missing here: structural dynamics, electromechanics, and mechanics
    in a build without the hyperbolic problem. *)
Theorem C111_problem_selection_partial : forall b phys pde,
  (b_stabilized b = true -> b_elliptic b = true) ->
  phys <> "StructuralDynamics"%string -> phys <> "Electromechanical"%string -> (phys = "Mechanical"%string -> b_hyperbolic b = true) ->
  answered b phys pde (create b phys pde).
Proof.
  intros [e p h s] phys pde Hs H1 H2 H3. cbn in Hs, H3.
  apply not_eqb in H1, H2.
  assert (HM : String.eqb phys "Mechanical" = true -> h = true) by (intros E; apply H3, String.eqb_eq, E). clear H3.
  apply answers. unfold create, choice, offers, found. cbn [b_elliptic b_parabolic b_hyperbolic b_stabilized].
  rewrite H1, H2.
  destruct (String.eqb phys "Mechanical") eqn:E1; [specialize (HM eq_refl); subst h|clear HM];
  [|destruct (String.eqb phys "Plasticity") eqn:E2;
  [|destruct (String.eqb phys "Thermoplasticity") eqn:E3;
  [|destruct (String.eqb phys "Stabilized Mechanical") eqn:E4;
  [|destruct (String.eqb phys "Thermal") eqn:E5;
  [|destruct (String.eqb phys "Stabilized Thermomechanical") eqn:E6;
  [|destruct (String.eqb phys "Thermomechanical") eqn:E7]]]]]];
  try (match goal with E : String.eqb phys _ = true |- _ => apply String.eqb_eq in E; subst phys end);
  (destruct (String.eqb pde "Elliptic") eqn:F1; [apply String.eqb_eq in F1; subst pde|
   destruct (String.eqb pde "Parabolic") eqn:F2; [apply String.eqb_eq in F2; subst pde|
   destruct (String.eqb pde "Hyperbolic") eqn:F3; [apply String.eqb_eq in F3; subst pde|]]]);
  destruct e, p, s; try (specialize (Hs eq_refl); discriminate); try destruct h; cbn;
  rewrite ?E1, ?E2, ?E3, ?E4, ?E5, ?E6, ?E7, ?H2, ?F1, ?F2, ?F3; cbn; auto.
Qed.
Example C111_thermal : create (mkBuild true true true true) "Thermal" "Parabolic" = Ok (Problem ParabolicProblem Thermal) /\
  create (mkBuild true true true true) "Thermal" "Hyperbolic" = Throw /\ create (mkBuild true false true true) "Thermal" "Parabolic" = Throw.
Proof. repeat split. Qed.

(** Whatever the build: a problem that is made is the one that was named, electromechanics excepted. *)
Theorem C111_no_other_problem : forall b phys pde s p,
  (b_stabilized b = true -> b_elliptic b = true) -> phys <> "Electromechanical"%string ->
  create b phys pde = Ok (Problem s p) -> In (phys, pde, Problem s p) (offers b).
Proof.
  intros b phys pde s p Hs H2 H.
  destruct (String.eqb_spec phys "StructuralDynamics") as [->|N1]; [unfold create in H; cbn in H; rewrite !andb_false_r in H; discriminate H|].
  destruct (String.eqb_spec phys "Mechanical") as [->|N2].
  - destruct b as [e pa h st]. revert H. unfold create, choice. cbn.
    destruct e; cbn; [destruct (String.eqb_spec pde "Elliptic") as [->|]; [intros H; injection H as <- <-; left; reflexivity|]|];
    (destruct h; [|discriminate]; destruct (String.eqb_spec pde "Hyperbolic") as [->|]; [|discriminate];
     intros H; injection H as <- <-; unfold offers; cbn; repeat (apply in_or_app; right); destruct pa; cbn; tauto).
  - destruct (C111_problem_selection_partial b phys pde Hs N1 H2) as [[q [H3 H4]]|[_ H4]]; [intros; contradiction| |congruence].
    rewrite H in H4. injection H4 as <-. exact H3.
Qed.
Example C111_no_other_case : create (mkBuild true true false false) "Mechanical" "Elliptic" = Ok (Problem EllipticProblem Mechanics).
Proof. reflexivity. Qed.

(** Structural dynamics is accepted and gives no problem at all, in every build and whatever the equation. *)
Theorem C111_structural_dynamics_refuted : forall b pde, create b "StructuralDynamics" pde = Ok Null /\ ~ answered b "StructuralDynamics" pde (create b "StructuralDynamics" pde).
Proof.
  intros b pde. assert (E : create b "StructuralDynamics" pde = Ok Null) by (unfold create; cbn; rewrite !andb_false_r; reflexivity).
  split; [exact E|]. rewrite E. intros [[p [H H']]|[_ H]]; [|discriminate]. injection H' as <-.
  exact (offers_problem _ _ H eq_refl).
Qed.
(** Electromechanics is static whatever equation is asked for. *)
Theorem C111_electromechanical_refuted : forall b pde,
  create b "Electromechanical" pde = Ok (Problem EllipticProblem Electromechanics) /\
  ~ answered b "Electromechanical" "Hyperbolic" (create b "Electromechanical" "Hyperbolic").
Proof.
  intros b pde.
  assert (E : forall q, create b "Electromechanical" q = Ok (Problem EllipticProblem Electromechanics)) by (intros q; unfold create; cbn; rewrite !andb_false_r; reflexivity).
  split; [apply E|]. rewrite E. intros [[p [H H']]|[_ H]]; [|discriminate].
  apply offers_found in H. destruct b as [[] [] [] []]; discriminate.
Qed.
(** Without the hyperbolic problem, mechanics with an unknown equation is not refused. *)
Theorem C111_mechanical_refuted : forall e p s, create (mkBuild e p false s) "Mechanical" "Parabolic" = Ok Null /\
  ~ answered (mkBuild e p false s) "Mechanical" "Parabolic" (create (mkBuild e p false s) "Mechanical" "Parabolic").
Proof.
  intros e p s. assert (E : create (mkBuild e p false s) "Mechanical" "Parabolic" = Ok Null) by (unfold create, choice; cbn; destruct e; reflexivity).
  split; [exact E|]. rewrite E. intros [[q [H H']]|[_ H]]; [|discriminate]. injection H' as <-.
  exact (offers_problem _ _ H eq_refl).
Qed.

Print Assumptions C111_problem_selection_partial.
Print Assumptions C111_no_other_problem.
