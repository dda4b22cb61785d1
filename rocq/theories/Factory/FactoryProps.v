(** Names in the input select the evaluators they name, with the penalties of their own lists. *)
From Coq Require Import String Reals List Arith Bool Lra.
From Verif Require Import Base.Res Penalty.PenaltyModel Factory.FactoryModel Factory.FactorySpec.
Import ListNotations.
Local Open Scope R_scope.
Local Open Scope string_scope.

Lemma num_ok p n d : vals p n = None \/ (exists x, vals p n = Some (VNum x)) -> exists x, num_or p n d = Ok x /\ number p n d x.
Proof. unfold num_or, number. intros [->|[x ->]]; [exists d|exists x]; split; reflexivity. Qed.
Lemma make_ok c p : numbers_ok p -> exists f, make_penalty c p = Ok f /\ described c p f.
Proof.
  intros H.
  destruct (num_ok p "Minimum Value" (match c with Simp => / 10 ^ 9 | _ => 0 end) (H "Minimum Value" ltac:(cbn; tauto))) as (m & Em & Hm).
  destruct (num_ok p "Exponent" (match c with Heavi => 1 | _ => 3 end) (H "Exponent" ltac:(cbn; tauto))) as (e & Ee & He).
  destruct (num_ok p "Additive Continuation" (1 / 10) (H "Additive Continuation" ltac:(cbn; tauto))) as (i & Ei & Hi).
  destruct (num_ok p "Penalty Exponent Upper Bound" (match c with Heavi => 1 | _ => 3 end) (H "Penalty Exponent Upper Bound" ltac:(cbn; tauto))) as (b & Eb & Hb).
  destruct (num_ok p "Regularization Length" 1 (H "Regularization Length" ltac:(cbn; tauto))) as (r & Er & Hr).
  unfold make_penalty. destruct c; rewrite ?Em, ?Ee, ?Ei, ?Eb, ?Er; cbn [rbind]; eexists; (split; [reflexivity|]); cbn; auto; repeat split; auto; discriminate.
Qed.

Ltac inlist := cbn; solve [repeat first [left; reflexivity | right]].
Definition has_no (ph : physics) : bool := match ph with Mechanics | Thermomechanics | Electromechanics | StabMechanics | StabThermomechanics => true | _ => false end.
Lemma by_type_ok no o cls ty c pl : In (ty, c) penalties -> (ty = "NoPenalty" -> no = true) -> numbers_ok pl -> exists f, by_type no o cls ty pl = Ok (Some (mkBuilt cls (Some (c, f)))) /\ described c pl f.
Proof.
  intros H HN HP. destruct (make_ok c pl HP) as (f & E & D). exists f. split; [|exact D]. unfold by_type, with_penalty.
  destruct H as [H|[H|[H|[H|[]]]]]; injection H as <- <-; cbn [String.eqb Ascii.eqb Bool.eqb]; rewrite ?E; try reflexivity. rewrite (HN eq_refl). reflexivity.
Qed.
Lemma by_type_unknown no o cls ty pl : (ty = "NoPenalty" -> no = false) -> (forall c, In (ty, c) penalties -> ty = "NoPenalty") -> by_type no o cls ty pl = o.
Proof.
  intros HN H. unfold by_type. destruct (String.eqb_spec ty "SIMP") as [->|_]; [specialize (H Simp ltac:(cbn; tauto)); discriminate|].
  destruct (String.eqb_spec ty "RAMP") as [->|_]; [specialize (H Ramp ltac:(cbn; tauto)); discriminate|].
  destruct (String.eqb_spec ty "Heaviside") as [->|_]; [specialize (H Heavi ltac:(cbn; tauto)); discriminate|].
  destruct (String.eqb_spec ty "NoPenalty") as [E|_]; [rewrite (HN E); reflexivity|]. rewrite andb_false_r. reflexivity.
Qed.

(** ** Equations *)
(** The physics that give an equation a penalty, and those among them that know 'NoPenalty'. *)
Definition penalised (ph : physics) : Prop := ph <> Plasticity /\ ph <> ThermoPlasticity.
Definition no_penalty_equation (ph : physics) : Prop := ph = Mechanics \/ ph = Thermomechanics \/ ph = Electromechanics \/ ph = StabMechanics \/ ph = StabThermomechanics.
Theorem C127_equation : forall ph p name cls ty c, In (name, cls) (equations ph) -> penalised ph -> In (ty, c) penalties -> (ty = "NoPenalty" -> no_penalty_equation ph) ->
  vals (equation_penalty p name) "Type" = Some (VStr ty) -> numbers_ok (equation_penalty p name) ->
  exists f, equation ph p name = Ok (Some (mkBuilt cls (Some (c, f)))) /\ described c (equation_penalty p name) f.
Proof.
  intros ph p name cls ty c H [P1 P2] HT HN E HO. unfold equation_penalty in *. unfold equation, string_or, get_string.
  assert (HN' : ty = "NoPenalty" -> has_no ph = true) by (intros X; destruct (HN X) as [-> | [-> | [-> | [-> | -> ]]]]; reflexivity).
  destruct ph; cbn [equations] in H; try contradiction; try (exfalso; apply P1; reflexivity); try (exfalso; apply P2; reflexivity); destruct H as [H|[]]; injection H as <- <-; rewrite E;
    cbn [String.eqb Ascii.eqb Bool.eqb rbind]; apply by_type_ok; assumption.
Qed.
Print Assumptions C127_equation.
(** Without a type: SIMP in the static physics other than heat, refused elsewhere. *)
Theorem C127_equation_default : forall ph p name cls, In (name, cls) (equations ph) -> penalised ph -> vals (equation_penalty p name) "Type" = None -> numbers_ok (equation_penalty p name) ->
  (no_penalty_equation ph -> exists f, equation ph p name = Ok (Some (mkBuilt cls (Some (Simp, f)))) /\ described Simp (equation_penalty p name) f) /\
  (~ no_penalty_equation ph -> equation ph p name = Throw).
Proof.
  intros ph p name cls H [P1 P2] E HO. unfold equation_penalty in *. unfold equation, string_or, get_string, no_penalty_equation.
  destruct ph; cbn [equations] in H; try contradiction; try (exfalso; apply P1; reflexivity); try (exfalso; apply P2; reflexivity); destruct H as [H|[]]; injection H as <- <-; rewrite E;
    cbn [String.eqb Ascii.eqb Bool.eqb rbind]; (split; intros Q; [|try reflexivity; exfalso; apply Q; tauto]);
    try (apply by_type_ok; [cbn; tauto|discriminate|assumption]); destruct Q as [Q|[Q|[Q|[Q|Q]]]]; discriminate.
Qed.
Print Assumptions C127_equation_default.
Theorem C127_plasticity : forall ph p name cls, In (name, cls) (equations ph) -> ph = Plasticity \/ ph = ThermoPlasticity -> equation ph p name = Ok (Some (mkBuilt cls None)).
Proof. intros ph p name cls H [-> | -> ]; destruct H as [H|[]]; injection H as <- <-; reflexivity. Qed.
Print Assumptions C127_plasticity.
(** Unknown equations are refused; so are unknown penalties, except in mechanics. *)
Theorem C127_equation_unknown_partial : forall ph p name,
  ((forall cls, ~ In (name, cls) (equations ph)) -> equation ph p name = Throw) /\
  (forall ty, vals (equation_penalty p name) "Type" = Some (VStr ty) -> (forall c, ~ In (ty, c) penalties) -> penalised ph -> ph <> Mechanics -> ph <> StabMechanics -> equation ph p name = Throw).
Proof.
  intros ph p name. split.
  - intros H. unfold equation. destruct ph; cbn [equations] in H; try reflexivity;
      match goal with |- (if String.eqb _ ?s then _ else _) = _ => destruct (String.eqb_spec name s) as [->|_]; [exfalso; eapply H; left; reflexivity|reflexivity] end.
  - intros ty E H [P1 P2] N1 N2. unfold equation_penalty in E.
    assert (B : forall no o cls pl, by_type no o cls ty pl = o) by (intros; apply by_type_unknown; [intros ->; exfalso; apply (H NoPen); cbn; tauto|intros c X; exfalso; exact (H c X)]).
    unfold equation, string_or, get_string. destruct ph; try contradiction; try reflexivity; rewrite E; cbn [rbind]; rewrite B; match goal with |- (if ?b then _ else _) = _ => destruct b; reflexivity end.
Qed.
Print Assumptions C127_equation_unknown_partial.
(** In mechanics an unknown penalty is not refused: there is simply no evaluator. *)
Theorem C127_equation_unknown_refuted : forall ph p ty, ph = Mechanics \/ ph = StabMechanics -> vals (equation_penalty p "Elliptic") "Type" = Some (VStr ty) -> (forall c, ~ In (ty, c) penalties) -> equation ph p "Elliptic" = Ok None.
Proof.
  intros ph p ty HP E H. unfold equation_penalty in E.
  assert (B : forall no o cls pl, by_type no o cls ty pl = o) by (intros; apply by_type_unknown; [intros ->; exfalso; apply (H NoPen); cbn; tauto|intros c X; exfalso; exact (H c X)]).
  unfold equation, string_or. destruct HP as [-> | -> ]; rewrite E; cbn [String.eqb Ascii.eqb Bool.eqb rbind]; apply B.
Qed.
Print Assumptions C127_equation_unknown_refuted.

(** ** Criteria *)
Definition no_penalty_criterion (ph : physics) : Prop := ph = Mechanics \/ ph = Electromechanics.
Theorem C127_criterion_partial : forall ph p type cls fname ty c, In (type, cls) (penalised_criteria ph) -> ph <> StabMechanics -> In (ty, c) penalties -> (ty = "NoPenalty" -> no_penalty_criterion ph) ->
  vals (criterion_penalty p fname) "Type" = Some (VStr ty) -> numbers_ok (criterion_penalty p fname) ->
  exists f, criterion ph p type fname = Ok (Some (mkBuilt cls (Some (c, f)))) /\ described c (criterion_penalty p fname) f.
Proof.
  intros ph p type cls fname ty c H HS HT HN E HO. unfold criterion_penalty in *. unfold criterion, string_or, get_string.
  assert (HN' : ty = "NoPenalty" -> (match ph with Mechanics | Electromechanics => true | _ => false end) = true) by (intros X; destruct (HN X) as [->| ->]; reflexivity).
  destruct ph; cbn [penalised_criteria] in H; try contradiction; try (exfalso; apply HS; reflexivity);
    repeat (destruct H as [H|H]; [injection H as <- <-; rewrite E; cbn [String.eqb Ascii.eqb Bool.eqb rbind]; apply by_type_ok; assumption|]); contradiction.
Qed.
Print Assumptions C127_criterion_partial.
Theorem C127_criterion_plain : forall ph p type cls fname, In (type, cls) (plain_criteria ph) -> criterion ph p type fname = Ok (Some (mkBuilt cls None)).
Proof.
  intros ph p type cls fname H. destruct ph; cbn [plain_criteria] in H; try contradiction; repeat (destruct H as [H|H]; [injection H as <- <-; reflexivity|]); contradiction.
Qed.
Print Assumptions C127_criterion_plain.
(** The quadratic stress constraint has the measure asked for, von Mises if none is, and refuses others. *)
Theorem C127_measure : forall p fname, let q := sublist (sublist p "Criteria") fname in
  (forall m, vals q "Local Measure" = m -> m = None \/ m = Some (VStr "VonMises") -> criterion Mechanics p "Stress Constraint Quadratic" fname = Ok (Some (mkBuilt "AugLagStressCriterionQuadratic:VonMisesLocalMeasure" None)) /\
     (vals (criterion_penalty p fname) "Type" = None -> criterion Thermomechanics p "Stress Constraint Quadratic" fname = Ok (Some (mkBuilt "AugLagStressCriterionQuadratic:ThermalVonMisesLocalMeasure" None)))) /\
  (vals q "Local Measure" = Some (VStr "TensileEnergyDensity") -> criterion Mechanics p "Stress Constraint Quadratic" fname = Ok (Some (mkBuilt "AugLagStressCriterionQuadratic:TensileEnergyDensityLocalMeasure" None)) /\
     criterion Thermomechanics p "Stress Constraint Quadratic" fname = Throw) /\
  (forall m, vals q "Local Measure" = Some (VStr m) -> m <> "VonMises" -> m <> "TensileEnergyDensity" -> criterion Mechanics p "Stress Constraint Quadratic" fname = Throw /\ criterion Thermomechanics p "Stress Constraint Quadratic" fname = Throw).
Proof.
  intros p fname q. unfold criterion, quadratic, local_measure, criterion_penalty. fold q. cbn [String.eqb Ascii.eqb Bool.eqb]. split; [|split].
  - intros m E H. unfold string_or. split; [|intros T; rewrite T; cbn [rbind]]; rewrite E; destruct H; subst m; rewrite H; reflexivity.
  - intros E. unfold string_or. rewrite E. split; [reflexivity|]. destruct (vals (sublist q "Penalty Function") "Type") as [[]|]; reflexivity.
  - intros m E N1 N2. unfold string_or. rewrite E. cbn [rbind]. rewrite (proj2 (String.eqb_neq _ _) N1), (proj2 (String.eqb_neq _ _) N2). cbn [andb negb]. split; [reflexivity|].
    destruct (vals (sublist q "Penalty Function") "Type") as [[]|]; reflexivity.
Qed.
Print Assumptions C127_measure.
(** Unknown criteria and penalties are refused, except in mechanics. *)
Theorem C127_criterion_unknown_partial : forall ph p type fname, ph <> Mechanics ->
  ((forall cls, ~ In (type, cls) (penalised_criteria ph)) -> (forall cls, ~ In (type, cls) (plain_criteria ph)) -> (has_quadratic ph -> type <> "Stress Constraint Quadratic") -> criterion ph p type fname = Throw) /\
  (forall cls ty, In (type, cls) (penalised_criteria ph) -> ph <> StabMechanics -> vals (criterion_penalty p fname) "Type" = Some (VStr ty) -> (forall c, ~ In (ty, c) penalties) -> criterion ph p type fname = Throw).
Proof.
  intros ph p type fname NM. split.
  - intros H1 H2 H3. unfold criterion, string_or, get_string.
    destruct ph; try contradiction; try reflexivity; cbn [penalised_criteria plain_criteria] in *;
      repeat match goal with |- context [String.eqb type ?s] => destruct (String.eqb_spec type s) as [->|_]; [exfalso; first [eapply H1; inlist|eapply H2; inlist|apply H3; [right; reflexivity|reflexivity]]|] end;
      try reflexivity; match goal with |- context [vals ?a ?b] => destruct (vals a b) as [[]|]; reflexivity end.
  - intros cls ty H NS E HU. unfold criterion_penalty in E.
    assert (B : forall no o c pl, by_type no o c ty pl = o) by (intros; apply by_type_unknown; [intros ->; exfalso; apply (HU NoPen); cbn; tauto|intros c' X; exfalso; exact (HU c' X)]).
    unfold criterion, string_or, get_string. destruct ph; cbn [penalised_criteria] in H; try contradiction;
      repeat (destruct H as [H|H]; [injection H as <- <-; rewrite E; cbn [String.eqb Ascii.eqb Bool.eqb rbind]; apply B|]); contradiction.
Qed.
Print Assumptions C127_criterion_unknown_partial.
Theorem C127_criterion_unknown_refuted : forall p type fname, (forall cls, ~ In (type, cls) (penalised_criteria Mechanics)) -> (forall cls, ~ In (type, cls) (plain_criteria Mechanics)) -> type <> "Stress Constraint Quadratic" ->
  criterion Mechanics p type fname = Ok None.
Proof.
  intros p type fname H1 H2 H3. unfold criterion. cbn [penalised_criteria plain_criteria] in *.
  repeat match goal with |- context [String.eqb type ?s] => destruct (String.eqb_spec type s) as [->|_]; [exfalso; first [eapply H1; inlist|eapply H2; inlist|apply H3; reflexivity]|] end. reflexivity.
Qed.
Print Assumptions C127_criterion_unknown_refuted.
(** The criterion of stabilised mechanics takes its penalty from a list beside 'Criteria': what its own list says makes no difference. *)
Theorem C127_stabilised_refuted : forall p p' type fname, subs p fname = subs p' fname -> criterion StabMechanics p type fname = criterion StabMechanics p' type fname.
Proof. intros p p' type fname H. assert (E : sublist p fname = sublist p' fname) by (unfold sublist; rewrite H; reflexivity). unfold criterion. rewrite E. reflexivity. Qed.
Print Assumptions C127_stabilised_refuted.

(** ** Kinds of criteria and the problems' lists *)
Definition kinds : list (string * kind) :=
  [("Scalar Function", ScalarFunction); ("Weighted Sum", WeightedSum); ("Division", Division); ("Solution", Solution); ("Least Squares", LeastSquares); ("Mass Properties", MassProperties)].
Definition knows (fam : family) (k : kind) : Prop :=
  match fam with
  | EllipticF => True
  | GeometricF => k <> Solution
  | ParabolicF | HyperbolicF => k = ScalarFunction
  | PathDependentF => k = ScalarFunction \/ k = WeightedSum
  end.
Theorem C127_kind : forall fam q t k, In (t, k) kinds -> vals q "Type" = Some (VStr t) -> (knows fam k -> kind_of fam q = Ok (Some k)) /\ (~ knows fam k -> kind_of fam q = Throw \/ (fam = GeometricF /\ kind_of fam q = Ok None)).
Proof.
  intros fam q t k H E. unfold kind_of, string_or. rewrite E. cbn [rbind].
  repeat (destruct H as [H|H]; [injection H as <- <-; destruct fam; cbn; split; intros Q; try reflexivity; try (left; reflexivity); try (right; split; reflexivity); exfalso; firstorder congruence|]). contradiction.
Qed.
Print Assumptions C127_kind.
(** Without a 'Type', or with an unknown one, no kind is assumed. *)
Theorem C127_kind_absent : forall fam q, (forall t k, In (t, k) kinds -> vals q "Type" <> Some (VStr t)) ->
  kind_of fam q = Throw \/ ((fam = EllipticF \/ fam = GeometricF) /\ kind_of fam q = Ok None).
Proof.
  intros fam q H. unfold kind_of, string_or. destruct (vals q "Type") as [[]|] eqn:E; cbn [rbind]; try (left; reflexivity).
  2: destruct fam; cbn; tauto.
  assert (N : forall t k, In (t, k) kinds -> String.eqb s t = false) by (intros t k Hi; apply String.eqb_neq; intros ->; exact (H t k Hi eq_refl)).
  rewrite (N "Weighted Sum" WeightedSum), (N "Division" Division), (N "Solution" Solution), (N "Least Squares" LeastSquares), (N "Mass Properties" MassProperties), (N "Scalar Function" ScalarFunction) by (cbn; tauto).
  destruct fam; tauto.
Qed.
Print Assumptions C127_kind_absent.
Example C127_kind_absent_reachable : forall t k, In (t, k) kinds -> vals empty "Type" <> Some (VStr t).
Proof. intros. discriminate. Qed.
(** Every criterion of a list of known kinds is there, in order, under its name; an entry that is not a list is refused. *)
Definition family_of (pb : problem) (linear : bool) : family := if linear then GeometricF else match pb with EllipticP => EllipticF | ParabolicP => ParabolicF | HyperbolicP => HyperbolicF end.
Definition flag_is (q : plist) (b : bool) : Prop := match vals q "Linear" with None => b = false | Some v => v = VFlag b end.
Definition stands_for (pb : problem) (e : string * option plist) (c : string * (bool * kind)) : Prop :=
  exists q t linear k, snd e = Some q /\ c = (fst e, (linear, k)) /\ vals q "Type" = Some (VStr t) /\ In (t, k) kinds /\ knows (family_of pb linear) k /\
    (pb <> HyperbolicP -> flag_is q linear) /\ (pb = HyperbolicP -> linear = false).
Lemma one_ok pb e c q : stands_for pb e c -> snd e = Some q -> one_criterion pb (fst e) q = Ok [c].
Proof.
  intros (q' & t & linear & k & E & -> & T & HK & HF & HL & HH) E'. rewrite E in E'. injection E' as <-. unfold one_criterion.
  assert (L : (match pb with HyperbolicP => Ok false | _ => flag_or q' "Linear" false end) = Ok linear).
  { destruct pb; [| |rewrite (HH eq_refl); reflexivity]; (unfold flag_or; pose proof (HL ltac:(discriminate)) as F; unfold flag_is in F; destruct (vals q' "Linear") as [v|]; [subst v|subst linear]; reflexivity). }
  rewrite L. cbn [rbind]. change (if linear then GeometricF else _) with (family_of pb linear). rewrite (proj1 (C127_kind _ _ _ _ HK T) HF). reflexivity.
Qed.
Theorem C127_list : forall pb es cs, Forall2 (stands_for pb) es cs -> criteria pb es = Ok cs.
Proof.
  intros pb es cs H. unfold criteria.
  enough (G : forall acc, foldR (fun e acc => match snd e with None => Throw | Some q => let! l := one_criterion pb (fst e) q in Ok (acc ++ l)%list end) es acc = Ok (acc ++ cs)%list) by apply G.
  induction H as [|e c es cs He _ IH]; intros acc; [cbn; rewrite app_nil_r; reflexivity|]. cbn [foldR]. pose proof He as He'. destruct He' as (q & t & linear & k & E & _). rewrite E, (one_ok pb e c q He E). cbn [rbind].
  rewrite IH, <- app_assoc. reflexivity.
Qed.
Print Assumptions C127_list.
Theorem C127_list_rejects : forall pb es n, In (n, None) es -> criteria pb es = Throw.
Proof.
  intros pb es n H. unfold criteria. generalize (@nil (string * (bool * kind))). induction es as [|e es IH]; intros acc; [contradiction|]. cbn [foldR].
  destruct (snd e) as [q|] eqn:E; [|reflexivity]. destruct H as [->|H]; [discriminate|].
  assert (T : one_criterion pb (fst e) q <> UB).
  { unfold one_criterion, kind_of, string_or, flag_or. destruct pb; repeat match goal with |- context [vals q ?n] => destruct (vals q n) as [[]|] end; cbn [rbind];
      repeat match goal with |- context [match ?x with _ => _ end] => destruct x; cbn [rbind] end; discriminate. }
  destruct (one_criterion pb (fst e) q); cbn [rbind]; [apply IH; exact H|reflexivity|contradiction].
Qed.
Print Assumptions C127_list_rejects.
(** An unknown kind is refused by transient problems, but an elliptic problem drops the criterion without a word. *)
Theorem C127_kind_refuted : forall name q t, vals q "Type" = Some (VStr t) -> (forall k, ~ In (t, k) kinds) -> vals q "Linear" = None ->
  criteria EllipticP [(name, Some q)] = Ok [] /\ criteria ParabolicP [(name, Some q)] = Throw /\ criteria HyperbolicP [(name, Some q)] = Throw.
Proof.
  intros name q t E H L. unfold criteria, one_criterion, kind_of, flag_or, string_or. cbn [foldR fst snd]. rewrite E, L. cbn [rbind].
  assert (N : forall s k, In (s, k) kinds -> String.eqb t s = false) by (intros s k HI; apply String.eqb_neq; intros ->; exact (H k HI)).
  rewrite (N "Weighted Sum" WeightedSum), (N "Division" Division), (N "Solution" Solution), (N "Least Squares" LeastSquares), (N "Mass Properties" MassProperties), (N "Scalar Function" ScalarFunction) by (cbn; tauto).
  repeat split; reflexivity.
Qed.
Print Assumptions C127_kind_refuted.

(** A stress norm with a RAMP penalty of exponent 5, and a linear volume beside it. *)
Definition penalty_list : plist := PList (fun n => if String.eqb n "Type" then Some (VStr "RAMP") else if String.eqb n "Exponent" then Some (VNum 5) else None) (fun _ => None).
Definition norm_list : plist := PList (fun n => if String.eqb n "Type" then Some (VStr "Scalar Function") else None) (fun n => if String.eqb n "Penalty Function" then Some penalty_list else None).
Definition volume_list : plist := PList (fun n => if String.eqb n "Type" then Some (VStr "Scalar Function") else if String.eqb n "Linear" then Some (VFlag true) else None) (fun _ => None).
Definition problem_list : plist := PList (fun _ => None) (fun n => if String.eqb n "Criteria" then Some (PList (fun _ => None) (fun n => if String.eqb n "Norm" then Some norm_list else None)) else None).
Example C127_reachable : criterion Mechanics problem_list "Stress P-Norm" "Norm" = Ok (Some (mkBuilt "StressPNorm" (Some (Ramp, mkPenalty 0 5 0 3 (1 / 10))))) /\
  criteria EllipticP [("Norm", Some norm_list); ("Volume", Some volume_list)] = Ok [("Norm", (false, ScalarFunction)); ("Volume", (true, ScalarFunction))] /\
  numbers_ok penalty_list /\ Forall2 (stands_for EllipticP) [("Norm", Some norm_list); ("Volume", Some volume_list)] [("Norm", (false, ScalarFunction)); ("Volume", (true, ScalarFunction))].
Proof.
  split; [reflexivity|split; [reflexivity|split]].
  - intros n H. repeat (destruct H as [<-|H]; [cbn; first [left; reflexivity|right; eexists; reflexivity]|]). contradiction.
  - repeat constructor.
    + exists norm_list, "Scalar Function", false, ScalarFunction. repeat split; try reflexivity. left. reflexivity.
    + exists volume_list, "Scalar Function", true, ScalarFunction. repeat split; try reflexivity; [left; reflexivity|discriminate|discriminate].
Qed.
(** The same lists in stabilised mechanics: SIMP of exponent 3 instead of RAMP of exponent 5. *)
Example C127_stabilised_reachable : criterion StabMechanics problem_list "Internal Elastic Energy" "Norm" = Ok (Some (mkBuilt "StabilizedElastostaticEnergy" (Some (Simp, mkPenalty (/ 10 ^ 9) 3 0 3 (1 / 10))))).
Proof. reflexivity. Qed.
