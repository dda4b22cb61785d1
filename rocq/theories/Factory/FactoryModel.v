(** From names in the input to evaluators: the function factories of the physics (src/Mechanics.hpp, Thermal.hpp, Thermomechanics.hpp, Electromechanics.hpp,
    StabilizedMechanics.hpp, StabilizedThermomechanics.hpp, Geometrical.hpp, InfinitesimalStrainPlasticity.hpp, InfinitesimalStrainThermoPlasticity.hpp,
    hyperbolic/HyperbolicMechanics.hpp), the criterion factories and the criteria loops of the problems.
    An evaluator is its class and its penalty; that its constructor may refuse its other input is left out. *)
From Coq Require Import String Reals List Arith Bool.
From Verif Require Import Base.Res Penalty.PenaltyModel.
Import ListNotations.
Local Open Scope R_scope.
Local Open Scope string_scope.

(** A Teuchos parameter list: entries and sublists by name.  [sublist]: a missing list is created, empty. *)
Inductive value := VStr (s : string) | VNum (r : R) | VFlag (b : bool) | VOther.
Inductive plist := PList (v : string -> option value) (s : string -> option plist).
Definition vals (p : plist) := let 'PList v _ := p in v.
Definition subs (p : plist) := let 'PList _ s := p in s.
Definition empty : plist := PList (fun _ => None) (fun _ => None).
Definition sublist (p : plist) (n : string) : plist := match subs p n with Some q => q | None => empty end.
(** get<T>(name), and get<T>(name, default): the default if there is no entry, an error if it has another type. *)
Definition get_string (p : plist) (n : string) : res string := match vals p n with Some (VStr s) => Ok s | _ => Throw end.
Definition string_or (p : plist) (n d : string) : res string := match vals p n with None => Ok d | Some (VStr s) => Ok s | Some _ => Throw end.
Definition num_or (p : plist) (n : string) (d : R) : res R := match vals p n with None => Ok d | Some (VNum x) => Ok x | Some _ => Throw end.
Definition flag_or (p : plist) (n : string) (d : bool) : res bool := match vals p n with None => Ok d | Some (VFlag x) => Ok x | Some _ => Throw end.

(** ** Penalties *)
Inductive pclass := Simp | Ramp | Heavi | NoPen.
(** The constructors from a list: Simp.hpp 41-52, Ramp.hpp 38-44, Heaviside.hpp 46-53; NoPenalty.hpp 35 reads nothing. *)
Definition make_penalty (c : pclass) (p : plist) : res penalty :=
  match c with
  | Simp => let! e := num_or p "Exponent" 3 in let! m := num_or p "Minimum Value" (/ 10 ^ 9) in let! b := num_or p "Penalty Exponent Upper Bound" 3 in
            let! i := num_or p "Additive Continuation" (1 / 10) in Ok (mkPenalty m e 0 b i)
  | Ramp => let! e := num_or p "Exponent" 3 in let! m := num_or p "Minimum Value" 0 in let! i := num_or p "Additive Continuation" (1 / 10) in
            let! b := num_or p "Penalty Exponent Upper Bound" 3 in Ok (mkPenalty m e 0 b i)
  | Heavi => let! e := num_or p "Exponent" 1 in let! r := num_or p "Regularization Length" 1 in let! m := num_or p "Minimum Value" 0 in
             let! i := num_or p "Additive Continuation" (1 / 10) in let! b := num_or p "Penalty Exponent Upper Bound" 1 in Ok (mkPenalty m e r b i)
  | NoPen => Ok (mkPenalty 0 0 0 0 0)
  end.

(** What a factory returns: an evaluator, or a null pointer (None). *)
Record built := mkBuilt { b_class : string; b_penalty : option (pclass * penalty) }.
Definition with_penalty (cls : string) (c : pclass) (pl : plist) : res (option built) := let! f := make_penalty c pl in Ok (Some (mkBuilt cls (Some (c, f)))).
Definition plain (cls : string) : res (option built) := Ok (Some (mkBuilt cls None)).
(** The chain over the penalty names; [no]: it has a case NoPenalty; [otherwise]: its last case. *)
Definition by_type (no : bool) (otherwise : res (option built)) (cls ty : string) (pl : plist) : res (option built) :=
  if String.eqb ty "SIMP" then with_penalty cls Simp pl
  else if String.eqb ty "RAMP" then with_penalty cls Ramp pl
  else if String.eqb ty "Heaviside" then with_penalty cls Heavi pl
  else if andb no (String.eqb ty "NoPenalty") then with_penalty cls NoPen pl
  else otherwise.

Inductive physics := Mechanics | Thermal | Thermomechanics | Electromechanics | StabMechanics | StabThermomechanics
  | TransientThermal | TransientThermomechanics | TransientMechanics | Geometrical | Plasticity | ThermoPlasticity.

(** The equations: Mechanics.hpp 75-110, 357-374; Thermal.hpp 32-72, 75-114; Thermomechanics.hpp 97-144, 147-183; Electromechanics.hpp 32-78; StabilizedMechanics.hpp 34-70, 86-104;
    StabilizedThermomechanics.hpp 35-81; HyperbolicMechanics.hpp 21-68; InfinitesimalStrainPlasticity.hpp 40-61; InfinitesimalStrainThermoPlasticity.hpp 40-61.
    Geometrical has none. *)
Definition equation (ph : physics) (p : plist) (name : string) : res (option built) :=
  let pl := sublist (sublist p name) "Penalty Function" in
  let own cond k := if String.eqb name cond then k else Throw in
  match ph with
  | Mechanics => own "Elliptic" (let! ty := string_or pl "Type" "SIMP" in by_type true (Ok None) "ElastostaticResidual" ty pl)
  | Thermal => own "Elliptic" (let! ty := get_string pl "Type" in by_type false Throw "ThermostaticResidual" ty pl)
  | Thermomechanics => own "Elliptic" (let! ty := string_or pl "Type" "SIMP" in by_type true Throw "ThermoelastostaticResidual" ty pl)
  | Electromechanics => own "Elliptic" (let! ty := string_or pl "Type" "SIMP" in by_type true Throw "ElectroelastostaticResidual" ty pl)
  | StabMechanics => own "Elliptic" (let! ty := string_or pl "Type" "SIMP" in by_type true (Ok None) "StabilizedElastostaticResidual" ty pl)
  | StabThermomechanics => own "Elliptic" (let! ty := string_or pl "Type" "SIMP" in by_type true Throw "StabilizedThermoelastostaticResidual" ty pl)
  | TransientThermal => own "Parabolic" (let! ty := get_string pl "Type" in by_type false Throw "HeatEquationResidual" ty pl)
  | TransientThermomechanics => own "Parabolic" (let! ty := get_string pl "Type" in by_type false Throw "TransientThermomechResidual" ty pl)
  | TransientMechanics => own "Hyperbolic" (let! ty := get_string pl "Type" in by_type false Throw "TransientMechanicsResidual" ty pl)
  | Plasticity => own "Elliptic" (plain "InfinitesimalStrainPlasticityResidual")
  | ThermoPlasticity => own "Elliptic" (plain "InfinitesimalStrainThermoPlasticityResidual")
  | Geometrical => Throw
  end.

(** create_local_measure, Mechanics.hpp 42-67 and Thermomechanics.hpp 43-63. *)
Definition local_measure (thermal : bool) (p : plist) (fname : string) : res string :=
  let! m := string_or (sublist (sublist p "Criteria") fname) "Local Measure" "VonMises" in
  if String.eqb m "VonMises" then Ok (if thermal then "ThermalVonMisesLocalMeasure" else "VonMisesLocalMeasure")
  else if andb (negb thermal) (String.eqb m "TensileEnergyDensity") then Ok "TensileEnergyDensityLocalMeasure" else Throw.
(** stress_constraint_quadratic, Mechanics.hpp 163-183 and Thermomechanics.hpp 72-91: the criterion with its measure. *)
Definition quadratic (thermal : bool) (p : plist) (fname : string) : res (option built) :=
  let! m := local_measure thermal p fname in plain (String.append "AugLagStressCriterionQuadratic:" m).

(** The criteria 'Scalar Function Type': Mechanics.hpp 193-320, 399-448; Thermal.hpp 117-178, 180-244; Thermomechanics.hpp 185-286, 288-329; Electromechanics.hpp 80-157;
    StabilizedMechanics.hpp 107-152; StabilizedThermomechanics.hpp 99-112; HyperbolicMechanics.hpp 70-123 (whose evaluators take the sublist 'Penalty Function' themselves);
    Geometrical.hpp 20-60; InfinitesimalStrain(Thermo)Plasticity.hpp 77-105. *)
Definition criterion (ph : physics) (p : plist) (type fname : string) : res (option built) :=
  let pl := sublist (sublist (sublist p "Criteria") fname) "Penalty Function" in
  match ph with
  | Mechanics =>
      let pen cls := let! ty := string_or pl "Type" "SIMP" in by_type true (Ok None) cls ty pl in
      if String.eqb type "Internal Elastic Energy" then pen "InternalElasticEnergy"
      else if String.eqb type "Stress P-Norm" then pen "StressPNorm"
      else if String.eqb type "Effective Energy" then pen "EffectiveEnergy"
      else if String.eqb type "Stress Constraint" then plain "AugLagStressCriterion"
      else if String.eqb type "Stress Constraint General" then plain "AugLagStressCriterionGeneral"
      else if String.eqb type "Stress Constraint Quadratic" then quadratic false p fname
      else if String.eqb type "Density Penalty" then plain "IntermediateDensityPenalty"
      else Ok None
  | Thermal =>
      let! ty := get_string pl "Type" in
      if String.eqb type "Internal Thermal Energy" then by_type false Throw "InternalThermalEnergy" ty pl
      else if String.eqb type "Flux P-Norm" then by_type false Throw "FluxPNorm" ty pl
      else Throw
  | TransientThermal =>
      let! ty := get_string pl "Type" in
      if String.eqb type "Internal Thermal Energy" then by_type false Throw "InternalThermalEnergy" ty pl
      else if String.eqb type "Temperature Average" then by_type false Throw "TemperatureAverage" ty pl
      else Throw
  | Thermomechanics =>
      let! ty := string_or pl "Type" "SIMP" in
      if String.eqb type "Internal Thermoelastic Energy" then by_type false Throw "InternalThermoelasticEnergy" ty pl
      else if String.eqb type "Stress Constraint Quadratic" then quadratic true p fname
      else if String.eqb type "Volume" then by_type false Throw "Volume" ty pl
      else Throw
  | TransientThermomechanics =>
      let! ty := get_string pl "Type" in
      if String.eqb type "Internal Thermoelastic Energy" then by_type false Throw "InternalThermoelasticEnergy" ty pl else Throw
  | Electromechanics =>
      let! ty := string_or pl "Type" "SIMP" in
      if String.eqb type "Internal Electroelastic Energy" then by_type true Throw "InternalElectroelasticEnergy" ty pl
      else if String.eqb type "Stress P-Norm" then by_type true Throw "EMStressPNorm" ty pl
      else Throw
  | StabMechanics =>
      let pl := sublist (sublist p fname) "Penalty Function" in
      if String.eqb type "Internal Elastic Energy" then let! ty := string_or pl "Type" "SIMP" in by_type true (Ok None) "StabilizedElastostaticEnergy" ty pl
      else Throw
  | StabThermomechanics => Throw
  | TransientMechanics =>
      let! ty := get_string pl "Type" in
      if String.eqb type "Internal Elastic Energy" then by_type false Throw "InternalElasticEnergy" ty pl
      else if String.eqb type "Stress P-Norm" then by_type false Throw "StressPNorm" ty pl
      else Throw
  | Geometrical =>
      if String.eqb type "Volume" then let! ty := get_string pl "Type" in by_type false Throw "Volume" ty pl else Throw
  | Plasticity | ThermoPlasticity =>
      if String.eqb type "Plastic Work" then plain "PlasticWorkCriterion" else if String.eqb type "Elastic Work" then plain "ElasticWorkCriterion" else Throw
  end.

(** ** The kinds of criteria *)
Inductive kind := ScalarFunction | WeightedSum | Division | Solution | LeastSquares | MassProperties.
Inductive family := EllipticF | ParabolicF | HyperbolicF | GeometricF | PathDependentF.
(** The entry 'Type': elliptic 25-70, parabolic 19-42, geometric 24-65, hyperbolic 20-42 and PathDependentScalarFunctionFactory_def.hpp 25-53. *)
Definition kind_of (fam : family) (q : plist) : res (option kind) :=
  let! t := string_or q "Type" "Not Defined" in
  let is n := String.eqb t n in
  match fam with
  | EllipticF => Ok (if is "Weighted Sum" then Some WeightedSum else if is "Division" then Some Division else if is "Solution" then Some Solution
                     else if is "Least Squares" then Some LeastSquares else if is "Mass Properties" then Some MassProperties else if is "Scalar Function" then Some ScalarFunction else None)
  | GeometricF => Ok (if is "Weighted Sum" then Some WeightedSum else if is "Division" then Some Division
                      else if is "Least Squares" then Some LeastSquares else if is "Mass Properties" then Some MassProperties else if is "Scalar Function" then Some ScalarFunction else None)
  | ParabolicF | HyperbolicF => if is "Scalar Function" then Ok (Some ScalarFunction) else Throw
  | PathDependentF => if is "Scalar Function" then Ok (Some ScalarFunction) else if is "Weighted Sum" then Ok (Some WeightedSum) else Throw
  end.
(** The criteria loops: elliptic/Problem.hpp 662-691, parabolic/Problem.hpp 112-141, hyperbolic/HyperbolicProblem.hpp 105-124.  The criteria in the order of the list: the name, whether it
    went to the linear criteria, and its kind.  [None]: an entry that is not a list. *)
Inductive problem := EllipticP | ParabolicP | HyperbolicP.
Definition one_criterion (pb : problem) (name : string) (q : plist) : res (list (string * (bool * kind))) :=
  let! linear := match pb with HyperbolicP => Ok false | _ => flag_or q "Linear" false end in
  let! k := kind_of (if linear then GeometricF else match pb with EllipticP => EllipticF | ParabolicP => ParabolicF | HyperbolicP => HyperbolicF end) q in
  Ok (match k with Some k => [(name, (linear, k))] | None => [] end).
Definition criteria (pb : problem) (es : list (string * option plist)) : res (list (string * (bool * kind))) :=
  foldR (fun e acc => match snd e with None => Throw | Some q => let! l := one_criterion pb (fst e) q in Ok (acc ++ l)%list end) es [].
