(** What the names in the input stand for. *)
From Coq Require Import String Reals List.
From Verif Require Import Base.Res Penalty.PenaltyModel Factory.FactoryModel.
Import ListNotations.
Local Open Scope R_scope.
Local Open Scope string_scope.

(** The equation of a physics: its name in the input and its evaluator. *)
Definition equations (ph : physics) : list (string * string) :=
  match ph with
  | Mechanics => [("Elliptic", "ElastostaticResidual")]
  | Thermal => [("Elliptic", "ThermostaticResidual")]
  | Thermomechanics => [("Elliptic", "ThermoelastostaticResidual")]
  | Electromechanics => [("Elliptic", "ElectroelastostaticResidual")]
  | StabMechanics => [("Elliptic", "StabilizedElastostaticResidual")]
  | StabThermomechanics => [("Elliptic", "StabilizedThermoelastostaticResidual")]
  | TransientThermal => [("Parabolic", "HeatEquationResidual")]
  | TransientThermomechanics => [("Parabolic", "TransientThermomechResidual")]
  | TransientMechanics => [("Hyperbolic", "TransientMechanicsResidual")]
  | Plasticity => [("Elliptic", "InfinitesimalStrainPlasticityResidual")]
  | ThermoPlasticity => [("Elliptic", "InfinitesimalStrainThermoPlasticityResidual")]
  | Geometrical => []
  end.
(** The criteria of a physics with a penalty of their own, and those without. *)
Definition penalised_criteria (ph : physics) : list (string * string) :=
  match ph with
  | Mechanics => [("Internal Elastic Energy", "InternalElasticEnergy"); ("Stress P-Norm", "StressPNorm"); ("Effective Energy", "EffectiveEnergy")]
  | Thermal => [("Internal Thermal Energy", "InternalThermalEnergy"); ("Flux P-Norm", "FluxPNorm")]
  | TransientThermal => [("Internal Thermal Energy", "InternalThermalEnergy"); ("Temperature Average", "TemperatureAverage")]
  | Thermomechanics => [("Internal Thermoelastic Energy", "InternalThermoelasticEnergy"); ("Volume", "Volume")]
  | TransientThermomechanics => [("Internal Thermoelastic Energy", "InternalThermoelasticEnergy")]
  | Electromechanics => [("Internal Electroelastic Energy", "InternalElectroelasticEnergy"); ("Stress P-Norm", "EMStressPNorm")]
  | StabMechanics => [("Internal Elastic Energy", "StabilizedElastostaticEnergy")]
  | TransientMechanics => [("Internal Elastic Energy", "InternalElasticEnergy"); ("Stress P-Norm", "StressPNorm")]
  | Geometrical => [("Volume", "Volume")]
  | _ => []
  end.
Definition plain_criteria (ph : physics) : list (string * string) :=
  match ph with
  | Mechanics => [("Stress Constraint", "AugLagStressCriterion"); ("Stress Constraint General", "AugLagStressCriterionGeneral"); ("Density Penalty", "IntermediateDensityPenalty")]
  | Plasticity | ThermoPlasticity => [("Plastic Work", "PlasticWorkCriterion"); ("Elastic Work", "ElasticWorkCriterion")]
  | _ => []
  end.
Definition has_quadratic (ph : physics) : Prop := ph = Mechanics \/ ph = Thermomechanics.
(** The penalties by name. *)
Definition penalties : list (string * pclass) := [("SIMP", Simp); ("RAMP", Ramp); ("Heaviside", Heavi); ("NoPenalty", NoPen)].
(** Where a penalty is described. *)
Definition equation_penalty (p : plist) (name : string) : plist := sublist (sublist p name) "Penalty Function".
Definition criterion_penalty (p : plist) (fname : string) : plist := sublist (sublist (sublist p "Criteria") fname) "Penalty Function".

(** The number in an entry, or its default. *)
Definition number (p : plist) (n : string) (default x : R) : Prop := match vals p n with None => x = default | Some v => v = VNum x end.
Definition numbers_ok (p : plist) : Prop :=
  forall n, In n ["Exponent"; "Minimum Value"; "Additive Continuation"; "Penalty Exponent Upper Bound"; "Regularization Length"] -> vals p n = None \/ exists x, vals p n = Some (VNum x).
Definition described (c : pclass) (p : plist) (f : penalty) : Prop :=
  match c with
  | NoPen => True
  | _ => number p "Exponent" (match c with Heavi => 1 | _ => 3 end) (pn_exp f) /\ number p "Minimum Value" (match c with Simp => / 10 ^ 9 | _ => 0 end) (pn_min f) /\
         number p "Additive Continuation" (1 / 10) (pn_inc f) /\ number p "Penalty Exponent Upper Bound" (match c with Heavi => 1 | _ => 3 end) (pn_bound f) /\
         (c = Heavi -> number p "Regularization Length" 1 (pn_reg f))
  end.
