(** Structural dynamics in the frequency domain: the response to a load of one angular frequency.  A node carries 2d numbers: the d real parts of its
    displacement, then the d imaginary parts.  Penalty and projection functions are the template parameters of the residuals.  Numbers are idealised to the
    reals.  Body and boundary loads are not part of this file. *)
From Coq Require Import Reals List Arith Bool.
From Verif Require Import Base.Field Base.Sums Element.ElementModel Penalty.PenaltyModel Residual.ResidualModel.
Import ListNotations.
Local Open Scope R_scope.

(** mCellStiffness, mDensity, mMassPropDamp and mStiffPropDamp of StructuralDynamicsResidual (src/StructuralDynamicsResidual.hpp 65-74) and of
    AdjointStructuralDynamicsResidual (src/AdjointStructuralDynamicsResidual.hpp 61-70). *)
Record harmonic := mkHarmonic { h_stiff : nat -> nat -> R; h_rho : R; h_ra : R; h_rb : R }.

(** ComplexStrain, src/ComplexStrain.hpp 33-73, component c (0 real, 1 imaginary), into a new view. *)
Definition complex_strain (d : nat) (u : nat -> R) (g : coords) (c : nat) : nat -> R := strain d (2 * d) (fun _ => 0) (fun k => u (k + d * c)%nat) g.
(** ComplexLinearStress, src/ComplexLinearStress.hpp 42-64. *)
Definition complex_stress (nv : nat) (C : nat -> nat -> R) (e : nat -> nat -> R) (c i : nat) : R := rsum nv (fun j => e c j * C i j).
(** ComplexStressDivergence, src/ComplexStressDivergence.hpp 52-78, into a new view. *)
Definition complex_divergence (d : nat) (vol : R) (s : nat -> nat -> R) (g : coords) : nat -> R :=
  fold_left (fun o c => stress_divergence d (2 * d) (c * d) 1 vol (s c) g o) (seq 0 2) (fun _ => 0).
(** StateValues, src/StateValues.hpp 52-77: the displacement at the cubature point. *)
Definition state_values (d : nat) (u : nat -> R) (i : nat) : R := interpolate d (2 * d) i u.
(** InertialForces, src/InertialForces.hpp 35-53. *)
Definition inertial_forces (d : nat) (rho vol : R) (q : nat -> R) : nat -> R :=
  fold_left (fun o a => fold_left (fun o i => fun k => if Nat.eqb k (2 * d * a + i) then cub_basis d a * q i * vol * rho else o k) (seq 0 (2 * d)) o)
    (seq 0 (S d)) (fun _ => 0).
(** ComplexRayleighDamping, src/ComplexRayleighDamping.hpp 64-85: the loop runs over the first 2d entries of the cell, those of its first node; the view is new. *)
Definition complex_damping (d : nat) (ra rb : R) (fe fi : nat -> R) : nat -> R :=
  fold_left (fun o i => fun k =>
      if Nat.eqb k (d + i) then (-1) * (ra * fi i + rb * fe i)
      else if Nat.eqb k i then ra * fi (d + i)%nat + rb * fe (d + i)%nat else o k)
    (seq 0 d) (fun _ => 0).
(** AdjointComplexRayleighDamping, src/AdjointComplexRayleighDamping.hpp 67-88. *)
Definition adjoint_damping (d : nat) (ra rb : R) (fe fi : nat -> R) : nat -> R :=
  fold_left (fun o i => fun k =>
      if Nat.eqb k (d + i) then ra * fi i + rb * fe i
      else if Nat.eqb k i then (-1) * (ra * fi (d + i)%nat + rb * fe (d + i)%nat) else o k)
    (seq 0 d) (fun _ => 0).
(** ApplyProjection, src/ApplyProjection.hpp 63-77, then the penalty of ApplyPenalty, src/ApplyPenalty.hpp 84-96. *)
Definition cell_penalty (d : nat) (pen proj : R -> R) (z : nat -> R) : R := pen (proj (cell_density (S d) z)).
(** structural_dynamics_cell_residual, src/StructuralDynamicsCellResidual.hpp 36-58, into a residual of zeros. *)
Definition cell_residual (d : nat) (ww : R) (fe fd fi : nat -> R) (k : nat) : R := if Nat.ltb k (S d * (2 * d)) then 0 + (fe k + fd k - ww * fi k) else 0.

(** StructuralDynamicsResidual::evaluate, src/StructuralDynamicsResidual.hpp 256-324, and AdjointStructuralDynamicsResidual::evaluate,
    src/AdjointStructuralDynamicsResidual.hpp 246-309: the same lines with the other damping. *)
Definition frequency_cell (damping : nat -> R -> R -> (nat -> R) -> (nat -> R) -> nat -> R)
    (d : nat) (pen proj : R -> R) (w : R) (m : harmonic) (x : coords) (u z : nat -> R) : nat -> R :=
  let g := cell_gradient d x in
  let vol := cell_measure d x in
  let fe := complex_divergence d vol (complex_stress (num_voigt d) (h_stiff m) (complex_strain d u g)) g in
  let fi := inertial_forces d (h_rho m) vol (state_values d u) in
  let fd := damping d (h_ra m) (h_rb m) fe fi in
  let p := cell_penalty d pen proj z in
  cell_residual d (w * w) (fun k => fe k * p) (fun k => fd k * p) (fun k => fi k * p).
Definition frequency_residual (damping : nat -> R -> R -> (nat -> R) -> (nat -> R) -> nat -> R)
    (d : nat) (pen proj : R -> R) (w : R) (X : nat -> nat -> R) (U Z : nat -> R) (cells : list (cell harmonic)) : nat -> R :=
  assemble (S d) (2 * d) (fun c => frequency_cell damping d pen proj w (c_mat c) (gather_coords X c) (gather (2 * d) U c) (gather_control Z c)) cells.
Definition forward_residual := frequency_residual complex_damping.
Definition adjoint_residual := frequency_residual adjoint_damping.

(** ComplexElasticEnergy, src/ComplexElasticEnergy.hpp 30-49. *)
Definition complex_elastic_energy (nv : nat) (s e : nat -> nat -> R) : R := rsum 2 (fun c => rsum nv (fun i => s c i * e c i)).
(** ComplexInertialEnergy, src/ComplexInertialEnergy.hpp 28-48. *)
Definition complex_inertial_energy (d : nat) (w rho vol : R) (q : nat -> R) : R :=
  fold_left (fun t i => t - w * w * rho * vol * (q i * q i + q (d + i)%nat * q (d + i)%nat)) (seq 0 d) 0.
(** DynamicCompliance::evaluate, src/DynamicCompliance.hpp 127-190.  The angular frequency is the argument aTimeStep. *)
Definition compliance_cell (d : nat) (pen proj : R -> R) (w : R) (m : harmonic) (x : coords) (u z : nat -> R) : R :=
  let g := cell_gradient d x in
  let vol := cell_measure d x in
  let e := complex_strain d u g in
  let p := cell_penalty d pen proj z in
  let s := fun c i => complex_stress (num_voigt d) (h_stiff m) e c i * p in
  let ee := complex_elastic_energy (num_voigt d) s e * vol in
  let ei := complex_inertial_energy d w (h_rho m) vol (state_values d u) * p in
  1 / 2 * (ee + ei).
Definition dynamic_compliance (d : nat) (pen proj : R -> R) (w : R) (X : nat -> nat -> R) (U Z : nat -> R) (cells : list (cell harmonic)) : R :=
  total (fun c => compliance_cell d pen proj w (c_mat c) (gather_coords X c) (gather (2 * d) U c) (gather_control Z c)) cells.
(** PhysicsScalarFunction::value, src/elliptic/PhysicsScalarFunction.hpp 224-283, of a solution with one state per frequency: every state is
    evaluated with the one argument aTimeStep. *)
Definition scalar_value (f : R -> (nat -> R) -> R) (w : R) (states : list (nat -> R)) : R := fold_left (fun t u => t + f w u) states 0.
(** StructuralDynamicsProblem::objectiveValue, src/StructuralDynamicsProblem.hpp 306-349: no frequency is passed, so the default, 0.0, is used. *)
Definition objective_value (f : R -> (nat -> R) -> R) (states : list (nat -> R)) : R := scalar_value f 0 states.
