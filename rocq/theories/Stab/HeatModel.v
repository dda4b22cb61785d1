(** Stabilised thermoelastostatics (displacement, pressure and temperature) on a whole mesh of linear simplices, and its material input.  A node carries d
    displacements, the pressure at position d and the temperature at d + 1 (src/SimplexThermomechanics.hpp 53-58). *)
From Coq Require Import String Reals List Arith Bool.
From Verif Require Import Base.Field Base.Sums Base.Res Element.ElementModel Element.MaterialModel Penalty.PenaltyModel Ortho.OrthoModel Residual.ResidualModel Stab.StabModel.
Import ListNotations.
Local Open Scope R_scope.

(** LinearThermoelasticMaterial, src/LinearThermoelasticMaterial.hpp 15-45, without density and specific heat, which this residual does not read. *)
Record heated := mkHeated { h_stiff : nat -> nat -> R; h_alpha : nat -> R; h_cond : nat -> nat -> R; h_tref : R; h_ts : R; h_ps : R }.
(** Its constructor 48-87 followed by IsotropicLinearThermoelasticMaterial<d>, src/LinearThermoelasticMaterial.cpp 7-65.  Entries of Scalar type only: a value
    of another type counts as absent. *)
Definition diagonal (k : nat -> R) (i j : nat) : R := if Nat.eqb i j then k i else 0.
Definition thermo_isotropic (d : nat) (p : plist) : res heated :=
  let! t := get p "Reference Temperature" in
  let! v := get p "Poissons Ratio" in let! e := get p "Youngs Modulus" in
  let! a := get p "Thermal Expansion Coefficient" in let! k := get p "Thermal Conductivity Coefficient" in
  Ok (mkHeated (isotropic_material d e v) (fun _ => a) (diagonal (fun _ => k)) t (get_or p "Temperature Scaling" 1) (get_or p "Pressure Scaling" 1)).
(** CubicLinearThermoelasticMaterial<d>, 69-133: expansion and conductivity by direction, the stiffness that of the isotropic material. *)
Definition thermo_cubic (d : nat) (p : plist) : res heated :=
  let! t := get p "Reference Temperature" in
  let! v := get p "Poissons Ratio" in let! e := get p "Youngs Modulus" in
  let! a := mapR (get p) (firstn d ["a11"; "a22"; "a33"]%string) in let! k := mapR (get p) (firstn d ["k11"; "k22"; "k33"]%string) in
  Ok (mkHeated (isotropic_material d e v) (fun i => nth i a 0) (diagonal (fun i => nth i k 0)) t (get_or p "Temperature Scaling" 1) (get_or p "Pressure Scaling" 1)).

(** StabilizedTMKinetics::operator(), src/TMKinetics.hpp 216-284: thermal strain 238-245, stress deviator 249-261, heat flux 265-270, scaled pressure and volume
    flux 274-275; the stabilisation 279-283 is that of StabilizedKinetics, the moduli (constructor 181-204) too. *)
Definition expansion (d : nat) (m : heated) (T : R) (v : nat) : R := if Nat.ltb v d then h_ts m * h_alpha m v * (T - h_tref m) else 0.
Definition heat_flow (d : nat) (m : heated) (tg : nat -> R) (i : nat) : R := rsum d (fun j => h_ts m * h_ts m * tg j * h_cond m i j).
Definition heated_volume (d : nat) (m : heated) (K : R) (e : nat -> R) (T p : R) : R := h_ps m * (rsum d e - rsum d (expansion d m T) - p / K).
(** StabilizedThermoelastostaticResidual::evaluate, src/StabilizedThermoelastostaticResidual.hpp 135-228; kinematics src/TMKinematics.hpp 101-162; body loads are
    added after it. *)
Definition heated_cell (d : nat) (pen : R -> R) (m : heated) (x : coords) (u q z : nat -> R) : res (nat -> R) :=
  let n := S (S d) in let g := cell_gradient d x in let vol := cell_measure d x in
  let e := strain d n (fun _ => 0) u g in let pg := scalar_gradient d n d u g in let tg := scalar_gradient d n (S d) u g in
  let T := interpolate d n (S d) u in
  let! km := moduli d (h_stiff m) in
  let ts := expansion d m T in
  let dev := dev_stress d (h_stiff m) (fun v => e v - ts v) in
  let p := interpolate d n d u * h_ps m in
  let w := weigh d pen z in
  let o := stress_divergence d n 0 1 vol (w dev) g (fun _ => 0) in
  let o := pressure_divergence d n 1 vol (w (fun _ => p) 0%nat) g o in
  let o := flux_divergence d n d (-1) vol (w (stabilization (h_ps m) (snd km) vol pg (fun i => interpolate d d i q))) g o in
  let o := flux_divergence d n (S d) 1 vol (w (heat_flow d m tg)) g o in
  Ok (project_to_node d n d vol (w (fun _ => heated_volume d m (fst km) e T p) 0%nat) o).
Definition heated_residual (d : nat) (pen : R -> R) (X : nat -> nat -> R) (U Q Z : nat -> R) (cells : list (cell heated)) : res (nat -> R) :=
  assembleR (S d) (S (S d)) (fun c => heated_cell d pen (c_mat c) (gather_coords X c) (gather (S (S d)) U c) (gather d Q c) (gather_control Z c)) cells.
