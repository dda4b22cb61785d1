(** Stabilised (displacement and pressure) elastostatics, its energy criterion, and the projection of the pressure gradient, on a whole mesh
    of linear simplices.  As in Residual/ResidualModel.v a cell carries its nodes and its material. *)
From Coq Require Import Reals List Arith Bool.
From Verif Require Import Base.Field Base.Sums Base.Res Element.ElementModel Element.MaterialModel Penalty.PenaltyModel Ortho.OrthoModel Residual.ResidualModel.
Import ListNotations.
Local Open Scope R_scope.

(** A LinearElasticMaterial as the stabilised kinetics see it: stiffness and pressure scaling. *)
Record stabilized := mkStab { b_stiff : nat -> nat -> R; b_scale : R }.
(** IsotropicLinearElasticMaterial.cpp 27-33, 65-71, 110-116: the scaling is the entry 'Pressure Scaling' of the material's own list, or the bulk modulus. *)
Definition material_scaling (entered : option R) (E v : R) : R := match entered with Some s => s | None => pressure_scaling E v end.
(** PressureGradientProjectionResidual::initialize, src/PressureGradientProjectionResidual.hpp 57-66: the entry 'Pressure Scaling' of the list 'Material Models', or 1. *)
Definition projection_scaling (entered : option R) : R := match entered with Some s => s | None => 1 end.

(** StabilizedKinetics constructor, src/Kinetics.hpp 38-56; with no shear component the mean is 0 / 0. *)
Definition bulk_modulus (d : nat) (C : nat -> nat -> R) : R := rsum d (fun j => C 0%nat j) / INR d.
Definition moduli (d : nat) (C : nat -> nat -> R) : res (R * R) :=
  let! mu := quot (rsum (num_voigt d - d) (fun k => C (k + d)%nat (k + d)%nat)) (INR (num_voigt d - d)) in
  let! _ := quot 1 (bulk_modulus d C) in
  let! _ := quot 1 (2 * mu) in
  Ok (bulk_modulus d C, mu).
(** StabilizedKinetics::operator(), 72-128: deviatoric stress, scaled pressure, volume flux, stabilisation.  [vol] is positive for a cell that is not
    flat, so pow is Rpower. *)
Definition full_stress (d : nat) (C : nat -> nat -> R) (e : nat -> R) (i : nat) : R := rsum (num_voigt d) (fun j => e j * C i j).
Definition dev_stress (d : nat) (C : nat -> nat -> R) (e : nat -> R) (i : nat) : R :=
  full_stress d C e i - (if Nat.ltb i d then rsum d (full_stress d C e) / 3 else 0).
Definition volume_flux (d : nat) (ps K : R) (e : nat -> R) (p : R) : R := ps * (rsum d e - p / K).
(** Also ComputeStabilization::operator(), src/ComputeStabilization.hpp 90-172, for 1 to 3 dimensions. *)
Definition stabilization (ps mu vol : R) (pg proj : nat -> R) (i : nat) : R := ps * (Rpower vol (2 / 3) / (2 * mu)) * (ps * pg i - proj i).
(** PressureDivergence, src/PressureDivergence.hpp 44-61. *)
Definition pressure_divergence (d ndof : nat) (scale vol p : R) (g : coords) (out : nat -> R) : nat -> R :=
  fold_left (fun o i => fold_left (fun o a =>
      fun k => if Nat.eqb k (a * ndof + i) then o k + scale * vol * p * g a i else o k)
    (seq 0 (S d)) o) (seq 0 d) out.
(** StabilizedElastostaticResidual::evaluate, src/StabilizedElastostaticResidual.hpp 149-232; [q] the nodal projected pressure gradient of the cell.  The
    kinematics (src/Kinematics.hpp 36-84) are those of Strain and ScalarGrad with d + 1 entries per node, pressure last.  Body loads are added after it. *)
Definition stab_cell (d : nat) (pen : R -> R) (m : stabilized) (x : coords) (u q z : nat -> R) : res (nat -> R) :=
  let g := cell_gradient d x in let vol := cell_measure d x in
  let e := strain d (S d) (fun _ => 0) u g in let pg := scalar_gradient d (S d) d u g in
  let p := b_scale m * interpolate d (S d) d u in
  let! km := moduli d (b_stiff m) in
  let w := weigh d pen z in
  let o := stress_divergence d (S d) 0 1 vol (w (dev_stress d (b_stiff m) e)) g (fun _ => 0) in
  let o := pressure_divergence d (S d) 1 vol (w (fun _ => p) 0%nat) g o in
  let o := flux_divergence d (S d) d (-1) vol (w (stabilization (b_scale m) (snd km) vol pg (fun i => interpolate d d i q))) g o in
  Ok (project_to_node d (S d) d vol (w (fun _ => volume_flux d (b_scale m) (fst km) e p) 0%nat) o).
Definition stab_residual (d : nat) (pen : R -> R) (X : nat -> nat -> R) (U Q Z : nat -> R) (cells : list (cell stabilized)) : res (nat -> R) :=
  assembleR (S d) (S d) (fun c => stab_cell d pen (c_mat c) (gather_coords X c) (gather (S d) U c) (gather d Q c) (gather_control Z c)) cells.

(** ProjectToNode of a vector, src/ProjectToNode.hpp 32-48: one component after the other at each node (the order of the additions is the only difference). *)
Definition project_vector (d : nat) (scale vol : R) (v : nat -> R) (out : nat -> R) : nat -> R :=
  fold_left (fun o i => project_to_node d d i vol (scale * v i) o) (seq 0 d) out.
(** PressureGradientProjectionResidual::evaluate, src/PressureGradientProjectionResidual.hpp 100-150; PressureGradient, src/PressureGradient.hpp 48-61. *)
Definition projection_cell (d : nat) (pen : R -> R) (ps : R) (x : coords) (q p z : nat -> R) : nat -> R :=
  let g := cell_gradient d x in let vol := cell_measure d x in let w := weigh d pen z in
  let o := project_vector d 1 vol (w (fun i => interpolate d d i q)) (fun _ => 0) in
  project_vector d (-1) vol (w (fun i => rsum (S d) (fun a => ps * p a * g a i))) o.
Definition projection_residual {M} (d : nat) (pen : R -> R) (ps : R) (X : nat -> nat -> R) (Q P Z : nat -> R) (cells : list (cell M)) : nat -> R :=
  assemble (S d) d (fun c => projection_cell d pen ps (gather_coords X c) (gather d Q c) (gather 1 P c) (gather_control Z c)) cells.

(** StabilizedElastostaticEnergy::evaluate, src/StabilizedElastostaticEnergy.hpp 101-175: the total stress is only formed for the normal components (163-166),
    the others keep the zero of the new view.  The stabilisation computed on the way is not used. *)
Definition stab_energy_cell (d : nat) (pen : R -> R) (m : stabilized) (x : coords) (u z : nat -> R) : res R :=
  let g := cell_gradient d x in
  let e := strain d (S d) (fun _ => 0) u g in
  let p := b_scale m * interpolate d (S d) d u in
  let! _ := moduli d (b_stiff m) in
  let tot i := if Nat.ltb i d then dev_stress d (b_stiff m) e i + p else 0 in
  Ok (scalar_product (num_voigt d) 1 (cell_measure d x) (weigh d pen z tot) e).
Definition stab_energy (d : nat) (pen : R -> R) (X : nat -> nat -> R) (U Z : nat -> R) (cells : list (cell stabilized)) : res R :=
  totalR (fun c => stab_energy_cell d pen (c_mat c) (gather_coords X c) (gather (S d) U c) (gather_control Z c)) cells.
