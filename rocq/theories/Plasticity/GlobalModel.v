(** The global (displacement, pressure and, for thermoplasticity, temperature) residual of small strain plasticity on a whole mesh of linear
    simplices, the elastic and plastic work criteria that go with it, and the output of principal stresses.  A cell carries its nodes, its
    material and its number, which selects its row of local states.  Plot output, body loads and boundary loads are not part of this file. *)
From Coq Require Import String Reals List Arith Bool.
From Verif Require Import Base.Field Base.Sums Base.Res Element.ElementModel Element.MaterialModel Penalty.PenaltyModel Ortho.OrthoModel Residual.ResidualModel Stab.StabModel Plasticity.J2Model.
Import ListNotations.
Local Open Scope R_scope.

(** The members of InfinitesimalStrainPlasticityResidual (src/InfinitesimalStrainPlasticityResidual.hpp 68-85) and
    InfinitesimalStrainThermoPlasticityResidual (src/InfinitesimalStrainThermoPlasticityResidual.hpp 79-92); k_cell is the number of the cell. *)
Record plastic := mkPlastic { k_bulk : R; k_shear : R; k_ps : R; k_alpha : R; k_tref : R; k_ts : R; k_cond : R; k_cell : nat }.
(** SimplexPlasticity (src/SimplexPlasticity.hpp 24-30) and SimplexThermoPlasticity (src/SimplexThermoPlasticity.hpp 24-31): numbers per node
    and positions of the pressure and the temperature; [th] tells thermoplasticity. *)
Definition dofs (th : bool) (d : nat) : nat := if th then S (S d) else S d.
Definition pressure_at (th : bool) (d : nat) : nat := if th then S d else d.
Definition temperature_at (d : nat) : nat := d.
(** ThermoPlasticityUtilities constructed with the three thermal constants (lines 448-449 of the thermoplastic residual); the plain residual
    constructs it without (423), and SimplexPlasticity has no thermal strain. *)
Definition cell_thermal (th : bool) (d : nat) (m : plastic) (u : nat -> R) : R :=
  if th then J2Model.thermal_strain (S d) (dofs th d) (temperature_at d) (k_alpha m) (k_tref m) (k_ts m) (cub_basis d) u else 0.
(** Line 511 of the thermoplastic residual. *)
Definition thermal_volume (th : bool) (d : nat) (m : plastic) (u : nat -> R) : R :=
  if th then 3 * k_alpha m * (k_ts m * interpolate d (dofs th d) (temperature_at d) u - k_tref m) else 0.
(** StrainDivergence, src/StrainDivergence.hpp 53-107. *)
Definition strain_divergence (d : nat) (e : nat -> R) : R :=
  match d with 1%nat => e 0%nat | 2%nat => e 0%nat + e 1%nat | _ => e 0%nat + e 1%nat + e 2%nat end.
(** apply_penalty, src/Plato_TopOptFunctors.hpp 76-84. *)
Definition apply_penalty (w : R) (s : nat -> R) (i : nat) : R := w * s i.

(** InfinitesimalStrainPlasticityResidual::evaluate, 398-526, and the thermoplastic one, 420-579, for one cell.  [ls] its local state, [q] the
    nodal projected pressure gradient, [pen] the penalty (MSIMP) as a function of the density.  The total strain has one component more than
    Strain fills in two dimensions; it keeps the zero of the new view. *)
Definition plastic_cell (th : bool) (d : nat) (pen : R -> R) (m : plastic) (x : coords) (u ls q z : nat -> R) : res (nat -> R) :=
  let n := dofs th d in let po := pressure_at th d in
  let g := cell_gradient d x in let vol := cell_measure d x in
  let total := strain d n (fun _ => 0) u g in
  let ee := elastic_strain d (cell_thermal th d m u) total ls in
  let pg := scalar_gradient d n po u g in
  let w := pen (cell_density (S d) z) in
  let dev := deviatoric_stress d (w * k_shear m) ee in
  let p := interpolate d n po u * k_ps m in
  let! pk := quot p (w * k_bulk m) in
  let! _ := quot 1 (2 * k_shear m) in
  let vs := k_ps m * (strain_divergence d total - thermal_volume th d m u - pk) in
  let st := apply_penalty w (stabilization (k_ps m) (k_shear m) vol pg (fun i => interpolate d d i q)) in
  let o := stress_divergence d n 0 1 vol dev g (fun _ => 0) in
  let o := if th then flux_divergence d n (temperature_at d) (-1) vol
                        (fun i => -1 * (w * k_cond m) * k_ts m * scalar_gradient d n (temperature_at d) u g i) g o else o in
  let o := pressure_divergence d n 1 vol p g o in
  let o := flux_divergence d n po (-1) vol st g o in
  Ok (project_to_node d n po vol vs o).
(** GlobalVectorFunctionInc::value without its boundary terms, src/GlobalVectorFunctionInc.hpp; LS holds one row of local states per cell. *)
Definition plastic_residual (th : bool) (d : nat) (pen : R -> R) (X : nat -> nat -> R) (U : nat -> R) (LS : nat -> nat -> R) (Q Z : nat -> R) (cells : list (cell plastic)) : res (nat -> R) :=
  assembleR (S d) (dofs th d) (fun c => plastic_cell th d pen (c_mat c) (gather_coords X c) (gather (dofs th d) U c) (LS (k_cell (c_mat c))) (gather d Q c) (gather_control Z c)) cells.

(** ** Work criteria *)
(** The constants the criteria work with; their own list of constants is [plastic] with the temperature scaling they read. *)
(** ElasticWorkCriterion::evaluate, src/ElasticWorkCriterion.hpp 156-244, and PlasticWorkCriterion::evaluate, src/PlasticWorkCriterion.hpp
    156-245, for one cell between the previous (U', LS') and the current state; computePlasticStrainMisfit, src/J2PlasticityUtilities.hpp 428-470. *)
Definition state_strain (th : bool) (d : nat) (m : plastic) (x : coords) (u ls : nat -> R) : nat -> R :=
  elastic_strain d (cell_thermal th d m u) (strain d (dofs th d) (fun _ => 0) u (cell_gradient d x)) ls.
Definition state_stress (th : bool) (d : nat) (pen : R -> R) (m : plastic) (x : coords) (u ls z : nat -> R) : nat -> R :=
  let w := pen (cell_density (S d) z) in cauchy_stress d (w * k_bulk m) (w * k_shear m) (state_strain th d m x u ls).
Definition average_stress (th : bool) (d : nat) (pen : R -> R) (m : plastic) (x : coords) (u u' ls ls' z : nat -> R) (v : nat) : R :=
  1 / 2 * (state_stress th d pen m x u ls z v + state_stress th d pen m x u' ls' z v).
Definition elastic_work_cell (th : bool) (d : nat) (pen : R -> R) (m : plastic) (x : coords) (u u' ls ls' z : nat -> R) : R :=
  rsum (nst d) (fun v => average_stress th d pen m x u u' ls ls' z v * (state_strain th d m x u ls v - state_strain th d m x u' ls' v)) * cell_measure d x.
Definition plastic_misfit (ls ls' : nat -> R) (v : nat) : R := ls (2 + v)%nat - ls' (2 + v)%nat.
Definition plastic_work_cell (th : bool) (d : nat) (pen : R -> R) (m : plastic) (x : coords) (u u' ls ls' z : nat -> R) : R :=
  rsum (nst d) (fun v => average_stress th d pen m x u u' ls ls' z v * plastic_misfit ls ls' v) * cell_measure d x.
(** BasicLocalScalarFunction::value of one step, src/BasicLocalScalarFunction.hpp, and the sum over the steps of a history of states
    (PlasticityProblem::evaluateCriterion, src/PlasticityProblem.hpp 929-954; before the first step the states are zero, getPreviousState). *)
Definition pstate := ((nat -> R) * (nat -> nat -> R))%type.
Definition work_step (kernel : bool -> nat -> (R -> R) -> plastic -> coords -> (nat -> R) -> (nat -> R) -> (nat -> R) -> (nat -> R) -> (nat -> R) -> R)
    (th : bool) (d : nat) (pen : R -> R) (X : nat -> nat -> R) (Z : nat -> R) (cells : list (cell plastic)) (cur prev : pstate) : R :=
  total (fun c => let m := c_mat c in kernel th d pen m (gather_coords X c) (gather (dofs th d) (fst cur) c) (gather (dofs th d) (fst prev) c)
                                        (snd cur (k_cell m)) (snd prev (k_cell m)) (gather_control Z c)) cells.
Definition elastic_work_step := work_step elastic_work_cell.
Definition plastic_work_step := work_step plastic_work_cell.
Fixpoint over_steps (f : pstate -> pstate -> R) (prev : pstate) (states : list pstate) : R :=
  match states with [] => 0 | s :: l => f s prev + over_steps f s l end.
Definition elastic_work th d pen X Z cells := over_steps (elastic_work_step th d pen X Z cells).
Definition plastic_work th d pen X Z cells := over_steps (plastic_work_step th d pen X Z cells).

(** ** Input *)
(** Where 'Temperature Scaling' is read: the residual (thermoplastic residual 218-222) and PlasticityProblem (src/PlasticityProblem.hpp 725-733)
    ask the list 'Material Models' itself, the work criteria (ElasticWorkCriterion.hpp 314-316, PlasticWorkCriterion.hpp 316-318) and the local
    residual (src/J2PlasticityLocalResidual.hpp 139-142) the list of the material in it.  [models] and [own] are the numbers of the two lists. *)
Definition residual_scaling (models own : plist) : R := get_or models "Temperature Scaling" 1.
Definition criterion_scaling (models own : plist) : R := get_or own "Temperature Scaling" 1.
Definition with_scaling (m : plastic) (s : R) : plastic := mkPlastic (k_bulk m) (k_shear m) (k_ps m) (k_alpha m) (k_tref m) s (k_cond m) (k_cell m).

(** ** Principal stresses *)
(** computePrincipalStresses (329-352 of the plain, 330-352 of the thermoplastic residual) with ComputePrincipalStresses::operator(), src/ComputePrincipalStresses.hpp
    141-203: the helper of line 173 is constructed without thermal constants, so the expansion is zero.  In two dimensions; the three-dimensional eigenvalues are those of C36. *)
Definition unheated (m : plastic) : plastic := mkPlastic (k_bulk m) (k_shear m) (k_ps m) 0 0 1 (k_cond m) (k_cell m).
Definition principal_output (th : bool) (pen : R -> R) (m : plastic) (x : coords) (u ls z : nat -> R) : R * R :=
  eigenvalues2 false (state_stress th 2 pen (unheated m) x u ls z).
(** ** Values of the criteria *)
(** PlasticityProblem::evaluateCriterion starts from zeros (getPreviousState, src/PlasticityProblem.hpp 904-919). *)
Definition zero_state : pstate := (fun _ => 0, fun _ _ => 0).
Definition elastic_work_value th d pen X Z cells states := elastic_work th d pen X Z cells zero_state states.
Definition plastic_work_value th d pen X Z cells states := plastic_work th d pen X Z cells zero_state states.
