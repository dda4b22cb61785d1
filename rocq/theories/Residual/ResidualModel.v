(** Static and transient residuals on a whole mesh of linear simplices, and the energy criteria that go with them.  A cell carries its
    node numbers and its material, so a list of cells covers one or several element blocks.  Every [pen] is the penalty function of the
    residual applied to a cell density (src/ApplyWeighting.hpp 48-142: the result is multiplied by penalty(density)); [Z] is the nodal
    control.  Derivatives by automatic differentiation, plot output and the cache are not part of this file. *)
From Coq Require Import Reals List Arith Bool.
From Verif Require Import Base.Field Base.Sums Base.Res Element.ElementModel Penalty.PenaltyModel.
Import ListNotations.
Local Open Scope R_scope.

(** ** Mesh level *)
Record cell (M : Type) := mkCell { c_node : nat -> nat; c_mat : M }.
Arguments mkCell {M} _ _. Arguments c_node {M} _ _. Arguments c_mat {M} _.

(** worksetConfig, worksetState and worksetControl of one cell (src/WorksetBase.hpp 430-620; src/ImplicitFunctors.hpp 26-31): local degree of
    freedom node * ndof + dof holds the global one of that node. *)
Definition gather_coords {M} (X : nat -> nat -> R) (c : cell M) : coords := fun a i => X (c_node c a) i.
Definition gather {M} (ndof : nat) (U : nat -> R) (c : cell M) (k : nat) : R := U (c_node c (k / ndof) * ndof + k mod ndof)%nat.
Definition gather_control {M} (Z : nat -> R) (c : cell M) (a : nat) : R := Z (c_node c a).
(** assemble_residual of one cell (src/WorksetBase.hpp 380-440): every cell entry is added to the entry of its node. *)
Definition scatter {M} (npc ndof : nat) (c : cell M) (r out : nat -> R) : nat -> R :=
  fold_left (fun o a => fold_left (fun o i =>
      fun k => if Nat.eqb k (c_node c a * ndof + i) then o k + r (a * ndof + i)%nat else o k)
    (seq 0 ndof) o) (seq 0 npc) out.
(** VectorFunction::value, src/elliptic/VectorFunction.hpp 231-279 and src/parabolic/VectorFunction.hpp: the domains one after the other,
    without the boundary terms.  The order of the additions is the subject of C01-C03. *)
Definition assemble {M} (npc ndof : nat) (r : cell M -> nat -> R) (cells : list (cell M)) : nat -> R :=
  fold_left (fun o c => scatter npc ndof c (r c) o) cells (fun _ => 0).
(** The same for a cell kernel that may fail. *)
Definition assembleR {M} (npc ndof : nat) (r : cell M -> res (nat -> R)) (cells : list (cell M)) : res (nat -> R) :=
  foldR (fun c o => let! rc := r c in Ok (scatter npc ndof c rc o)) cells (fun _ => 0).
(** Physics scalar functions: the sum of the cell values (src/elliptic/PhysicsScalarFunction.hpp, value; local_result_sum). *)
Definition total {M} (v : cell M -> R) (cells : list (cell M)) : R := fold_left (fun t c => t + v c) cells 0.
Definition totalR {M} (v : cell M -> res R) (cells : list (cell M)) : res R := foldR (fun c t => let! x := v c in Ok (t + x)) cells 0.

(** ** Kernels; basis functions are taken at the only cubature point (src/LinearTetCubRuleDegreeOne.hpp). *)
(** InterpolateFromNodal, src/InterpolateFromNodal.hpp 54-102. *)
Definition interpolate (d ndof off : nat) (u : nat -> R) : R := rsum (S d) (fun a => cub_basis d a * u (a * ndof + off)%nat).
(** ProjectToNode, src/ProjectToNode.hpp 60-73. *)
Definition project_to_node (d ndof off : nat) (vol q : R) (out : nat -> R) : nat -> R :=
  fold_left (fun o a => fun k => if Nat.eqb k (a * ndof + off) then o k + cub_basis d a * q * vol else o k) (seq 0 (S d)) out.
(** ScalarProduct, src/ScalarProduct.hpp 27-61. *)
Definition scalar_product (n : nat) (scale vol : R) (s t : nat -> R) : R := scale * rsum n (fun i => s i * t i) * vol.
Definition weigh (d : nat) (pen : R -> R) (z : nat -> R) (s : nat -> R) (i : nat) : R := s i * pen (cell_density (S d) z).
(** tCellVolume *= tQuadratureWeight, in every residual. *)
Definition cell_measure (d : nat) (x : coords) : R := cell_volume d x * cub_weight d.

(** ** Linear elasticity *)
Record elastic := mkElastic { e_stiff : nat -> nat -> R; e_ref : nat -> R }.
(** CellForcing::add, src/CellForcing.hpp 34-49. *)
Definition add_forcing (C : nat -> nat -> R) (col : option nat) (s : nat -> R) (i : nat) : R :=
  match col with None => s i | Some k => s i - C i k end.
Definition elastic_stress (d : nat) (m : elastic) (col : option nat) (x : coords) (u : nat -> R) : nat -> R :=
  add_forcing (e_stiff m) col
    (linear_stress (num_voigt d) (e_stiff m) (e_ref m) (strain d d (fun _ => 0) u (cell_gradient d x))).
(** ElastostaticResidual::evaluate, src/elliptic/ElastostaticResidual.hpp 146-213. *)
Definition elastostatic_cell (d : nat) (pen : R -> R) (m : elastic) (col : option nat) (x : coords) (u z : nat -> R) : nat -> R :=
  stress_divergence d d 0 1 (cell_measure d x) (weigh d pen z (elastic_stress d m col x u)) (cell_gradient d x) (fun _ => 0).
Definition elastostatic (d : nat) (pen : R -> R) (col : option nat) (X : nat -> nat -> R) (U Z : nat -> R) (cells : list (cell elastic)) : nat -> R :=
  assemble (S d) d (fun c => elastostatic_cell d pen (c_mat c) col (gather_coords X c) (gather d U c) (gather_control Z c)) cells.
(** InternalElasticEnergy::evaluate, src/elliptic/InternalElasticEnergy.hpp 99-153. *)
Definition elastic_energy_cell (d : nat) (pen : R -> R) (m : elastic) (x : coords) (u z : nat -> R) : R :=
  scalar_product (num_voigt d) (1 / 2) (cell_measure d x) (weigh d pen z (elastic_stress d m None x u)) (strain d d (fun _ => 0) u (cell_gradient d x)).
Definition elastic_energy (d : nat) (pen : R -> R) (X : nat -> nat -> R) (U Z : nat -> R) (cells : list (cell elastic)) : R :=
  total (fun c => elastic_energy_cell d pen (c_mat c) (gather_coords X c) (gather d U c) (gather_control Z c)) cells.

(** ** Heat conduction *)
(** A MaterialModel (src/MaterialModel.hpp 337-430): its type, and for each quantity the entry of the constants map and of the functors map.
    Both maps are read with operator[], so an entry never set is the default: zero. *)
Record thermal := mkThermal { t_nonlinear : bool; t_cond_const : nat -> nat -> R; t_cond_fun : R -> nat -> nat -> R;
                              t_rho_const : R; t_rho_fun : R -> R; t_cp_const : R; t_cp_fun : R -> R }.
(** ThermalFlux with a temperature, src/ThermalFlux.hpp 42-70. *)
Definition flux_at (d : nat) (m : thermal) (tg : nat -> R) (T : R) : nat -> R :=
  thermal_flux d (if t_nonlinear m then t_cond_fun m T else t_cond_const m) tg.
(** ThermalFlux without, 72-86.  The constant is only fetched for a linear model (31-37). *)
Definition flux_no_temperature (d : nat) (m : thermal) (tg : nat -> R) : nat -> R :=
  thermal_flux d (if t_nonlinear m then (fun _ _ => 0) else t_cond_const m) tg.
(** ThermostaticResidual::evaluate, src/elliptic/ThermostaticResidual.hpp 113-188. *)
Definition thermostatic_cell (d : nat) (pen : R -> R) (m : thermal) (x : coords) (T z : nat -> R) : nat -> R :=
  let g := cell_gradient d x in
  flux_divergence d 1 0 (-1) (cell_measure d x) (weigh d pen z (flux_at d m (scalar_gradient d 1 0 T g) (interpolate d 1 0 T))) g (fun _ => 0).
Definition thermostatic (d : nat) (pen : R -> R) (X : nat -> nat -> R) (T Z : nat -> R) (cells : list (cell thermal)) : nat -> R :=
  assemble (S d) 1 (fun c => thermostatic_cell d pen (c_mat c) (gather_coords X c) (gather 1 T c) (gather_control Z c)) cells.
(** ThermalContent, src/ThermalContent.hpp 46-68. *)
Definition thermal_content (m : thermal) (T rate : R) : R :=
  if t_nonlinear m then rate * t_rho_fun m T * t_cp_fun m T else rate * t_rho_const m * t_cp_const m.
(** HeatEquationResidual::evaluate, src/parabolic/HeatEquationResidual.hpp 106-189 (body loads are added after it, scale -1). *)
Definition heat_cell (d : nat) (pen : R -> R) (m : thermal) (x : coords) (T Tdot z : nat -> R) : nat -> R :=
  let g := cell_gradient d x in
  let w := weigh d pen z in
  let o := flux_divergence d 1 0 (-1) (cell_measure d x) (w (flux_no_temperature d m (scalar_gradient d 1 0 T g))) g (fun _ => 0) in
  project_to_node d 1 0 (cell_measure d x) (w (fun _ => thermal_content m (interpolate d 1 0 T) (interpolate d 1 0 Tdot)) 0%nat) o.
Definition heat_equation (d : nat) (pen : R -> R) (X : nat -> nat -> R) (T Tdot Z : nat -> R) (cells : list (cell thermal)) : nat -> R :=
  assemble (S d) 1 (fun c => heat_cell d pen (c_mat c) (gather_coords X c) (gather 1 T c) (gather 1 Tdot c) (gather_control Z c)) cells.
(** InternalThermalEnergy::evaluate, src/elliptic/InternalThermalEnergy.hpp 95-150 and the parabolic one: scale -1. *)
Definition thermal_energy_cell (d : nat) (pen : R -> R) (m : thermal) (x : coords) (T z : nat -> R) : R :=
  let tg := scalar_gradient d 1 0 T (cell_gradient d x) in
  scalar_product d (-1) (cell_measure d x) (weigh d pen z (flux_no_temperature d m tg)) tg.
Definition thermal_energy (d : nat) (pen : R -> R) (X : nat -> nat -> R) (T Z : nat -> R) (cells : list (cell thermal)) : R :=
  total (fun c => thermal_energy_cell d pen (c_mat c) (gather_coords X c) (gather 1 T c) (gather_control Z c)) cells.

(** ** Thermomechanics *)
Record thermoelastic := mkTM { m_nonlinear : bool; m_stiff_const : nat -> nat -> R; m_stiff_fun : R -> nat -> nat -> R;
                               m_alpha_const : nat -> nat -> R; m_alpha_fun : R -> nat -> nat -> R;
                               m_cond_const : nat -> nat -> R; m_cond_fun : R -> nat -> nat -> R; m_tref : R; m_scale : R }.
Definition m_stiff (m : thermoelastic) (T : R) := if m_nonlinear m then m_stiff_fun m T else m_stiff_const m.
Definition m_alpha (m : thermoelastic) (T : R) := if m_nonlinear m then m_alpha_fun m T else m_alpha_const m.
Definition m_cond (m : thermoelastic) (T : R) := if m_nonlinear m then m_cond_fun m T else m_cond_const m.
(** VoigtMap<1>, <2>, <3>, src/VoigtMap.hpp 10-31. *)
Definition voigt_map (d : nat) : list (nat * nat) :=
  match d with
  | 1%nat => [(1, 1)]%nat
  | 2%nat => [(0, 0); (1, 1); (0, 1)]%nat
  | _ => [(0, 0); (1, 1); (2, 2); (1, 2); (0, 2); (0, 1)]%nat
  end.
(** TensorConstant / TensorFunctor::operator() on a SpatialDim x SpatialDim array (src/MaterialModel.hpp 60-170). *)
Definition tensor_at (d : nat) (t : nat -> nat -> R) (i j : nat) : res R := if (Nat.ltb i d && Nat.ltb j d)%bool then Ok (t i j) else UB.
(** The thermal strain, src/TMKinetics.hpp 89-93 and 117-121: normal components only. *)
Definition thermal_strain (d : nat) (m : thermoelastic) (T : R) : res (nat -> R) :=
  let! l := mapR (fun k => let! ij := ub (nth_error (voigt_map d) k) in let! a := tensor_at d (m_alpha m T) (fst ij) (snd ij) in
                           Ok (m_scale m * a * (T - m_tref m))) (seq 0 d) in
  Ok (fun v => nth v l 0).
(** TMKinetics::operator(), 77-143. *)
Definition tm_kinetics (d : nat) (m : thermoelastic) (e tg : nat -> R) (T : R) : res ((nat -> R) * (nat -> R)) :=
  let! ts := thermal_strain d m T in
  Ok (fun i => rsum (num_voigt d) (fun j => (e j - ts j) * m_stiff m T i j),
      fun i => rsum d (fun j => m_scale m * m_scale m * tg j * m_cond m T i j)).
(** ThermoelastostaticResidual::evaluate, src/elliptic/ThermoelastostaticResidual.hpp 128-227; TMKinematics src/TMKinematics.hpp 27-78. *)
Definition tm_cell (d : nat) (pen : R -> R) (m : thermoelastic) (x : coords) (u z : nat -> R) : res (nat -> R) :=
  let g := cell_gradient d x in
  let! sq := tm_kinetics d m (strain d (S d) (fun _ => 0) u g) (scalar_gradient d (S d) d u g) (interpolate d (S d) d u) in
  let o := stress_divergence d (S d) 0 1 (cell_measure d x) (weigh d pen z (fst sq)) g (fun _ => 0) in
  Ok (flux_divergence d (S d) d 1 (cell_measure d x) (weigh d pen z (snd sq)) g o).
Definition thermoelastostatic (d : nat) (pen : R -> R) (X : nat -> nat -> R) (U Z : nat -> R) (cells : list (cell thermoelastic)) : res (nat -> R) :=
  assembleR (S d) (S d) (fun c => tm_cell d pen (c_mat c) (gather_coords X c) (gather (S d) U c) (gather_control Z c)) cells.
(** InternalThermoelasticEnergy::evaluate, src/elliptic/InternalThermoelasticEnergy.hpp 119-184 and the parabolic one 100-168. *)
Definition tm_energy_cell (d : nat) (pen : R -> R) (m : thermoelastic) (x : coords) (u z : nat -> R) : res R :=
  let g := cell_gradient d x in
  let e := strain d (S d) (fun _ => 0) u g in let tg := scalar_gradient d (S d) d u g in
  let! sq := tm_kinetics d m e tg (interpolate d (S d) d u) in
  Ok (scalar_product (num_voigt d) 1 (cell_measure d x) (weigh d pen z (fst sq)) e + scalar_product d 1 (cell_measure d x) (weigh d pen z (snd sq)) tg).
Definition tm_energy (d : nat) (pen : R -> R) (X : nat -> nat -> R) (U Z : nat -> R) (cells : list (cell thermoelastic)) : res R :=
  totalR (fun c => tm_energy_cell d pen (c_mat c) (gather_coords X c) (gather (S d) U c) (gather_control Z c)) cells.
(** TransientThermomechResidual::evaluate, src/parabolic/TransientThermomechResidual.hpp 139-257: the static terms and the heat content rate in
    the temperature rows; [t] is the thermal mass model. *)
Definition transient_tm_cell (d : nat) (pen : R -> R) (m : thermoelastic * thermal) (x : coords) (u udot z : nat -> R) : res (nat -> R) :=
  let! o := tm_cell d pen (fst m) x u z in
  Ok (project_to_node d (S d) d (cell_measure d x)
        (weigh d pen z (fun _ => thermal_content (snd m) (interpolate d (S d) d u) (interpolate d (S d) d udot)) 0%nat) o).
Definition transient_tm (d : nat) (pen : R -> R) (X : nat -> nat -> R) (U Udot Z : nat -> R) (cells : list (cell (thermoelastic * thermal))) : res (nat -> R) :=
  assembleR (S d) (S d) (fun c => transient_tm_cell d pen (c_mat c) (gather_coords X c) (gather (S d) U c) (gather (S d) Udot c) (gather_control Z c)) cells.

(** ** Electromechanics *)
Record electroelastic := mkEM { p_stiff : nat -> nat -> R; p_piezo : nat -> nat -> R; p_perm : nat -> nat -> R; p_alpha : R }.
(** EMKinetics::operator(), src/EMKinetics.hpp 61-98. *)
Definition em_stress (d : nat) (m : electroelastic) (e ef : nat -> R) (i : nat) : R :=
  rsum (num_voigt d) (fun j => e j * p_stiff m i j) - rsum d (fun j => p_alpha m * ef j * p_piezo m j i).
Definition em_displacement (d : nat) (m : electroelastic) (e ef : nat -> R) (i : nat) : R :=
  rsum d (fun j => p_alpha m * p_alpha m * ef j * p_perm m i j) + rsum (num_voigt d) (fun j => p_alpha m * e j * p_piezo m i j).
(** EMKinematics, src/EMKinematics.hpp 38-68: the field is minus the gradient of the potential (offset d). *)
Definition em_field (d : nat) (u : nat -> R) (g : coords) (i : nat) : R := 0 - rsum (S d) (fun a => u (a * S d + d)%nat * g a i).
(** ElectroelastostaticResidual::evaluate, src/elliptic/ElectroelastostaticResidual.hpp 129-199. *)
Definition em_cell (d : nat) (pen : R -> R) (m : electroelastic) (x : coords) (u z : nat -> R) : nat -> R :=
  let g := cell_gradient d x in
  let e := strain d (S d) (fun _ => 0) u g in let ef := em_field d u g in
  let o := stress_divergence d (S d) 0 1 (cell_measure d x) (weigh d pen z (em_stress d m e ef)) g (fun _ => 0) in
  flux_divergence d (S d) d 1 (cell_measure d x) (weigh d pen z (em_displacement d m e ef)) g o.
Definition electroelastostatic (d : nat) (pen : R -> R) (X : nat -> nat -> R) (U Z : nat -> R) (cells : list (cell electroelastic)) : nat -> R :=
  assemble (S d) (S d) (fun c => em_cell d pen (c_mat c) (gather_coords X c) (gather (S d) U c) (gather_control Z c)) cells.
(** InternalElectroelasticEnergy::evaluate, src/elliptic/InternalElectroelasticEnergy.hpp 103-164. *)
Definition em_energy_cell (d : nat) (pen : R -> R) (m : electroelastic) (x : coords) (u z : nat -> R) : R :=
  let g := cell_gradient d x in
  let e := strain d (S d) (fun _ => 0) u g in let ef := em_field d u g in
  scalar_product (num_voigt d) 1 (cell_measure d x) (weigh d pen z (em_stress d m e ef)) e
  + scalar_product d (-1) (cell_measure d x) (weigh d pen z (em_displacement d m e ef)) ef.
Definition em_energy (d : nat) (pen : R -> R) (X : nat -> nat -> R) (U Z : nat -> R) (cells : list (cell electroelastic)) : R :=
  total (fun c => em_energy_cell d pen (c_mat c) (gather_coords X c) (gather (S d) U c) (gather_control Z c)) cells.
