(** Structural dynamics: the residual of src/hyperbolic/ElastomechanicsResidual.hpp, the elastic energy criterion of the same directory, and the
    material entries they read.  Body loads and natural boundary conditions are added to the residual afterwards (232-234, 340-342 and 346-362, scale
    -1) and are the subject of C37-C39 and C71; here they are outside. *)
From Coq Require Import Reals List Arith Bool String.
From Verif Require Import Base.Field Base.Sums Base.Res Element.ElementModel Penalty.PenaltyModel Residual.ResidualModel.
Import ListNotations.
Local Open Scope R_scope.

(** LinearElasticMaterial, src/LinearElasticMaterial.hpp 28-60: law, mass density and the two Rayleigh coefficients. *)
Record dynamic := mkDyn { y_law : elastic; y_rho : R; y_ra : R; y_rb : R }.

(** mRayleighDamping, src/hyperbolic/ElastomechanicsResidual.hpp 96-97. *)
Definition damped (m : dynamic) : bool := ((if Req_EM_T (y_ra m) 0 then false else true) || (if Req_EM_T (y_rb m) 0 then false else true))%bool.

(** InertialContent, src/hyperbolic/InertialContent.hpp 27-39 and 41-55. *)
Definition inertial_content (m : dynamic) (a : nat -> R) (i : nat) : R := a i * y_rho m.
Definition inertial_content_damped (m : dynamic) (v a : nat -> R) (i : nat) : R := a i * y_rho m + v i * y_rho m * y_ra m.
(** ProjectToNode with a vector at the cubature point, src/ProjectToNode.hpp 32-50, offset 0, d values and d numbers per node. *)
Definition project_vector (d : nat) (vol : R) (q : nat -> R) (out : nat -> R) : nat -> R :=
  fold_left (fun o a => fold_left (fun o i => fun k => if Nat.eqb k (d * a + i) then o k + 1 * cub_basis d a * q i * vol else o k) (seq 0 d) o) (seq 0 (S d)) out.
(** InterpolateFromNodal with d values: component i is interpolate d d i (src/InterpolateFromNodal.hpp 54-102). *)
Definition interpolate_vector (d : nat) (u : nat -> R) (i : nat) : R := interpolate d d i u.

(** The weighted stress of a cell: 199-207 and 303-313. *)
Definition dyn_stress (d : nat) (pen : R -> R) (m : dynamic) (x : coords) (u v z : nat -> R) : nat -> R :=
  let g := cell_gradient d x in
  weigh d pen z
    (if damped m
     then linear_stress_rayleigh (num_voigt d) (e_stiff (y_law m)) (e_ref (y_law m)) (y_rb m) (strain d d (fun _ => 0) u g) (strain d d (fun _ => 0) v g)
     else linear_stress (num_voigt d) (e_stiff (y_law m)) (e_ref (y_law m)) (strain d d (fun _ => 0) u g)).
(** evaluate, 124-142, with evaluateWithoutDamping 148-236 and evaluateWithDamping 239-343. *)
Definition dyn_cell (d : nat) (pen : R -> R) (m : dynamic) (x : coords) (u v a z : nat -> R) : nat -> R :=
  let o := stress_divergence d d 0 1 (cell_measure d x) (dyn_stress d pen m x u v z) (cell_gradient d x) (fun _ => 0) in
  let q := if damped m then inertial_content_damped m (interpolate_vector d v) (interpolate_vector d a) else inertial_content m (interpolate_vector d a) in
  project_vector d (cell_measure d x) (weigh d pen z q) o.
Definition elastodynamic (d : nat) (pen : R -> R) (X : nat -> nat -> R) (U V A Z : nat -> R) (cells : list (cell dynamic)) : nat -> R :=
  assemble (S d) d (fun c => dyn_cell d pen (c_mat c) (gather_coords X c) (gather d U c) (gather d V c) (gather d A c) (gather_control Z c)) cells.

(** InternalElasticEnergy::evaluate, src/hyperbolic/HyperbolicInternalElasticEnergy.hpp 105-154: the scalar product is called with its default scale, 1
    (src/ScalarProduct.hpp 27-40). *)
Definition dyn_energy_cell (d : nat) (pen : R -> R) (m : dynamic) (x : coords) (u z : nat -> R) : R :=
  let e := strain d d (fun _ => 0) u (cell_gradient d x) in
  scalar_product (num_voigt d) 1 (cell_measure d x) (weigh d pen z (linear_stress (num_voigt d) (e_stiff (y_law m)) (e_ref (y_law m)) e)) e.
Definition dyn_energy (d : nat) (pen : R -> R) (X : nat -> nat -> R) (U Z : nat -> R) (cells : list (cell dynamic)) : R :=
  total (fun c => dyn_energy_cell d pen (c_mat c) (gather_coords X c) (gather d U c) (gather_control Z c)) cells.

(** ** Plot output: toMap of a cell array under a name (230-231 and 335-337).  [wanted] is the "Plottable" entry of the "Hyperbolic" list (109-113). *)
Definition wants (wanted : list string) (name : string) : bool := existsb (String.eqb name) wanted.
Definition dyn_plot (d : nat) (pen : R -> R) (m : dynamic) (x : coords) (u v z : nat -> R) (wanted : list string) : list (string * (nat -> R)) :=
  let s := dyn_stress d pen m x u v z in
  ((if wants wanted "stress" then [("stress"%string, s)] else []) ++
   (if wants wanted "strain" then [("strain"%string, s)] else []) ++
   (if damped m then (if wants wanted "velgrad" then [("velgrad"%string, s)] else []) else []))%list.

(** ** Material entries.  A parameter is absent, a number, or something that is not a double (an integer or a string). *)
Inductive param := Absent | Number (v : R) | NotNumber.
(** isType<Scalar> and then get: an entry of another type is skipped. *)
Definition read_typed (default : R) (p : param) : res R := match p with Number v => Ok v | _ => Ok default end.
(** isParameter ? get : default: an entry of another type throws. *)
Definition read_param (default : R) (p : param) : res R := match p with Absent => Ok default | Number v => Ok v | NotNumber => Throw end.
Inductive law_kind := Isotropic | Orthotropic | Cubic | Custom.
(** "Mass Density": src/IsotropicLinearElasticMaterial.cpp 35-42, 73-80, 118-125; src/OrthotropicLinearElasticMaterial.cpp 182, 333, 408;
    src/CustomLinearElasticMaterial.cpp 39-46, 80-87, 128-135; src/CubicLinearElasticMaterial.cpp does not read it, so it keeps the 1.0 of
    src/LinearElasticMaterial.cpp 36, 46, 98, 108, 167, 177. *)
Definition mass_density (k : law_kind) (p : param) : res R :=
  match k with
  | Isotropic | Custom => read_typed 1 p
  | Orthotropic => read_param 1 p
  | Cubic => Ok 1
  end.
(** "RayleighA" and "RayleighB": src/LinearElasticMaterial.cpp 53-60, 115-122, 184-191, whatever the law. *)
Definition rayleigh (p : param) : res R := read_typed 0 p.
Definition dynamic_material (k : law_kind) (law : elastic) (rho ra rb : param) : res dynamic :=
  let! a := rayleigh ra in let! b := rayleigh rb in let! r := mass_density k rho in Ok (mkDyn law r a b).
