(** Local measures of a cell: tensile energy density, von Mises stress, von Mises stress with thermal expansion. *)
From Coq Require Import Reals List Arith Bool String.
From Verif Require Import Base.Field Base.Sums Base.Res Element.ElementModel Element.MaterialModel Residual.ResidualModel.
Import ListNotations.
Local Open Scope R_scope.

(** Eigenvalues<SpatialDim>::operator(), src/Eigenvalues.hpp 60-166, 177-214, 225-234, with the six rotations of the constructor's default (22). *)
Definition principal (d : nat) (strain_type : bool) (t : nat -> R) (i : nat) : R :=
  match d with
  | 1%nat => t 0%nat
  | 2%nat => if Nat.eqb i 0 then fst (eigenvalues2 strain_type t) else snd (eigenvalues2 strain_type t)
  | _ => eigenvalues3 6 strain_type t i
  end.

(** TensileEnergyDensity::operator(), src/TensileEnergyDensity.hpp 21-44: the pair is (energy, trace). *)
Definition tensile_energy (d : nat) (lambda mu : R) (p : nat -> R) : R :=
  let '(e, tr) := fold_left (fun st i => let '(e, tr) := st in
                                         let tr := tr + p i in
                                         let e := if Rle_dec 0 (p i) then e + p i * p i * mu else e in (e, tr)) (seq 0 d) (0, 0) in
  let trt := if Rle_dec 0 tr then tr else 0 in
  e + lambda * trt * trt * (1 / 2).

(** getYoungsModulusAndPoissonsRatio, src/TensileEnergyDensityLocalMeasure.hpp 43-59.  An absent or ill-typed 'Material Models', material or number makes
    Teuchos::ParameterList::get throw; [models] maps the names below 'Material Models' to the laws they hold, by name. *)
Definition models := string -> option (string -> option plist).
Definition read_moduli (ms : option models) (material : string) : res (R * R) :=
  match ms with
  | None => Throw
  | Some ms =>
    match ms material with
    | None => Throw
    | Some m => match m "Isotropic Linear Elastic"%string with
                | Some p => let! v := get p "Poissons Ratio" in let! E := get p "Youngs Modulus" in Ok (E, v)
                | None => Throw
                end
    end
  end.
(** computeLameConstants, 64-71. *)
Definition lame_mu (E v : R) : R := E / (2 * (1 + v)).
Definition lame_lambda (E v : R) : R := 2 * lame_mu E v * v / (1 - 2 * v).
(** The constructor, 79-88; the pair is (lambda, mu).  A division by zero is UB here (the doubles would be infinite). *)
Definition create_tensile (ms : option models) (material : string) : res (R * R) :=
  let! Ev := read_moduli ms material in
  let (E, v) := Ev in
  if Req_EM_T (1 + v) 0 then UB else if Req_EM_T (1 - 2 * v) 0 then UB else Ok (lame_lambda E v, lame_mu E v).
(** operator(), 123-154, one cell. *)
Definition tensile_measure (d : nat) (lambda mu : R) (x : coords) (u : nat -> R) : R :=
  tensile_energy d lambda mu (principal d true (strain d d (fun _ => 0) u (cell_gradient d x))).

(** VonMisesLocalMeasure::operator(), src/VonMisesLocalMeasure.hpp 79-104, one cell: LinearStress built from the stiffness alone has a zero reference strain
    (src/LinearStress.hpp 34-41). *)
Definition von_mises_measure (d : nat) (C : nat -> nat -> R) (x : coords) (u : nat -> R) : R :=
  von_mises d (linear_stress (num_voigt d) C (fun _ => 0) (strain d d (fun _ => 0) u (cell_gradient d x))).
(** The constructor, 45-56: ElasticModelFactory::create(name) (src/ElasticModelFactory.hpp 42-80) throws for a material without a list, tries four laws
    and returns a null pointer for any other law and when there are no models; the pointer is dereferenced at line 55.  [build] is the stiffness each law gives from its list. *)
Definition create_von_mises (build : string -> plist -> res (nat -> nat -> R)) (ms : option models) (material : string) : res (nat -> nat -> R) :=
  match ms with
  | None => UB
  | Some ms =>
    match ms material with
    | None => Throw
    | Some m =>
      let fix first l := match l with [] => UB | k :: l => match m k with Some p => build k p | None => first l end end in
      first ["Isotropic Linear Elastic"; "Cubic Linear Elastic"; "Custom Linear Elastic"; "Orthotropic Linear Elastic"]%string
    end
  end.

(** ThermalVonMisesLocalMeasure::operator(), src/ThermalVonMisesLocalMeasure.hpp 78-118, one cell. *)
Definition thermal_von_mises_measure (d : nat) (m : thermoelastic) (x : coords) (u : nat -> R) : res R :=
  let g := cell_gradient d x in
  let! sq := tm_kinetics d m (strain d (S d) (fun _ => 0) u g) (scalar_gradient d (S d) d u g) (interpolate d (S d) d u) in
  Ok (von_mises d (fst sq)).
