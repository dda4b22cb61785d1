(** Mass, centre of gravity and moments of inertia of a design, and the criterion that compares them with wanted values:
    src/elliptic/MassMoment.hpp, src/geometric/MassMoment.hpp, src/elliptic/MassPropertiesFunction.hpp and
    src/geometric/MassPropertiesFunction.hpp, on a mesh of linear simplices.  The two MassMoment files differ in their types only.  The
    elliptic criteria are evaluated for a solution with one step.  Printed output is left out. *)
From Coq Require Import String Reals List Arith Bool.
From Verif Require Import Base.Field Base.Sums Base.Res Element.ElementModel Penalty.PenaltyModel Residual.ResidualModel Criteria.CriteriaModel.
Import ListNotations.
Local Open Scope R_scope.

(** ** Mass moments: src/elliptic/MassMoment.hpp, src/geometric/MassMoment.hpp (same lines up to 12) *)

Inductive moment := Mass | First (i : nat) | Second (i j : nat).
Local Open Scope string_scope.
(** evaluate, 111-146. *)
Definition moment_named (s : string) : res moment :=
  if String.eqb s "Mass" then Ok Mass
  else if String.eqb s "FirstX" then Ok (First 0)
  else if String.eqb s "FirstY" then Ok (First 1)
  else if String.eqb s "FirstZ" then Ok (First 2)
  else if String.eqb s "SecondXX" then Ok (Second 0 0)
  else if String.eqb s "SecondYY" then Ok (Second 1 1)
  else if String.eqb s "SecondZZ" then Ok (Second 2 2)
  else if String.eqb s "SecondXY" then Ok (Second 0 1)
  else if String.eqb s "SecondXZ" then Ok (Second 0 2)
  else if String.eqb s "SecondYZ" then Ok (Second 1 2)
  else Throw.
Local Close Scope string_scope.
(** mapQuadraturePoint, 299-328: the first d nodes with the coordinates of the cubature point, the last node with the rest. *)
Definition mapped_point (d : nat) (x : coords) (i : nat) : R :=
  let s := fold_left (fun s a => (fst s + cub_point d * x a i, snd s - cub_point d)) (seq 0 d) (0, 1) in
  fst s + snd s * x d i.
(** computeStructuralMass 155-184, computeFirstMoment 195-234, computeSecondMoment 247-290. *)
Definition moment_cell (d : nat) (k : moment) (rho : R) (x : coords) (z : nat -> R) : R :=
  let m := cell_mass (S d) (cub_basis d) z * rho * cell_measure d x in
  match k with
  | Mass => m
  | First i => m * mapped_point d x i
  | Second i j => m * (mapped_point d x i * mapped_point d x j)
  end.
(** The assertions on the components (206, 259-260) are not compiled in a release build: an access out of bounds. *)
Definition moment_fits (d : nat) (k : moment) : bool :=
  match k with Mass => true | First i => Nat.ltb i d | Second i j => (Nat.ltb i d && Nat.ltb j d)%bool end.
(** The scalar function made of one MassMoment per domain: the sum of the cells (PhysicsScalarFunction::value,
    GeometryScalarFunction::value 199-241).  A cell carries the density of its domain. *)
Definition moment_sum (d : nat) (k : moment) (X : nat -> nat -> R) (Z : nat -> R) (cells : list (cell R)) : R :=
  total (fun c => moment_cell d k (c_mat c) (gather_coords X c) (gather_control Z c)) cells.
Definition mass_moment (d : nat) (name : string) (X : nat -> nat -> R) (Z : nat -> R) (cells : list (cell R)) : res R :=
  let! k := moment_named name in
  if moment_fits d k then Ok (moment_sum d k X Z cells) else UB.

(** ** The mass properties criterion *)

(** A Teuchos parameter list: values and sublists by name. *)
Inductive value := VReal (x : R) | VReals (l : list R) | VStrings (l : list string).
Inductive plist := PList (v : string -> option value) (s : string -> option plist).
Definition vals (p : plist) := let 'PList v _ := p in v.
Definition subs (p : plist) := let 'PList _ s := p in s.
Definition empty : plist := PList (fun _ => None) (fun _ => None).
(** sublist() of a list that is not const creates the sublist that is missing. *)
Definition sub (p : plist) (n : string) : plist := match subs p n with Some q => q | None => empty end.
(** get<T>(name): an error when the entry is missing or of another type; get<T>(name, default): the default when it is missing. *)
Definition need_strings (p : plist) (n : string) : res (list string) := match vals p n with Some (VStrings l) => Ok l | _ => Throw end.
Definition need_reals (p : plist) (n : string) : res (list R) := match vals p n with Some (VReals l) => Ok l | _ => Throw end.
Definition real_default (p : plist) (n : string) (x : R) : res R :=
  match vals p n with None => Ok x | Some (VReal y) => Ok y | Some _ => Throw end.

Inductive variant := Elliptic | Geometric.
Local Open Scope string_scope.
(** initialize: elliptic 66-83, geometric 67-85.  The elliptic one asks 'Material Models' whether the material exists and then reads a
    sublist of the problem's list with the name of the material (78).  A density never set is the zero of std::map::operator[]. *)
Definition density (v : variant) (p : plist) (material : string) : res R :=
  match subs p "Material Models" with
  | None => Throw
  | Some models =>
    match subs models material with
    | None => Ok 0%R
    | Some own => real_default (match v with Elliptic => sub p material | Geometric => own end) "Density" 1
    end
  end.
(** createLeastSquaresFunction: elliptic 96, geometric 98. *)
Definition function_list (v : variant) (p : plist) (name : string) : plist :=
  match v with Elliptic => sub p name | Geometric => sub (sub p "Criteria") name end.
Definition property_names : list string := ["Mass"; "CGx"; "CGy"; "CGz"; "Ixx"; "Iyy"; "Izz"; "Ixy"; "Ixz"; "Iyz"].
(** allPropertiesSpecified, 137-191.  Ten different names, all known, are the ten names, so the comparison after sorting (181) always succeeds. *)
Fixpoint distinct (l : list string) : bool := match l with [] => true | x :: l' => (negb (existsb (String.eqb x) l') && distinct l')%bool end.
Definition all_specified (names : list string) : res bool :=
  if distinct names then
    if Nat.eqb (length names) 10 then if forallb (fun n => existsb (String.eqb n) property_names) names then Ok true else Throw
    else Ok false
  else Throw.

Inductive property := PMass | PCG (i : nat) | PI (a : axes).
(** createItemizedLeastSquaresFunction, 352-421: the names. *)
Definition property_named (s : string) : option property :=
  if String.eqb s "Mass" then Some PMass
  else if String.eqb s "CGx" then Some (PCG 0)
  else if String.eqb s "CGy" then Some (PCG 1)
  else if String.eqb s "CGz" then Some (PCG 2)
  else if String.eqb s "Ixx" then Some (PI XX)
  else if String.eqb s "Iyy" then Some (PI YY)
  else if String.eqb s "Izz" then Some (PI ZZ)
  else if String.eqb s "Ixy" then Some (PI XY)
  else if String.eqb s "Ixz" then Some (PI XZ)
  else if String.eqb s "Iyz" then Some (PI YZ)
  else None.

Section Criterion.
(** The gradients of the moments, by automatic differentiation; and Omega_h::decompose_eigen_jacobi (319). *)
Variables (gx gz : moment -> inputs -> R -> rvec) (gu : moment -> inputs -> nat -> R -> rvec).
Variable (eig : (nat -> nat -> R) -> (nat -> nat -> R) * (nat -> R)).
(** Number of nodes, coordinates when the criterion is made. *)
Variables (nn : nat) (X0 : nat -> nat -> R).

(** getMassFunction 430-469, getSecondMassMoment 539-579, the numerators of getFirstMomentOverMassRatio 483-516. *)
Definition moment_crit (cells : list (cell R)) (k : moment) : crit :=
  Leaf (mkSfun (fun i _ => moment_sum 3 k (fun n j => in_config i (n * 3 + j)%nat) (in_control i) cells) (gx k) (gu k) (gz k)).
(** computeMeshExtent, 815-856. *)
Definition extent (a : nat) : R :=
  let l := map (fun n => X0 n a) (seq 0 nn) in
  Rabs (fold_left Rmax (tl l) (hd 0%R l) - fold_left Rmin (tl l) (hd 0%R l)).
(** createItemizedLeastSquaresFunction, 337-423. *)
Definition item (cells : list (cell R)) (pr : property) (w g : R) : R * R * R * crit :=
  match pr with
  | PMass => (w, g, lsq_normalization g, moment_crit cells Mass)
  | PCG i => (w, g, lsq_user_normalization (extent i), Div (moment_crit cells (First i)) (moment_crit cells Mass))
  | PI a => (w, g, lsq_normalization g, moment_of_inertia (fun a b => moment_crit cells (Second a b)) a)
  end.
Definition itemized (cells : list (cell R)) (l : list (string * R * R)) : res crit :=
  let! its := mapR (fun x => match property_named (fst (fst x)) with Some pr => Ok (item cells pr (snd (fst x)) (snd x)) | None => Throw end) l in
  Ok (LSq its).
(** The maps of 211-221 and their operator[]. *)
Definition entry_of (l : list (string * R * R)) (n : string) : R * R :=
  match find (fun x => String.eqb (fst (fst x)) n) l with Some x => (snd (fst x), snd x) | None => (0%R, 0%R) end.
(** computeRotationAndParallelAxisTheoremMatrices, 291-328: the gold inertia about the gold centre of gravity. *)
Definition gold_cg (l : list (string * R * R)) (a : nat) : R :=
  snd (entry_of l (match a with 0%nat => "CGx" | 1%nat => "CGy" | _ => "CGz" end)).
Definition inertia_name (a b : nat) : string :=
  match a, b with
  | 0%nat, 0%nat => "Ixx" | 1%nat, 1%nat => "Iyy" | 2%nat, 2%nat => "Izz"
  | 0%nat, 1%nat => "Ixy" | 1%nat, 0%nat => "Ixy" | 0%nat, 2%nat => "Ixz" | 2%nat, 0%nat => "Ixz" | _, _ => "Iyz"
  end.
Definition gold_about_cg (l : list (string * R * R)) (a b : nat) : R :=
  (snd (entry_of l (inertia_name a b)) - snd (entry_of l "Mass") * parallel_axis (gold_cg l) a b)%R.
(** createAllMassPropertiesLeastSquaresFunction, 202-285. *)
Definition all_properties (cells : list (cell R)) (l : list (string * R * R)) : crit :=
  let ql := eig (gold_about_cg l) in
  all_mass_properties (fun a b => moment_crit cells (Second a b)) (fun a => moment_crit cells (First a)) (moment_crit cells Mass)
    (fun k => fst (entry_of l (nth k property_names ""))) (snd (entry_of l "Mass")) (gold_cg l) (fst ql) (snd ql) extent.
(** createLeastSquaresFunction, 91-130 (geometric 92-132).  [d]: dimension of the mesh; computeMeshExtent reads three coordinates per node (821-831). *)
Definition mass_properties (v : variant) (d : nat) (p : plist) (name : string) (cells : list (cell string)) : res crit :=
  let! dense := mapR (fun c => let! r := density v p (c_mat c) in Ok (mkCell (c_node c) r)) cells in
  let f := function_list v p name in
  let! names := need_strings f "Properties" in
  let! weights := need_reals f "Weights" in
  let! golds := need_reals f "Gold Values" in
  if Nat.eqb (length names) (length weights) then
    if Nat.eqb (length names) (length golds) then
      let! all := all_specified names in
      if Nat.eqb d 3 then
        let l := combine (combine names weights) golds in
        if all then Ok (all_properties dense l) else itemized dense l
      else UB
    else Throw
  else Throw.
End Criterion.
