(** How thermoelastic and electroelastic materials are read, the boundary heat flux terms, and the criterion option that should switch the
    thermal strain off.  Parameter lists are records of the entries the constructors look at. *)
From Coq Require Import String Reals List Arith Bool.
From Verif Require Import Base.Field Base.Sums Base.Res Element.ElementModel Element.MaterialModel Residual.ResidualModel.
Import ListNotations.
Local Open Scope R_scope.

(** An entry that may be a number or a sublist (isType<Scalar> / isSublist). *)
Inductive entry := Num (r : R) | Sub (p : plist).

(** The list 'Elastic Stiffness': its entry 'Youngs Modulus', its other numbers, and a sublist again called 'Elastic Stiffness'. *)
Record stiff_input := mkStiff { s_young : option entry; s_numbers : plist; s_nested : option plist }.
(** The list 'Thermoelastic'. *)
Record tm_input := mkInput { i_dependent : option bool; i_stiff : option stiff_input; i_expansivity : option entry; i_conductivity : option entry;
                             i_tref : option R; i_scale : option R }.

Definition zero2 : nat -> nat -> R := fun _ _ => 0.
(** MaterialModel::MaterialModel, src/MaterialModel.hpp 362-370. *)
Definition dependent (i : tm_input) : bool := match i_dependent i with Some true => true | _ => false end.

Local Open Scope string_scope.
(** TensorConstant(Scalar) and TensorFunctor(Scalar), src/MaterialModel.hpp 82-180: the number on the diagonal. *)
Definition diagonal (r : R) (i j : nat) : R := if Nat.eqb i j then r else 0.
(** TensorConstant<1>, <2>, <3>, src/MaterialModel.cpp 56-83. *)
Definition tensor_constant (d : nat) (p : plist) : res (nat -> nat -> R) :=
  let! c11 := get p "c11" in
  let c22 := get_or p "c22" c11 in let c33 := get_or p "c33" c11 in
  let c12 := get_or p "c12" 0 in let c13 := get_or p "c13" 0 in let c23 := get_or p "c23" 0 in
  Ok (fun i j => sym_entry i j (match d with
    | 1%nat => [(0, 0, c11)]%nat
    | 2%nat => [(0, 0, c11); (1, 1, c22); (0, 1, c12)]%nat
    | _ => [(0, 0, c11); (1, 1, c22); (0, 1, c12); (2, 2, c33); (0, 2, c13); (1, 2, c23)]%nat end)).
(** TensorFunctor<1>, <2>, <3>, src/MaterialModel.cpp 5-54; operator() is T*c1 + c0 + T*T*c2. *)
Definition tensor_functor (d : nat) (p : plist) : res (R -> nat -> nat -> R) :=
  let! a0 := get p "c011" in
  let a1 := get_or p "c111" 0 in let a2 := get_or p "c211" 0 in
  let b0 := get_or p "c022" a0 in let b1 := get_or p "c122" a1 in let b2 := get_or p "c222" a2 in
  let e0 := get_or p "c033" a0 in let e1 := get_or p "c133" a1 in let e2 := get_or p "c233" a2 in
  let o0 := get_or p "c012" 0 in let o1 := get_or p "c112" 0 in let o2 := get_or p "c212" 0 in
  let q0 := get_or p "c013" 0 in let q1 := get_or p "c113" 0 in let q2 := get_or p "c213" 0 in
  let r0 := get_or p "c023" 0 in let r1 := get_or p "c123" 0 in let r2 := get_or p "c223" 0 in
  let m a b e o q r := fun i j => sym_entry i j (match d with
    | 1%nat => [(0, 0, a)]%nat
    | 2%nat => [(0, 0, a); (1, 1, b); (0, 1, o)]%nat
    | _ => [(0, 0, a); (1, 1, b); (0, 1, o); (2, 2, e); (0, 2, q); (1, 2, r)]%nat end) in
  Ok (functor_at (m a0 b0 e0 o0 q0 r0) (m a1 b1 e1 o1 q1 r1) (m a2 b2 e2 o2 q2 r2)).
(** MaterialModel::parseTensor, src/MaterialModel.hpp 520-553: the pair is the entry of the constants map and of the functors map, zero if not set. *)
Definition parse_tensor (d : nat) (nonlinear : bool) (e : option entry) : res ((nat -> nat -> R) * (R -> nat -> nat -> R)) :=
  match e with
  | Some (Num r) => if nonlinear then Ok (zero2, functor_at (diagonal r) zero2 zero2) else Ok (diagonal r, fun _ => zero2)
  | Some (Sub p) => if nonlinear then let! f := tensor_functor d p in Ok (zero2, f) else let! c := tensor_constant d p in Ok (c, fun _ => zero2)
  | None => Throw
  end.
(** IsotropicStiffnessFunctor, src/IsotropicStiffness.cpp 7-83: c0 has a default in one dimension only. *)
Definition read_functor (d : nat) (numbers young : plist) : res (R -> nat -> nat -> R) :=
  let! v := get numbers "Poissons Ratio" in
  let! E0 := (match d with 1%nat => Ok (get_or young "c0" 0) | _ => get young "c0" end) in
  Ok (isotropic_functor d E0 (get_or young "c1" 0) (get_or young "c2" 0) v).
(** ThermoelasticMaterial::parseElasticStiffness, src/ThermoelasticMaterial.hpp 40-59, with MaterialModel::parseRank4Voigt (561-582) as last resort,
    applied to the list 'Elastic Stiffness' itself, so it looks for a sublist of that name inside it. *)
Definition parse_stiffness (d : nat) (nonlinear : bool) (s : stiff_input) : res ((nat -> nat -> R) * (R -> nat -> nat -> R)) :=
  match s_young s with
  | Some (Sub y) => let! f := read_functor d (s_numbers s) y in Ok (zero2, f)
  | Some (Num E) => let! v := get (s_numbers s) "Poissons Ratio" in Ok (isotropic_constant d E v, fun _ => zero2)
  | None => match s_nested s with
            | None => Throw
            | Some p => if nonlinear then let! f := rank4_functor d p in Ok (zero2, f) else let! c := rank4_constant d p in Ok (c, fun _ => zero2)
            end
  end.
(** ThermoelasticMaterial::ThermoelasticMaterial, 26-36. *)
Definition read_thermoelastic (d : nat) (i : tm_input) : res thermoelastic :=
  match i_stiff i with
  | None => Throw
  | Some s =>
    let n := dependent i in
    let! c := parse_stiffness d n s in
    let! a := parse_tensor d n (i_expansivity i) in
    let! k := parse_tensor d n (i_conductivity i) in
    Ok (mkTM n (fst c) (snd c) (fst a) (snd a) (fst k) (snd k)
          (match i_tref i with Some r => r | None => 23 end) (match i_scale i with Some r => r | None => 1 end))
  end.

(** InternalThermoelasticEnergy constructor, src/elliptic/InternalThermoelasticEnergy.hpp 83-113.  A material is its list 'Thermoelastic' and its
    list 'Cubic Linear Thermoelastic'.  With the option false the entries a11, a22, a33 of the latter are set to zero in a copy of the material
    ('auto tMaterialParams', 103-106), and the factory is given the list that still holds the original. *)
Record energy_input := mkEnergyInput { g_include : option bool; g_material : tm_input; g_cubic : plist }.
Definition strike (p : plist) : plist := fun k => if (String.eqb k "a11" || String.eqb k "a22" || String.eqb k "a33")%bool then Some 0 else p k.
Definition energy_material (d : nat) (e : energy_input) : res thermoelastic :=
  let edited_copy := match g_include e with
                     | Some false => mkEnergyInput (g_include e) (g_material e) (strike (g_cubic e))
                     | _ => e end in
  let _ := edited_copy in
  read_thermoelastic d (g_material e).
Definition energy_criterion (d : nat) (pen : R -> R) (X : nat -> nat -> R) (U Z : nat -> R) (conn : list (nat -> nat)) (e : energy_input) : res R :=
  let! m := energy_material d e in
  tm_energy d pen X U Z (map (fun c => mkCell c m) conn).
Local Close Scope string_scope.

(** Boundary terms.  [F] holds for each node the integral of shape function times prescribed heat flux (NaturalBCs::get, src/NaturalBCs.hpp; modelled with
    scale in Loads/LoadsModel.v).  ThermostaticResidual::evaluate_boundary, src/elliptic/ThermostaticResidual.hpp 191-207: scale 1.0. *)
Definition thermostatic_full (d : nat) (pen : R -> R) (X : nat -> nat -> R) (T Z F : nat -> R) (cells : list (cell thermal)) (k : nat) : R :=
  thermostatic d pen X T Z cells k + 1 * F k.
(** ThermoelastostaticResidual::evaluate_boundary, src/elliptic/ThermoelastostaticResidual.hpp 206-228: both natural conditions with scale -1.0, the flux at
    offset TDofOffset of the node. *)
Definition thermoelastostatic_full (d : nat) (pen : R -> R) (X : nat -> nat -> R) (U Z P F : nat -> R) (cells : list (cell thermoelastic)) : res (nat -> R) :=
  let! r := thermoelastostatic d pen X U Z cells in
  Ok (fun k => r k + (if Nat.ltb (k mod S d) d then -1 * P (k / S d * d + k mod S d)%nat else -1 * F (k / S d)%nat)).

(** IsotropicLinearElectroelasticMaterial<1>, <2>, <3>, src/LinearElectroelasticMaterial.cpp 6-90, on a list of numbers.  In one and two dimensions
    mAlpha is the result of isType, converted: 1.0. *)
Local Open Scope string_scope.
Definition em_alpha (d : nat) (p : plist) : R :=
  match p "Alpha" with
  | None => 1
  | Some a => match d with 1%nat | 2%nat => 1 | _ => a end
  end.
Definition read_electroelastic (d : nat) (p : plist) : res electroelastic :=
  let! v := get p "Poissons Ratio" in
  let! E := get p "Youngs Modulus" in
  match d with
  | 1%nat => let! e33 := get p "e33" in let! p33 := get p "p33" in
             Ok (mkEM (isotropic_material 1 E v) (fun i j => if (Nat.eqb i 0 && Nat.eqb j 0)%bool then e33 else 0)
                      (fun i j => if (Nat.eqb i 0 && Nat.eqb j 0)%bool then p33 else 0) (em_alpha 1 p))
  | _ => let! e15 := get p "e15" in let! e31 := get p "e31" in let! e33 := get p "e33" in
         let! p11 := get p "p11" in let! p33 := get p "p33" in
         Ok (mkEM (isotropic_material d E v)
               (match d with
                | 2%nat => fun i j => match i, j with 0%nat, 2%nat => e15 | 1%nat, 0%nat => e31 | 1%nat, 1%nat => e33 | _, _ => 0 end
                | _ => fun i j => match i, j with 2%nat, 0%nat => e31 | 2%nat, 1%nat => e31 | 2%nat, 2%nat => e33
                                              | 1%nat, 3%nat => e15 | 0%nat, 4%nat => e15 | _, _ => 0 end
                end)
               (match d with
                | 2%nat => fun i j => match i, j with 0%nat, 0%nat => p11 | 1%nat, 1%nat => p33 | _, _ => 0 end
                | _ => fun i j => match i, j with 0%nat, 0%nat => p11 | 1%nat, 1%nat => p11 | 2%nat, 2%nat => p33 | _, _ => 0 end
                end) (em_alpha d p))
  end.
