(** The orthotropic linear elastic material: input checks, stability checks and stiffness, over the reals. *)
From Coq Require Import Reals List Arith Bool String.
From Verif Require Import Base.Field Base.Sums Base.Res Element.ElementModel Element.MaterialModel.
Import ListNotations.
Local Open Scope R_scope.
Local Open Scope string_scope.

(** A quotient of doubles.  A zero divisor gives an infinity or a NaN, which every later value inherits or compares false with; the
    model stops there with [UB], read "the material holds values that are not numbers". *)
Definition quot (a b : R) : res R := if Req_EM_T b 0 then UB else Ok (a / b).
(** THROWERR under a condition. *)
Definition reject (b : bool) : res unit := if b then Throw else Ok tt.
Definition Rltb (a b : R) : bool := if Rlt_dec a b then true else false.
(** checkOrthoMaterialInputs, src/OrthotropicLinearElasticMaterial.cpp 134-173 (3D), 305-324 (2D), 388-399 (1D): every keyword must be there.
    [p k = None] stands for a missing keyword; a keyword of another type makes get<Scalar> throw as well. *)
Fixpoint require (p : plist) (ks : list string) : res unit :=
  match ks with [] => Ok tt | k :: r => match p k with None => Throw | Some _ => require p r end end.
Definition keys3 : list string :=
  ["Youngs Modulus X"; "Youngs Modulus Y"; "Youngs Modulus Z"; "Shear Modulus XY"; "Shear Modulus XZ"; "Shear Modulus YZ";
   "Poissons Ratio XY"; "Poissons Ratio XZ"; "Poissons Ratio YZ"].
Definition keys2 : list string := ["Youngs Modulus X"; "Youngs Modulus Y"; "Shear Modulus XY"; "Poissons Ratio XY"].
Definition keys1 : list string := ["Poissons Ratio"; "Youngs Modulus"].
(** One Poisson condition, e.g. lines 56-65: fabs(nu) > sqrt(Ei / Ej) throws. *)
Definition poisson_check (nu Ei Ej : R) : res unit :=
  let! q := quot Ei Ej in reject (Rltb (sqrt q) (Rabs nu)).

(** checkOrthoMaterialStability<3>, lines 20-129. *)
Definition stability3 (p : plist) : res unit :=
  let! ex := get p "Youngs Modulus X" in let! _ := reject (Rltb ex 0) in
  let! ey := get p "Youngs Modulus Y" in let! _ := reject (Rltb ey 0) in
  let! ez := get p "Youngs Modulus Z" in let! _ := reject (Rltb ez 0) in
  let! gxy := get p "Shear Modulus XY" in let! _ := reject (Rltb gxy 0) in
  let! gxz := get p "Shear Modulus XZ" in let! _ := reject (Rltb gxz 0) in
  let! gyz := get p "Shear Modulus YZ" in let! _ := reject (Rltb gyz 0) in
  let! nxy := get p "Poissons Ratio XY" in let! _ := poisson_check nxy ex ey in
  let! nyz := get p "Poissons Ratio YZ" in let! _ := poisson_check nyz ey ez in
  let! nxz := get p "Poissons Ratio XZ" in let! _ := poisson_check nxz ex ez in
  let! qyx := quot ey ex in let nyx := nxy * qyx in let! _ := poisson_check nyx ey ex in
  let! qzy := quot ez ey in let nzy := nyz * qzy in let! _ := poisson_check nzy ez ey in
  let! qzx := quot ez ex in let nzx := nxz * qzx in let! _ := poisson_check nzx ez ex in
  reject (Rltb (1 - nxy * nyx - nyz * nzy - nxz * nzx - 2 * (nyx * nzy * nxz)) 0).

(** setOrthoMaterialModel<3>, lines 178-224.  Entries that are not assigned stay 0 (LinearElasticMaterial::initialize, src/LinearElasticMaterial.cpp
    131-146). *)
Definition stiffness3 (p : plist) : res (nat -> nat -> R) :=
  let! ex := get p "Youngs Modulus X" in let! ey := get p "Youngs Modulus Y" in let! ez := get p "Youngs Modulus Z" in
  let! gxy := get p "Shear Modulus XY" in let! gxz := get p "Shear Modulus XZ" in let! gyz := get p "Shear Modulus YZ" in
  let! nxy := get p "Poissons Ratio XY" in let! nxz := get p "Poissons Ratio XZ" in let! nyz := get p "Poissons Ratio YZ" in
  let! qyx := quot ey ex in let! qzx := quot ez ex in let! qzy := quot ez ey in
  let nyx := nxy * qyx in let nzx := nxz * qzx in let nzy := nyz * qzy in
  let det := 1 - nxy * nyx - nyz * nzy - nxz * nzx - 2 * (nyx * nzy * nxz) in
  let! delta := quot det (ex * ey * ez) in
  let d1 := ey * ez * delta in
  let! c00 := quot (1 - nyz * nzy) d1 in
  let! c01 := quot (nyx + nzx * nyz) d1 in
  let! c02 := quot (nzx + nyx * nzy) d1 in
  let d2 := ez * ex * delta in
  let! c11 := quot (1 - nzx * nxz) d2 in
  let! c12 := quot (nzy + nzx * nxy) d2 in
  let d3 := ex * ey * delta in
  let! c22 := quot (1 - nxy * nyx) d3 in
  Ok (fun i j => match i, j with
    | 0, 0 => c00 | 0, 1 => c01 | 0, 2 => c02
    | 1, 0 => c01 | 1, 1 => c11 | 1, 2 => c12
    | 2, 0 => c02 | 2, 1 => c12 | 2, 2 => c22
    | 3, 3 => gyz | 4, 4 => gxz | 5, 5 => gxy | _, _ => 0%R end)%nat.

(** checkOrthoMaterialStability<2>, lines 258-300. *)
Definition stability2 (p : plist) : res unit :=
  let! ex := get p "Youngs Modulus X" in let! _ := reject (Rltb ex 0) in
  let! ey := get p "Youngs Modulus Y" in let! _ := reject (Rltb ey 0) in
  let! gxy := get p "Shear Modulus XY" in let! _ := reject (Rltb gxy 0) in
  let! nxy := get p "Poissons Ratio XY" in let! _ := poisson_check nxy ex ey in
  let! qyx := quot ey ex in let nyx := nxy * qyx in poisson_check nyx ey ex.
(** setOrthoMaterialModel<2>, lines 329-346. *)
Definition stiffness2 (p : plist) : res (nat -> nat -> R) :=
  let! ex := get p "Youngs Modulus X" in let! ey := get p "Youngs Modulus Y" in
  let! gxy := get p "Shear Modulus XY" in let! nxy := get p "Poissons Ratio XY" in
  let! qyx := quot ey ex in let nyx := nxy * qyx in
  let! c00 := quot ex (1 - nxy * nyx) in
  let! c01 := quot (nxy * ey) (1 - nxy * nyx) in
  let! c10 := quot (nxy * ey) (1 - nxy * nyx) in
  let! c11 := quot ey (1 - nxy * nyx) in
  Ok (fun i j => match i, j with 0, 0 => c00 | 0, 1 => c01 | 1, 0 => c10 | 1, 1 => c11 | 2, 2 => gxy | _, _ => 0%R end)%nat.

(** setOrthoMaterialModel<1>, lines 404-415. *)
Definition stiffness1 (p : plist) : res (nat -> nat -> R) :=
  let! v := get p "Poissons Ratio" in let! e := get p "Youngs Modulus" in
  let! c := quot e ((1 + v) * (1 - 2 * v)) in
  Ok (fun i j => match i, j with 0, 0 => (c * (1 - v))%R | _, _ => 0%R end)%nat.

(** The constructors, lines 229-237 (3D), 351-359 (2D), 420-428 (1D; checkOrthoMaterialStability<1>, 380-383, checks nothing).  The stiffness they store. *)
Definition ortho_material (d : nat) (p : plist) : res (nat -> nat -> R) :=
  match d with
  | 1%nat => let! _ := require p keys1 in stiffness1 p
  | 2%nat => let! _ := require p keys2 in let! _ := stability2 p in stiffness2 p
  | _ => let! _ := require p keys3 in let! _ := stability3 p in stiffness3 p
  end.
(** The mass density, lines 182, 333, 408. *)
Definition ortho_density (p : plist) : R := get_or p "Mass Density" 1.
