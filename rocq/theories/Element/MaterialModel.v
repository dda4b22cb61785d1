(** Elastic stiffness, stress laws, principal values and the von Mises measure, over the reals, one cell at a time. *)
From Coq Require Import Reals List Arith Bool String.
From Verif Require Import Base.Field Base.Sums Base.Res Element.ElementModel.
Import ListNotations.
Local Open Scope R_scope.

(** ** Stiffness matrices *)

(** The pattern written by IsotropicLinearElasticMaterial<d> (src/IsotropicLinearElasticMaterial.cpp 25, 59-63, 97-108 and 141,
    157-161, 177-188) and by IsotropicStiffness* (src/IsotropicStiffness.cpp 39-41, 69-72, 93, 107-109, 123-126): a on the normal
    diagonal, b between normal components, c on the shear diagonal; entries never written stay 0 (LinearElasticMaterial::initialize,
    Rank4Voigt default constructors). *)
Definition voigt_pattern (d : nat) (a b c : R) (i j : nat) : R :=
  if (Nat.ltb i d && Nat.ltb j d)%bool then (if Nat.eqb i j then a else b) else if Nat.eqb i j then c else 0.
(** IsotropicLinearElasticMaterial, all constructors: tCoeff lines 24, 57, 95, 140, 156, 176. *)
Definition isotropic_material (d : nat) (E v : R) : nat -> nat -> R :=
  let coeff := E / ((1 + v) * (1 - 2 * v)) in
  voigt_pattern d (coeff * (1 - v)) (coeff * v) (1 / 2 * coeff * (1 - 2 * v)).
(** The default pressure scaling, lines 33, 71, 116. *)
Definition pressure_scaling (E v : R) : R := E / (3 * (1 - 2 * v)).
(** IsotropicStiffnessConstant<1,2,3>, src/IsotropicStiffness.cpp 85-127. *)
Definition isotropic_constant (d : nat) (E v : R) : nat -> nat -> R :=
  let c := 1 / ((1 + v) * (1 - 2 * v)) in voigt_pattern d (E * c * (1 - v)) (E * c * v) (1 / 2 * E * c * (1 - 2 * v)).
(** Rank4VoigtFunctor::operator(), src/MaterialModel.hpp 239-245. *)
Definition functor_at (c0 c1 c2 : nat -> nat -> R) (T : R) (i j : nat) : R := T * c1 i j + c0 i j + T * T * c2 i j.
(** IsotropicStiffnessFunctor<1> (7-20), <2> (23-50), <3> (53-83), with Youngs modulus coefficients E0, E1, E2. *)
Definition isotropic_functor (d : nat) (E0 E1 E2 v : R) : R -> nat -> nat -> R :=
  match d with
  | 1%nat => let m E := fun i j : nat => if (Nat.eqb i 0 && Nat.eqb j 0)%bool then E * ((1 + v) * (1 - 2 * v)) * (1 - v) else 0 in
             functor_at (m E0) (m E1) (m E2)
  | _ => let c := 1 / ((1 + v) * (1 - 2 * v)) in
         let m E := voigt_pattern d (E * c * (1 - v)) (E * c * v) (1 / 2 * E * c * (1 - 2 * v)) in
         functor_at (m E0) (m E1) (m E2)
  end.
(** CubicLinearElasticMaterial<1,2,3>, src/CubicLinearElasticMaterial.cpp 16-66. *)
Definition cubic_material (d : nat) (C11 C12 C44 : R) : nat -> nat -> R := voigt_pattern d C11 C12 C44.

(** Parameter lists and Plato::ParseTools::getParam, src/ParseTools.hpp 46-81. *)
Definition plist := string -> option R.
Definition get (p : plist) (k : string) : res R := match p k with Some r => Ok r | None => Throw end.
Definition get_or (p : plist) (k : string) (dflt : R) : R := match p k with Some r => r | None => dflt end.
Definition sym_entry (i j : nat) (l : list (nat * nat * R)) : R :=
  match find (fun e => let '(a, b, _) := e in (Nat.eqb a i && Nat.eqb b j) || (Nat.eqb a j && Nat.eqb b i))%bool l with Some (_, _, r) => r | None => 0 end.
Local Open Scope string_scope.
(** Rank4VoigtConstant<1> (src/Rank4Voigt.cpp 83-87), <2> (91-98), <3> (101-113). *)
Definition rank4_constant (d : nat) (p : plist) : res (nat -> nat -> R) :=
  match d with
  | 1%nat => let! c11 := get p "c11" in Ok (fun i j => sym_entry i j [(0, 0, c11)]%nat)
  | 2%nat => let! c11 := get p "c11" in
             let c22 := get_or p "c22" c11 in let c12 := get_or p "c12" 0 in
             let! c33 := get p "c33" in
             Ok (fun i j => sym_entry i j [(0, 0, c11); (1, 1, c22); (0, 1, c12); (2, 2, c33)]%nat)
  | _ => let! c11 := get p "c11" in
         let c22 := get_or p "c22" c11 in let c33 := get_or p "c33" c11 in
         let c12 := get_or p "c12" 0 in let c13 := get_or p "c13" c12 in let c23 := get_or p "c23" c12 in
         let! c44 := get p "c44" in
         let c55 := get_or p "c55" c44 in let c66 := get_or p "c66" c44 in
         Ok (fun i j => sym_entry i j [(0, 0, c11); (1, 1, c22); (2, 2, c33); (0, 1, c12); (0, 2, c13); (1, 2, c23);
                                       (3, 3, c44); (4, 4, c55); (5, 5, c66)]%nat)
  end.
(** Rank4VoigtFunctor<1> (12-18), <2> (21-39), <3> (42-80), evaluated at T. *)
Definition rank4_functor (d : nat) (p : plist) : res (R -> nat -> nat -> R) :=
  match d with
  | 1%nat => let! a0 := get p "c011" in
             let a1 := get_or p "c111" 0 in let a2 := get_or p "c211" 0 in
             Ok (functor_at (fun i j => sym_entry i j [(0, 0, a0)]%nat) (fun i j => sym_entry i j [(0, 0, a1)]%nat) (fun i j => sym_entry i j [(0, 0, a2)]%nat))
  | 2%nat => let! a0 := get p "c011" in
             let a1 := get_or p "c111" 0 in let a2 := get_or p "c211" 0 in
             let b0 := get_or p "c022" a0 in let b1 := get_or p "c122" a1 in let b2 := get_or p "c222" a2 in
             let! s0 := get p "c033" in
             let s1 := get_or p "c133" 0 in let s2 := get_or p "c233" 0 in
             let o0 := get_or p "c012" 0 in let o1 := get_or p "c112" 0 in let o2 := get_or p "c212" 0 in
             let m a b o s := fun i j => sym_entry i j [(0, 0, a); (1, 1, b); (2, 2, s); (0, 1, o)]%nat in
             Ok (functor_at (m a0 b0 o0 s0) (m a1 b1 o1 s1) (m a2 b2 o2 s2))
  | _ => let! a0 := get p "c011" in
         let a1 := get_or p "c111" 0 in let a2 := get_or p "c211" 0 in
         let b0 := get_or p "c022" a0 in let b1 := get_or p "c122" a1 in let b2 := get_or p "c222" a2 in
         let e0 := get_or p "c033" a0 in let e1 := get_or p "c133" a1 in let e2 := get_or p "c233" a2 in
         let! s0 := get p "c044" in
         let s1 := get_or p "c144" 0 in let s2 := get_or p "c244" 0 in
         let t0 := get_or p "c055" s0 in let t1 := get_or p "c155" s1 in let t2 := get_or p "c255" s2 in
         let u0 := get_or p "c066" s0 in let u1 := get_or p "c166" s1 in let u2 := get_or p "c266" s2 in
         let o0 := get_or p "c012" 0 in let o1 := get_or p "c112" 0 in let o2 := get_or p "c212" 0 in
         let q0 := get_or p "c013" o0 in let q1 := get_or p "c113" o1 in let q2 := get_or p "c213" o2 in
         let r0 := get_or p "c023" o0 in let r1 := get_or p "c123" o1 in let r2 := get_or p "c223" o2 in
         let m a b e s t u o q r := fun i j => sym_entry i j [(0, 0, a); (1, 1, b); (2, 2, e); (3, 3, s); (4, 4, t); (5, 5, u); (0, 1, o); (0, 2, q); (1, 2, r)]%nat in
         Ok (functor_at (m a0 b0 e0 s0 t0 u0 o0 q0 r0) (m a1 b1 e1 s1 t1 u1 o1 q1 r1) (m a2 b2 e2 s2 t2 u2 o2 q2 r2))
  end.
Local Close Scope string_scope.

(** ** Stress for plasticity; two-dimensional order is 11, 22, 12, 33 *)

(** ComputeCauchyStress<3> (src/ComputeCauchyStress.hpp 61-91), <2> (96-121), <1> (126-141). *)
Definition cauchy_stress (d : nat) (bulk shear : R) (e : nat -> R) (v : nat) : R :=
  match d with
  | 1%nat => let t3 := e 0%nat / 3 in match v with 0%nat => shear * (2 * (e 0%nat - t3)) + bulk * t3 | _ => 0 end
  | 2%nat => let tr := e 0%nat + e 1%nat + e 3%nat in let t3 := tr / 3 in
             match v with
             | 2%nat => shear * e 2%nat
             | 0%nat | 1%nat | 3%nat => (2 * shear) * (e v - t3) + bulk * tr
             | _ => 0
             end
  | _ => let tr := e 0%nat + e 1%nat + e 3%nat in let t3 := tr / 3 in
         match v with
         | 0%nat | 1%nat | 2%nat => (2 * shear) * (e v - t3) + bulk * tr
         | 3%nat | 4%nat | 5%nat => shear * e v
         | _ => 0
         end
  end.
(** ComputeDeviatoricStress<1> (src/ComputeDeviatoricStress.hpp 57-71), <2> (76-102), <3> (107-127). *)
Definition deviatoric_stress (d : nat) (shear : R) (e : nat -> R) (v : nat) : R :=
  match d with
  | 1%nat => match v with 0%nat => (2 * shear) * (e 0%nat - e 0%nat / 3) | _ => 0 end
  | 2%nat => let t3 := (e 0%nat + e 1%nat + e 3%nat) / 3 in
             match v with 2%nat => shear * e 2%nat | 0%nat | 1%nat | 3%nat => (2 * shear) * (e v - t3) | _ => 0 end
  | _ => let t3 := (e 0%nat + e 1%nat + e 2%nat) / 3 in
         match v with 0%nat | 1%nat | 2%nat => (2 * shear) * (e v - t3) | 3%nat | 4%nat | 5%nat => shear * e v | _ => 0 end
  end.

(** ** Principal values *)

(** Lines 128-130 and 200-202 of src/Eigenvalues.hpp. *)
Definition tangent (tau : R) : R := if Rle_dec 0 tau then 1 / (tau + sqrt (1 + tau * tau)) else -1 / (sqrt (1 + tau * tau) - tau).

(** Eigenvalues<2>, src/Eigenvalues.hpp 180-214. *)
Definition eigenvalues2 (strain_type : bool) (t : nat -> R) : R * R :=
  let t12 := if strain_type then t 2%nat / 2 else t 2%nat in
  let t11 := t 0%nat in let t22 := t 1%nat in
  let rotates := if Rlt_dec 0 t12 then true else false in
  let tau := if rotates then (t22 - t11) / (2 * t12) else 0 in
  let tn := tangent tau in
  let c := if rotates then 1 / sqrt (1 + tn * tn) else 1 in
  let s := if rotates then tn * c else 0 in
  (c * (t11 * c - t12 * s) - s * (t12 * c - t22 * s), c * (t22 * c + t12 * s) + s * (t12 * c + t11 * s)).

(** Eigenvalues<3>, 63-166: the symmetric tensor (lines 76-97). *)
Definition tensor3 (strain_type : bool) (t : nat -> R) (i j : nat) : R :=
  let sh r := if strain_type then r / 2 else r in
  match i, j with
  | 0%nat, 0%nat => t 0%nat | 1%nat, 1%nat => t 1%nat | 2%nat, 2%nat => t 2%nat
  | 0%nat, 1%nat | 1%nat, 0%nat => sh (t 5%nat)
  | 0%nat, 2%nat | 2%nat, 0%nat => sh (t 4%nat)
  | 1%nat, 2%nat | 2%nat, 1%nat => sh (t 3%nat)
  | _, _ => 0
  end.
Definition Rgeb (a b : R) : bool := if Rle_dec b a then true else false.
(** Lines 110-120. *)
Definition pivot (T : nat -> nat -> R) : nat * nat :=
  let a01 := Rabs (T 0%nat 1%nat) in let a02 := Rabs (T 0%nat 2%nat) in let a12 := Rabs (T 1%nat 2%nat) in
  let c1 := Rgeb a02 a12 in let c2 := Rgeb a01 a02 in let c3 := Rgeb a01 a12 in
  let c4 := negb (c1 || c3) in let c5 := (c2 && c3)%bool in
  ((if c4 then 1 else 0)%nat, (if c5 then 1 else 2)%nat).
(** Lines 123-146: the Givens rotation; 1.0e-15 is read as the real 10^-15. *)
Definition tiny : R := / 10 ^ 15.
Definition givens (T : nat -> nat -> R) : nat -> nat -> R :=
  let (p, q) := pivot T in
  let c6 := if Rlt_dec tiny (Rabs (T p q)) then true else false in
  let tau := if c6 then (T q q - T p p) / (2 * T p q) else 0 in
  let tn := tangent tau in
  let c := if c6 then 1 / sqrt (1 + tn * tn) else 1 in
  let s := if c6 then tn * c else 0 in
  fun i j => if (Nat.eqb i p && Nat.eqb j p)%bool then c else if (Nat.eqb i p && Nat.eqb j q)%bool then s
             else if (Nat.eqb i q && Nat.eqb j p)%bool then - s else if (Nat.eqb i q && Nat.eqb j q)%bool then c
             else if Nat.eqb i j then 1 else 0.
(** Lines 148-161: upper triangle of G^T T G, mirrored. *)
Definition rotate (T G : nat -> nat -> R) : nat -> nat -> R :=
  let up i l := rsum 3 (fun j => rsum 3 (fun k => G j i * T j k * G k l)) in
  fun i l => if Nat.leb i l then up i l else up l i.
Fixpoint jacobi (n : nat) (T : nat -> nat -> R) : nat -> nat -> R :=
  match n with O => T | S n => jacobi n (rotate T (givens T)) end.
Definition eigenvalues3 (iters : nat) (strain_type : bool) (t : nat -> R) (i : nat) : R := jacobi iters (tensor3 strain_type t) i i.

(** ** VonMisesYieldFunction<3> (src/VonMisesYieldFunction.hpp 50-74), <2> (85-101), <1> (112-121). *)
Definition von_mises (d : nat) (s : nat -> R) : R :=
  match d with
  | 1%nat => s 0%nat
  | 2%nat => sqrt (s 0%nat * s 0%nat - s 0%nat * s 1%nat + s 1%nat * s 1%nat + 3 * (s 2%nat * s 2%nat))
  | _ => let a := s 0%nat - s 1%nat in let b := s 1%nat - s 2%nat in let c := s 2%nat - s 0%nat in
         sqrt (/ 2 * (a * a + b * b + c * c) + 3 * (s 3%nat * s 3%nat + s 4%nat * s 4%nat + s 5%nat * s 5%nat))
  end.
