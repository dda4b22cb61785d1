(** The stress and flux p-norm criteria: src/TensorPNorm.hpp, src/VectorPNorm.hpp, src/elliptic/StressPNorm.hpp, src/elliptic/EMStressPNorm.hpp,
    src/elliptic/FluxPNorm.hpp and src/hyperbolic/HyperbolicStressPNorm.hpp, on a mesh of linear simplices.  Doubles are reals.  Derivatives by
    automatic differentiation are not part of this file, except the factor of acos (C117). *)
From Coq Require Import String Reals List Arith Bool ZArith.
From Verif Require Import Base.Field Base.Sums Base.Res Element.ElementModel Penalty.PenaltyModel Residual.ResidualModel Ortho.OrthoModel.
Import ListNotations.
Local Open Scope R_scope.

(** ** C arithmetic *)
(** Conversion of a double to Plato::OrdinalType (int): the fraction is dropped.  Values out of the range of int are not considered. *)
Definition to_int (x : R) : Z := if Rlt_dec x 0 then (- Int_part (- x))%Z else Int_part x.
(** pow(double, double).  Out of its domain the result is an infinity or a NaN: UB. *)
Definition pow_real (x p : R) : res R :=
  if Rlt_dec x 0 then UB
  else if Req_EM_T x 0 then (if Req_EM_T p 0 then Ok 1 else if Rlt_dec p 0 then UB else Ok 0)
  else Ok (Rpower x p).
(** pow(double, int). *)
Definition pow_int (x : R) (p : Z) : res R := if Req_EM_T x 0 then (if Z.ltb p 0 then UB else Ok (powerRZ x p)) else Ok (powerRZ x p).
(** sqrt and acos: NaN out of their domains. *)
Definition sqrt_real (x : R) : res R := if Rlt_dec x 0 then UB else Ok (sqrt x).
Definition acos_real (x : R) : res R := if Rlt_dec x (-1) then UB else if Rlt_dec 1 x then UB else Ok (acos x).
(** The factor of the derivative of acos in Sacado's operators: -1 / sqrt(1 - x x). *)
Definition acos_factor (x : R) : res R := let! q := quot 1 (sqrt (1 - x * x)) in Ok (- q).

(** ** Parameters *)
(** An entry of a Teuchos parameter list. *)
Inductive entry := EInt (z : Z) | EReal (x : R) | EStr (s : string) | EArray (l : list R).
Definition entries := string -> option entry.
(** isType<Scalar>, then get<Scalar>. *)
Definition real_or (p : entries) (k : string) (dflt : R) : R := match p k with Some (EReal x) => x | _ => dflt end.
(** get<Scalar>: throws when the entry is missing or of another type. *)
Definition need_real (p : entries) (k : string) : res R := match p k with Some (EReal x) => Ok x | _ => Throw end.
Definition need_string (p : entries) (k : string) : res string := match p k with Some (EStr s) => Ok s | _ => Throw end.
(** get<Array<Scalar>> and the reading of six of its elements without a check. *)
Definition need_row (p : entries) (k : string) : res (list R) :=
  match p k with Some (EArray l) => if Nat.ltb (length l) 6 then UB else Ok l | _ => Throw end.
(** A criterion's list: its entries and, when there is a 'Normalize' sublist, the entries of it and of its sublists 'Scalar' and 'Barlat'.  The
    non-const sublist() creates the sublist that is missing: an empty one. *)
Record norm_params := mkNorm { n_entries : entries; n_normalize : option (entries * entries * entries) }.

(** ** The norms *)
Inductive norm :=
| Plain
| Weighted (product reference : R)
| Barlat (exponent : Z) (reference : R) (T1 T2 : nat -> nat -> R).

Local Open Scope string_scope.
(** BarlatNormFunctor(), src/TensorPNorm.hpp 124-178.  'Barlat Exponent' is looked for as an int and then read as a double. *)
Definition rows (p : entries) (name : nat -> string) : res (nat -> nat -> R) :=
  let! l := mapR (fun i => need_row p (name i)) (seq 0 6) in Ok (fun i j => nth j (nth i l nil) 0%R).
Definition digit (i : nat) : string := match i with 0%nat => "0" | 1%nat => "1" | 2%nat => "2" | 3%nat => "3" | 4%nat => "4" | _ => "5" end.
Definition barlat_exponent (p : entries) : res Z :=
  match p "Barlat Exponent" with
  | Some (EInt _) => let! x := need_real p "Barlat Exponent" in Ok (to_int x)
  | _ => Ok 6%Z
  end.
Definition read_barlat (p : entries) : res norm :=
  let! a := barlat_exponent p in
  let! t1 := rows p (fun i => "T1" ++ digit i) in
  let! t2 := rows p (fun i => "T2" ++ digit i) in
  Ok (Barlat a (real_or p "Reference Weight" 1) t1 t2).
(** WeightedNormFunctor(), 66-79. *)
Definition read_weighted (p : entries) : norm := Weighted (real_or p "Scalar Product Weight" 1) (real_or p "Reference Weight" 1).
(** TensorNormFactory::create, 426-457, and TensorNormBase(), 286-289: 'Exponent' is required by each of them. *)
Definition create_norm (p : norm_params) : res (R * norm) :=
  match n_normalize p with
  | Some (nl, sc, ba) =>
      let! t := need_string nl "Type" in
      if String.eqb t "Barlat" then let! e := need_real (n_entries p) "Exponent" in let! n := read_barlat ba in Ok (e, n)
      else if String.eqb t "Scalar" then let! e := need_real (n_entries p) "Exponent" in Ok (e, read_weighted sc)
      else let! e := need_real (n_entries p) "Exponent" in Ok (e, Plain)
  | None => let! e := need_real (n_entries p) "Exponent" in Ok (e, Plain)
  end.
Local Close Scope string_scope.

(** TensorPNormFunctor::operator(), 28-47, and VectorPNorm, src/VectorPNorm.hpp 20-39: [n] terms, integer exponent [p]. *)
Definition plain_cell (n : nat) (p : Z) (s : nat -> R) (vol : R) : res R :=
  let! v := pow_real (rsum n (fun i => s i * s i)) (IZR p / 2) in Ok (v * vol).
(** WeightedNormFunctor::operator(), 82-103. *)
Definition weighted_cell (n : nat) (w r : R) (p : Z) (s : nat -> R) (vol : R) : res R :=
  let! q := sqrt_real (w * rsum n (fun i => s i * s i)) in
  let! q := quot q r in
  let! v := pow_int q p in Ok (v * vol).
(** BarlatNormFunctor::operator(), 181-270. *)
(** mapToDevStress, 156-161. *)
Definition to_dev (i j : nat) : R :=
  if Nat.ltb i 3 then (if Nat.ltb j 3 then (if Nat.eqb i j then 2 / 3 else - (1 / 3)) else 0) else (if Nat.eqb i j then 1 else 0).
(** mCp and mCpp, 163-176. *)
Definition dev_map (T : nat -> nat -> R) (i j : nat) : R := rsum 6 (fun k => T i k * to_dev k j).
(** The stress with six entries, 187-204, from [n] Voigt entries. *)
Definition six (n : nat) (t : nat -> R) : nat -> R :=
  match n with
  | 6%nat => fun i => if Nat.ltb i 6 then t i else 0
  | 3%nat => fun i => match i with 0%nat => t 0%nat | 1%nat => t 1%nat | 5%nat => t 2%nat | _ => 0 end
  | 1%nat => fun i => match i with 0%nat => t 0%nat | _ => 0 end
  | _ => fun _ => 0
  end.
(** sp, spp, 206-216. *)
Definition transform (C : nat -> nat -> R) (s : nat -> R) (i : nat) : R := rsum 6 (fun j => C i j * s j).
(** Hp1-Hp3, 219-226. *)
Definition H1 (s : nat -> R) : R := (s 0%nat + s 1%nat + s 2%nat) / 3.
Definition H2 (s : nat -> R) : R :=
  (s 3%nat * s 3%nat + s 4%nat * s 4%nat + s 5%nat * s 5%nat - s 1%nat * s 2%nat - s 2%nat * s 0%nat - s 0%nat * s 1%nat) / 3.
Definition H3 (s : nat -> R) : R :=
  (2 * s 3%nat * s 4%nat * s 5%nat + s 0%nat * s 1%nat * s 2%nat - s 0%nat * s 3%nat * s 3%nat - s 1%nat * s 4%nat * s 4%nat - s 2%nat * s 5%nat * s 5%nat) / 2.
(** Pp and Qp, 236-239. *)
Definition PP (s : nat -> R) : R := if Rlt_dec 0 (H1 s * H1 s + H2 s) then H1 s * H1 s + H2 s else 0.
Definition QQ (s : nat -> R) : R := (2 * H1 s * H1 s * H1 s + 3 * H1 s * H2 s + 2 * H3 s) / 2.
(** The argument of acos and Thetap, 240. *)
Definition cosine (s : nat -> R) : res R := let! d := pow_real (PP s) (3 / 2) in quot (QQ s) d.
Definition theta (s : nat -> R) : res R := let! x := cosine s in acos_real x.
(** Sp1, Sp2, Sp3, 249-251. *)
Definition principal (s : nat -> R) : res (R * R * R) :=
  let! t := theta s in
  let! r := sqrt_real (H1 s * H1 s + H2 s) in
  Ok (H1 s + 2 * r * cos (t / 3), H1 s + 2 * r * cos ((t + 4 * acos (-1)) / 3), H1 s + 2 * r * cos ((t + 2 * acos (-1)) / 3)).
(** 258-270. *)
Definition barlat_cell (n : nat) (a : Z) (ref : R) (T1 T2 : nat -> nat -> R) (p : Z) (t : nat -> R) (vol : R) : res R :=
  let! sp := principal (transform (dev_map T1) (six n t)) in
  let! spp := principal (transform (dev_map T2) (six n t)) in
  let '(s1, s2, s3) := sp in let '(q1, q2, q3) := spp in
  let! l := mapR (fun x => pow_int x a) [s1 - q1; s1 - q2; s1 - q3; s2 - q1; s2 - q2; s2 - q3; s3 - q1; s3 - q2; s3 - q3] in
  let! e := quot 1 (IZR a) in
  let! f := pow_real (fold_left Rplus l 0 / 4) e in
  let! f := quot f ref in
  let! v := pow_int f p in Ok (v * vol).
(** TensorPNorm, BarlatNorm and WeightedNorm ::evaluate, 335-423: the exponent of the criterion is handed over as an int. *)
Definition norm_cell (n : nat) (k : norm) (e : R) (s : nat -> R) (vol : R) : res R :=
  match k with
  | Plain => plain_cell n (to_int e) s vol
  | Weighted w r => weighted_cell n w r (to_int e) s vol
  | Barlat a ref T1 T2 => barlat_cell n a ref T1 T2 (to_int e) s vol
  end.
(** TensorNormBase::postEvaluate, 312-315, and the factor of its gradients, 301-310. *)
Definition root (e v : R) : res R := let! q := quot 1 e in pow_real v q.
Definition root_factor (e v : R) : res R := let! q := quot (1 - e) e in let! f := pow_real v q in quot f e.
(** PhysicsScalarFunction::value, src/elliptic/PhysicsScalarFunction.hpp 216-258. *)
Definition criterion {M} (n : nat) (k : norm) (e : R) (tensor : cell M -> nat -> R) (vol : cell M -> R) (cells : list (cell M)) : res R :=
  let! t := totalR (fun c => norm_cell n k e (tensor c) (vol c)) cells in root e t.

(** ** The criteria *)
(** The quadrature weight of StressPNorm, src/elliptic/StressPNorm.hpp 75-79. *)
Definition loop_weight (d : nat) : R := fold_left (fun w k => w / INR k) (seq 2 (d - 1)) 1.
(** StressPNorm::evaluate, src/elliptic/StressPNorm.hpp 86-140: LinearStress is made from the stiffness alone (src/LinearStress.hpp 34-41), so there
    is no reference strain. *)
Definition stress_tensor {M} (d : nat) (pen : R -> R) (stiff : M -> nat -> nat -> R) (ref : M -> nat -> R) (X : nat -> nat -> R) (U Z : nat -> R) (c : cell M) : nat -> R :=
  weigh d pen (gather_control Z c)
    (linear_stress (num_voigt d) (stiff (c_mat c)) (ref (c_mat c)) (strain d d (fun _ => 0) (gather d U c) (cell_gradient d (gather_coords X c)))).
Definition stress_pnorm (d : nat) (k : norm) (e : R) (pen : R -> R) (X : nat -> nat -> R) (U Z : nat -> R) (cells : list (cell elastic)) : res R :=
  criterion (num_voigt d) k e (stress_tensor d pen e_stiff (fun _ _ => 0) X U Z) (fun c => cell_volume d (gather_coords X c) * loop_weight d) cells.
(** Hyperbolic StressPNorm::evaluate, src/hyperbolic/HyperbolicStressPNorm.hpp 86-134: LinearStress is made from the material. *)
Definition hyperbolic_stress_pnorm (d : nat) (k : norm) (e : R) (pen : R -> R) (X : nat -> nat -> R) (U Z : nat -> R) (cells : list (cell elastic)) : res R :=
  criterion (num_voigt d) k e (stress_tensor d pen e_stiff e_ref X U Z) (fun c => cell_measure d (gather_coords X c)) cells.
(** EMStressPNorm::evaluate, src/elliptic/EMStressPNorm.hpp 84-134. *)
Definition em_stress_pnorm (d : nat) (k : norm) (e : R) (pen : R -> R) (X : nat -> nat -> R) (U Z : nat -> R) (cells : list (cell electroelastic)) : res R :=
  criterion (num_voigt d) k e
    (fun c => let u := gather (S d) U c in let g := cell_gradient d (gather_coords X c) in
              weigh d pen (gather_control Z c) (em_stress d (c_mat c) (strain d (S d) (fun _ => 0) u g) (em_field d u g)))
    (fun c => cell_measure d (gather_coords X c)) cells.
(** FluxPNorm(), evaluate and postEvaluate, src/elliptic/FluxPNorm.hpp 55-160: the exponent is kept as an int. *)
Definition flux_tensor (d : nat) (pen : R -> R) (X : nat -> nat -> R) (T Z : nat -> R) (c : cell thermal) : nat -> R :=
  weigh d pen (gather_control Z c) (flux_no_temperature d (c_mat c) (scalar_gradient d 1 0 (gather 1 T c) (cell_gradient d (gather_coords X c)))).
Definition flux_pnorm (d : nat) (entered : R) (pen : R -> R) (X : nat -> nat -> R) (T Z : nat -> R) (cells : list (cell thermal)) : res R :=
  let e := IZR (to_int entered) in
  let! t := totalR (fun c => plain_cell d (to_int entered) (flux_tensor d pen X T Z c) (cell_measure d (gather_coords X c))) cells in root e t.
