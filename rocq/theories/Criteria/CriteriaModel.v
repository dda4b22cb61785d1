(** Criteria: physics scalar functions (with a history of states) and the composite criteria built from them.

    The scalar type is the reals.  Element-level evaluators, including the derivatives that automatic differentiation attaches to
    their results, are parameters: an evaluator gives the value of a cell and the gradients of that value, already scattered to
    the global numbering (the scatter itself is modelled in Assembly/AssemblyModel.v). *)
From Coq Require Import Reals List Arith ZArith.
From Verif Require Import Base.Field Base.Sums Base.Res.
Import ListNotations.
Local Open Scope R_scope.

Notation rvec := (nat -> R).

(** ** Physics scalar functions *)

(** One domain of src/elliptic/AbstractScalarFunction.hpp, src/parabolic/AbstractScalarFunction.hpp,
    src/hyperbolic/HyperbolicAbstractScalarFunction.hpp.  S is what a time step provides (state; state and rate; state, rate and
    second rate), P the control and the configuration.  de_value s p t c is the result of cell c; de_step s p t c its gradient with
    respect to one of the components of s; de_par its gradient with respect to the control or the configuration. *)
Record domain_eval (S P : Type) := mkDomain {
  de_cells : nat;
  de_value : S -> P -> R -> nat -> R;
  de_step : S -> P -> R -> nat -> rvec;
  de_par : S -> P -> R -> nat -> rvec }.
Arguments mkDomain {S P}. Arguments de_cells {S P}. Arguments de_value {S P}. Arguments de_step {S P}. Arguments de_par {S P}.

(** postEvaluate: the scalar version, and the factor applied to a gradient whose accumulated value is given.
    The base classes leave both unchanged (src/elliptic/AbstractScalarFunction.hpp 81-94). *)
Record post_eval := mkPost { pe_value : R -> R; pe_scale : R -> R }.
Definition no_post : post_eval := mkPost (fun v => v) (fun _ => 1).
(** src/TensorPNorm.hpp 301-316 (also src/elliptic/FluxPNorm.hpp 141-160). *)
Definition pnorm_post (p : R) : post_eval :=
  mkPost (fun v => Rpower v (1 / p)) (fun v => Rpower v ((1 - p) / p) / p).

Section Physics.
Context {S P : Type}.

(** local_result_sum: sum over the cells (src/Assembly.hpp 21-30; the order of a parallel reduction does not matter
    for reals). *)
Definition cells_sum (n : nat) (f : nat -> R) : R := sum (K := R_ring) n f.

(** A criterion: its domains and the postEvaluate of the first one. *)
Record physics_function := mkPhysics { ph_domains : list (domain_eval S P); ph_post : post_eval }.

(** The steps visited by value, gradient_x and gradient_z: elliptic visits 0..N-1 upwards
    (src/elliptic/PhysicsScalarFunction.hpp 262, 331, 472); parabolic and hyperbolic visit N-1..1 downwards
    (src/parabolic/PhysicsScalarFunction.hpp 182-184, src/hyperbolic/HyperbolicPhysicsScalarFunction.hpp 200-202).  With N = 0 the
    unsigned N-1 wraps around and the loop reads out of bounds; the model is for N >= 1. *)
Definition elliptic_steps (N : nat) : list nat := seq 0 N.
Fixpoint down (k : nat) : list nat := match k with O => [] | Datatypes.S k' => k :: down k' end.
Definition transient_steps (N : nat) : list nat := down (N - 1).

(** value: PhysicsScalarFunction::value (elliptic 224-282, parabolic 144-212, hyperbolic 157-232); tReturnVal accumulates over
    domains, then steps. *)
Definition physics_value (steps : list nat) (f : physics_function) (h : nat -> S) (p : P) (t : R) : R :=
  pe_value (ph_post f)
    (fold_left (fun acc d => fold_left (fun acc k => acc + cells_sum (de_cells d) (de_value d (h k) p t)) steps acc)
       (ph_domains f) 0).

(** The accumulated value tValue and gradient, over a list of steps: gradient_x and gradient_z (elliptic 292-354 and 431-494,
    parabolic 222-290, hyperbolic 242-321): tValue also accumulates over domains and steps. *)
Definition accumulate (sel : domain_eval S P -> S -> P -> R -> nat -> rvec) (steps : list nat) (f : physics_function)
    (h : nat -> S) (p : P) (t : R) : R * rvec :=
  fold_left (fun acc d => fold_left (fun (acc : R * rvec) k =>
      (fst acc + cells_sum (de_cells d) (de_value d (h k) p t),
       fun j => snd acc j + cells_sum (de_cells d) (fun c => sel d (h k) p t c j))) steps acc)
    (ph_domains f) (0, fun _ => 0).
Definition finish (f : physics_function) (acc : R * rvec) : rvec := fun j => snd acc j * pe_scale (ph_post f) (fst acc).
Definition physics_gradient_par steps f h p t : rvec := finish f (accumulate de_par steps f h p t).
(** gradient_u, gradient_v, gradient_a: one step only, whose value alone is passed to postEvaluate (elliptic 365-421, parabolic
    300-370, hyperbolic 333-405). *)
Definition physics_gradient_step (k : nat) f h p t : rvec := finish f (accumulate de_step [k] f h p t).
End Physics.
Arguments physics_function : clear implicits. Arguments mkPhysics {S P}.

(** ** Composite criteria *)

(** Inputs of a scalar function: state history, control, configuration. *)
Record inputs := mkIn { in_state : nat -> rvec; in_control : rvec; in_config : rvec }.

(** src/elliptic/ScalarFunctionBase.hpp: the interface of every criterion. *)
Record sfun := mkSfun {
  sf_value : inputs -> R -> R;
  sf_gradient_x : inputs -> R -> rvec;
  sf_gradient_u : inputs -> nat -> R -> rvec;
  sf_gradient_z : inputs -> R -> rvec }.

(** Criteria are trees: the factory builds the parts recursively (src/elliptic/WeightedSumFunction.hpp 81-87,
    src/elliptic/DivisionFunction.hpp 45-61, src/elliptic/LeastSquaresFunction.hpp 89-97). *)
Inductive crit :=
| Leaf (f : sfun)
| WSum (parts : list (R * crit))
| Div (num den : crit)
| LSq (parts : list (R * R * R * crit)).     (** weight, gold value, normalization, part *)

(** WeightedSumFunction::initialize 74-87: as many weights as functions, or an error. *)
Definition mk_wsum (parts : list crit) (weights : list R) : res crit :=
  if Nat.eqb (length parts) (length weights) then Ok (WSum (combine weights parts)) else Throw.
(** LeastSquaresFunction::appendGoldFunctionValue 153-163: the normalization of a gold value. *)
Definition lsq_normalization (gold : R) : R := if Rgt_dec (Rabs gold) (1 / 10) then Rabs gold else 1.
(** LeastSquaresFunction::appendFunctionNormalization 170-177. *)
Definition lsq_user_normalization (x : R) : R := if Rgt_dec (Rabs x) (1 / 10) then Rabs x else 1 / 10.
(** LeastSquaresFunction::initialize 75-97 (from "Criterial", a misspelt sublist name, line 65; the model takes the lists). *)
Definition mk_lsq (parts : list crit) (weights golds : list R) : res crit :=
  if Nat.eqb (length parts) (length weights) then
    if Nat.eqb (length parts) (length golds) then
      Ok (LSq (map (fun x => (fst (fst x), snd (fst x), lsq_normalization (snd (fst x)), snd x)) (combine (combine weights golds) parts)))
    else Throw
  else Throw.

(** value: WeightedSumFunction 167-181, DivisionFunction 139-152 (throws on a zero denominator), LeastSquaresFunction 209-241. *)
Fixpoint cvalue (c : crit) (i : inputs) (t : R) {struct c} : res R :=
  match c with
  | Leaf f => Ok (sf_value f i t)
  | WSum parts =>
    (fix go (acc : R) (l : list (R * crit)) : res R :=
       match l with
       | [] => Ok acc
       | (w, c') :: l' => let! v := cvalue c' i t in go (acc + w * v) l'
       end) 0 parts
  | Div n d =>
    let! vn := cvalue n i t in let! vd := cvalue d i t in
    if Req_EM_T vd 0 then Throw else Ok (vn / vd)
  | LSq parts =>
    (fix go (acc : R) (l : list (R * R * R * crit)) : res R :=
       match l with
       | [] => Ok acc
       | (w, g, s, c') :: l' => let! v := cvalue c' i t in go (acc + w * ((v - g) / s) ^ 2) l'
       end) 0 parts
  end.

(** gradient_x and gradient_z: WeightedSumFunction 190-206 and 241-257, DivisionFunction 162-181 and 221-241, LeastSquaresFunction
    250-270 and 316-336; [leaf] selects the gradient of a part that is not composite.  A division by a zero denominator gives no
    number (the gradient does not check it): modelled as UB. *)
Fixpoint cgradient (leaf : sfun -> inputs -> R -> rvec) (c : crit) (i : inputs) (t : R) {struct c} : res rvec :=
  match c with
  | Leaf f => Ok (leaf f i t)
  | WSum parts =>
    (fix go (acc : rvec) (l : list (R * crit)) : res rvec :=
       match l with
       | [] => Ok acc
       | (w, c') :: l' => let! g := cgradient leaf c' i t in go (fun j => acc j + w * g j) l'
       end) (fun _ => 0) parts
  | Div n d =>
    let! vn := cvalue n i t in let! vd := cvalue d i t in
    let! gn := cgradient leaf n i t in let! gd := cgradient leaf d i t in
    if Req_EM_T vd 0 then UB else Ok (fun j => (gn j * vd - gd j * vn) / vd ^ 2)
  | LSq parts =>
    (fix go (acc : rvec) (l : list (R * R * R * crit)) : res rvec :=
       match l with
       | [] => Ok acc
       | (w, gold, s, c') :: l' =>
         let! v := cvalue c' i t in let! g := cgradient leaf c' i t in
         go (fun j => acc j + 2 * w * (v - gold) * g j / (s * s)) l'
       end) (fun _ => 0) parts
  end.
Definition cgradient_x := cgradient sf_gradient_x.
Definition cgradient_z := cgradient sf_gradient_z.

(** The conversion of the time step (a double) to a step index (an int) when it is passed in the third position: truncation,
    for nonnegative time steps. *)
Definition step_of_time (t : R) : nat := Z.to_nat (Int_part t).

(** gradient_u: WeightedSumFunction 215-232 (call at 225), DivisionFunction 191-211 (202-203), LeastSquaresFunction 279-307 (298):
    the parts are called with (aSolution, aControl, aTimeStep), so that the time step arrives as the step index and the time step
    of the parts is the default 0.  mGradientWRTStateIsZero (LeastSquaresFunction 286) is false. *)
Fixpoint cgradient_u (c : crit) (i : inputs) (k : nat) (t : R) {struct c} : res rvec :=
  match c with
  | Leaf f => Ok (sf_gradient_u f i k t)
  | WSum parts =>
    (fix go (acc : rvec) (l : list (R * crit)) : res rvec :=
       match l with
       | [] => Ok acc
       | (w, c') :: l' => let! g := cgradient_u c' i (step_of_time t) 0 in go (fun j => acc j + w * g j) l'
       end) (fun _ => 0) parts
  | Div n d =>
    let! vn := cvalue n i t in let! vd := cvalue d i t in
    let! gn := cgradient_u n i (step_of_time t) 0 in let! gd := cgradient_u d i (step_of_time t) 0 in
    if Req_EM_T vd 0 then UB else Ok (fun j => (gn j * vd - gd j * vn) / vd ^ 2)
  | LSq parts =>
    (fix go (acc : rvec) (l : list (R * R * R * crit)) : res rvec :=
       match l with
       | [] => Ok acc
       | (w, gold, s, c') :: l' =>
         let! v := cvalue c' i t in let! g := cgradient_u c' i (step_of_time t) 0 in
         go (fun j => acc j + 2 * w * (v - gold) * g j / (s * s)) l'
       end) (fun _ => 0) parts
  end.

(** ** Mass properties (src/elliptic/MassPropertiesFunction.hpp) *)

Inductive axes := XX | YY | ZZ | XY | XZ | YZ.
Notation tensor := (nat -> nat -> R).

(** getMomentOfInertia 589-652; [second a b] is the second mass moment function of the components a <= b. *)
Definition moment_of_inertia (second : nat -> nat -> crit) (ax : axes) : crit :=
  match ax with
  | XX => WSum [(1, second 1%nat 1%nat); (1, second 2%nat 2%nat)]
  | YY => WSum [(1, second 0%nat 0%nat); (1, second 2%nat 2%nat)]
  | ZZ => WSum [(1, second 0%nat 0%nat); (1, second 1%nat 1%nat)]
  | XY => WSum [(-1, second 0%nat 1%nat)]
  | XZ => WSum [(-1, second 0%nat 2%nat)]
  | YZ => WSum [(-1, second 1%nat 2%nat)]
  end.
(** tParallelAxisTheoremMatrix, lines 307-312. *)
Definition parallel_axis (cg : nat -> R) : tensor := fun a b =>
  (cg 0%nat * cg 0%nat + cg 1%nat * cg 1%nat + cg 2%nat * cg 2%nat) * (if Nat.eqb a b then 1 else 0) - cg a * cg b.
Definition mm3 (A B : tensor) : tensor := fun a b => A a 0%nat * B 0%nat b + A a 1%nat * B 1%nat b + A a 2%nat * B 2%nat b.
Definition tr3 (A : tensor) : tensor := fun a b => A b a.
(** mMinusRotatedParallelAxisTheoremMatrix, lines 326-327. *)
Definition minus_rotated_pat (Q : tensor) (cg : nat -> R) : tensor := fun a b => -1 * mm3 (tr3 Q) (mm3 (parallel_axis cg) Q) a b.
(** getInertiaAndMassWeights 697-786. *)
Definition inertia_weights (Q : tensor) (ax : axes) : list R :=
  let Q11 := Q 0%nat 0%nat in let Q12 := Q 0%nat 1%nat in let Q13 := Q 0%nat 2%nat in
  let Q21 := Q 1%nat 0%nat in let Q22 := Q 1%nat 1%nat in let Q23 := Q 1%nat 2%nat in
  let Q31 := Q 2%nat 0%nat in let Q32 := Q 2%nat 1%nat in let Q33 := Q 2%nat 2%nat in
  match ax with
  | XX => [Q11*Q11; Q21*Q21; Q31*Q31; 2*Q11*Q21; 2*Q11*Q31; 2*Q21*Q31]
  | YY => [Q12*Q12; Q22*Q22; Q32*Q32; 2*Q12*Q22; 2*Q12*Q32; 2*Q22*Q32]
  | ZZ => [Q13*Q13; Q23*Q23; Q33*Q33; 2*Q13*Q23; 2*Q13*Q33; 2*Q23*Q33]
  | XY => [Q11*Q12; Q21*Q22; Q31*Q32; Q11*Q22 + Q12*Q21; Q11*Q32 + Q12*Q31; Q21*Q32 + Q22*Q31]
  | XZ => [Q11*Q13; Q21*Q23; Q31*Q33; Q11*Q23 + Q13*Q21; Q11*Q33 + Q13*Q31; Q21*Q33 + Q23*Q31]
  | YZ => [Q12*Q13; Q22*Q23; Q32*Q33; Q12*Q23 + Q13*Q22; Q12*Q33 + Q13*Q32; Q22*Q33 + Q23*Q32]
  end.
Definition mass_weight (Q : tensor) (cg : nat -> R) (ax : axes) : R :=
  let M := minus_rotated_pat Q cg in
  match ax with
  | XX => M 0%nat 0%nat | YY => M 1%nat 1%nat | ZZ => M 2%nat 2%nat
  | XY => M 0%nat 1%nat | XZ => M 0%nat 2%nat | YZ => M 1%nat 2%nat
  end.
(** getMomentOfInertiaRotatedAboutCG 661-688. *)
Definition rotated_inertia (second : nat -> nat -> crit) (mass : crit) (Q : tensor) (cg : nat -> R) (ax : axes) : crit :=
  WSum (combine (inertia_weights Q ax ++ [mass_weight Q cg ax])
          (map (moment_of_inertia second) [XX; YY; ZZ; XY; XZ; YZ] ++ [mass])).
(** createAllMassPropertiesLeastSquaresFunction 202-285: weights [w], gold mass, gold centre of gravity, principal values [l] and
    rotation [Q] of the gold inertia about the centre of gravity (an eigen decomposition by Omega_h, line 319, is an input),
    mesh extents [ext]; [first a] is the first moment of component a, divided by the mass (getFirstMomentOverMassRatio 478-530). *)
Definition all_mass_properties (second : nat -> nat -> crit) (first : nat -> crit) (mass : crit) (w : nat -> R)
    (gold_mass : R) (cg : nat -> R) (Q : tensor) (l : nat -> R) (ext : nat -> R) : crit :=
  let lmin := Rmin (l 0%nat) (Rmin (l 1%nat) (l 2%nat)) in
  LSq [ (w 0%nat, gold_mass, lsq_normalization gold_mass, mass);
        (w 1%nat, cg 0%nat, lsq_user_normalization (ext 0%nat), Div (first 0%nat) mass);
        (w 2%nat, cg 1%nat, lsq_user_normalization (ext 1%nat), Div (first 1%nat) mass);
        (w 3%nat, cg 2%nat, lsq_user_normalization (ext 2%nat), Div (first 2%nat) mass);
        (w 4%nat, l 0%nat, lsq_normalization (l 0%nat), rotated_inertia second mass Q cg XX);
        (w 5%nat, l 1%nat, lsq_normalization (l 1%nat), rotated_inertia second mass Q cg YY);
        (w 6%nat, l 2%nat, lsq_normalization (l 2%nat), rotated_inertia second mass Q cg ZZ);
        (w 7%nat, 0, lsq_user_normalization lmin, rotated_inertia second mass Q cg XY);
        (w 8%nat, 0, lsq_user_normalization lmin, rotated_inertia second mass Q cg XZ);
        (w 9%nat, 0, lsq_user_normalization lmin, rotated_inertia second mass Q cg YZ) ].
