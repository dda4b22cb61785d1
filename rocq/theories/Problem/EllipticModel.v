(** Model of src/elliptic/Problem.hpp at the level of vectors and matrices. *)
From Coq Require Import Arith List Bool.
From Verif Require Import Base.Field Base.Sums Base.Res Problem.DenseBC.
Import ListNotations.

Section K.
Context {K : CRing}.
Local Open Scope K_scope.

(** What the problem uses of Plato::Elliptic::VectorFunction (src/elliptic/VectorFunction.hpp): the assembled
    residual and Jacobians.  [Z] is the type of controls.  gradient_z and gradient_x are stored
    transposed, control (or coordinate) by dof (lines 502-750 and C06_transpose_jacobian). *)
Record pde (Z : Type) := mkPde {
  p_value : vect K -> Z -> vect K;
  p_gradient_u : vect K -> Z -> matr K;
  p_gradient_u_T : vect K -> Z -> matr K;
  p_gradient_z : vect K -> Z -> matr K;
  p_gradient_x : vect K -> Z -> matr K }.

(** What it uses of a criterion (src/elliptic/ScalarFunctionBase.hpp). *)
Record criterion (Z : Type) := mkCriterion {
  c_gradient_u : vect K -> Z -> vect K;
  c_gradient_z : vect K -> Z -> vect K;
  c_gradient_x : vect K -> Z -> vect K }.

(** Members of Plato::Elliptic::Problem (Problem.hpp lines 40-80) that matter here: number of dofs, mNumNewtonSteps,
    the tests "norm < mNewtonResTol" and "norm < mNewtonIncTol" (as predicates on the vector),
    mBcDofs, mBcValues, mIsSelfAdjoint, and the linear solver. *)
Record problem (Z : Type) := mkProblem {
  n_dofs : nat;
  newton_steps : nat;
  res_small : vect K -> bool;
  inc_small : vect K -> bool;
  bc_dofs : list nat;
  bc_vals : list K;
  self_adjoint : bool;
  lin_solve : @solver K;
  the_pde : pde Z }.
Arguments p_value {Z}. Arguments p_gradient_u {Z}. Arguments p_gradient_u_T {Z}. Arguments p_gradient_z {Z}. Arguments p_gradient_x {Z}.
Arguments c_gradient_u {Z}. Arguments c_gradient_z {Z}. Arguments c_gradient_x {Z}.
Arguments n_dofs {Z}. Arguments newton_steps {Z}. Arguments res_small {Z}. Arguments inc_small {Z}. Arguments bc_dofs {Z}.
Arguments bc_vals {Z}. Arguments self_adjoint {Z}. Arguments lin_solve {Z}. Arguments the_pde {Z}.

Context {Z : Type}.

(** The loop of Problem::solution (lines 268-301); [todo] steps remain, [idx] is tNewtonIndex. *)
Fixpoint newton (p : problem Z) (z : Z) (todo idx : nat) (u : vect K) : vect K :=
  match todo with
  | O => u
  | S todo' =>
    let r : vect K := fun i => (- (1)) * p_value (the_pde p) u z i in
    if Nat.ltb 1 (newton_steps p) && res_small p r then u else
    let J := p_gradient_u (the_pde p) u z in
    let scale := if Nat.eqb idx 0 then 1 else 0 in
    let d := lin_solve p (bc_matrix (bc_dofs p) J) (bc_rhs scale (bc_dofs p) (bc_vals p) J r) in
    let u' : vect K := fun i => u i + 1 * d i in
    if Nat.ltb 1 (newton_steps p) && inc_small p d then u' else
    newton p z todo' (S idx) u'
  end.

(** Problem::solution (lines 258-311): the state is zeroed first.  The data written when mSaveState is
    set do not change the state. *)
Definition solution (p : problem Z) (z : Z) : vect K := newton p z (newton_steps p) 0 (fun _ => 0).

(** applyAdjointConstraints (lines 701-713): blas1::scale throws on an empty vector of values. *)
Definition adjoint_values (p : problem Z) : res (list K) :=
  match bc_vals p with [] => Throw | vs => Ok (map (fun _ => 0) vs) end.

(** criterionGradient (lines 412-468). *)
Definition criterionGradient (p : problem Z) (z : Z) (u : vect K) (c : criterion Z) : res (vect K) :=
  let fz := c_gradient_z c u z in
  if self_adjoint p then Ok (fun k => (- (1)) * fz k)
  else
    let fu : vect K := fun i => (- (1)) * c_gradient_u c u z i in
    let J := p_gradient_u_T (the_pde p) u z in
    let! vals := adjoint_values p in
    let lam := lin_solve p (bc_matrix (bc_dofs p) J) (bc_rhs 1 (bc_dofs p) vals J fu) in
    Ok (fun k => fz k + mv (n_dofs p) (p_gradient_z (the_pde p) u z) lam k).

(** criterionGradientX (lines 509-559). *)
Definition criterionGradientX (p : problem Z) (z : Z) (u : vect K) (c : criterion Z) : res (vect K) :=
  let fx := c_gradient_x c u z in
  if self_adjoint p then Ok (fun k => (- (1)) * fx k)
  else
    let fu : vect K := fun i => (- (1)) * c_gradient_u c u z i in
    let J := p_gradient_u (the_pde p) u z in
    let lam := lin_solve p (bc_matrix (bc_dofs p) J) (bc_rhs 1 (bc_dofs p) (bc_vals p) J fu) in
    Ok (fun k => fx k + mv (n_dofs p) (p_gradient_x (the_pde p) u z) lam k).
End K.
Arguments pde K Z : clear implicits. Arguments criterion K Z : clear implicits. Arguments problem K Z : clear implicits.
Arguments mkPde {K Z}. Arguments mkCriterion {K Z}. Arguments mkProblem {K Z}.
Arguments p_value {K Z}. Arguments p_gradient_u {K Z}. Arguments p_gradient_u_T {K Z}. Arguments p_gradient_z {K Z}. Arguments p_gradient_x {K Z}.
Arguments c_gradient_u {K Z}. Arguments c_gradient_z {K Z}. Arguments c_gradient_x {K Z}.
Arguments n_dofs {K Z}. Arguments newton_steps {K Z}. Arguments res_small {K Z}. Arguments inc_small {K Z}. Arguments bc_dofs {K Z}.
Arguments bc_vals {K Z}. Arguments self_adjoint {K Z}. Arguments lin_solve {K Z}. Arguments the_pde {K Z}.
