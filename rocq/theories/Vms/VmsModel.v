(** Model of src/EllipticVMSProblem.hpp (stabilised mechanics: displacement, pressure and a projected pressure
    gradient) at the level of vectors and matrices, and of the operations it uses. *)
From Coq Require Import Arith List Bool.
From Verif Require Import Base.Field Base.Sums Base.Res Problem.DenseBC.
Import ListNotations.

Section K.
Context {K : CField}.
Local Open Scope K_scope.

(** The momentum and volume equations, Plato::VectorFunctionVMS<Physics> (src/VectorFunctionVMS.hpp lines 253-1290): a function
    of the state u, of the projected pressure gradient and of the control.  [g_gradient_n_T] has one row per dof of the
    projected pressure gradient and one column per equation (lines 1018-1156); [g_gradient_z], [g_gradient_x] have one row
    per control or coordinate (lines 354-450 and 1158-1270). *)
Record mechanics (Z : Type) := mkMechanics {
  g_value : vect K -> vect K -> Z -> vect K;
  g_gradient_u : vect K -> vect K -> Z -> matr K;
  g_gradient_u_T : vect K -> vect K -> Z -> matr K;
  g_gradient_n_T : vect K -> vect K -> Z -> matr K;
  g_gradient_z : vect K -> vect K -> Z -> matr K;
  g_gradient_x : vect K -> vect K -> Z -> matr K }.

(** The projection equation (src/PressureGradientProjectionResidual.hpp lines 99-151, assembled by VectorFunctionVMS): a
    function of the projected gradient, of the nodal pressure and of the control. *)
Record projection (Z : Type) := mkProjection {
  P_value : vect K -> vect K -> Z -> vect K;
  P_gradient_u : vect K -> vect K -> Z -> matr K;
  P_gradient_n_T : vect K -> vect K -> Z -> matr K;
  P_gradient_z : vect K -> vect K -> Z -> matr K;
  P_gradient_x : vect K -> vect K -> Z -> matr K }.

(** Criterion: derivative with respect to the state of a step, and with respect to control and coordinates, for the stored
    states of all steps (src/elliptic/ScalarFunctionBase.hpp). *)
Record vcriterion (Z : Type) := mkVCriterion {
  vc_gradient_u : (nat -> vect K) -> Z -> nat -> vect K;
  vc_gradient_z : (nat -> vect K) -> Z -> vect K;
  vc_gradient_x : (nat -> vect K) -> Z -> vect K }.

(** Members of EllipticVMSProblem (lines 50-82): numbers of dofs per node ([vp_N]), of nodes and of spatial dimensions, the
    pressure dof mProjectionDof, mNumSteps, mNumNewtonSteps, boundary dofs and values, the linear solver and the equations. *)
Record vproblem (Z : Type) := mkVProblem {
  vp_N : nat;
  vp_nodes : nat;
  vp_dim : nat;
  vp_off : nat;
  vp_steps : nat;
  vp_newton : nat;
  vp_dofs : list nat;
  vp_vals : list K;
  vp_solve : @solver K;
  vp_mech : mechanics Z;
  vp_proj : projection Z }.
Arguments g_value {Z}. Arguments g_gradient_u {Z}. Arguments g_gradient_u_T {Z}. Arguments g_gradient_n_T {Z}.
Arguments g_gradient_z {Z}. Arguments g_gradient_x {Z}.
Arguments P_value {Z}. Arguments P_gradient_u {Z}. Arguments P_gradient_n_T {Z}. Arguments P_gradient_z {Z}. Arguments P_gradient_x {Z}.
Arguments vc_gradient_u {Z}. Arguments vc_gradient_z {Z}. Arguments vc_gradient_x {Z}.
Arguments vp_N {Z}. Arguments vp_nodes {Z}. Arguments vp_dim {Z}. Arguments vp_off {Z}. Arguments vp_steps {Z}. Arguments vp_newton {Z}.
Arguments vp_dofs {Z}. Arguments vp_vals {Z}. Arguments vp_solve {Z}. Arguments vp_mech {Z}. Arguments vp_proj {Z}.

Context {Z : Type}.

Definition v_ndofs (p : vproblem Z) : nat := vp_nodes p * vp_N p.   (* mPDEConstraint.size() *)
Definition v_nproj (p : vproblem Z) : nat := vp_nodes p * vp_dim p. (* mStateProjection.size() *)

(** blas1::extract<NumDofsPerNode, Offset> (src/BLAS1.hpp; the sparse counterpart is in C10): entry i is entry i*N+off. *)
Definition extract_dof (N off : nat) (u : vect K) : vect K := fun i => u (i * N + off)%nat.

(** Plato::RowSum (src/PlatoMathFunctors.hpp lines 40-66) on a matrix with m columns. *)
Definition row_sum (m : nat) (A : matr K) : vect K := fun i => sum m (fun j => A i j).

(** Plato::Solve::RowSummed (src/Plato_Solve.hpp lines 21-45): the solution is overwritten, its previous content is not used. *)
Definition RowSummed (m : nat) (A : matr K) (b : vect K) : vect K := fun i => fdiv (b i) (row_sum m A i) * 1.

(** Lines 308-312, 501-504, 653-656: the projection from the given projected gradient and pressure. *)
Definition project (p : vproblem Z) (z : Z) (n pr : vect K) : vect K :=
  let r : vect K := fun i => (- (1)) * P_value (vp_proj p) n pr z i in
  RowSummed (v_nproj p) (P_gradient_u (vp_proj p) n pr z) r.

(** applyConstraints (lines 223-244) throws without boundary conditions; the values are imposed in Newton step 0 only. *)
Definition v_no_bc (p : vproblem Z) : bool :=
  match vp_vals p with [] => true | _ => match vp_dofs p with [] => true | _ => false end end.

(** The Newton loop (lines 305-329); state: u, projected gradient mProjPGrad, pressure mProjectState. *)
Fixpoint v_newton (p : vproblem Z) (z : Z) (todo idx : nat) (s : vect K * vect K * vect K) : res (vect K * vect K * vect K) :=
  match todo with
  | O => Ok s
  | S todo' =>
    let '(u, n, pr) := s in
    let n' := project p z n pr in
    let r : vect K := fun i => (- (1)) * g_value (vp_mech p) u n' z i in
    let J := g_gradient_u (vp_mech p) u n' z in
    if v_no_bc p then Throw else
    let scale := if Nat.eqb idx 0 then 1 else 0 in
    let vals := map (fun v => scale * v) (vp_vals p) in
    let d := vp_solve p (bc_matrix (vp_dofs p) J) (bc_rhs 1 (vp_dofs p) vals J r) in
    let u' : vect K := fun i => 1 * d i + 1 * u i in
    v_newton p z todo' (S idx) (u', n', extract_dof (vp_N p) (vp_off p) u')
  end.

(** One step (lines 296-331): state, projected gradient and pressure are zeroed first. *)
Definition v_step (p : vproblem Z) (z : Z) : res (vect K * vect K * vect K) :=
  v_newton p z (vp_newton p) 0 ((fun _ => 0), (fun _ => 0), (fun _ => 0)).

(** solution (lines 287-335): [stored] is mGlobalState; steps 1 .. mNumSteps-1 are computed, step 0 is left alone. *)
Fixpoint v_march (p : vproblem Z) (z : Z) (todo k : nat) (h : nat -> vect K) : res (nat -> vect K) :=
  match todo with
  | O => Ok h
  | S todo' =>
    let! s := v_step p z in
    v_march p z todo' (S k) (fun j => if Nat.eqb j k then fst (fst s) else h j)
  end.
Definition v_solution (p : vproblem Z) (z : Z) (stored : nat -> vect K) : res (nat -> vect K) :=
  v_march p z (vp_steps p - 1) 1 stored.

(** Plato::Condense (src/PlatoMathHelpers.hpp lines 560-576) on the represented matrices (C88): D is overwritten by
    R^-1 D with R the row sums of C, and row off of every block row of A has B R^-1 D subtracted. *)
Definition scaled_D (m : nat) (C D : matr K) : matr K := fun i j => fdiv (D i j) (row_sum m C i).
Definition condensed (m N off : nat) (A B C D : matr K) : matr K :=
  fun i j => if Nat.eqb (i mod N) off then A i j - mm m B (scaled_D m C D) (i / N)%nat j else A i j.

(** applyAdjointConstraints (lines 251-270): zero values; throws without boundary conditions. *)
Definition v_adjoint_values (p : vproblem Z) : res (list K) :=
  if v_no_bc p then Throw else Ok (map (fun _ => 0) (vp_vals p)).

(** One iteration of the backward loop (lines 489-543 and 639-695): returns lambda, mEta and mProjPGrad.  The matrix
    t_dg_dPI_T multiplied by lambda in lines 526 and 678 is the one overwritten by Condense. *)
Definition v_adjoint (p : vproblem Z) (z : Z) (c : vcriterion Z) (h : nat -> vect K) (k : nat) : res (vect K * vect K * vect K) :=
  let m := v_nproj p in
  let fu : vect K := fun i => (- (1)) * vc_gradient_u c h z k i in
  let u := h k in
  let pr := extract_dof (vp_N p) (vp_off p) u in
  let zero : vect K := fun _ => 0 in
  let M := P_gradient_u (vp_proj p) zero pr z in
  let n := project p z zero pr in
  let D := g_gradient_n_T (vp_mech p) u n z in
  let B := P_gradient_n_T (vp_proj p) n pr z in
  let J := condensed m (vp_N p) (vp_off p) (g_gradient_u_T (vp_mech p) u n z) B M D in
  let! vals := v_adjoint_values p in
  let lam := vp_solve p (bc_matrix (vp_dofs p) J) (bc_rhs 1 (vp_dofs p) vals J fu) in
  let q : vect K := fun i => 0 + mv (v_ndofs p) (scaled_D m M D) lam i in
  Ok (lam, RowSummed m M q, n).

(** criterionGradient (lines 464-546): the derivative of the projection equation is evaluated with the full state vector in
    the place of the nodal pressure (line 539). *)
Fixpoint v_backward (p : vproblem Z) (z : Z) (c : vcriterion Z) (h : nat -> vect K) (gz : vect K -> vect K -> matr K)
  (Pz : vect K -> vect K -> matr K) (k : nat) (acc : vect K) : res (vect K) :=
  match k with
  | O => Ok acc
  | S k' =>
    let! s := v_adjoint p z c h k in
    let '(lam, eta, n) := s in
    let acc1 : vect K := fun i => acc i + mv (v_ndofs p) (gz (h k) n) lam i in
    let acc2 : vect K := fun i => acc1 i + mv (v_nproj p) (Pz n (h k)) eta i in
    v_backward p z c h gz Pz k' acc2
  end.
Definition v_criterionGradient (p : vproblem Z) (z : Z) (c : vcriterion Z) (h : nat -> vect K) : res (vect K) :=
  v_backward p z c h (fun u n => g_gradient_z (vp_mech p) u n z) (fun n u => P_gradient_z (vp_proj p) n u z)
    (vp_steps p - 1) (vc_gradient_z c h z).

(** criterionGradientX (lines 615-698); the additional evaluations of lines 648-649 are overwritten. *)
Definition v_criterionGradientX (p : vproblem Z) (z : Z) (c : vcriterion Z) (h : nat -> vect K) : res (vect K) :=
  v_backward p z c h (fun u n => g_gradient_x (vp_mech p) u n z) (fun n u => P_gradient_x (vp_proj p) n u z)
    (vp_steps p - 1) (vc_gradient_x c h z).
End K.
Arguments mechanics K Z : clear implicits. Arguments projection K Z : clear implicits.
Arguments vcriterion K Z : clear implicits. Arguments vproblem K Z : clear implicits.
Arguments mkMechanics {K Z}. Arguments mkProjection {K Z}. Arguments mkVCriterion {K Z}. Arguments mkVProblem {K Z}.
Arguments g_value {K Z}. Arguments g_gradient_u {K Z}. Arguments g_gradient_u_T {K Z}. Arguments g_gradient_n_T {K Z}.
Arguments g_gradient_z {K Z}. Arguments g_gradient_x {K Z}.
Arguments P_value {K Z}. Arguments P_gradient_u {K Z}. Arguments P_gradient_n_T {K Z}. Arguments P_gradient_z {K Z}. Arguments P_gradient_x {K Z}.
Arguments vc_gradient_u {K Z}. Arguments vc_gradient_z {K Z}. Arguments vc_gradient_x {K Z}.
Arguments vp_N {K Z}. Arguments vp_nodes {K Z}. Arguments vp_dim {K Z}. Arguments vp_off {K Z}. Arguments vp_steps {K Z}. Arguments vp_newton {K Z}.
Arguments vp_dofs {K Z}. Arguments vp_vals {K Z}. Arguments vp_solve {K Z}. Arguments vp_mech {K Z}. Arguments vp_proj {K Z}.
