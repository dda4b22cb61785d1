(** The path-dependent (elasto-plastic) solver at the level of element worksets: static condensation of the
    local states, the condensed Newton increment, and the backward adjoint sweep.

    A workset is indexed by cell and by the dof within the cell.  The element Jacobians (evaluated along the
    forward history by automatic differentiation) are arbitrary. *)
From Coq Require Import Arith Lia List Bool.
From Verif Require Import Base.Field Base.Sums Base.Res BC.ConstraintsSpec Problem.DenseBC.
Import ListNotations.

(** Worksets: src/PlatoTypes / ScalarMultiVector (cell, dof) and ScalarArray3D (cell, row, column). *)
Notation wvec K := (nat -> nat -> rcar K).
Notation wmat K := (nat -> nat -> nat -> rcar K).

Section Model.
Context {K : CRing}.
Local Open Scope K_scope.

(** WorksetBase::worksetState (src/WorksetBase.hpp): gather a global vector into a workset.  [map e a] is the
    global dof of entry [a] of cell [e]. *)
Definition gather (map : nat -> nat -> nat) (v : vect K) : wvec K := fun e a => v (map e a).

(** WorksetBase::assembleResidual / assembleVectorGradientU / assembleScalarGradientZ (src/WorksetBase.hpp) and
    AssemblyModel: add every workset entry to its global dof. *)
Definition scatter (ne na : nat) (map : nat -> nat -> nat) (w : wvec K) : vect K :=
  fun i => sum ne (fun e => sum na (fun a => if Nat.eqb (map e a) i then w e a else 0)).

(** Plato::assemble_jacobian (src/Assembly.hpp): add every workset matrix entry to its global position. *)
Definition scatter_mat (ne na : nat) (map : nat -> nat -> nat) (w : wmat K) : matr K :=
  fun i j => sum ne (fun e => sum na (fun a => sum na (fun b =>
    if Nat.eqb (map e a) i then if Nat.eqb (map e b) j then w e a b else 0 else 0))).

(** Plato::assemble_jacobian_transpose_pod: the workset matrix is transposed while it is assembled. *)
Definition scatter_mat_T (ne na : nat) (map : nat -> nat -> nat) (w : wmat K) : matr K :=
  scatter_mat ne na map (fun e a b => w e b a).

(** Sizes of a problem: cells, global dofs per cell ([ng]), local dofs per cell ([nl]), global dofs ([n]),
    and the map of the global dofs. *)
Record sizes := mkSizes { sz_ne : nat; sz_ng : nat; sz_nl : nat; sz_n : nat; sz_map : nat -> nat -> nat }.

Section Condense.
Variable s : sizes.
Notation ne := (sz_ne s). Notation ng := (sz_ng s). Notation nl := (sz_nl s). Notation n := (sz_n s).
Notation map := (sz_map s).

(** NewtonRaphsonSolver::computeSchurComplement (src/NewtonRaphsonSolver.hpp lines 206-232) and
    PathDependentAdjointSolver::computeSchurComplement (src/PathDependentAdjointSolver.hpp lines 198-224):
    DrDc * (inv(DhDc) * DhDu), cell by cell. *)
Definition schur (rc hcinv hu : wmat K) : wmat K := fun e => mm nl (rc e) (mm nl (hcinv e) (hu e)).

(** assembleTangentMatrix (src/NewtonRaphsonSolver.hpp lines 250-277): DrDu - Schur, assembled. *)
Definition tangent_ws (ru rc hcinv hu : wmat K) : wmat K := fun e a b => ru e a b - schur rc hcinv hu e a b.
Definition tangent_matrix (ru rc hcinv hu : wmat K) : matr K := scatter_mat ne ng map (tangent_ws ru rc hcinv hu).

(** assembleTangentMatrix of the adjoint solver (src/PathDependentAdjointSolver.hpp lines 242-269). *)
Definition tangent_matrix_T (ru rc hcinv hu : wmat K) : matr K := scatter_mat_T ne ng map (tangent_ws ru rc hcinv hu).

(** assembleResidual (src/NewtonRaphsonSolver.hpp lines 294-331): global residual minus the assembled
    DrDc * (inv(DhDc) * h). *)
Definition condensed_residual (res : vect K) (rc hcinv : wmat K) (h : wvec K) : vect K :=
  let local_term : wvec K := fun e => mv nl (rc e) (mv nl (hcinv e) (h e)) in
  fun i => res i + (- (1)) * scatter ne ng map local_term i.

(** applyConstraints (src/NewtonRaphsonSolver.hpp lines 120-150): the increments are imposed in the first
    iteration and zero afterwards. *)
Definition constraint_values (iter : nat) (incr : list K) : list K :=
  if Nat.eqb iter 0 then incr else List.map (fun _ => 0) incr.

(** One pass of the loop of NewtonRaphsonSolver::solve (lines 591-616, without the stopping test): the global
    increment.  Simplification: the linear solver is an oracle. *)
Definition newton_increment (slv : solver) (iter : nat) (dofs : list nat) (incr : list K)
    (res : vect K) (ru rc hu hcinv : wmat K) (h : wvec K) : vect K :=
  let r := condensed_residual res rc hcinv h in
  let b : vect K := fun i => (- (1)) * r i in
  let A := tangent_matrix ru rc hcinv hu in
  let vals := constraint_values iter incr in
  slv (bc_matrix dofs A) (bc_rhs 1 dofs vals A b).

(** The linearised local equations solved for the local increment: -inv(DhDc) (h + DhDu du).  The code
    re-solves the local equations with the new global state (updateLocalState) instead; this is their
    linearisation. *)
Definition local_increment (hu hcinv : wmat K) (h : wvec K) (du : vect K) : wvec K :=
  fun e i => - mv nl (hcinv e) (fun j => h e j + mv ng (hu e) (gather map du e) j) i.
End Condense.

(** ---- The backward sweep ---- *)

(** Element Jacobians at one step k, of the global residual R(u_k, u_(k-1), c_k, c_(k-1), pi_k, z), the local
    residual H(u_k, u_(k-1), c_k, c_(k-1), z), the criterion f(u_k, u_(k-1), c_k, c_(k-1), z) and the pressure
    gradient projection P(pi_k, p_(k-1), z). *)
Record step_jac := mkJac {
  j_ru : wmat K; j_rup : wmat K; j_rc : wmat K; j_rcp : wmat K; j_rn : wmat K; j_rz : wmat K;
  j_hu : wmat K; j_hup : wmat K; j_hc : wmat K; j_hcp : wmat K; j_hz : wmat K;
  j_hcinv : wmat K;                      (* blas3::inverse of DhDc *)
  j_fu : wvec K; j_fup : wvec K; j_fc : wvec K; j_fcp : wvec K; j_fz : wvec K;
  j_mass : matr K;                       (* assembled derivative of P with respect to pi_k *)
  j_pn : wmat K                          (* derivative of P with respect to the nodal pressures *)
}.

(** A path-dependent problem: sizes; nodal map and pressure dofs; projected-gradient sizes and map; control. *)
Record path_problem := mkPath {
  pa_sz : sizes;
  pa_np : nat; pa_nw : nat; pa_pmap : nat -> nat -> nat;   (* projected gradient: dofs, per cell, map *)
  pa_nn : nat; pa_nmap : nat -> nat -> nat; pa_nz : nat;   (* nodes per cell, nodal map, nodes *)
  pa_nd : nat; pa_off : nat;                               (* dofs per node, pressure offset *)
  pa_dofs : list nat;                                      (* Dirichlet dofs *)
  pa_steps : nat;
  pa_jac : nat -> step_jac;                                (* Jacobians along the forward history *)
  pa_pi : nat -> vect K;                                   (* projected pressure gradient of each step *)
  pa_u : nat -> vect K;                                    (* global state of each step *)
  pa_pz : nat -> vect K -> vect K -> wmat K                (* derivative of P wrt control: step, pi, pressure *)
}.

Section Sweep.
Variables (q : path_problem) (slv : solver (K := K)) (inv : K -> K).
Notation s := (pa_sz q).
Notation ne := (sz_ne s). Notation ng := (sz_ng s). Notation nl := (sz_nl s). Notation n := (sz_n s).
Notation map := (sz_map s).

(** blas1::extract<NumDofsPerNode, Offset>: the nodal pressures of a global state. *)
Definition pressure (u : vect K) : vect K := fun a => u (a * pa_nd q + pa_off q)%nat.

(** AdjointStates: lambda (global), mu (local, per cell), gamma (projected pressure gradient). *)
Record adj := mkAdj { ad_l : vect K; ad_m : wvec K; ad_g : vect K }.
Definition adj0 : adj := mkAdj (fun _ => 0) (fun _ _ => 0) (fun _ => 0).

(** computeProjPressGradAdjointRHS (src/PathDependentAdjointSolver.hpp lines 365-386) and
    blas2::axpy<NumDofsPerNode, Offset>: added to the pressure entries of the workset. *)
Definition proj_rhs (J' : step_jac) (a' : adj) : wvec K :=
  fun e => mv (pa_nw q) (tr (j_pn J' e)) (gather (pa_pmap q) (ad_g a') e).
Definition add_pressure (w : wvec K) (v : wvec K) : wvec K :=
  fun e a => if Nat.eqb (a mod pa_nd q) (pa_off q) then v e a + w e (a / pa_nd q)%nat else v e a.

(** The local right-hand side (first part of computeLocalAdjointRHS, lines 300-329, and of
    updateLocalAdjointVars, lines 825-863): f_c, plus the contributions of step k+1 unless k is the last. *)
Definition carry_c (k : nat) (J J' : step_jac) (a' : adj) : wvec K :=
  fun e i =>
    if Nat.eqb k (pa_steps q - 1) then j_fc J e i
    else j_fc J e i + j_fcp J' e i + mv nl (tr (j_hcp J' e)) (ad_m a' e) i
         + mv ng (tr (j_rcp J' e)) (gather map (ad_l a') e) i.

(** computeLocalAdjointRHS (lines 293-345): DhDu^T (inv(DhDc)^T rhs). *)
Definition local_rhs (k : nat) (J J' : step_jac) (a' : adj) : wvec K :=
  fun e => mv nl (tr (j_hu J e)) (mv nl (tr (j_hcinv J e)) (carry_c k J J' a' e)).

(** assembleGlobalAdjointRHS (lines 408-464). *)
Definition carry_u (k : nat) (J J' : step_jac) (a' : adj) : wvec K :=
  fun e i =>
    if Nat.eqb k (pa_steps q - 1) then j_fu J e i
    else add_pressure (proj_rhs J' a') (fun e i => j_fu J e i + j_fup J' e i) e i
         + mv ng (tr (j_rup J' e)) (gather map (ad_l a') e) i
         + mv nl (tr (j_hup J' e)) (ad_m a' e) i.
Definition global_rhs (k : nat) (J J' : step_jac) (a' : adj) : vect K :=
  fun i => (- (1)) * scatter ne ng map (fun e i => (- (1)) * local_rhs k J J' a' e i + carry_u k J J' a' e i) i.

(** updateGlobalAdjointVars (lines 774-792) with applyConstraints (lines 472-490): zero Dirichlet values. *)
Definition update_global (k : nat) (J J' : step_jac) (a' : adj) : vect K :=
  let A := tangent_matrix_T s (j_ru J) (j_rc J) (j_hcinv J) (j_hu J) in
  slv (bc_matrix (pa_dofs q) A) (bc_rhs 1 (pa_dofs q) (List.map (fun _ => 0) (pa_dofs q)) A (global_rhs k J J' a')).

(** updateLocalAdjointVars (lines 819-870). *)
Definition update_local (k : nat) (J J' : step_jac) (a' : adj) (l : vect K) : wvec K :=
  fun e i => (- (1)) * mv nl (tr (j_hcinv J e))
     (fun j => carry_c k J J' a' e j + mv ng (tr (j_rc J e)) (gather map l e) j) i.

(** updateProjPressGradAdjointVars (lines 732-764); Solve::RowSummed (src/PlatoMathHelpers.hpp,
    RowSummedInverseMultiply lines 148-160) divides by the row sums of the transposed projection Jacobian. *)
Definition row_sum (m : nat) (A : matr K) (i : nat) : K := sum m (A i).
Definition update_proj (k : nat) (J : step_jac) (l : vect K) : vect K :=
  if Nat.eqb k 0 then (fun _ => 0)
  else fun i => inv (row_sum (pa_np q) (tr (j_mass J)) i) *
    ((- (1)) * scatter ne (pa_nw q) (pa_pmap q) (fun e => mv ng (tr (j_rn J e)) (gather map l e)) i).

(** updateAdjointVariables (lines 880-888). *)
Definition update_adjoint (k : nat) (a' : adj) : adj :=
  let J := pa_jac q k in let J' := pa_jac q (S k) in
  let l := update_global k J J' a' in
  mkAdj l (update_local k J J' a' l) (update_proj k J l).

(** addPDEpartialDerivativeZ (lines 512-545): the projection is differentiated at the pressure of the current
    step (ForwardStates::mPressure, set by PlasticityProblem::updateForwardState, line 1102). *)
Definition pde_z (k : nat) (a : adj) : wvec K :=
  fun e i => mv ng (tr (j_rz (pa_jac q k) e)) (gather map (ad_l a) e) i
    + mv (pa_nw q) (tr (pa_pz q k (pa_pi q k) (pressure (pa_u q k)) e)) (gather (pa_pmap q) (ad_g a) e) i
    + mv nl (tr (j_hz (pa_jac q k) e)) (ad_m a e) i.

(** PlasticityProblem::backwardTimeIntegration (src/PlasticityProblem.hpp lines 1033-1061): [todo] steps
    remain, the next one being [todo - 1]. *)
Fixpoint backward (todo : nat) (a' : adj) (g : vect K) : vect K :=
  match todo with
  | O => g
  | S k => let a := update_adjoint k a' in
           backward k a (fun i => g i + scatter ne (pa_nn q) (pa_nmap q) (pde_z k a) i)
  end.

(** addCriterionPartialDerivativeZ (lines 963-981). *)
Fixpoint add_criterion_z (todo : nat) (g : vect K) : vect K :=
  match todo with
  | O => g
  | S k => add_criterion_z k (fun i => g i + scatter ne (pa_nn q) (pa_nmap q) (j_fz (pa_jac q (pa_steps q - S k))) i)
  end.

(** PlasticityProblem::criterionGradient (lines 555-579). *)
Definition criterion_gradient_path : vect K :=
  add_criterion_z (pa_steps q) (backward (pa_steps q) adj0 (fun _ => 0)).
(** The same with the check of applyConstraints (lines 474-477): without Dirichlet dofs every step throws. *)
Definition criterionGradient_path : res (vect K) :=
  if andb (Nat.ltb 0 (pa_steps q)) (Nat.eqb (List.length (pa_dofs q)) 0) then Throw else Ok criterion_gradient_path.
End Sweep.
End Model.
Arguments step_jac : clear implicits.
Arguments path_problem : clear implicits.
Arguments adj : clear implicits.
