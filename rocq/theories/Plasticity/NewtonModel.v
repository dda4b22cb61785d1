(** The Newton-Raphson loop of the plasticity problem, the pseudo-time stepping around it, displacement control
    and reaction forces. *)
From Coq Require Import Arith ZArith QArith Reals List Bool.
From Verif Require Import Base.Field Base.Sums Base.Res BC.ConstraintsSpec Problem.DenseBC.
Import ListNotations.

(** ---- NewtonRaphsonSolver (src/NewtonRaphsonSolver.hpp) ---- *)

(** mStoppingTolerance, mCurrentResidualNormTolerance, mMaxNumSolverIter, mStopMeasure (lines 456-461). *)
Record nr_config := mkNR { nr_tol : R; nr_cur_tol : R; nr_max : nat; nr_relative : bool }.

(** NewtonRaphsonOutputData::mNormMeasure (src/NewtonRaphsonUtilities.hpp lines 78-101): initially the largest
    double; later a finite value, or not finite (division by a zero norm). *)
Inductive measure := MaxDouble | Value (r : R) | NotFinite.

(** compute_absolute_residual_norm_error / compute_relative_residual_norm_error
    (src/NewtonRaphsonUtilities.hpp lines 244-296), after the check that the norm is finite. *)
Definition norm_measure (c : nr_config) (iter : nat) (ref cur : R) : measure :=
  match iter with
  | O => MaxDouble
  | _ => if nr_relative c
         then if Req_EM_T cur 0 then NotFinite else Value (Rabs (ref - cur) / Rabs cur)
         else Value (Rabs (ref - cur))
  end.

(** checkStoppingCriterion and didNewtonRaphsonSolverConverge (lines 349-406): [Some converged] to stop.
    Simplification: the largest double is never below the tolerance. *)
Definition check_stop (c : nr_config) (m : measure) (cur : R) (iter : nat) : option bool :=
  if match m with Value r => if Rlt_dec r (nr_tol c) then true else false | _ => false end then Some true
  else if Rlt_dec cur (nr_cur_tol c) then Some true
  else if Rle_dec (10 ^ 20) cur then Some false
  else if Nat.leb (nr_max c) iter then Some false
  else match m with NotFinite => Some false | _ => None end.

(** NewtonRaphsonSolver::solve (lines 570-627).  [nrm iter s] is the norm of the constrained residual at the
    state [s] ([None]: not finite, which throws); [upd iter s] is the state after the linear solve and the
    local update.  [fuel] bounds the recursion; [None] means that it was exhausted. *)
Section Loop.
Context {S0 : Type}.
Variables (c : nr_config) (nrm : nat -> S0 -> option R) (upd : nat -> S0 -> S0).
Fixpoint nr_loop (fuel iter : nat) (ref : R) (s : S0) : option (res (bool * nat * S0)) :=
  match fuel with
  | O => None
  | S f => match nrm iter s with
           | None => Some Throw
           | Some cur =>
             match check_stop c (norm_measure c iter ref cur) cur iter with
             | Some b => Some (Ok (b, iter, s))
             | None => nr_loop f (S iter) cur (upd iter s)
             end
           end
  end.
End Loop.
Definition nr_solve {S0} c nrm upd (s : S0) := nr_loop c nrm upd (S (nr_max c)) 0 0 s.

(** ---- PlasticityProblem: pseudo-time stepping (src/PlasticityProblem.hpp) ---- *)

(** "Time Stepping" parameters (lines 120-129). *)
Record pt_config := mkPTC { pc_initial : Z; pc_max : Z; pc_end : Q; pc_mult : Q }.
(** mNumPseudoTimeSteps, mPseudoTimeStep, mMaxNumPseudoTimeStepsReached, mStopOptimization and the number of rows
    of the state arrays. *)
Record pt_state := mkPTS { ps_n : Z; ps_dt : Q; ps_reached : bool; ps_stop : bool; ps_rows : Z }.

(** static_cast<Ordinal>(double): truncation.  Not modelled: values outside the range of Ordinal. *)
Definition trunc (q : Q) : Z := Z.quot (Qnum q) (Zpos (Qden q)).

(** Constructor and initialize (lines 108-144, 715-733): the step size and the arrays use the initial count,
    which is cut to the maximum afterwards. *)
Definition pt_init (c : pt_config) : pt_state :=
  let dt := (pc_end c / inject_Z (pc_initial c))%Q in
  if Z.leb (pc_max c) (pc_initial c)
  then mkPTS (pc_max c) dt true false (pc_initial c)
  else mkPTS (pc_initial c) dt false false (pc_initial c).

(** resizeTimeDependentStates (lines 753-768). *)
Definition pt_resize (c : pt_config) (s : pt_state) : pt_state :=
  let n := trunc (inject_Z (ps_n s) * pc_mult c) in
  let '(n, r) := if Z.leb (pc_max c) n then (pc_max c, true) else (n, ps_reached s) in
  mkPTS n (pc_end c / inject_Z n)%Q r (ps_stop s) n.

(** solveForwardProblem (lines 791-841), as far as time stepping goes: the times of the steps that were solved
    and whether all of them converged.  [ok attempt step]: did Newton converge? *)
Fixpoint pt_march (ok : nat -> bool) (dt : Q) (todo k : nat) : list Q * bool :=
  match todo with
  | O => ([], true)
  | S t => let time := (dt * inject_Z (Z.of_nat k + 1))%Q in
           if ok k then let '(ts, b) := pt_march ok dt t (S k) in (time :: ts, b) else ([time], false)
  end.

(** The loop of solution (lines 364-398). *)
Fixpoint pt_solution (c : pt_config) (ok : nat -> nat -> bool) (fuel attempt : nat) (s : pt_state) : option (bool * list Q * pt_state) :=
  match fuel with
  | O => None
  | S f =>
    let '(ts, conv) := pt_march (ok attempt) (ps_dt s) (Z.to_nat (ps_n s)) 0 in
    if conv then Some (true, ts, s)
    else if ps_reached s then Some (false, ts, mkPTS (ps_n s) (ps_dt s) (ps_reached s) true (ps_rows s))
    else pt_solution c ok f (S attempt) (pt_resize c s)
  end.

(** shouldOptimizationProblemStop (lines 739-747), called first by every criterionValue and criterionGradient. *)
Definition pt_evaluate {A} (s : pt_state) (v : A) : res A := if ps_stop s then Throw else Ok v.

(** ---- Displacement control ---- *)

(** updateDispAndLoadControlMultipliers (lines 848-869): the boundary increments of step k; [value d t] is the
    prescribed value of a dof at a time (EssentialBCs::get).  [prev] is mPreviousStepDirichletValues, [cur]
    mDirichletValues. *)
Definition control_step {K : CRing} (value : nat -> Q -> K) (dofs : list nat) (dt : Q) (k : nat) (cur : list K) : list K * list K :=
  let prev := if Nat.eqb k 0 then map (fun _ => r0) cur else cur in
  let cur' := map (fun d => value d (dt * inject_Z (Z.of_nat k + 1))%Q) dofs in
  (cur', map (fun p => radd (fst p) (rmul (ropp r1) (snd p))) (combine cur' prev)).

(** The boundary increments handed to Newton in steps 0 .. n-1, starting from any stored values. *)
Fixpoint control_run {K : CRing} (value : nat -> Q -> K) (dofs : list nat) (dt : Q) (n k : nat) (cur : list K) : list (list K) :=
  match n with
  | O => []
  | S n' => let '(cur', inc) := control_step value dofs dt k cur in inc :: control_run value dofs dt n' (S k) cur'
  end.

(** One pseudo-time step on the global state: Newton starts from the previous state (initializeSolver, lines
    338-342) and adds the solutions of the constrained systems (updateGlobalStates, lines 164-187), with the
    boundary increments in the first iteration and zero afterwards (applyConstraints, lines 120-150).
    [A], [b]: tangent matrix and residual as functions of the iteration and the state. *)
Section Step.
Variables (n : nat) (slv : solver (K := R_ring)) (dofs : list nat) (A : nat -> vect R_ring -> matr R_ring) (b : nat -> vect R_ring -> vect R_ring).
Definition nr_values (iter : nat) (inc : list R) : list R := if Nat.eqb iter 0 then inc else map (fun _ => 0%R) inc.
Definition nr_rhs (inc : list R) (iter : nat) (u : vect R_ring) : vect R_ring :=
  bc_rhs (K := R_ring) (1 : R)%R dofs (nr_values iter inc) (A iter u) (b iter u).
Definition nr_update (inc : list R) (iter : nat) (u : vect R_ring) : vect R_ring :=
  fun i => (slv (bc_matrix (K := R_ring) dofs (A iter u)) (nr_rhs inc iter u) i + u i)%R.
(** blas1::norm *)
Definition norm2 (v : vect R_ring) : R := sqrt (sum (K := R_ring) n (fun i => v i * v i)%R).
Definition nr_norm (inc : list R) (iter : nat) (u : vect R_ring) : option R := Some (norm2 (nr_rhs inc iter u)).
Definition pseudo_step (c : nr_config) (inc : list R) (u : vect R_ring) := nr_solve c (nr_norm inc) (nr_update inc) u.
End Step.

(** ---- Reaction force ---- *)

(** computeReactionForce (lines 691-706): the row of the step is incremented by the internal forces; the rows
    are not cleared by solveForwardProblem, and Kokkos::resize keeps the contents of the rows that remain and
    zero-initialises new ones.  [f attempt step] are the nodal sums of internal forces. *)
Definition add_row {K : CRing} (rows : list (list K)) (k : nat) (f : list K) : list (list K) :=
  map (fun p => if Nat.eqb (fst p) k then map (fun ab => radd (fst ab) (snd ab)) (combine (snd p) f) else snd p)
      (combine (seq 0 (length rows)) rows).
Definition resize_rows {K : CRing} (nn : nat) (rows : list (list K)) (m : nat) : list (list K) :=
  firstn m rows ++ repeat (repeat r0 nn) (m - length rows).
(** One solveForwardProblem that solves the steps k, ..., k+todo-1. *)
Fixpoint reaction_run {K : CRing} (f : nat -> list K) (todo k : nat) (rows : list (list K)) : list (list K) :=
  match todo with
  | O => rows
  | S t => reaction_run f t (S k) (add_row rows k (f k))
  end.
(** A history of forward solves: each has its number of rows (the arrays are resized to it first), the number
    of steps it solves before it stops, and its internal forces. *)
Record solve_run (K : CRing) := mkRun { sr_rows : nat; sr_steps : nat; sr_force : nat -> list K }.
Arguments mkRun {K}. Arguments sr_rows {K}. Arguments sr_steps {K}. Arguments sr_force {K}.
Definition reaction_history {K : CRing} (nn : nat) (h : list (solve_run K)) : list (list K) :=
  fold_left (fun rows r => reaction_run (sr_force r) (sr_steps r) 0 (resize_rows nn rows (sr_rows r))) h [].
