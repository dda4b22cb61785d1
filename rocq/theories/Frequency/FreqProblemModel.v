(** Model of Plato::StructuralDynamicsProblem, src/StructuralDynamicsProblem.hpp, at the level of vectors and matrices, and of the frequency response misfit. *)
From Coq Require Import Arith List Bool.
From Verif Require Import Base.Field Base.Sums Base.Res Problem.DenseBC.
Import ListNotations.

Section K.
Context {K : CRing}.
Local Open Scope K_scope.

(** Members that matter here (46-83): the residual function mEquality and its derivatives (the one with respect to the control stored transposed, control by
    dof, as in EllipticModel.pde), the state derivative of mAdjointProb, mBcDofs, mBcValues, mExternalForce, whether the build has AmgX, and its solver.
    [F] is the type of frequencies, [Z] the type of controls. *)
Record vibrating (F Z : Type) := mkVibrating {
  v_dofs : nat;
  v_value : F -> vect K -> Z -> vect K;
  v_gradient_u : F -> vect K -> Z -> matr K;
  v_adjoint_u : F -> vect K -> Z -> matr K;
  v_gradient_z : F -> vect K -> Z -> matr K;
  v_bc_dofs : list nat;
  v_bc_vals : list K;
  v_force : vect K;
  v_amgx : bool;
  v_solve : @solver K }.
(** What it uses of the objective: its partial derivatives at one state (src/elliptic/PhysicsScalarFunction.hpp 369-430 and 440-506). *)
Record response (F Z : Type) := mkResponse {
  o_value : F -> vect K -> Z -> K;
  o_gradient_u : F -> vect K -> Z -> vect K;
  o_gradient_z : F -> vect K -> Z -> vect K }.
Arguments v_dofs {F Z}. Arguments v_value {F Z}. Arguments v_gradient_u {F Z}. Arguments v_adjoint_u {F Z}. Arguments v_gradient_z {F Z}.
Arguments v_bc_dofs {F Z}. Arguments v_bc_vals {F Z}. Arguments v_force {F Z}. Arguments v_amgx {F Z}. Arguments v_solve {F Z}.
Arguments o_value {F Z}. Arguments o_gradient_u {F Z}. Arguments o_gradient_z {F Z}.
Context {F Z : Type}.

(** A solve with the state or the adjoint set to zero before; without AmgX it stays zero (288-298 and 641-650). *)
Definition vib_solve (p : vibrating F Z) (A : matr K) (b : vect K) : vect K := if v_amgx p then v_solve p A b else fun _ => 0.
(** solution, 275-303: one state per frequency.  The Jacobian is taken at the zeroed state. *)
Definition vib_state (p : vibrating F Z) (z : Z) (w : F) : vect K :=
  let r : vect K := fun i => v_value p w (fun _ => 0) z i + v_force p i in
  let J := v_gradient_u p w (fun _ => 0) z in
  vib_solve p (bc_matrix (v_bc_dofs p) J) (bc_rhs 1 (v_bc_dofs p) (v_bc_vals p) J r).
Definition vib_solution (p : vibrating F Z) (z : Z) (freqs : list F) : list (vect K) := map (vib_state p z) freqs.

(** gradient_z of the objective over a solution, src/elliptic/PhysicsScalarFunction.hpp 440-506: all states, one frequency. *)
Definition partial_z (o : response F Z) (z : Z) (states : list (vect K)) (w : F) (k : nat) : K := lsum (map (fun u => o_gradient_z o w u z k) states).
(** addResidualContribution, 627-660: mGradState is changed by every applyConstraints. *)
Definition add_residual (p : vibrating F Z) (z : Z) (steps : list (F * vect K)) (grad : vect K) (out : vect K) : vect K * vect K :=
  fold_left (fun s wu =>
      let '(w, u) := wu in
      let J := v_adjoint_u p w u z in
      let b := bc_rhs 1 (v_bc_dofs p) (v_bc_vals p) J (fst s) in
      let lam := vib_solve p (bc_matrix (v_bc_dofs p) J) b in
      (b, fun k => snd s k + mv (v_dofs p) (v_gradient_z p w u z) lam k))
    steps (grad, out).
(** objectiveGradient of a solution, 392-432. *)
Definition vib_gradient (p : vibrating F Z) (z : Z) (freqs : list F) (states : list (vect K)) (objective : option (response F Z)) : res (vect K) :=
  match objective with
  | None => Throw
  | Some o =>
    let steps := combine freqs states in
    let gu : vect K := fun i => fold_left (fun t wu => 1 * o_gradient_u o (fst wu) (snd wu) z i + 1 * t) steps 0 in
    let gz : vect K := fun k => fold_left (fun t wu => 1 * partial_z o z states (fst wu) k + 1 * t) steps 0 in
    Ok (snd (add_residual p z steps (fun i => (- (1)) * gu i) gz))
  end.

(** ** Frequency response misfit, src/FrequencyResponseMisfit.hpp *)
(** readExperimentalFields, 185-224: [fields] lists for each input field its index at a node and its values at the vertices.  Only row 0 of mExpStates is
    written; the other rows keep the zeros they were created with.  [nd] is the number of dofs per node, [nf] the number of frequencies. *)
Definition read_fields (nd nn nf : nat) (fields : list (nat * (nat -> K))) : list (vect K) :=
  let row0 : vect K := fold_left (fun (r : vect K) f => fold_left (fun (r : vect K) a => fun k => if Nat.eqb k (nd * a + fst f) then snd f a else r k) (seq 0 nn) r) fields (fun _ => 0) in
  match nf with O => [] | S n => row0 :: repeat (fun _ => 0) n end.
(** readExperimentalData, 133-183: the sublist, its names and its indices; as many fields as numbers at a node.
    The fields are found in the mesh by their names, which is not modelled.  An index that is too large is not checked: it writes behind the last node. *)
Definition read_data (nd nn nf : nat) (names : option (list (nat -> K))) (indices : option (list nat)) : res (list (vect K)) :=
  match names with
  | None => Throw
  | Some ns => match indices with
    | None => Throw
    | Some ids => if Nat.eqb (List.length ids) (List.length ns) then
        if Nat.eqb (List.length ns) nd then
          if (forallb (fun i => Nat.ltb i nd) ids || Nat.eqb nn 0 || Nat.eqb nf 0)%bool then Ok (read_fields nd nn nf (combine ids ns)) else UB
        else Throw
      else Throw
    end
  end.
(** ComputeFrequencyResponseMisfit, src/ComputeFrequencyResponseMisfit.hpp 42-66; [half] is 0.5. *)
Definition misfit_cell (half : K) (d : nat) (e u : nat -> K) : K :=
  half * fold_left (fun t a => fold_left (fun t i =>
      let x := u (2 * d * a + i)%nat - e (2 * d * a + i)%nat in
      let y := u (2 * d * a + d + i)%nat - e (2 * d * a + d + i)%nat in
      t + (x * x + y * y)) (seq 0 d) t) (seq 0 (S d)) 0.
(** evaluate, 103-130: the row of the frequency; a frequency that is not in the list takes the row behind the last one.  [conn] lists the corners of the
    cells; worksetState, src/WorksetBase.hpp, gathers the numbers of the corners. *)
Fixpoint find_index (eqb : F -> F -> bool) (w : F) (ws : list F) : nat := match ws with [] => 0 | v :: ws' => if eqb v w then 0 else S (find_index eqb w ws') end.
Definition gather_state (nd : nat) (node : nat -> nat) (u : vect K) : nat -> K := fun k => u (node (k / nd) * nd + k mod nd)%nat.
Definition misfit_value (half : K) (d : nat) (eqb : F -> F -> bool) (ws : list F) (rows : list (vect K)) (conn : list (nat -> nat)) (w : F) (u : vect K) : res K :=
  match nth_error rows (find_index eqb w ws) with
  | None => UB
  | Some e => Ok (lsum (map (fun node => misfit_cell half d (gather_state (2 * d) node e) (gather_state (2 * d) node u)) conn))
  end.
(** PhysicsScalarFunction::value, src/elliptic/PhysicsScalarFunction.hpp 224-283, through StructuralDynamicsProblem::objectiveValue (306-349): the frequency
    is the default, 0.0 ([zero]), for every state. *)
Definition misfit_objective (half : K) (d : nat) (eqb : F -> F -> bool) (zero : F) (ws : list F) (rows : list (vect K)) (conn : list (nat -> nat)) (states : list (vect K)) : res K :=
  foldR (fun u t => let! v := misfit_value half d eqb ws rows conn zero u in Ok (t + v)) states 0.
End K.
Arguments vibrating K F Z : clear implicits. Arguments response K F Z : clear implicits.
Arguments mkVibrating {K F Z}. Arguments mkResponse {K F Z}.
Arguments v_dofs {K F Z}. Arguments v_value {K F Z}. Arguments v_gradient_u {K F Z}. Arguments v_adjoint_u {K F Z}. Arguments v_gradient_z {K F Z}.
Arguments v_bc_dofs {K F Z}. Arguments v_bc_vals {K F Z}. Arguments v_force {K F Z}. Arguments v_amgx {K F Z}. Arguments v_solve {K F Z}.
Arguments o_value {K F Z}. Arguments o_gradient_u {K F Z}. Arguments o_gradient_z {K F Z}.
