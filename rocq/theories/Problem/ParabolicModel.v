(** Model of src/parabolic/Problem.hpp and src/parabolic/TrapezoidIntegrator.hpp. *)
From Coq Require Import Arith List Bool.
From Verif Require Import Base.Field Base.Sums Base.Res Problem.DenseBC.
Import ListNotations.

Section K.
Context {K : CField}.
Local Open Scope K_scope.

(** What the problem uses of Plato::Parabolic::VectorFunction (src/parabolic/VectorFunction.hpp): assembled residual and
    Jacobians at a state and rate.  The time step argument is always mTimeStep and is absorbed in the functions.
    gradient_z is stored transposed, control by dof. *)
Record ppde (Z : Type) := mkPPde {
  pp_value : vect K -> vect K -> Z -> vect K;
  pp_gradient_u : vect K -> vect K -> Z -> matr K;
  pp_gradient_v : vect K -> vect K -> Z -> matr K;
  pp_gradient_z : vect K -> vect K -> Z -> matr K;
  pp_gradient_x : vect K -> vect K -> Z -> matr K }.

(** Members of Plato::Parabolic::Problem (lines 54-79). [pq_steps] is mNumSteps; the tests on the
    norms are predicates on the vectors. *)
Record pproblem (Z : Type) := mkPProblem {
  pq_n : nat;
  pq_steps : nat;
  pq_newton : nat;
  pq_res_small : vect K -> bool;
  pq_inc_small : vect K -> bool;
  pq_dofs : list nat;
  pq_vals : list K;
  pq_solve : @solver K;
  pq_alpha : K;
  pq_dt : K;
  pq_pde : ppde Z }.

(** mState and mStateDot, by step. *)
Definition phistory := nat -> vect K * vect K.

(** A criterion's derivatives (src/parabolic/ScalarFunctionBase.hpp): gradient_u and gradient_v at a step of a history. *)
Record pcriterion (Z : Type) := mkPCriterion {
  pc_gradient_u : phistory -> Z -> nat -> vect K;
  pc_gradient_v : phistory -> Z -> nat -> vect K;
  pc_gradient_z : phistory -> Z -> vect K;
  pc_gradient_x : phistory -> Z -> vect K }.
End K.
Arguments ppde K Z : clear implicits. Arguments pproblem K Z : clear implicits. Arguments pcriterion K Z : clear implicits.
Arguments phistory K : clear implicits.
Arguments mkPPde {K Z}. Arguments mkPProblem {K Z}. Arguments mkPCriterion {K Z}.
Arguments pp_value {K Z}. Arguments pp_gradient_u {K Z}. Arguments pp_gradient_v {K Z}. Arguments pp_gradient_z {K Z}. Arguments pp_gradient_x {K Z}.
Arguments pq_n {K Z}. Arguments pq_steps {K Z}. Arguments pq_newton {K Z}. Arguments pq_res_small {K Z}. Arguments pq_inc_small {K Z}.
Arguments pq_dofs {K Z}. Arguments pq_vals {K Z}. Arguments pq_solve {K Z}. Arguments pq_alpha {K Z}. Arguments pq_dt {K Z}. Arguments pq_pde {K Z}.
Arguments pc_gradient_u {K Z}. Arguments pc_gradient_v {K Z}. Arguments pc_gradient_z {K Z}. Arguments pc_gradient_x {K Z}.

Section M.
Context {K : CField} {Z : Type}.
Local Open Scope K_scope.

(** TrapezoidIntegrator.hpp lines 33-55. *)
Definition v_grad_u (alpha dt : K) : K := (- (1)) / (alpha * dt).
Definition v_grad_u_prev (alpha dt : K) : K := 1 / (alpha * dt).
Definition v_grad_v_prev (alpha dt : K) : K := (1 - alpha) / alpha.
(** v_value, lines 58-76. *)
Definition v_value (alpha dt : K) (u u_prev v v_prev : vect K) : vect K :=
  fun i => v i - 1 / (alpha * dt) * (u i - u_prev i - dt * (1 - alpha) * v_prev i).

(** The Newton loop of one time step (Problem.hpp lines 296-356). *)
Fixpoint pnewton (p : pproblem K Z) (z : Z) (prev : vect K * vect K) (todo idx : nat) (s : vect K * vect K) : vect K * vect K :=
  match todo with
  | O => s
  | S todo' =>
    let (u, v) := s in
    let rv := v_value (pq_alpha p) (pq_dt p) u (fst prev) v (snd prev) in
    let JV := pp_gradient_v (pq_pde p) u v z in
    let r : vect K := fun i => (- (1)) * pp_value (pq_pde p) u v z i + mv (pq_n p) JV rv i in
    let rvu := v_grad_u (pq_alpha p) (pq_dt p) in
    let J : matr K := fun i j => pp_gradient_u (pq_pde p) u v z i j + (- rvu) * JV i j in
    if Nat.ltb 1 (pq_newton p) && pq_res_small p r then s else
    let scale := if Nat.eqb idx 0 then 1 else 0 in
    let d := pq_solve p (bc_matrix (pq_dofs p) J) (bc_rhs scale (pq_dofs p) (pq_vals p) J r) in
    let v' : vect K := fun i => v i + (- (1)) * (rv i + rvu * d i) in
    let u' : vect K := fun i => u i + 1 * d i in
    if Nat.ltb 1 (pq_newton p) && pq_inc_small p d then (u', v') else
    pnewton p z prev todo' (S idx) (u', v')
  end.

(** Problem::solution (lines 276-366): steps 1 .. mNumSteps-1 in order, each starting from the stored content of mState
    and mStateDot (they are members and are not reset).  [k] steps have been done.  mDataMap output not modelled. *)
Fixpoint pmarch (p : pproblem K Z) (z : Z) (h : phistory K) (todo k : nat) : phistory K :=
  match todo with
  | O => h
  | S todo' =>
    let s := pnewton p z (h (k - 1)%nat) (pq_newton p) 0 (h k) in
    pmarch p z (fun j => if Nat.eqb j k then s else h j) todo' (S k)
  end.
Definition psolution (p : pproblem K Z) (z : Z) (h : phistory K) : phistory K := pmarch p z h (pq_steps p - 1) 1.

(** The backward loop of criterionGradient (lines 513-578).  [k] is tStepIndex, [next] the adjoint rate of step k+1
    (None at the last step), [g] is t_dFdz. The same loop, with gradient_x, is in criterionGradientX. *)
Fixpoint pbackward (p : pproblem K Z) (z : Z) (h : phistory K) (fu fv : nat -> vect K) (dRdp : vect K -> vect K -> Z -> matr K)
    (k : nat) (next : option (vect K)) (g : vect K) : vect K :=
  match k with
  | O => g
  | S k' =>
    let u := fst (h k) in let v := snd (h k) in
    let rvu := v_grad_u (pq_alpha p) (pq_dt p) in
    let fu1 : vect K := match next with
      | None => fu k
      | Some l => fun i => fu k i + v_grad_u_prev (pq_alpha p) (pq_dt p) * l i end in
    let fv1 : vect K := match next with
      | None => fv k
      | Some l => fun i => fv k i + v_grad_v_prev (pq_alpha p) (pq_dt p) * l i end in
    let b : vect K := fun i => (- (1)) * fu1 i + rvu * fv1 i in
    let JV := pp_gradient_v (pq_pde p) u v z in
    let J : matr K := fun i j => pp_gradient_u (pq_pde p) u v z i j + (- rvu) * JV i j in
    let lu := pq_solve p (bc_matrix (pq_dofs p) J) (bc_rhs 1 (pq_dofs p) (pq_vals p) J b) in
    let lv : vect K := fun i => 0 + (- (1)) * (fv1 i + mv (pq_n p) JV lu i) in
    pbackward p z h fu fv dRdp k' (Some lv) (fun c => g c + mv (pq_n p) (dRdp u v z) lu c)
  end.

(** criterionGradient (lines 496-581) and criterionGradientX. *)
Definition pcriterionGradient (p : pproblem K Z) (z : Z) (h : phistory K) (c : pcriterion K Z) : vect K :=
  pbackward p z h (pc_gradient_u c h z) (pc_gradient_v c h z) (pp_gradient_z (pq_pde p)) (pq_steps p - 1) None (pc_gradient_z c h z).
Definition pcriterionGradientX (p : pproblem K Z) (z : Z) (h : phistory K) (c : pcriterion K Z) : vect K :=
  pbackward p z h (pc_gradient_u c h z) (pc_gradient_v c h z) (pp_gradient_x (pq_pde p)) (pq_steps p - 1) None (pc_gradient_x c h z).
End M.
