(** Model of src/hyperbolic/HyperbolicProblem.hpp and src/hyperbolic/Newmark.hpp. *)
From Coq Require Import Arith List Bool.
From Verif Require Import Base.Field Base.Sums Base.Res Problem.DenseBC.
Import ListNotations.

(** Displacement, velocity, acceleration at one step. *)
Record hstate (K : CField) := mkH { hu : vect K; hv : vect K; ha : vect K }.
Arguments mkH {K}. Arguments hu {K}. Arguments hv {K}. Arguments ha {K}.

(** What the problem uses of Plato::Hyperbolic::VectorFunction (HyperbolicVectorFunction.hpp): assembled residual and
    Jacobians at a state, a design and a time.  gradient_z and gradient_x are stored transposed. *)
Record hpde (K : CField) (Z : Type) := mkHPde {
  hp_value : hstate K -> Z -> K -> vect K;
  hp_gradient_u : hstate K -> Z -> K -> matr K;
  hp_gradient_v : hstate K -> Z -> K -> matr K;
  hp_gradient_a : hstate K -> Z -> K -> matr K;
  hp_gradient_z : hstate K -> Z -> K -> matr K;
  hp_gradient_x : hstate K -> Z -> K -> matr K }.
Arguments mkHPde {K Z}. Arguments hp_value {K Z}. Arguments hp_gradient_u {K Z}. Arguments hp_gradient_v {K Z}. Arguments hp_gradient_a {K Z}.
Arguments hp_gradient_z {K Z}. Arguments hp_gradient_x {K Z}.

(** Members of HyperbolicProblem (lines 41-75). [hq_bcs t] is what mStateBoundaryConditions.get returns at time t
    (dofs and values). *)
Record hproblem (K : CField) (Z : Type) := mkHProblem {
  hq_n : nat;
  hq_steps : nat;
  hq_bcs : K -> list nat * list K;
  hq_solve : @solver K;
  hq_gamma : K;
  hq_beta : K;
  hq_dt : K;
  hq_init_u : vect K;
  hq_init_v : vect K;
  hq_init_a : vect K;
  hq_pde : hpde K Z }.
Arguments mkHProblem {K Z}. Arguments hq_n {K Z}. Arguments hq_steps {K Z}. Arguments hq_bcs {K Z}. Arguments hq_solve {K Z}.
Arguments hq_gamma {K Z}. Arguments hq_beta {K Z}. Arguments hq_dt {K Z}. Arguments hq_init_u {K Z}. Arguments hq_init_v {K Z}.
Arguments hq_init_a {K Z}. Arguments hq_pde {K Z}.

(** mDisplacement, mVelocity, mAcceleration by step. *)
Definition hhistory (K : CField) := nat -> hstate K.

Record hcriterion (K : CField) (Z : Type) := mkHCriterion {
  hc_gradient_u : hhistory K -> Z -> nat -> vect K;
  hc_gradient_v : hhistory K -> Z -> nat -> vect K;
  hc_gradient_a : hhistory K -> Z -> nat -> vect K;
  hc_gradient_z : hhistory K -> Z -> vect K;
  hc_gradient_x : hhistory K -> Z -> vect K }.
Arguments mkHCriterion {K Z}. Arguments hc_gradient_u {K Z}. Arguments hc_gradient_v {K Z}. Arguments hc_gradient_a {K Z}.
Arguments hc_gradient_z {K Z}. Arguments hc_gradient_x {K Z}.

Section M.
Context {K : CField} {Z : Type}.
Local Open Scope K_scope.
Definition two : K := 1 + 1.

(** Newmark.hpp lines 33-93. *)
Definition nv_grad_u (gamma beta dt : K) : K := (- gamma) / (beta * dt).
Definition nv_grad_u_prev (gamma beta dt : K) : K := gamma / (beta * dt).
Definition nv_grad_v_prev (gamma beta dt : K) : K := gamma / beta - 1.
Definition nv_grad_a_prev (gamma beta dt : K) : K := (gamma / (two * beta) - 1) * dt.
Definition na_grad_u (gamma beta dt : K) : K := (- (1)) / (beta * dt * dt).
Definition na_grad_u_prev (gamma beta dt : K) : K := 1 / (beta * dt * dt).
Definition na_grad_v_prev (gamma beta dt : K) : K := 1 / (beta * dt).
Definition na_grad_a_prev (gamma beta dt : K) : K := 1 / (two * beta) - 1.
(** v_value (lines 96-119) and a_value (lines 122-143). *)
Definition nv_value (gamma beta dt : K) (s prev : hstate K) : vect K := fun i =>
  let predV := hv prev i + (1 - gamma) * dt * ha prev i in
  let predU := hu prev i + dt * hv prev i + dt * dt / two * (1 - two * beta) * ha prev i in
  hv s i - predV - gamma / (beta * dt) * (hu s i - predU).
Definition na_value (gamma beta dt : K) (s prev : hstate K) : vect K := fun i =>
  let predU := hu prev i + dt * hv prev i + dt * dt / two * (1 - two * beta) * ha prev i in
  ha s i - 1 / (beta * dt * dt) * (hu s i - predU).

(** One time step of HyperbolicProblem::solution (lines 285-364): s is the stored (zero) content of the step, t is
    tCurrentTime. *)
Definition hstep (p : hproblem K Z) (z : Z) (t : K) (prev s : hstate K) : hstate K :=
  let g := hq_gamma p in let b := hq_beta p in let dt := hq_dt p in
  let rv := nv_value g b dt s prev in
  let JV := hp_gradient_v (hq_pde p) s z t in
  let ra := na_value g b dt s prev in
  let JA := hp_gradient_a (hq_pde p) s z t in
  let r : vect K := fun i => (- (1)) * hp_value (hq_pde p) s z t i + mv (hq_n p) JV rv i + mv (hq_n p) JA ra i in
  let rvu := nv_grad_u g b dt in
  let rau := na_grad_u g b dt in
  let J : matr K := fun i j => hp_gradient_u (hq_pde p) s z t i j + (- rvu) * JV i j + (- rau) * JA i j in
  let (dofs, vals) := hq_bcs p t in
  let d := hq_solve p (bc_matrix dofs J) (bc_rhs 1 dofs vals J r) in
  mkH (fun i => hu s i + 1 * d i) (fun i => hv s i + (- (1)) * (rv i + rvu * d i)) (fun i => ha s i + (- (1)) * (ra i + rau * d i)).

Definition hzero : hstate K := mkH (fun _ => 0) (fun _ => 0) (fun _ => 0).

(** The loop of solution (lines 284-365); [t] is tCurrentTime before the step. *)
Fixpoint hmarch (p : hproblem K Z) (z : Z) (h : hhistory K) (t : K) (todo k : nat) : hhistory K :=
  match todo with
  | O => h
  | S todo' =>
    let t' := t + hq_dt p in
    let s := hstep p z t' (h (k - 1)%nat) (h k) in
    hmarch p z (fun j => if Nat.eqb j k then s else h j) t' todo' (S k)
  end.
(** solution (lines 267-367).  [stored] is the content of the members before the call. *)
Definition hsolution (p : hproblem K Z) (z : Z) (stored : hhistory K) : hhistory K :=
  let zeroed : hhistory K := fun k => hzero in
  let h0 : hhistory K := fun k => if Nat.eqb k 0 then mkH (hq_init_u p) (hq_init_v p) (hq_init_a p) else zeroed k in
  hmarch p z h0 0 (hq_steps p - 1) 1.

(** The backward loop (lines 492-610 and 688-806).  [bc] are the members mStateBcDofs and mStateBcValues, i.e. those of the last
    time step solved; [t] is tCurrentTime; [next] the adjoint velocity and acceleration of step k+1. *)
Fixpoint hbackward (p : hproblem K Z) (z : Z) (h : hhistory K) (bc : list nat * list K) (fu fv fa : nat -> vect K)
    (dRdp : hstate K -> Z -> K -> matr K) (t : K) (k : nat) (next : option (vect K * vect K)) (gr : vect K) : vect K :=
  match k with
  | O => gr
  | S k' =>
    let s := h k in
    let g := hq_gamma p in let b := hq_beta p in let dt := hq_dt p in
    let fu1 : vect K := match next with None => fu k
      | Some (lv, la) => fun i => fu k i + nv_grad_u_prev g b dt * lv i + na_grad_u_prev g b dt * la i end in
    let fv1 : vect K := match next with None => fv k
      | Some (lv, la) => fun i => fv k i + nv_grad_v_prev g b dt * lv i + na_grad_v_prev g b dt * la i end in
    let fa1 : vect K := match next with None => fa k
      | Some (lv, la) => fun i => fa k i + nv_grad_a_prev g b dt * lv i + na_grad_a_prev g b dt * la i end in
    let rvu := nv_grad_u g b dt in
    let rau := na_grad_u g b dt in
    let rhs : vect K := fun i => (- (1)) * fu1 i + rvu * fv1 i + rau * fa1 i in
    let JV := hp_gradient_v (hq_pde p) s z t in
    let JA := hp_gradient_a (hq_pde p) s z t in
    let J : matr K := fun i j => hp_gradient_u (hq_pde p) s z t i j + (- rvu) * JV i j + (- rau) * JA i j in
    let lu := hq_solve p (bc_matrix (fst bc) J) (bc_rhs 1 (fst bc) (snd bc) J rhs) in
    let lv : vect K := fun i => 0 + (- (1)) * (fv1 i + mv (hq_n p) JV lu i) in
    let la : vect K := fun i => 0 + (- (1)) * (fa1 i + mv (hq_n p) JA lu i) in
    hbackward p z h bc fu fv fa dRdp (t - dt) k' (Some (lv, la)) (fun c => gr c + mv (hq_n p) (dRdp s z t) lu c)
  end.

Fixpoint times (k : nat) (dt : K) : K := match k with O => 0 | S k' => times k' dt + dt end.

(** criterionGradient (lines 475-613) and criterionGradientX (lines 671-809): the backward time starts at mTimeStep*mNumSteps. *)
Definition hcriterionGradient (p : hproblem K Z) (z : Z) (h : hhistory K) (bc : list nat * list K) (c : hcriterion K Z) : vect K :=
  hbackward p z h bc (hc_gradient_u c h z) (hc_gradient_v c h z) (hc_gradient_a c h z) (hp_gradient_z (hq_pde p))
    (times (hq_steps p) (hq_dt p)) (hq_steps p - 1) None (hc_gradient_z c h z).
Definition hcriterionGradientX (p : hproblem K Z) (z : Z) (h : hhistory K) (bc : list nat * list K) (c : hcriterion K Z) : vect K :=
  hbackward p z h bc (hc_gradient_u c h z) (hc_gradient_v c h z) (hc_gradient_a c h z) (hp_gradient_x (hq_pde p))
    (times (hq_steps p) (hq_dt p)) (hq_steps p - 1) None (hc_gradient_x c h z).

(** mStateBcDofs and mStateBcValues after a solve of at least two states (line 337 at the last step). *)
Definition hlast_bc (p : hproblem K Z) : list nat * list K := hq_bcs p (times (hq_steps p - 1) (hq_dt p)).

(** The members that survive a call: the histories and the boundary conditions (lines 56-73). The adjoints are overwritten before
    they are read. *)
Record hmem := mkHMem { hm_hist : hhistory K; hm_bc : list nat * list K }.
(** Public operations of the problem: solution, criterionGradient, criterionGradientX (they use the stored histories, lines 487
    and 683), setGlobalSolution (lines 223-240). *)
Inductive hop :=
| OSolve (z : Z)
| OGradient (z : Z) (c : hcriterion K Z)
| OGradientX (z : Z) (c : hcriterion K Z)
| OSet (h : hhistory K).
Inductive hout := OutHistory (h : hhistory K) | OutVector (g : vect K) | OutNone.
Definition hexec (p : hproblem K Z) (o : hop) (m : hmem) : hmem * hout :=
  match o with
  | OSolve z =>
    let h := hsolution p z (hm_hist m) in
    (mkHMem h (if Nat.leb 2 (hq_steps p) then hlast_bc p else hm_bc m), OutHistory h)
  | OGradient z c => (m, OutVector (hcriterionGradient p z (hm_hist m) (hm_bc m) c))
  | OGradientX z c => (m, OutVector (hcriterionGradientX p z (hm_hist m) (hm_bc m) c))
  | OSet h => (mkHMem h (hm_bc m), OutNone)
  end.
Fixpoint hrun (p : hproblem K Z) (os : list hop) (m : hmem) : hmem :=
  match os with [] => m | o :: os' => hrun p os' (fst (hexec p o m)) end.
End M.
Arguments hmem K : clear implicits. Arguments hop K Z : clear implicits. Arguments hout K : clear implicits.
