(** Specification side of the stabilised (displacement, pressure, projected pressure gradient) problem. *)
From Coq Require Import Arith List.
From Verif Require Import Base.Field Base.Sums Problem.DenseBC Vms.VmsModel.
Import ListNotations.

Section K.
Context {K : CField}.
Local Open Scope K_scope.

(** Lumped mass: the row sums of the projection's mass matrix. *)
Definition lumped (m : nat) (M : matr K) (a : nat) : K := sum m (fun b => M a b).

(** A linear stabilised problem: the equations are A u + B q - F with q the projected pressure gradient, and the projection
    equation is M q - G p with p the nodal pressure; n state dofs, m dofs of q, k nodes. *)
Definition linear_vms {Z} (p : vproblem K Z) (z : Z) (A B : matr K) (F : vect K) (M G : matr K) : Prop :=
  let n := (vp_nodes p * vp_N p)%nat in let m := (vp_nodes p * vp_dim p)%nat in
  (forall u q, (forall i, i < n -> g_value (vp_mech p) u q z i = mv n A u i + mv m B q i - F i) /\
               (forall i j, i < n -> j < n -> g_gradient_u (vp_mech p) u q z i j = A i j)) /\
  (forall q pr, (forall a, a < m -> P_value (vp_proj p) q pr z a = mv m M q a - mv (vp_nodes p) G pr a) /\
                (forall a b, a < m -> b < m -> P_gradient_u (vp_proj p) q pr z a b = M a b)).

(** q is the (mass-lumped) projection of the gradient of the pressure found in the state u. *)
Definition projects {Z} (p : vproblem K Z) (M G : matr K) (q u : vect K) : Prop :=
  let m := (vp_nodes p * vp_dim p)%nat in
  forall a, a < m -> lumped m M a * q a = mv (vp_nodes p) G (fun node => u (node * vp_N p + vp_off p)%nat) a.

(** u takes the prescribed values and balances the loads at the free dofs for the given projected gradient. *)
Definition balances {Z} (p : vproblem K Z) (A B : matr K) (F : vect K) (q u : vect K) : Prop :=
  let n := (vp_nodes p * vp_N p)%nat in let m := (vp_nodes p * vp_dim p)%nat in
  (forall d v, In (d, v) (combine (vp_dofs p) (vp_vals p)) -> u d = v) /\
  (forall i, i < n -> ~ In i (vp_dofs p) -> mv n A u i + mv m B q i = F i).

(** What the user expects of a stored state: it is a solution of the coupled equations. *)
Definition solves_vms {Z} (p : vproblem K Z) (A B : matr K) (F : vect K) (M G : matr K) (u : vect K) : Prop :=
  exists q, projects p M G q u /\ balances p A B F q u.

(** (du, dq, dw) keeps the equations of one step to first order: du vanishes at the constrained dofs, the linearised
    equations J du + Jq dq + Jw dw vanish at the free ones, and the linearised lumped projection
    R dq + Pp (pressure part of du) + Pw dw vanishes. *)
Definition vms_tangent {Z} (p : vproblem K Z) (nw : nat) (J Jq Jw : matr K) (R : vect K) (Pp Pw : matr K) (du dq dw : vect K) : Prop :=
  let n := (vp_nodes p * vp_N p)%nat in let m := (vp_nodes p * vp_dim p)%nat in
  (forall d, In d (vp_dofs p) -> du d = 0) /\
  (forall i, i < n -> ~ In i (vp_dofs p) -> mv n J du i + mv m Jq dq i + mv nw Jw dw i = 0) /\
  (forall a, a < m -> R a * dq a + mv (vp_nodes p) Pp (fun node => du (node * vp_N p + vp_off p)%nat) a + mv nw Pw dw a = 0).

(** The data of one step. *)
Record step_data := mkStepData { sd_J : matr K; sd_Jq : matr K; sd_Jw : matr K; sd_R : vect K; sd_Pp : matr K; sd_Pw : matr K; sd_fu : vect K }.

(** g is the total derivative of the criterion with respect to the parameters w, over the steps 1 .. last. *)
Definition vms_total {Z} (p : vproblem K Z) (nw last : nat) (sd : nat -> step_data) (fw g : vect K) : Prop :=
  forall dw du dq,
    (forall k, 1 <= k <= last ->
      vms_tangent p nw (sd_J (sd k)) (sd_Jq (sd k)) (sd_Jw (sd k)) (sd_R (sd k)) (sd_Pp (sd k)) (sd_Pw (sd k)) (du k) (dq k) dw) ->
    dot nw g dw = dot nw fw dw + sum last (fun j => dot (vp_nodes p * vp_N p) (sd_fu (sd (S j))) (du (S j))).

(** The data of step k of the problem, from the derivatives of its equations at the stored state of step k, at the
    projection of its pressure gradient [q k] and at its nodal pressure; [gw], [Pw] are the parameter derivatives (stored with
    one row per parameter). *)
Definition data_of {Z} (p : vproblem K Z) (z : Z) (c : vcriterion K Z) (h q : nat -> vect K)
  (gw : vect K -> vect K -> matr K) (Pw : vect K -> vect K -> matr K) (k : nat) : step_data :=
  let u := h k in let pr := fun node => u (node * vp_N p + vp_off p)%nat in
  {| sd_J := g_gradient_u (vp_mech p) u (q k) z;
     sd_Jq := fun i a => g_gradient_n_T (vp_mech p) u (q k) z a i;
     sd_Jw := fun i w => gw u (q k) w i;
     sd_R := lumped (vp_nodes p * vp_dim p) (P_gradient_u (vp_proj p) (fun _ => 0) pr z);
     sd_Pp := fun a node => P_gradient_n_T (vp_proj p) (q k) pr z node a;
     sd_Pw := fun a w => Pw (q k) pr w a;
     sd_fu := vc_gradient_u c h z k |}.

(** The projection used in the gradient: the projection equation started from zero. *)
Definition projected_at {Z} (p : vproblem K Z) (z : Z) (h q : nat -> vect K) (k : nat) : Prop :=
  let m := (vp_nodes p * vp_dim p)%nat in let pr := fun node => h k (node * vp_N p + vp_off p)%nat in
  forall a, a < m -> lumped m (P_gradient_u (vp_proj p) (fun _ => 0) pr z) a * q k a = - P_value (vp_proj p) (fun _ => 0) pr z a.

(** Transpose of the derivative of the equations with respect to the state once the projected gradient is eliminated. *)
Definition reduced_T {Z} (p : vproblem K Z) (d : step_data) : matr K := fun i j =>
  sd_J d j i - (if Nat.eqb (i mod vp_N p) (vp_off p)
                then sum (vp_nodes p * vp_dim p) (fun a => sd_Pp d a (i / vp_N p)%nat * fdiv (sd_Jq d j a) (sd_R d a)) else 0).

(** lam is the adjoint of one step. *)
Definition adjoint_of {Z} (p : vproblem K Z) (d : step_data) (lam : vect K) : Prop :=
  let n := (vp_nodes p * vp_N p)%nat in
  (forall i, In i (vp_dofs p) -> lam i = 0) /\
  (forall i, i < n -> ~ In i (vp_dofs p) -> mv n (reduced_T p d) lam i = - sd_fu d i).

(** The adjoint of the projection equation, up to sign: R^-1 Jq^T lam. *)
Definition projection_adjoint {Z} (p : vproblem K Z) (d : step_data) (lam : vect K) : vect K :=
  fun a => fdiv (sum (vp_nodes p * vp_N p) (fun i => sd_Jq d i a * lam i)) (sd_R d a).
End K.
