(** What static condensation and the path-dependent adjoint must compute. *)
From Coq Require Import Arith List.
From Verif Require Import Base.Field Base.Sums Problem.DenseBC Plasticity.CondensationModel.

Section Spec.
Context {K : CRing}.
Local Open Scope K_scope.

(** The coupled linear system of a Newton step: at the constrained dofs the increment has the prescribed
    values; at every other global dof the linearised global residual vanishes; in every cell the linearised
    local residual vanishes.  [unknowns]: the global increment [du] and the local increments [dc]. *)
Definition coupled_step (s : sizes) (dofs : list nat) (vals : list K)
    (res : vect K) (h : wvec K) (ru rc hu hc : wmat K) (du : vect K) (dc : wvec K) : Prop :=
  (forall d v, List.In (d, v) (List.combine dofs vals) -> du d = v) /\
  (forall i, i < sz_n s -> ~ List.In i dofs ->
     res i + sum (sz_ne s) (fun e => sum (sz_ng s) (fun a =>
        if Nat.eqb (sz_map s e a) i
        then sum (sz_ng s) (fun b => ru e a b * du (sz_map s e b)) + sum (sz_nl s) (fun j => rc e a j * dc e j)
        else 0)) = 0) /\
  (forall e j, e < sz_ne s -> j < sz_nl s ->
     h e j + sum (sz_ng s) (fun b => hu e j b * du (sz_map s e b)) + sum (sz_nl s) (fun i => hc e j i * dc e i) = 0).

(** The linearised equations of the load history: the tangent (du_k, dc_k, dpi_k) of the computed states in
    the control direction dz.  Before the first step everything is zero; the projected pressure gradient of
    step 0 is zero; that of a later step k solves the row-summed projection equation, which involves the
    pressure of step k-1 (PlasticityProblem::updateProjectedPressureGradient). *)
Definition before (k : nat) (x : nat -> vect K) : vect K := match k with O => fun _ => 0 | S j => x j end.
Definition before_w (k : nat) (x : nat -> wvec K) : wvec K := match k with O => fun _ _ => 0 | S j => x j end.

Record path_tangent (q : path_problem K) (dz : vect K) (du : nat -> vect K) (dc : nat -> wvec K)
    (dpi : nat -> vect K) : Prop := mkPT {
  pt_bc : forall k d, k < pa_steps q -> List.In d (pa_dofs q) -> du k d = 0;
  pt_global : forall k i, k < pa_steps q -> i < sz_n (pa_sz q) -> ~ List.In i (pa_dofs q) ->
    let s := pa_sz q in let J := pa_jac q k in
    sum (sz_ne s) (fun e => sum (sz_ng s) (fun a => if Nat.eqb (sz_map s e a) i then
        sum (sz_ng s) (fun b => j_ru J e a b * du k (sz_map s e b))
      + sum (sz_ng s) (fun b => j_rup J e a b * before k du (sz_map s e b))
      + sum (sz_nl s) (fun b => j_rc J e a b * dc k e b)
      + sum (sz_nl s) (fun b => j_rcp J e a b * before_w k dc e b)
      + sum (pa_nw q) (fun b => j_rn J e a b * dpi k (pa_pmap q e b))
      + sum (pa_nn q) (fun b => j_rz J e a b * dz (pa_nmap q e b)) else 0)) = 0;
  pt_local : forall k e j, k < pa_steps q -> e < sz_ne (pa_sz q) -> j < sz_nl (pa_sz q) ->
    let s := pa_sz q in let J := pa_jac q k in
        sum (sz_ng s) (fun b => j_hu J e j b * du k (sz_map s e b))
      + sum (sz_ng s) (fun b => j_hup J e j b * before k du (sz_map s e b))
      + sum (sz_nl s) (fun b => j_hc J e j b * dc k e b)
      + sum (sz_nl s) (fun b => j_hcp J e j b * before_w k dc e b)
      + sum (pa_nn q) (fun b => j_hz J e j b * dz (pa_nmap q e b)) = 0;
  pt_proj0 : forall i, i < pa_np q -> dpi 0%nat i = 0;
  pt_proj : forall k i, S k < pa_steps q -> i < pa_np q ->
    let s := pa_sz q in let J := pa_jac q (S k) in
    sum (pa_np q) (fun j => j_mass J i j) * dpi (S k) i
    + sum (sz_ne s) (fun e => sum (pa_nw q) (fun a => if Nat.eqb (pa_pmap q e a) i then
          sum (pa_nn q) (fun b => j_pn J e a b * du k (pa_nmap q e b * pa_nd q + pa_off q)%nat)
        + sum (pa_nn q) (fun b => pa_pz q (S k) (pa_pi q (S k)) (fun v => pa_u q k (v * pa_nd q + pa_off q)%nat) e a b
                                  * dz (pa_nmap q e b)) else 0)) = 0
}.

(** Derivative of the criterion, a sum over the steps and the cells, along a tangent. *)
Definition path_criterion_derivative (q : path_problem K) (dz : vect K) (du : nat -> vect K) (dc : nat -> wvec K) : K :=
  sum (pa_steps q) (fun k => let s := pa_sz q in let J := pa_jac q k in
    sum (sz_ne s) (fun e =>
        sum (sz_ng s) (fun b => j_fu J e b * du k (sz_map s e b))
      + sum (sz_ng s) (fun b => j_fup J e b * before k du (sz_map s e b))
      + sum (sz_nl s) (fun b => j_fc J e b * dc k e b)
      + sum (sz_nl s) (fun b => j_fcp J e b * before_w k dc e b)
      + sum (pa_nn q) (fun b => j_fz J e b * dz (pa_nmap q e b)))).

(** [g] is the total derivative of the criterion with respect to the control. *)
Definition path_total_gradient (q : path_problem K) (g : vect K) : Prop :=
  forall dz du dc dpi, path_tangent q dz du dc dpi ->
    sum (pa_nz q) (fun i => g i * dz i) = path_criterion_derivative q dz du dc.

(** Well-formed worksets: dofs in range; the cell dofs are numbered node by node. *)
Record wf_path (q : path_problem K) : Prop := mkWfPath {
  wp_map : forall e a, e < sz_ne (pa_sz q) -> a < sz_ng (pa_sz q) -> sz_map (pa_sz q) e a < sz_n (pa_sz q);
  wp_pmap : forall e a, e < sz_ne (pa_sz q) -> a < pa_nw q -> pa_pmap q e a < pa_np q;
  wp_nmap : forall e a, e < sz_ne (pa_sz q) -> a < pa_nn q -> pa_nmap q e a < pa_nz q;
  wp_off : pa_off q < pa_nd q;
  wp_ng : sz_ng (pa_sz q) = (pa_nn q * pa_nd q)%nat;
  wp_node : forall e v d, e < sz_ne (pa_sz q) -> v < pa_nn q -> d < pa_nd q ->
     sz_map (pa_sz q) e (v * pa_nd q + d)%nat = (pa_nmap q e v * pa_nd q + d)%nat;
  wp_dofs : forall d, List.In d (pa_dofs q) -> d < sz_n (pa_sz q)
}.
End Spec.
