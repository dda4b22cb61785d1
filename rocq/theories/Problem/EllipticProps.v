(** Properties of the elliptic problem (C12-C16). *)
From Coq Require Import ZArith QArith Qcanon Arith Lia List Bool Ring.
From Verif Require Import Base.Field Base.Sums Base.Res BC.ConstraintsSpec BC.ConstraintsMain
  Problem.DenseBC Problem.SmallSolver Problem.EllipticModel Problem.EllipticSpec Problem.EllipticProof.
Import ListNotations.
Local Open Scope nat_scope.

(** ** C12 *)
Theorem C12_linear_solve :
  forall (K : CRing) (Z : Type) (p : problem K Z) (z : Z) (A : matr K) (F : vect K),
    linear_pde (n_dofs p) (the_pde p) z A F ->
    symmetric (n_dofs p) A ->
    solver_ok (n_dofs p) (lin_solve p) ->
    nonsingular (n_dofs p) (bc_matrix (bc_dofs p) A) ->
    length (bc_vals p) = length (bc_dofs p) -> NoDup (bc_dofs p) -> (forall d, In d (bc_dofs p) -> d < n_dofs p) ->
    0 < newton_steps p ->
    (** the residual test does not fire before the first solve (see C13) *)
    newton_steps p = 1 \/ res_small p (fun i => rmul (ropp r1) (p_value (the_pde p) (fun _ => r0) z i)) = false ->
    (forall d v, In (d, v) (combine (bc_dofs p) (bc_vals p)) -> solution p z d = v) /\
    (forall i, i < n_dofs p -> ~ In i (bc_dofs p) -> mv (n_dofs p) A (solution p z) i = F i).
Proof.
  intros K Z p z A F Hlin Hsym Hs Hns Hl Hnd Hd Hn Hno.
  assert (Hns' : forall u, nonsingular (n_dofs p) (bc_matrix (bc_dofs p) (p_gradient_u (the_pde p) u z))).
  { intros u. apply (nonsingular_ext (n_dofs p) (bc_matrix (bc_dofs p) A)); [|exact Hns].
    apply bc_matrix_ext. intros i j Hi Hj. symmetry. apply (Hlin u); assumption. }
  assert (Hc : compatible r1 (bc_dofs p) (bc_vals p)) by (apply NoDup_compatible; exact Hnd).
  split.
  - apply newton_values; assumption.
  - apply newton_free; assumption.
Qed.
Print Assumptions C12_linear_solve.

(** A bar of two nodes: stiffness [[2,-1],[-1,2]], load (0,3), node 0 moved by 4; two Newton steps. *)
Definition exA : matr Qc_ring := fun i j => if Nat.eqb i j then Q2Qc 2 else Q2Qc (-1).
Definition exF : vect Qc_ring := fun i => match i with 1 => Q2Qc 3 | _ => Q2Qc 0 end.
Definition exPde : pde Qc_ring unit :=
  mkPde (K := Qc_ring) (Z := unit) (fun u _ i => mv 2 exA u i - exF i)%K (fun _ _ => exA) (fun _ _ => tr exA) (fun _ _ _ _ => r0) (fun _ _ _ _ => r0).
Definition small (tol : Q) (n : nat) (v : vect Qc_ring) : bool :=
  match Qccompare (dot n v v) (Q2Qc (tol * tol)) with Lt => true | _ => false end.
Definition exP : problem Qc_ring unit :=
  mkProblem (K := Qc_ring) (Z := unit) 2 2 (small (1#100) 2) (small (1#100) 2) [0] [Q2Qc 4] false (solver2 (K := Qc_field)) exPde.
Example C12_instance :
  linear_pde 2 (the_pde exP) tt exA exF /\ symmetric 2 exA /\ solver_ok 2 (lin_solve exP) /\
  nonsingular 2 (bc_matrix (bc_dofs exP) exA) /\
  res_small exP (fun i => rmul (ropp r1) (p_value (the_pde exP) (fun _ => r0) tt i)) = false /\
  solution exP tt 0 = Q2Qc 4 /\ solution exP tt 1 = Q2Qc (7#2).
Proof.
  split; [intros u; split; reflexivity|]. split.
  { intros i j Hi Hj. unfold exA. rewrite Nat.eqb_sym. reflexivity. }
  split; [exact (solver2_ok (K := Qc_field))|]. split.
  { apply (nonsingular2 (K := Qc_field)). vm_compute. discriminate. }
  split; [vm_compute; reflexivity|]. split; apply Qc_is_canon; vm_compute; reflexivity.
Qed.

(** ** C13: refuted. *)

(** With more than one Newton step, a problem whose residual passes the test at the zero state is returned untouched. *)
Theorem C13_early_exit :
  forall (K : CRing) (Z : Type) (p : problem K Z) (z : Z),
    1 < newton_steps p ->
    res_small p (fun i => rmul (ropp r1) (p_value (the_pde p) (fun _ => r0) z i)) = true ->
    forall i, solution p z i = r0.
Proof.
  intros K Z p z Hn Hr i. unfold solution. destruct (newton_steps p) as [|todo] eqn:E; [lia|]. simpl. rewrite E.
  rewrite Hr. assert (H : Nat.ltb 1 (S todo) = true) by (apply Nat.ltb_lt; exact Hn). rewrite H. reflexivity.
Qed.
Print Assumptions C13_early_exit.

(** Displacement-driven bar: no load, node 0 moved by 4, node 1 held, three Newton steps allowed, residual tolerance 1/100. *)
Definition exPde0 : pde Qc_ring unit :=
  mkPde (K := Qc_ring) (Z := unit) (fun u _ i => mv 2 exA u i)%K (fun _ _ => exA) (fun _ _ => tr exA) (fun _ _ _ _ => r0) (fun _ _ _ _ => r0).
Definition exP13 : problem Qc_ring unit :=
  mkProblem (K := Qc_ring) (Z := unit) 2 3 (small (1#100) 2) (small (1#100) 2) [0; 1] [Q2Qc 4; Q2Qc 0] false (solver2 (K := Qc_field)) exPde0.
Lemma Qc_sub_0 (x : Qc) : (x = x - Q2Qc 0)%Qc.
Proof. ring. Qed.
Theorem C13_refuted :
  exists (p : problem Qc_ring unit) (A : matr Qc_ring) (F : vect Qc_ring),
    linear_pde (n_dofs p) (the_pde p) tt A F /\ symmetric (n_dofs p) A /\ solver_ok (n_dofs p) (lin_solve p) /\
    nonsingular (n_dofs p) (bc_matrix (bc_dofs p) A) /\
    length (bc_vals p) = length (bc_dofs p) /\ NoDup (bc_dofs p) /\ (forall d, In d (bc_dofs p) -> d < n_dofs p) /\
    1 < newton_steps p /\ (forall v, res_small p v = small (1#100) (n_dofs p) v) /\
    exists d v, In (d, v) (combine (bc_dofs p) (bc_vals p)) /\ solution p tt d <> v.
Proof.
  exists exP13, exA, (fun _ => r0). split.
  { intros u. split; [|reflexivity]. intros i Hi. cbn [the_pde exP13 p_value exPde0 n_dofs].
    apply (Qc_sub_0 (mv 2 exA u i)). }
  split. { intros i j Hi Hj. unfold exA. rewrite Nat.eqb_sym. reflexivity. }
  split; [exact (solver2_ok (K := Qc_field))|]. split.
  { apply (nonsingular2 (K := Qc_field)). vm_compute. discriminate. }
  split; [reflexivity|]. split. { repeat constructor; simpl; intuition lia. }
  split. { simpl. intros d [<-|[<-|[]]]; lia. }
  split; [simpl; lia|]. split; [reflexivity|].
  exists 0, (Q2Qc 4). split; [left; reflexivity|]. rewrite C13_early_exit; [|simpl; lia|vm_compute; reflexivity].
  vm_compute. discriminate.
Qed.
Print Assumptions C13_refuted.

(** What does hold, for every nonlinear and unsymmetric problem: if the test does not fire on the zero state, the
    prescribed values are taken.  Missing with respect to C13: the early exit. *)
Theorem C13_values_partial :
  forall (K : CRing) (Z : Type) (p : problem K Z) (z : Z),
    solver_ok (n_dofs p) (lin_solve p) ->
    (forall u, nonsingular (n_dofs p) (bc_matrix (bc_dofs p) (p_gradient_u (the_pde p) u z))) ->
    length (bc_vals p) = length (bc_dofs p) -> NoDup (bc_dofs p) -> (forall d, In d (bc_dofs p) -> d < n_dofs p) ->
    0 < newton_steps p ->
    newton_steps p = 1 \/ res_small p (fun i => rmul (ropp r1) (p_value (the_pde p) (fun _ => r0) z i)) = false ->
    forall d v, In (d, v) (combine (bc_dofs p) (bc_vals p)) -> solution p z d = v.
Proof. intros K Z p z Hs Hns Hl Hnd Hd Hn Hno. apply newton_values; auto. apply NoDup_compatible. exact Hnd. Qed.
Print Assumptions C13_values_partial.

(** A nonlinear unsymmetric case: residual (u0^2 + u1, u1), dof 0 moved by 1. *)
Definition exPdeNL : pde Qc_ring unit :=
  mkPde (K := Qc_ring) (Z := unit) (fun (u : vect Qc_ring) _ i => match i with O => radd (rmul (u 0) (u 0)) (u 1) | _ => rsub (u 1) r1 end)
        (fun (u : vect Qc_ring) _ i j => match i, j with O, O => rmul (Q2Qc 2 : Qc_ring) (u 0) | O, _ => r1 | S O, S O => r1 | _, _ => r0 end)
        (fun u _ i j => r0) (fun _ _ _ _ => r0) (fun _ _ _ _ => r0).
Example C13_partial_instance :
  let p := mkProblem (K := Qc_ring) (Z := unit) 2 3 (small (1#100) 2) (small (1#100) 2) [0] [Q2Qc 1] false (solver2 (K := Qc_field)) exPdeNL in
  (forall u, nonsingular 2 (bc_matrix [0] (p_gradient_u exPdeNL u tt))) /\
  res_small p (fun i => rmul (ropp r1) (p_value (the_pde p) (fun _ => r0) tt i)) = false /\ solution p tt 0 = Q2Qc 1.
Proof.
  cbv zeta. split; [|split].
  - intros u. apply (nonsingular2 (K := Qc_field)). cbn. discriminate.
  - vm_compute. reflexivity.
  - apply Qc_is_canon. vm_compute. reflexivity.
Qed.

(** ** C14 *)
Theorem C14_adjoint_gradient :
  forall (K : CRing) (Z : Type) (p : problem K Z) (z : Z) (u : vect K) (c : criterion K Z) (nz : nat) (Rz : matr K),
    solver_ok (n_dofs p) (lin_solve p) ->
    (** the assembled transposed Jacobian and control derivative (C06) *)
    (forall i j, i < n_dofs p -> j < n_dofs p -> p_gradient_u_T (the_pde p) u z i j = p_gradient_u (the_pde p) u z j i) ->
    (forall i k, i < n_dofs p -> k < nz -> p_gradient_z (the_pde p) u z k i = Rz i k) ->
    nonsingular (n_dofs p) (bc_matrix (bc_dofs p) (p_gradient_u_T (the_pde p) u z)) ->
    length (bc_vals p) = length (bc_dofs p) -> (forall d, In d (bc_dofs p) -> d < n_dofs p) ->
    bc_vals p <> [] -> self_adjoint p = false ->
    exists g, criterionGradient p z u c = Ok g /\
      total_gradient (n_dofs p) nz (bc_dofs p) (p_gradient_u (the_pde p) u z) Rz (c_gradient_u c u z) (c_gradient_z c u z) g.
Proof.
  intros K Z p z u c nz Rz Hs HT HZ Hns Hl Hd Hne Hsa. unfold criterionGradient. rewrite Hsa.
  assert (Hadj : exists vs, adjoint_values p = Ok vs /\ length vs = length (bc_dofs p) /\ forall v, In v vs -> v = r0).
  { unfold adjoint_values. destruct (bc_vals p) as [|v vs] eqn:E; [congruence|]. eexists. split; [reflexivity|].
    split; [rewrite map_length; exact Hl|]. intros w Hw. apply in_map_iff in Hw as [x [<- _]]. reflexivity. }
  destruct Hadj as [vs [E [Hlv Hz]]]. rewrite E. cbn [rbind].
  set (b := bc_rhs r1 (bc_dofs p) vs (p_gradient_u_T (the_pde p) u z) (fun i => rmul (ropp r1) (c_gradient_u c u z i))).
  set (lam := lin_solve p (bc_matrix (bc_dofs p) (p_gradient_u_T (the_pde p) u z)) b).
  eexists. split; [reflexivity|].
  assert (Hlam : solves (n_dofs p) (bc_matrix (bc_dofs p) (p_gradient_u_T (the_pde p) u z)) b lam) by (apply Hs, Hns).
  apply (bc_zero (n_dofs p) r1 (bc_dofs p) vs _ _ lam Hlv Hd) in Hlam.
  - destruct Hlam as [H1 H2].
    assert (Htg : total_gradient (n_dofs p) nz (bc_dofs p) (p_gradient_u (the_pde p) u z) Rz (c_gradient_u c u z) (c_gradient_z c u z)
        (fun k => radd (c_gradient_z c u z k) (mv (n_dofs p) (tr Rz) lam k))).
    { apply adjoint_identity; auto. intros i Hi Hni. specialize (H2 i Hi Hni).
      rewrite <- (mv_ext (n_dofs p) (p_gradient_u_T (the_pde p) u z) (tr (p_gradient_u (the_pde p) u z)) lam lam i);
        [|intros j Hj; apply HT; assumption|reflexivity].
      rewrite H2. apply neg1_mul. }
    intros du dz Ht. rewrite <- (Htg du dz Ht). apply dot_ext; [|reflexivity]. intros k Hk. f_equal.
    apply mv_ext; [|reflexivity]. intros j Hj. apply HZ; assumption.
  - intros v Hv. rewrite (Hz v Hv). apply mul0_r.
Qed.
Print Assumptions C14_adjoint_gradient.

(** Without any Dirichlet condition, the gradient throws instead. *)
Theorem C14_no_dirichlet_throws :
  forall (K : CRing) (Z : Type) (p : problem K Z) (z : Z) (u : vect K) (c : criterion K Z),
    bc_vals p = [] -> self_adjoint p = false -> criterionGradient p z u c = Throw.
Proof. intros K Z p z u c Hv Hs. unfold criterionGradient, adjoint_values. rewrite Hs, Hv. reflexivity. Qed.
Print Assumptions C14_no_dirichlet_throws.

(** Concrete case: unsymmetric Jacobian [[2,1],[3,4]], dof 0 fixed to a nonzero value, one control. *)
Definition exJ : matr Qc_ring := fun i j => match i, j with 0, 0 => Q2Qc 2 | 0, _ => Q2Qc 1 | _, 0 => Q2Qc 3 | _, _ => Q2Qc 4 end.
Definition exRz : matr Qc_ring := fun i _ => match i with 0 => Q2Qc 5 | _ => Q2Qc 6 end.
Definition exC : criterion Qc_ring unit :=
  mkCriterion (K := Qc_ring) (Z := unit) (fun _ _ i => match i with 0 => Q2Qc 1 | _ => Q2Qc 8 end) (fun _ _ _ => Q2Qc 7) (fun _ _ _ => Q2Qc 7).
Definition exP14 : problem Qc_ring unit :=
  mkProblem (K := Qc_ring) (Z := unit) 2 1 (fun _ => false) (fun _ => false) [0] [Q2Qc 9] false (solver2 (K := Qc_field))
    (mkPde (K := Qc_ring) (Z := unit) (fun _ _ _ => r0) (fun _ _ => exJ) (fun _ _ => tr exJ) (fun _ _ => tr exRz) (fun _ _ => tr exRz)).
Example C14_instance :
  nonsingular 2 (bc_matrix [0] (tr exJ)) /\
  (exists g, criterionGradient exP14 tt (fun _ => r0) exC = Ok g /\ g 0 = Q2Qc (-5)) /\
  tangent 2 1 [0] exJ exRz (fun i => match i with 0 => r0 | _ => Q2Qc (-3#2) end) (fun _ => r1).
Proof.
  split; [|split].
  - apply (nonsingular2 (K := Qc_field)). vm_compute. discriminate.
  - eexists. split; [reflexivity|]. apply Qc_is_canon. vm_compute. reflexivity.
  - split; [intros d [<-|[]]; reflexivity|]. intros i Hi Hni. destruct i as [|[|i]]; [exfalso; apply Hni; left; reflexivity| |lia].
    apply Qc_is_canon. vm_compute. reflexivity.
Qed.

(** ** C15: refuted twice. *)

(** A nonzero prescribed value, symmetric Jacobian. *)
Definition exP15 : problem Qc_ring unit :=
  mkProblem (K := Qc_ring) (Z := unit) 2 1 (fun _ => false) (fun _ => false) [0] [Q2Qc 1] false (solver2 (K := Qc_field))
    (mkPde (K := Qc_ring) (Z := unit) (fun _ _ _ => r0) (fun _ _ => exA) (fun _ _ => tr exA) (fun _ _ => tr exRz) (fun _ _ => tr exRz)).
Definition exC15 : criterion Qc_ring unit := mkCriterion (K := Qc_ring) (Z := unit) (fun _ _ _ => r0) (fun _ _ _ => r0) (fun _ _ _ => r0).
Theorem C15_nonzero_values_refuted :
  exists (p : problem Qc_ring unit) (c : criterion Qc_ring unit) (Rx : matr Qc_ring) (g : vect Qc_ring) (u : vect Qc_ring),
    solver_ok (n_dofs p) (lin_solve p) /\
    symmetric (n_dofs p) (p_gradient_u (the_pde p) u tt) /\
    (forall i k, p_gradient_x (the_pde p) u tt k i = Rx i k) /\
    nonsingular (n_dofs p) (bc_matrix (bc_dofs p) (p_gradient_u (the_pde p) u tt)) /\
    bc_dofs p = [0] /\ bc_vals p = [Q2Qc 1] /\ self_adjoint p = false /\
    criterionGradientX p tt u c = Ok g /\
    ~ total_gradient (n_dofs p) 1 (bc_dofs p) (p_gradient_u (the_pde p) u tt) Rx (c_gradient_u c u tt) (c_gradient_x c u tt) g.
Proof.
  exists exP15, exC15, exRz. eexists. exists (fun _ => r0). split; [exact (solver2_ok (K := Qc_field))|].
  split. { intros i j Hi Hj. cbn. unfold exA. rewrite Nat.eqb_sym. reflexivity. }
  split; [reflexivity|]. split. { apply (nonsingular2 (K := Qc_field)). vm_compute. discriminate. }
  split; [reflexivity|]. split; [reflexivity|]. split; [reflexivity|]. split; [reflexivity|].
  intros H. specialize (H (fun i => match i with 0 => r0 | _ => Q2Qc (-3) end) (fun _ => r1)).
  assert (T : tangent 2 1 [0] exA exRz (fun i => match i with 0 => r0 | _ => Q2Qc (-3) end) (fun _ => r1)).
  { split; [intros d [<-|[]]; reflexivity|]. intros i Hi Hni.
    destruct i as [|[|i]]; [exfalso; apply Hni; left; reflexivity| |lia]. apply Qc_is_canon. vm_compute. reflexivity. }
  specialize (H T). apply (f_equal this) in H. vm_compute in H. discriminate H.
Qed.
Print Assumptions C15_nonzero_values_refuted.

(** Zero prescribed values, unsymmetric Jacobian: the adjoint system is not transposed. *)
Definition exP15b : problem Qc_ring unit :=
  mkProblem (K := Qc_ring) (Z := unit) 2 1 (fun _ => false) (fun _ => false) [] [] false (solver2 (K := Qc_field))
    (mkPde (K := Qc_ring) (Z := unit) (fun _ _ _ => r0) (fun _ _ => exJ) (fun _ _ => tr exJ) (fun _ _ => tr exRz) (fun _ _ => tr exRz)).
Definition exC15b : criterion Qc_ring unit :=
  mkCriterion (K := Qc_ring) (Z := unit) (fun _ _ i => match i with 0 => r1 | _ => r0 end) (fun _ _ _ => r0) (fun _ _ _ => r0).
Theorem C15_unsymmetric_refuted :
  exists (p : problem Qc_ring unit) (c : criterion Qc_ring unit) (Rx : matr Qc_ring) (g : vect Qc_ring) (u : vect Qc_ring),
    solver_ok (n_dofs p) (lin_solve p) /\
    (forall i k, p_gradient_x (the_pde p) u tt k i = Rx i k) /\
    nonsingular (n_dofs p) (bc_matrix (bc_dofs p) (p_gradient_u (the_pde p) u tt)) /\
    bc_dofs p = [] /\ bc_vals p = [] /\ self_adjoint p = false /\
    criterionGradientX p tt u c = Ok g /\
    ~ total_gradient (n_dofs p) 1 (bc_dofs p) (p_gradient_u (the_pde p) u tt) Rx (c_gradient_u c u tt) (c_gradient_x c u tt) g.
Proof.
  exists exP15b, exC15b, exRz. eexists. exists (fun _ => r0). split; [exact (solver2_ok (K := Qc_field))|].
  split; [reflexivity|]. split. { apply (nonsingular2 (K := Qc_field)). vm_compute. discriminate. }
  split; [reflexivity|]. split; [reflexivity|]. split; [reflexivity|]. split; [reflexivity|].
  intros H. specialize (H (fun i => match i with 0 => Q2Qc (-14#5) | _ => Q2Qc (3#5) end) (fun _ => r1)).
  assert (T : tangent 2 1 [] exJ exRz (fun i => match i with 0 => Q2Qc (-14#5) | _ => Q2Qc (3#5) end) (fun _ => r1)).
  { split; [intros d []|]. intros i Hi Hni. destruct i as [|[|i]]; [| |lia]; apply Qc_is_canon; vm_compute; reflexivity. }
  specialize (H T). apply (f_equal this) in H. vm_compute in H. discriminate H.
Qed.
Print Assumptions C15_unsymmetric_refuted.

(** With a symmetric Jacobian and all prescribed values zero the shape gradient is the total derivative.
    Missing with respect to C15: nonzero prescribed values and unsymmetric Jacobians. *)
Theorem C15_shape_gradient_partial :
  forall (K : CRing) (Z : Type) (p : problem K Z) (z : Z) (u : vect K) (c : criterion K Z) (nx : nat) (Rx : matr K),
    solver_ok (n_dofs p) (lin_solve p) ->
    symmetric (n_dofs p) (p_gradient_u (the_pde p) u z) ->
    (forall i k, i < n_dofs p -> k < nx -> p_gradient_x (the_pde p) u z k i = Rx i k) ->
    nonsingular (n_dofs p) (bc_matrix (bc_dofs p) (p_gradient_u (the_pde p) u z)) ->
    length (bc_vals p) = length (bc_dofs p) -> (forall d, In d (bc_dofs p) -> d < n_dofs p) ->
    (forall v, In v (bc_vals p) -> v = r0) -> self_adjoint p = false ->
    exists g, criterionGradientX p z u c = Ok g /\
      total_gradient (n_dofs p) nx (bc_dofs p) (p_gradient_u (the_pde p) u z) Rx (c_gradient_u c u z) (c_gradient_x c u z) g.
Proof.
  intros K Z p z u c nx Rx Hs Hsym HZ Hns Hl Hd Hv Hsa. unfold criterionGradientX. rewrite Hsa.
  set (b := bc_rhs r1 (bc_dofs p) (bc_vals p) (p_gradient_u (the_pde p) u z) (fun i => rmul (ropp r1) (c_gradient_u c u z i))).
  set (lam := lin_solve p (bc_matrix (bc_dofs p) (p_gradient_u (the_pde p) u z)) b).
  eexists. split; [reflexivity|].
  assert (Hlam : solves (n_dofs p) (bc_matrix (bc_dofs p) (p_gradient_u (the_pde p) u z)) b lam) by (apply Hs, Hns).
  apply (bc_zero (n_dofs p) r1 (bc_dofs p) (bc_vals p) _ _ lam Hl Hd) in Hlam.
  - destruct Hlam as [H1 H2].
    assert (Htg : total_gradient (n_dofs p) nx (bc_dofs p) (p_gradient_u (the_pde p) u z) Rx (c_gradient_u c u z) (c_gradient_x c u z)
        (fun k => radd (c_gradient_x c u z k) (mv (n_dofs p) (tr Rx) lam k))).
    { apply adjoint_identity; auto. intros i Hi Hni. specialize (H2 i Hi Hni).
      rewrite <- (mv_ext (n_dofs p) (p_gradient_u (the_pde p) u z) (tr (p_gradient_u (the_pde p) u z)) lam lam i);
        [|intros j Hj; apply Hsym; assumption|reflexivity].
      rewrite H2. apply neg1_mul. }
    intros du dz Ht. rewrite <- (Htg du dz Ht). apply dot_ext; [|reflexivity]. intros k Hk. f_equal.
    apply mv_ext; [|reflexivity]. intros j Hj. apply HZ; assumption.
  - intros v Hin. rewrite (Hv v Hin). apply mul0_r.
Qed.
Print Assumptions C15_shape_gradient_partial.
Example C15_partial_instance :
  let p := mkProblem (K := Qc_ring) (Z := unit) 2 1 (fun _ => false) (fun _ => false) [0] [Q2Qc 0] false (solver2 (K := Qc_field))
    (mkPde (K := Qc_ring) (Z := unit) (fun _ _ _ => r0) (fun _ _ => exA) (fun _ _ => tr exA) (fun _ _ => tr exRz) (fun _ _ => tr exRz)) in
  nonsingular 2 (bc_matrix [0] exA) /\ exists g, criterionGradientX p tt (fun _ => r0) exC = Ok g /\ g 0 = Q2Qc (-17).
Proof.
  cbv zeta. split. { apply (nonsingular2 (K := Qc_field)). vm_compute. discriminate. }
  eexists. split; [reflexivity|]. apply Qc_is_canon. vm_compute. reflexivity.
Qed.

(** ** C16 *)

(** The self-adjoint shortcut returns the total derivative when the criterion is the internal energy u.K(z)u/2 (fz k is
    half of u.K'_k u and fu = K u), K is symmetric, the load does not depend on the design (dR/dz_k = K'_k u), and the
    state vanishes at the constrained dofs.  Missing with respect to C16: nonzero prescribed values and criteria other
    than that energy, for which it is refuted below. *)
Theorem C16_self_adjoint_partial :
  forall (K : CRing) (Z : Type) (p : problem K Z) (z : Z) (u : vect K) (c : criterion K Z) (nz : nat) (dK : nat -> matr K),
    let n := n_dofs p in
    let A := p_gradient_u (the_pde p) u z in
    self_adjoint p = true ->
    symmetric n A ->
    (forall i, i < n -> c_gradient_u c u z i = mv n A u i) ->
    (forall k, k < nz -> radd (c_gradient_z c u z k) (c_gradient_z c u z k) = dot n u (mv n (dK k) u)) ->
    (forall d, In d (bc_dofs p) -> u d = r0) ->
    exists g, criterionGradient p z u c = Ok g /\
      total_gradient n nz (bc_dofs p) A (fun i k => mv n (dK k) u i) (c_gradient_u c u z) (c_gradient_z c u z) g.
Proof.
  intros K Z p z u c nz dK n A Hsa Hsym Hfu Hfz Hu. unfold criterionGradient. rewrite Hsa. eexists. split; [reflexivity|].
  apply energy_identity with (u := u); auto.
Qed.
Print Assumptions C16_self_adjoint_partial.

(** The same for the derivative with respect to the nodal coordinates. *)
Theorem C16_self_adjoint_shape_partial :
  forall (K : CRing) (Z : Type) (p : problem K Z) (z : Z) (u : vect K) (c : criterion K Z) (nx : nat) (dK : nat -> matr K),
    let n := n_dofs p in
    let A := p_gradient_u (the_pde p) u z in
    self_adjoint p = true ->
    symmetric n A ->
    (forall i, i < n -> c_gradient_u c u z i = mv n A u i) ->
    (forall k, k < nx -> radd (c_gradient_x c u z k) (c_gradient_x c u z k) = dot n u (mv n (dK k) u)) ->
    (forall d, In d (bc_dofs p) -> u d = r0) ->
    exists g, criterionGradientX p z u c = Ok g /\
      total_gradient n nx (bc_dofs p) A (fun i k => mv n (dK k) u i) (c_gradient_u c u z) (c_gradient_x c u z) g.
Proof.
  intros K Z p z u c nz dK n A Hsa Hsym Hfu Hfz Hu. unfold criterionGradientX. rewrite Hsa. eexists. split; [reflexivity|].
  apply energy_identity with (u := u); auto.
Qed.
Print Assumptions C16_self_adjoint_shape_partial.

(** A spring of stiffness z = 1 between two nodes: K = z [[1,-1],[-1,1]], energy z (u0-u1)^2 / 2. *)
Definition exK : matr Qc_ring := fun i j => if Nat.eqb i j then r1 else Q2Qc (-1).
Definition exP16 (dofs : list nat) (vals : list Qc_ring) : problem Qc_ring unit :=
  mkProblem (K := Qc_ring) (Z := unit) 2 1 (fun _ => false) (fun _ => false) dofs vals true (solver2 (K := Qc_field))
    (mkPde (K := Qc_ring) (Z := unit) (fun u _ => mv 2 exK u) (fun _ _ => exK) (fun _ _ => tr exK) (fun u _ k i => mv 2 exK u i) (fun _ _ _ _ => r0)).
Definition exC16 : criterion Qc_ring unit :=
  mkCriterion (K := Qc_ring) (Z := unit) (fun u _ => mv 2 exK u) (fun u _ k => rmul (Q2Qc (1#2) : Qc_ring) (dot 2 u (mv 2 exK u))) (fun _ _ _ => r0).
Example C16_partial_instance :
  let p := exP16 [0] [Q2Qc 0] in let u : vect Qc_ring := fun i => match i with 0 => r0 | _ => Q2Qc 3 end in
  symmetric 2 exK /\
  c_gradient_z exC16 u tt 0 = Q2Qc (9#2) /\
  radd (c_gradient_z exC16 u tt 0) (c_gradient_z exC16 u tt 0) = dot 2 u (mv 2 exK u) /\
  exists g, criterionGradient p tt u exC16 = Ok g /\ g 0 = Q2Qc (-9#2).
Proof.
  cbv zeta. split. { intros i j Hi Hj. unfold exK. rewrite Nat.eqb_sym. reflexivity. }
  split; [apply Qc_is_canon; vm_compute; reflexivity|]. split; [apply Qc_is_canon; vm_compute; reflexivity|].
  eexists. split; [reflexivity|]. apply Qc_is_canon. vm_compute. reflexivity.
Qed.

(** Displacement-driven (node 0 moved by 1, node 1 held): the sign of the derivative of the energy is wrong. *)
Theorem C16_displacement_driven_refuted :
  exists (p : problem Qc_ring unit) (c : criterion Qc_ring unit) (u g : vect Qc_ring) (dK : nat -> matr Qc_ring),
    self_adjoint p = true /\ symmetric (n_dofs p) (p_gradient_u (the_pde p) u tt) /\
    (forall i, i < n_dofs p -> c_gradient_u c u tt i = mv (n_dofs p) (p_gradient_u (the_pde p) u tt) u i) /\
    (forall k, k < 1 -> radd (c_gradient_z c u tt k) (c_gradient_z c u tt k) = dot (n_dofs p) u (mv (n_dofs p) (dK k) u)) /\
    (forall d v, In (d, v) (combine (bc_dofs p) (bc_vals p)) -> u d = v) /\
    criterionGradient p tt u c = Ok g /\
    ~ total_gradient (n_dofs p) 1 (bc_dofs p) (p_gradient_u (the_pde p) u tt) (fun i k => mv (n_dofs p) (dK k) u i)
        (c_gradient_u c u tt) (c_gradient_z c u tt) g.
Proof.
  exists (exP16 [0; 1] [Q2Qc 1; Q2Qc 0]), exC16, (fun i => match i with 0 => r1 | _ => r0 end). eexists. exists (fun _ => exK).
  split; [reflexivity|]. split. { intros i j Hi Hj. cbn. unfold exK. rewrite Nat.eqb_sym. reflexivity. }
  split; [reflexivity|]. split. { intros k Hk. apply Qc_is_canon. vm_compute. reflexivity. }
  split. { intros d v [E|[E|[]]]; injection E as <- <-; reflexivity. }
  split; [reflexivity|]. intros H.
  specialize (H (fun _ => r0) (fun _ => r1)). cbn [n_dofs bc_dofs exP16] in H.
  match type of H with ?T -> _ => assert (T0 : T) end.
  { split; [reflexivity|]. intros i Hi Hni. destruct i as [|[|i]]; [| |lia]; exfalso; apply Hni; simpl; auto. }
  specialize (H T0). apply (f_equal this) in H. vm_compute in H. discriminate H.
Qed.
Print Assumptions C16_displacement_driven_refuted.
