(** Properties of the stabilised problem (C89-C91). *)
From Coq Require Import ZArith QArith Qcanon Arith Lia List Bool Ring.
From Verif Require Import Base.Field Base.Sums Base.Res BC.ConstraintsSpec BC.ConstraintsMain
  Problem.DenseBC Problem.SmallSolver Problem.EllipticSpec Problem.EllipticProof Vms.VmsModel Vms.VmsSpec Vms.VmsProof.
Import ListNotations.
Local Open Scope nat_scope.

(** ** C89: the stored states solve the coupled equations.  Refuted. *)

(** With the default of one step no step is ever solved: whatever was stored is returned. *)
Theorem C89_default_unsolved :
  forall (K : CField) (Z : Type) (p : vproblem K Z) (z : Z) (h : nat -> vect K),
    vp_steps p <= 1 -> v_solution p z h = Ok h.
Proof. intros K Z p z h H. unfold v_solution. replace (vp_steps p - 1) with 0 by lia. reflexivity. Qed.
Print Assumptions C89_default_unsolved.

(** Otherwise: the state stored for every step after step 0 is the last of a sequence U 0 = 0, U 1, ... of states with
    projected gradients Q 0 = 0, Q 1, ...: every state from the first on takes the prescribed values and balances the loads
    with the projected gradient of its own iteration, but that one satisfies R (Q (k+1)) = G p(U k) - M (Q k), that is, it is
    computed from the previous pressure and from the previous projected gradient, which should not appear.
    Missing with respect to C89: Q k is not the projection of the pressure gradient of U k. *)
Theorem C89_iterates_partial :
  forall (K : CField) (Z : Type) (p : vproblem K Z) (z : Z) (A B : matr K) (F : vect K) (M G : matr K) (h : nat -> vect K),
    let n := vp_nodes p * vp_N p in let m := vp_nodes p * vp_dim p in
    linear_vms p z A B F M G -> symmetric n A -> (forall a, a < m -> lumped m M a <> r0) ->
    solver_ok n (vp_solve p) -> nonsingular n (bc_matrix (vp_dofs p) A) ->
    length (vp_vals p) = length (vp_dofs p) -> NoDup (vp_dofs p) -> (forall d, In d (vp_dofs p) -> d < n) -> vp_vals p <> [] ->
    exists (U Q : nat -> vect K) (h' : nat -> vect K),
      v_solution p z h = Ok h' /\
      (forall j, 1 <= j < vp_steps p -> h' j = U (vp_newton p)) /\
      (forall i, U 0 i = r0) /\ (forall a, Q 0 a = r0) /\
      (forall k, balances p A B F (Q (S k)) (U (S k))) /\
      (forall k a, a < m -> radd (rmul (lumped m M a) (Q (S k) a)) (mv m M (Q k) a)
                            = mv (vp_nodes p) G (fun node => U k (node * vp_N p + vp_off p)) a).
Proof.
  intros K Z p z A B F M G h n m Hlin Hsym HR Hs Hns Hl Hnd Hd Hne.
  assert (Hns' : forall u q, nonsingular n (bc_matrix (vp_dofs p) (g_gradient_u (vp_mech p) u q z))).
  { intros u q. apply (nonsingular_ext n (bc_matrix (vp_dofs p) A)); [|exact Hns].
    apply bc_matrix_ext. intros i j Hi Hj. symmetry. apply (proj1 Hlin u q); assumption. }
  assert (Hc : compatible r1 (vp_dofs p) (vp_vals p)) by (apply NoDup_compatible; exact Hnd).
  assert (Hstep : v_step p z = Ok (iterates p z (vp_newton p))) by (apply newton_iterates; assumption).
  destruct (march_spec p z _ Hstep (vp_steps p - 1) 1 h) as (h' & E & H1 & _).
  exists (fun k => fst (fst (iterates p z k))), (fun k => snd (fst (iterates p z k))), h'.
  split; [exact E|]. split; [intros j Hj; apply H1; lia|]. split; [reflexivity|]. split; [reflexivity|]. split.
  - intros k. eapply iterates_balance; eassumption.
  - intros k a Ha. eapply iterates_project; eassumption.
Qed.
Print Assumptions C89_iterates_partial.

(** With two iterations (the default) the projection is that of the pressure of the first iterate, computed without stabilisation;
    if the iteration settles, it settles on R q + M q = G p: half the projected gradient where q is uniform (M q = R q). *)
Theorem C89_limit :
  forall (K : CField) (Z : Type) (p : vproblem K Z) (U Q : nat -> vect K) (M G : matr K),
    let m := vp_nodes p * vp_dim p in
    (forall a, Q 0 a = r0) ->
    (forall k a, a < m -> radd (rmul (lumped m M a) (Q (S k) a)) (mv m M (Q k) a)
                          = mv (vp_nodes p) G (fun node => U k (node * vp_N p + vp_off p)) a) ->
    projects p M G (Q 1) (U 0) /\
    ((forall a, a < m -> Q 1 a = r0) -> projects p M G (Q 2) (U 1)) /\
    (forall k, (forall a, a < m -> Q (S k) a = Q k a) -> (forall a, a < m -> mv m M (Q k) a = rmul (lumped m M a) (Q k a)) ->
      projects p M G (fun a => radd (Q k a) (Q k a)) (U k)).
Proof.
  intros K Z p U Q M G m H0 H. split; [|split].
  - intros a Ha. rewrite <- (H 0 a Ha). rewrite (mv_ext _ M M (Q 0) (fun _ => r0)); [|reflexivity|intros; apply H0]. rewrite mv_0.
    rewrite (Radd_comm (r_th K)), (Radd_0_l (r_th K)). reflexivity.
  - intros H1 a Ha. rewrite <- (H 1 a Ha). rewrite (mv_ext _ M M (Q 1) (fun _ => r0)); [|reflexivity|exact H1]. rewrite mv_0.
    rewrite (Radd_comm (r_th K)), (Radd_0_l (r_th K)). reflexivity.
  - intros k Hq HM a Ha. rewrite <- (H k a Ha). rewrite (HM a Ha), (Hq a Ha).
    rewrite (Rmul_comm (r_th K)), (Rdistr_l (r_th K)), (Rmul_comm (r_th K) (Q k a)). reflexivity.
Qed.
Print Assumptions C89_limit.

(** One node with a displacement and a pressure: equations 2 u0 - u1 = 0, -u0 + 2 u1 + q = 3, projection q - u1, u0 moved by 5. *)
Definition qv (a b : Z) : vect Qc_field := fun i => match i with O => Q2Qc (inject_Z a) | S O => Q2Qc (inject_Z b) | _ => Q2Qc 0 end.
Definition exVA : matr Qc_field := fun i j => if Nat.eqb i j then Q2Qc 2 else Q2Qc (-1).
Definition exVB : matr Qc_field := fun i a => match i, a with S O, O => Q2Qc 1 | _, _ => Q2Qc 0 end.
Definition exVM : matr Qc_field := fun i a => Q2Qc 1.
Definition exMech : mechanics Qc_field unit :=
  mkMechanics (K := Qc_field) (fun u q _ i => mv 2 exVA u i + mv 1 exVB q i - qv 0 3 i)%K (fun _ _ _ => exVA) (fun _ _ _ => tr exVA)
    (fun _ _ _ => tr exVB) (fun _ _ _ _ _ => r0) (fun _ _ _ _ _ => r0).
Definition exProj : projection Qc_field unit :=
  mkProjection (K := Qc_field) (fun q pr _ a => mv 1 exVM q a - mv 1 exVM pr a)%K (fun _ _ _ => exVM) (fun _ _ _ _ _ => Q2Qc (-1))
    (fun _ _ _ _ _ => r0) (fun _ _ _ _ _ => r0).
Definition exV (newton : nat) : vproblem Qc_field unit :=
  mkVProblem (K := Qc_field) 2 1 1 1 2 newton [0] [Q2Qc 5] (solver2 (K := Qc_field)) exMech exProj.

Example C89_instance newton :
  linear_vms (exV newton) tt exVA exVB (qv 0 3) exVM exVM /\ symmetric (K := Qc_field) 2 exVA /\
  (forall a, a < 1 -> lumped 1 exVM a <> Q2Qc 0) /\ solver_ok (K := Qc_field) 2 (vp_solve (exV newton)) /\
  nonsingular (K := Qc_field) 2 (bc_matrix (vp_dofs (exV newton)) exVA).
Proof.
  split. { split; intros; (split; [intros; reflexivity|reflexivity]). }
  split. { intros i j Hi Hj. unfold exVA. rewrite Nat.eqb_sym. reflexivity. }
  split. { intros a Ha. assert (a = 0) as -> by lia. vm_compute. discriminate. }
  split; [exact (solver2_ok (K := Qc_field))|].
  apply (nonsingular2 (K := Qc_field)). vm_compute. discriminate.
Qed.

(** The refutation: with two and with four iterations the stored state is not a solution, and with the default number of steps the
    state is not even touched. *)
Lemma not_solved (u : vect Qc_field) (newton : nat) :
  radd (radd (u 1) (u 1)) (u 1) <> Q2Qc 8 -> u 0 = Q2Qc 5 -> ~ solves_vms (exV newton) exVA exVB (qv 0 3) exVM exVM u.
Proof.
  intros Hn H0 (q & Hp & Hv & Hb). apply Hn. specialize (Hp 0 ltac:(cbn; lia)). specialize (Hb 1 ltac:(cbn; lia) ltac:(cbn; intuition lia)).
  unfold lumped, mv, exVM, exVA, exVB, qv in *. cbn in *. rewrite H0 in Hb. revert Hp Hb. generalize (u 1) (q 0). cbn. intros x y.
  change (rcar Qc_field) with Qc in *.
  change ((0 + 1) * y = 0 + 1 * x -> 0 + Q2Qc (-1) * Q2Qc 5 + Q2Qc 2 * x + (0 + 1 * y) = Q2Qc 3 -> x + x + x = Q2Qc 8)%Qc.
  intros E1 E2. assert (E3 : y = x) by (transitivity ((0 + 1) * y)%Qc; [ring|rewrite E1; ring]). subst y.
  transitivity (0 + Q2Qc (-1) * Q2Qc 5 + Q2Qc 2 * x + (0 + 1 * x) + Q2Qc 5)%Qc.
  - replace (Q2Qc 2) with (1 + 1)%Qc by (apply Qc_is_canon; reflexivity).
    replace (Q2Qc (-1)) with (- (1))%Qc by (apply Qc_is_canon; reflexivity). ring.
  - rewrite E2. apply Qc_is_canon. reflexivity.
Qed.

Definition untouched : nat -> vect Qc_field := fun _ _ => r0.
Theorem C89_refuted :
  (exists h, v_solution (exV 2) tt untouched = Ok h /\ ~ solves_vms (exV 2) exVA exVB (qv 0 3) exVM exVM (h 1)) /\
  (exists h, v_solution (exV 4) tt untouched = Ok h /\ ~ solves_vms (exV 4) exVA exVB (qv 0 3) exVM exVM (h 1)) /\
  (exists h, v_solution (mkVProblem (K := Qc_field) 2 1 1 1 1 2 [0] [Q2Qc 5] (solver2 (K := Qc_field)) exMech exProj) tt untouched = Ok h /\
             forall k, h k 0 <> Q2Qc 5).
Proof.
  split; [|split].
  - eexists. split; [reflexivity|]. apply not_solved.
    + intros E. apply (f_equal this) in E. vm_compute in E. discriminate.
    + apply Qc_is_canon. vm_compute. reflexivity.
  - eexists. split; [reflexivity|]. apply not_solved.
    + intros E. apply (f_equal this) in E. vm_compute in E. discriminate.
    + apply Qc_is_canon. vm_compute. reflexivity.
  - eexists. split; [reflexivity|]. intros k E. apply (f_equal this) in E. vm_compute in E. discriminate.
Qed.
Print Assumptions C89_refuted.

(** For all problems, linear or not: every step that is solved takes the prescribed values.  Missing: the equations. *)
Theorem C89_values_partial :
  forall (K : CField) (Z : Type) (p : vproblem K Z) (z : Z) (h : nat -> vect K),
    let n := vp_nodes p * vp_N p in
    solver_ok n (vp_solve p) ->
    (forall u q, nonsingular n (bc_matrix (vp_dofs p) (g_gradient_u (vp_mech p) u q z))) ->
    length (vp_vals p) = length (vp_dofs p) -> NoDup (vp_dofs p) -> (forall d, In d (vp_dofs p) -> d < n) -> vp_vals p <> [] ->
    0 < vp_newton p ->
    exists h', v_solution p z h = Ok h' /\
      (forall j d v, 1 <= j < vp_steps p -> In (d, v) (combine (vp_dofs p) (vp_vals p)) -> h' j d = v) /\
      (forall j, j = 0 \/ vp_steps p <= j -> h' j = h j).
Proof.
  intros K Z p z h n Hs Hns Hl Hnd Hd Hne Hn.
  assert (Hc : compatible r1 (vp_dofs p) (vp_vals p)) by (apply NoDup_compatible; exact Hnd).
  destruct (step_values p z Hl Hc Hd Hne Hs Hns Hn) as (s & E & Hv).
  destruct (march_spec p z s E (vp_steps p - 1) 1 h) as (h' & E' & H1 & H2).
  exists h'. split; [exact E'|]. split.
  - intros j d v Hj Hin. rewrite H1 by lia. apply Hv. exact Hin.
  - intros j Hj. destruct (Nat.eq_dec j 0) as [->|Hj0]; [apply H2; lia|]. apply H2. lia.
Qed.
Print Assumptions C89_values_partial.
Example C89_values_instance : exists h, v_solution (exV 2) tt untouched = Ok h /\ h 1 0 = Q2Qc 5 /\ h 1 1 = Q2Qc 2.
Proof. eexists. split; [reflexivity|]. split; apply Qc_is_canon; vm_compute; reflexivity. Qed.

(** Without boundary conditions a step cannot be solved. *)
Theorem C89_throws_without_conditions :
  forall (K : CField) (Z : Type) (p : vproblem K Z) (z : Z) (h : nat -> vect K),
    (vp_dofs p = [] \/ vp_vals p = []) -> 1 < vp_steps p -> 0 < vp_newton p -> v_solution p z h = Throw.
Proof.
  intros K Z p z h Hb Hs Hn. unfold v_solution. destruct (vp_steps p - 1) as [|s] eqn:E; [lia|]. cbn [v_march].
  unfold v_step. destruct (vp_newton p) as [|k]; [lia|]. cbn [v_newton].
  assert (X : v_no_bc p = true). { unfold v_no_bc. destruct Hb as [-> | ->]; [destruct (vp_vals p); reflexivity|reflexivity]. }
  rewrite X. reflexivity.
Qed.
Print Assumptions C89_throws_without_conditions.

(** ** C90, C91: the gradients with respect to the controls and to the coordinates. *)

(** What the code returns: the total derivative plus, for every step, a surplus
      sum_a Pw(q, full state)_(w,a) e_a / R_a + Pw(q, pressure)_(w,a) e_a,     e = R^-1 Jq^T lam,
    that is, the term of the projection equation has the wrong sign, is divided by the lumped mass once too often and is evaluated
    at the state vector instead of the pressure.  Missing with respect to C90: the surplus vanishes only when the projection does not
    depend on the parameter. *)
Definition surplus_of {K : CField} {Z : Type} (p : vproblem K Z) (h q : nat -> vect K) (Pw : vect K -> vect K -> matr K)
  (sd : nat -> step_data) (lam : vect K) (k w : nat) : K :=
  sum (vp_nodes p * vp_dim p) (fun a =>
    radd (rmul (Pw (q k) (h k) w a) (fdiv (projection_adjoint p (sd k) lam a) (sd_R (sd k) a)))
         (rmul (sd_Pw (sd k) a w) (projection_adjoint p (sd k) lam a))).

Definition gradient_law (K : CField) (Z : Type)
  (gradient : vproblem K Z -> Z -> vcriterion K Z -> (nat -> vect K) -> Res.res (vect K))
  (gw : vproblem K Z -> Z -> vect K -> vect K -> matr K) (Pw : vproblem K Z -> Z -> vect K -> vect K -> matr K)
  (fw : vcriterion K Z -> (nat -> vect K) -> Z -> vect K) : Prop :=
  forall (p : vproblem K Z) (z : Z) (c : vcriterion K Z) (h : nat -> vect K) (nw : nat),
    let n := vp_nodes p * vp_N p in let m := vp_nodes p * vp_dim p in let last := vp_steps p - 1 in
    let sd q := data_of p z c h q (gw p z) (Pw p z) in
    solver_ok n (vp_solve p) -> vp_off p < vp_N p ->
    (** the assembled transposed Jacobian (C06) *)
    (forall u q i j, i < n -> j < n -> g_gradient_u_T (vp_mech p) u q z i j = g_gradient_u (vp_mech p) u q z j i) ->
    length (vp_vals p) = length (vp_dofs p) -> (forall d, In d (vp_dofs p) -> d < n) -> vp_vals p <> [] ->
    (forall q k a, 1 <= k <= last -> a < m -> sd_R (sd q k) a <> r0) ->
    (forall q k, 1 <= k <= last -> projected_at p z h q k -> nonsingular n (bc_matrix (vp_dofs p) (reduced_T p (sd q k)))) ->
    exists g q lam total, gradient p z c h = Ok g /\
      (forall k, 1 <= k <= last -> projected_at p z h q k /\ adjoint_of p (sd q k) (lam k)) /\
      vms_total p nw last (sd q) (fw c h z) total /\
      (forall w, w < nw -> g w = radd (total w) (sum last (fun j => surplus_of p h q (Pw p z) (sd q) (lam (S j)) (S j) w))).

Lemma gradient_law_holds K Z gw Pw fw :
  gradient_law K Z (fun p z c h => v_backward p z c h (gw p z) (Pw p z) (vp_steps p - 1) (fw c h z)) gw Pw fw.
Proof.
  intros p z c h nw n m last sd Hs Ho HT Hl Hd Hne HR Hns.
  set (q := fun k => project p z (fun _ => r0) (extract_dof (vp_N p) (vp_off p) (h k))).
  assert (Hq : forall k, 1 <= k <= last -> projected_at p z h q k).
  { intros k Hk. eapply q_projected. intros a Ha. exact (HR q k a Hk Ha). }
  destruct (backward_spec p z c h nw (gw p z) (Pw p z) Hl Hd Hne Hs Ho HT last
    (fun k a Hk Ha => HR q k a Hk Ha) (fun k Hk => Hns q k Hk (Hq k Hk)) (fw c h z)) as (g & lam & total & E & Hlam & Ht & Hg).
  exists g, q, lam, total. split; [exact E|]. split; [intros k Hk; split; [apply Hq; exact Hk|apply Hlam; exact Hk]|]. split; [exact Ht|exact Hg].
Qed.

Theorem C90_gradient_partial : forall (K : CField) (Z : Type),
  gradient_law K Z v_criterionGradient (fun p z u q => g_gradient_z (vp_mech p) u q z) (fun p z q v => P_gradient_z (vp_proj p) q v z) vc_gradient_z.
Proof. intros K Z. exact (gradient_law_holds K Z _ _ _). Qed.
Print Assumptions C90_gradient_partial.

Theorem C91_gradient_partial : forall (K : CField) (Z : Type),
  gradient_law K Z v_criterionGradientX (fun p z u q => g_gradient_x (vp_mech p) u q z) (fun p z q v => P_gradient_x (vp_proj p) q v z) vc_gradient_x.
Proof. intros K Z. exact (gradient_law_holds K Z _ _ _). Qed.
Print Assumptions C91_gradient_partial.

Lemma sum_zero {K : CField} (n : nat) (f : nat -> K) : (forall i, i < n -> f i = r0) -> sum n f = r0.
Proof. apply sum_0. Qed.

(** With a projection that does not depend on the parameter (penalty model "NoPenalty" for the controls) the gradient is the total
    derivative. *)
Theorem C90_unpenalised_partial :
  forall (K : CField) (Z : Type) (p : vproblem K Z) (z : Z) (c : vcriterion K Z) (h : nat -> vect K) (nz : nat),
    let n := vp_nodes p * vp_N p in let m := vp_nodes p * vp_dim p in let last := vp_steps p - 1 in
    let sd q := data_of p z c h q (fun u q => g_gradient_z (vp_mech p) u q z) (fun q v => P_gradient_z (vp_proj p) q v z) in
    (forall q v w a, w < nz -> a < m -> P_gradient_z (vp_proj p) q v z w a = r0) ->
    solver_ok n (vp_solve p) -> vp_off p < vp_N p ->
    (forall u q i j, i < n -> j < n -> g_gradient_u_T (vp_mech p) u q z i j = g_gradient_u (vp_mech p) u q z j i) ->
    length (vp_vals p) = length (vp_dofs p) -> (forall d, In d (vp_dofs p) -> d < n) -> vp_vals p <> [] ->
    (forall q k a, 1 <= k <= last -> a < m -> sd_R (sd q k) a <> r0) ->
    (forall q k, 1 <= k <= last -> projected_at p z h q k -> nonsingular n (bc_matrix (vp_dofs p) (reduced_T p (sd q k)))) ->
    exists g q, v_criterionGradient p z c h = Ok g /\ (forall k, 1 <= k <= last -> projected_at p z h q k) /\
      vms_total p nz last (sd q) (vc_gradient_z c h z) g.
Proof.
  intros K Z p z c h nz n m last sd HP Hs Ho HT Hl Hd Hne HR Hns.
  destruct (C90_gradient_partial K Z p z c h nz Hs Ho HT Hl Hd Hne HR Hns) as (g & q & lam & total & E & Hq & Ht & Hg).
  exists g, q. split; [exact E|]. split; [intros k Hk; apply Hq; exact Hk|].
  intros dw du dq Htan. etransitivity; [|exact (Ht dw du dq Htan)]. apply dot_ext; [|reflexivity]. intros w Hw. rewrite (Hg w Hw).
  rewrite sum_zero; [rewrite (Radd_comm (r_th K)), (Radd_0_l (r_th K)); reflexivity|].
  intros j Hj. apply sum_zero. intros a Ha. cbn [data_of sd_Pw]. rewrite !HP by assumption.
  rewrite !(Rmul_comm (r_th K) r0), !mul0_r. rewrite (Radd_0_l (r_th K)). reflexivity.
Qed.
Print Assumptions C90_unpenalised_partial.

(** The problem above, at its true solution u = (5, 8/3), q = 8/3: the hypotheses of C90 and C91 are met. *)
Definition exState : nat -> vect Qc_field := fun _ i => match i with O => Q2Qc 5 | S O => Q2Qc (8 # 3) | _ => Q2Qc 0 end.
Definition exCrit {Z : Type} : vcriterion Qc_field Z := mkVCriterion (K := Qc_field) (fun _ _ _ => qv 0 1) (fun _ _ _ => r0) (fun _ _ _ => r0).
Example C90_instance :
  let sd q := data_of (exV 2) tt exCrit exState q (fun u q => g_gradient_z (vp_mech (exV 2)) u q tt) (fun q v => P_gradient_z (vp_proj (exV 2)) q v tt) in
  (forall u q i j, i < 2 -> j < 2 -> g_gradient_u_T (vp_mech (exV 2)) u q tt i j = g_gradient_u (vp_mech (exV 2)) u q tt j i) /\
  (forall q k a, a < 1 -> sd_R (sd q k) a <> Q2Qc 0) /\
  (forall q k, nonsingular (K := Qc_field) 2 (bc_matrix (vp_dofs (exV 2)) (reduced_T (exV 2) (sd q k)))) /\
  (forall q v w a, w < 1 -> a < 1 -> P_gradient_z (vp_proj (exV 2)) q v tt w a = Q2Qc 0) /\
  exists g, v_criterionGradient (exV 2) tt exCrit exState = Ok g.
Proof.
  cbv zeta. split; [reflexivity|]. split. { intros q k a Ha. assert (a = 0) as -> by lia. vm_compute. discriminate. }
  split. { intros q k. apply (nonsingular2 (K := Qc_field)). vm_compute. discriminate. }
  split; [reflexivity|]. eexists. reflexivity.
Qed.

(** ** Refutation: projection z (q - p), so that its derivative with respect to z, q - p, vanishes at the solution, and nothing
    depends on z; the gradient returned is 7/36 at z = 2, u = (5, 8/3) - the code evaluates q - p with the displacement 5 as pressure. *)
Definition exMechZ : mechanics Qc_field Qc :=
  mkMechanics (K := Qc_field) (fun u q _ i => mv 2 exVA u i + mv 1 exVB q i - qv 0 3 i)%K (fun _ _ _ => exVA) (fun _ _ _ => tr exVA)
    (fun _ _ _ => tr exVB) (fun _ _ _ _ _ => r0) (fun _ _ _ _ _ => r0).
Definition exProjZ : projection Qc_field Qc :=
  mkProjection (K := Qc_field) (fun q pr z a => rmul (z : Qc_field) (rsub (q 0) (pr 0))) (fun _ _ z _ _ => z) (fun _ _ z _ _ => ropp (z : Qc_field))
    (fun q pr _ _ _ => rsub (q 0) (pr 0)) (fun q pr _ _ _ => rsub (q 0) (pr 0)).
Definition exVZ : vproblem Qc_field Qc :=
  mkVProblem (K := Qc_field) 2 1 1 1 2 2 [0] [Q2Qc 5] (solver2 (K := Qc_field)) exMechZ exProjZ.

Theorem C90_refuted :
  exists g q, v_criterionGradient exVZ (Q2Qc 2) exCrit exState = Ok g /\ (forall k, projected_at exVZ (Q2Qc 2) exState q k) /\
    (** the state solves the equations *)
    (forall i, i < 2 -> ~ In i (vp_dofs exVZ) -> g_value (vp_mech exVZ) (exState 1) (q 1) (Q2Qc 2) i = Q2Qc 0) /\
    ~ vms_total exVZ 1 1 (data_of exVZ (Q2Qc 2) exCrit exState q (fun u q => g_gradient_z (vp_mech exVZ) u q (Q2Qc 2))
        (fun q v => P_gradient_z (vp_proj exVZ) q v (Q2Qc 2))) (vc_gradient_z exCrit exState (Q2Qc 2)) g.
Proof.
  eexists. exists (fun _ _ => Q2Qc (8 # 3)). split; [reflexivity|]. split.
  { intros k a Ha. cbn in Ha. assert (a = 0) as -> by lia. apply Qc_is_canon. vm_compute. reflexivity. }
  split. { intros i Hi Hni. assert (i = 1) as -> by (cbn in Hni; lia). apply Qc_is_canon. vm_compute. reflexivity. }
  intros H. specialize (H (fun _ => Q2Qc 1) (fun _ _ => Q2Qc 0) (fun _ _ => Q2Qc 0)).
  match type of H with (?A -> _) => assert (X : A) end.
  { intros k Hk. split; [reflexivity|]. split.
    + intros i Hi Hni. apply Qc_is_canon. cbn in Hi. destruct i as [|[|i]]; [vm_compute; reflexivity|vm_compute; reflexivity|lia].
    + intros a Ha. cbn in Ha. assert (a = 0) as -> by lia. apply Qc_is_canon. vm_compute. reflexivity. }
  specialize (H X). apply (f_equal this) in H. vm_compute in H. discriminate.
Qed.
Print Assumptions C90_refuted.

(** The same with z read as a coordinate. *)
Theorem C91_refuted :
  exists g q, v_criterionGradientX exVZ (Q2Qc 2) exCrit exState = Ok g /\ (forall k, projected_at exVZ (Q2Qc 2) exState q k) /\
    (** the state solves the equations *)
    (forall i, i < 2 -> ~ In i (vp_dofs exVZ) -> g_value (vp_mech exVZ) (exState 1) (q 1) (Q2Qc 2) i = Q2Qc 0) /\
    ~ vms_total exVZ 1 1 (data_of exVZ (Q2Qc 2) exCrit exState q (fun u q => g_gradient_x (vp_mech exVZ) u q (Q2Qc 2))
        (fun q v => P_gradient_x (vp_proj exVZ) q v (Q2Qc 2))) (vc_gradient_x exCrit exState (Q2Qc 2)) g.
Proof.
  eexists. exists (fun _ _ => Q2Qc (8 # 3)). split; [reflexivity|]. split.
  { intros k a Ha. cbn in Ha. assert (a = 0) as -> by lia. apply Qc_is_canon. vm_compute. reflexivity. }
  split. { intros i Hi Hni. assert (i = 1) as -> by (cbn in Hni; lia). apply Qc_is_canon. vm_compute. reflexivity. }
  intros H. specialize (H (fun _ => Q2Qc 1) (fun _ _ => Q2Qc 0) (fun _ _ => Q2Qc 0)).
  match type of H with (?A -> _) => assert (X : A) end.
  { intros k Hk. split; [reflexivity|]. split.
    + intros i Hi Hni. apply Qc_is_canon. cbn in Hi. destruct i as [|[|i]]; [vm_compute; reflexivity|vm_compute; reflexivity|lia].
    + intros a Ha. cbn in Ha. assert (a = 0) as -> by lia. apply Qc_is_canon. vm_compute. reflexivity. }
  specialize (H X). apply (f_equal this) in H. vm_compute in H. discriminate.
Qed.
Print Assumptions C91_refuted.

