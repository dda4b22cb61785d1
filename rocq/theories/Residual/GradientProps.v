(** C166: the computed design gradient of a criterion is its derivative. *)
From Coq Require Import Reals List Arith Bool Lia Lra FunctionalExtensionality.
From Verif Require Import Base.Field Base.Sums Base.Res BC.ConstraintsSpec BC.ConstraintsMain Problem.DenseBC Problem.SmallSolver Problem.EllipticModel Problem.EllipticSpec Problem.EllipticProof Problem.EllipticProps
  Element.ElementModel Element.ElementSpec Element.ElementProof Penalty.PenaltyModel Residual.Kernel
  Residual.ResidualModel Residual.ResidualSpec Residual.ResidualProof Residual.ResidualProps Residual.ResidualEnergyProps Residual.SupportSpec Residual.SupportProof Residual.SupportProps Residual.PotentialProps
  Residual.SolveSpec Residual.SolveProof Residual.SolveProps Residual.CurveProof Residual.GradientSpec.
Import ListNotations.
Local Open Scope R_scope.

Notation design := (nat -> R).
(** The problem solved for every design near z in direction dz, forces val and loads F depending on the design. *)
Definition solved_near (p : problem R_ring design) (z dz : design) (n : nat) (val : design -> (nat -> R) -> nat -> R) (F : design -> nat -> R) : Prop :=
  near (fun t => poses p (changed z dz t) n (val (changed z dz t)) (F (changed z dz t)) /\ reciprocal n (val (changed z dz t)) /\
    (forall U U', same_conditions n (listed (bc_dofs p)) U U' (val (changed z dz t) U) (val (changed z dz t) U') -> forall k, (k < n)%nat -> U k = U' k)).
Lemma changed_0 z dz : changed z dz 0 = z.
Proof. apply functional_extensionality. intros k. unfold changed. ring. Qed.

Lemma given_value (p : problem R_ring design) n k : conditions n (bc_dofs p) (bc_vals p) -> In k (bc_dofs p) -> exists v, In (k, v) (combine (bc_dofs p) (bc_vals p)).
Proof.
  intros (Hl & _) E. revert E Hl. generalize (bc_vals p). induction (bc_dofs p) as [|d l IH]; intros vs E Hl; [contradiction|].
  destruct vs as [|v vs]; [discriminate|]. destruct E as [->|E]; [exists v; left; reflexivity|]. destruct (IH vs E) as (w & I); [injection Hl as Hl; exact Hl|]. exists w. right. exact I.
Qed.
(** A right inverse of a symmetric matrix, transposed, is a left inverse. *)
Lemma left_inverse n (M B : nat -> nat -> R) : (forall i j, (i < n)%nat -> (j < n)%nat -> M i j = M j i) ->
  (forall i j, (i < n)%nat -> (j < n)%nat -> mm (K := R_ring) n M B i j = if Nat.eqb i j then 1 else 0) ->
  forall (x g : nat -> R), (forall k, (k < n)%nat -> rsum n (fun j => M k j * x j) = g k) -> forall i, (i < n)%nat -> x i = rsum n (fun k => B k i * g k).
Proof.
  intros Hs HB x g H i Hi. transitivity (rsum n (fun k => B k i * rsum n (fun j => M k j * x j))); [|apply rsum_ext; intros k Hk; rewrite (H k Hk); reflexivity].
  transitivity (rsum n (fun k => rsum n (fun j => B k i * (M k j * x j)))); [|apply rsum_ext; intros k Hk; rewrite rsum_scal_l; reflexivity].
  rewrite rsum_swap. transitivity (rsum n (fun j => if Nat.eqb j i then x i else 0)); [symmetry; apply (rsum_delta' n i (x i)); exact Hi|].
  apply rsum_ext. intros j Hj. transitivity (x j * mm (K := R_ring) n M B j i); [rewrite (HB j i Hj Hi); destruct (Nat.eqb_spec j i) as [->|]; req; ring|].
  unfold mm. change (x j * rsum n (fun k => M j k * B k i) = rsum n (fun k => B k i * (M k j * x j))). rewrite <- rsum_scal_l. apply rsum_ext. intros k Hk. rewrite (Hs j k Hj Hk). req. ring.
Qed.

Lemma choose_1 n (P : nat -> R -> Prop) : (forall i, (i < n)%nat -> exists x, P i x) -> exists f : nat -> R, forall i, (i < n)%nat -> P i (f i).
Proof.
  induction n as [|n IH]; intros H; [exists (fun _ => 0); intros; lia|]. destruct IH as (f & Hf); [intros; apply H; lia|]. destruct (H n ltac:(lia)) as (x & Hx).
  exists (fun i => if Nat.eqb i n then x else f i). intros i Hi. destruct (Nat.eqb_spec i n) as [->|]; [exact Hx|apply Hf; lia].
Qed.
Lemma choose_2 n (P : nat -> nat -> R -> Prop) : (forall i j, (i < n)%nat -> (j < n)%nat -> exists x, P i j x) -> exists f : nat -> nat -> R, forall i j, (i < n)%nat -> (j < n)%nat -> P i j (f i j).
Proof.
  intros H. destruct (choose n (fun i f => forall j, (j < n)%nat -> P i j (f j))) as (f & Hf); [|exists f; intros; apply Hf; assumption].
  intros i Hi. apply choose_1. intros j Hj. apply H; assumption.
Qed.

Section Gradient.
Variables (p : problem R_ring design) (np n : nat) (val : design -> (nat -> R) -> nat -> R) (F : design -> nat -> R) (z dz : design).
Hypothesis Hsolved : solved_near p z dz n val F.
Hypothesis Hdiff : forall U k, (k < n)%nat -> has_derivative (fun t => p_value (the_pde p) U (changed z dz t) k).
(** The solution moves along a differentiable curve, and its rate keeps the linearised equations. *)
Lemma solution_rate : exists w : nat -> R, (forall k, (k < n)%nat -> derivable_pt_lim (fun t => solution p (changed z dz t) k) 0 (w k)) /\
  (forall k, In k (bc_dofs p) -> w k = 0) /\
  forall k l, (k < n)%nat -> ~ In k (bc_dofs p) -> derivable_pt_lim (fun t => p_value (the_pde p) (solution p z) (changed z dz t) k) 0 l ->
    rsum n (fun j => p_gradient_u (the_pde p) (solution p z) z k j * w j) + l = 0.
Proof.
  pose proof (near_0 _ Hsolved) as (P0 & R0 & U0). rewrite changed_0 in P0, R0, U0. pose proof (ps_conditions _ _ _ _ _ P0) as Hc. pose proof Hc as (_ & _ & Hd).
  set (A := fun t => stiffness (val (changed z dz t))). set (G := fun t i => - p_value (the_pde p) zero (changed z dz t) i).
  set (S0 := solution p z).
  (* entries of the matrix and of the load *)
  assert (HAt : near (fun t => forall i, (i < n)%nat -> forall U, p_value (the_pde p) U (changed z dz t) i = rsum n (fun j => A t i j * U j) - G t i)).
  { revert Hsolved. apply near_imp. intros t (Pt & Rt & _) i Hi U. pose proof (reciprocal_affine _ _ Rt U i Hi) as E. unfold G. rewrite (ps_value _ _ _ _ _ Pt U i Hi), (ps_value _ _ _ _ _ Pt zero i Hi). fold (A t) in E. cbn in E |- *. lra. }
  assert (HAd : forall i j, (i < n)%nat -> (j < n)%nat -> has_derivative (fun t => A t i j)).
  { intros i j Hi Hj. destruct (Hdiff (unit j) i Hi) as (l1 & D1). destruct (Hdiff zero i Hi) as (l2 & D2). exists (l1 - l2).
    apply (derivative_near (fun t => p_value (the_pde p) (unit j) (changed z dz t) i - p_value (the_pde p) zero (changed z dz t) i)); [|apply derivative_minus; assumption].
    revert HAt. apply near_imp. intros t E. rewrite !(E i Hi).
    rewrite (rsum_0 n (fun j0 => A t i j0 * 0)) by (intros; req; ring).
    assert (W : rsum n (fun k => A t i k * unit j k) = A t i j) by (exact (work_unit n (A t i) j Hj)). cbn in W |- *. rewrite W. ring. }
  assert (HGd : forall i, (i < n)%nat -> has_derivative (fun t => G t i)).
  { intros i Hi. destruct (Hdiff zero i Hi) as (l & D). exists (- l). unfold G. apply (derivable_pt_lim_opp (fun t => p_value (the_pde p) zero (changed z dz t) i) 0 l D). }
  destruct (choose_2 n (fun i j l => derivable_pt_lim (fun t => A t i j) 0 l) HAd) as (dA & HdA). destruct (choose_1 n (fun i l => derivable_pt_lim (fun t => G t i) 0 l) HGd) as (dG & HdG).
  set (free := fun k => negb (listed (bc_dofs p) k)).
  destruct (one_equilibrium_nonsingular n (val z) (A 0) ltac:(unfold A; rewrite changed_0; apply reciprocal_affine; exact R0) (bc_dofs p) Hd U0) as (B & HB).
  assert (HAs : forall i j, (i < n)%nat -> (j < n)%nat -> A 0 i j = A 0 j i).
  { intros i j Hi Hj. unfold A. rewrite changed_0. apply (reciprocal_symmetric n (val z) R0); assumption. }
  assert (HAt0 : forall t, (fun t => solution p (changed z dz t)) t = solution p (changed z dz t)) by reflexivity.
  destruct (curve_derivative n free A G (fun t => solution p (changed z dz t)) (fun i k => B k i) dA dG HdA HdG) as (w & W1 & W2 & W3).
  - intros x g H i Hi. apply (left_inverse n (bc_matrix (K := R_ring) (bc_dofs p) (A 0)) B); [|exact HB| |exact Hi].
    + intros a b Ha Hb. unfold bc_matrix, constrained_matrix. rewrite (Nat.eqb_sym b a), orb_comm, (HAs a b Ha Hb). reflexivity.
    + intros k Hk. specialize (H k Hk). unfold free in H. destruct (listed (bc_dofs p) k) eqn:E; cbn [negb] in H.
      * rewrite <- H. rewrite <- constrained_listed in E. exact (bc_row_fixed (K := R_ring) n (bc_dofs p) (A 0) x k Hk E).
      * rewrite <- H. apply rsum_ext. intros j Hj. unfold bc_matrix, constrained_matrix. rewrite !constrained_listed, E. cbn [orb].
        destruct (listed (bc_dofs p) j) eqn:Ej; cbn [negb]; [|reflexivity]. destruct (Nat.eqb_spec k j) as [->|]; [congruence|]. apply Rmult_0_l.
  - revert Hsolved. apply near_imp. intros t (Pt & Rt & Ut) k Hk E. unfold free in E. apply negb_false_iff, listed_in in E. destruct (given_value p n k Hc E) as (v & I). rewrite changed_0.
    rewrite (proj1 (proj1 (posed_solves _ _ _ _ _ Pt Rt Ut)) k v I), (proj1 (proj1 (posed_solves _ _ _ _ _ P0 R0 U0)) k v I). reflexivity.
  - pose proof (near_and _ _ Hsolved HAt) as N. revert N. apply near_imp. intros t ((Pt & Rt & Ut) & E) k Hk Ek. unfold free in Ek. apply negb_true_iff, listed_out in Ek.
    pose proof (proj2 (proj1 (posed_solves _ _ _ _ _ Pt Rt Ut)) k Hk Ek) as Q. specialize (E k Hk (solution p (changed z dz t))). rewrite (ps_value _ _ _ _ _ Pt) in E by exact Hk. cbn in Q, E |- *. lra.
  - exists w. split; [exact W1|]. split.
    + intros k Hk. apply W2; [apply Hd; exact Hk|]. unfold free. apply negb_false_iff, listed_in. exact Hk.
    + intros k l Hk Nk Dl. assert (Fk : free k = true) by (unfold free; apply negb_true_iff, listed_out; exact Nk). specialize (W3 k Hk Fk). rewrite changed_0 in W3.
      assert (El : l = rsum n (fun j => dA k j * S0 j) - dG k).
      { apply (uniqueness_limite (fun t => p_value (the_pde p) S0 (changed z dz t) k) 0); [exact Dl|].
        apply (derivative_near (fun t => rsum n (fun j => A t k j * S0 j) - G t k)); [revert HAt; apply near_imp; intros t E; symmetry; apply E; exact Hk|].
        apply derivative_minus; [|apply HdG; exact Hk]. apply derivative_sum. intros j Hj.
        replace (dA k j * S0 j) with (dA k j * S0 j + A 0 k j * 0) by ring. apply (derivative_mult (fun t => A t k j) (fun _ => S0 j)); [apply HdA; assumption|apply derivable_pt_lim_const]. }
      assert (EJ : rsum n (fun j => p_gradient_u (the_pde p) (solution p z) z k j * w j) = rsum n (fun j => A 0 k j * w j)).
      { apply rsum_ext. intros j Hj. f_equal. assert (HA0 : affine_forces n (fun U => p_value (the_pde p) U z) (A 0)).
        { intros U i Hi. rewrite !(ps_value _ _ _ _ _ P0) by exact Hi. pose proof (reciprocal_affine _ _ R0 U i Hi) as E. rewrite E. unfold A. rewrite changed_0. ring. }
        exact (derivative_entry n _ (A 0) HA0 _ (ps_jacobian _ _ _ _ _ P0) (solution p z) k j Hk Hj). }
      etransitivity; [exact (f_equal2 Rplus EJ El)|]. unfold S0. etransitivity; [exact (f_equal2 Rplus W3 eq_refl)|]. cbn. ring.
Qed.
End Gradient.

(** Whenever the body has one equilibrium near the design, the assembled derivatives are the true ones at the solution, and the criterion is differentiable with the derivatives it
    reports, the gradient is returned, and it predicts the rate of the criterion along every change of the design: the solution is recomputed, and nothing is said about adjoints. *)
Theorem C166_gradient : forall (p : problem R_ring design) np n val F z f c,
  n_dofs p = n -> bc_vals p <> [] -> self_adjoint p = false ->
  poses p z n (val z) (F z) -> reciprocal n (val z) ->
  (forall U U', same_conditions n (listed (bc_dofs p)) U U' (val z U) (val z U') -> forall k, (k < n)%nat -> U k = U' k) ->
  (forall i j, (i < n)%nat -> (j < n)%nat -> p_gradient_u_T (the_pde p) (solution p z) z i j = p_gradient_u (the_pde p) (solution p z) z j i) ->
  differentiable_with n np f (solution p z) z (c_gradient_u c (solution p z) z) (c_gradient_z c (solution p z) z) ->
  exists g : nat -> R, EllipticModel.criterionGradient (K := R_ring) p z (solution p z) c = Ok g /\
  forall dz, solved_near p z dz n val F ->
    (forall U k, (k < n)%nat -> has_derivative (fun t => p_value (the_pde p) U (changed z dz t) k)) ->
    (forall k, (k < n)%nat -> derivable_pt_lim (fun t => p_value (the_pde p) (solution p z) (changed z dz t) k) 0 (rs np (fun j => p_gradient_z (the_pde p) (solution p z) z j k * dz j))) ->
    derivable_pt_lim (fun t => f (solution p (changed z dz t)) (changed z dz t)) 0 (rs np (fun j => g j * dz j)).
Proof.
  intros p np n val F z f c Hn Hne Hsa P0 R0 U0 HT Hf. subst n. pose proof (ps_conditions _ _ _ _ _ P0) as (Hl & Hnd & Hd).
  assert (HA0 : affine_forces (n_dofs p) (fun U => p_value (the_pde p) U z) (stiffness (val z))).
  { intros U i Hi. rewrite (ps_value _ _ _ _ _ P0 U i Hi), (ps_value _ _ _ _ _ P0 zero i Hi). pose proof (reciprocal_affine _ _ R0 U i Hi) as E. cbn in E |- *. lra. }
  assert (HJ : forall i j, (i < n_dofs p)%nat -> (j < n_dofs p)%nat -> p_gradient_u (the_pde p) (solution p z) z i j = stiffness (val z) i j).
  { intros i j Hi Hj. exact (derivative_entry _ _ _ HA0 _ (ps_jacobian _ _ _ _ _ P0) (solution p z) i j Hi Hj). }
  assert (Hns : nonsingular (K := R_ring) (n_dofs p) (bc_matrix (K := R_ring) (bc_dofs p) (p_gradient_u_T (the_pde p) (solution p z) z))).
  { destruct (one_equilibrium_nonsingular _ _ _ (reciprocal_affine _ _ R0) (bc_dofs p) Hd U0) as (B & HB). exists B. intros i j Hi Hj. rewrite <- (HB i j Hi Hj).
    unfold mm. apply sum_ext. intros k Hk. f_equal. unfold bc_matrix, constrained_matrix. destruct (constrained (bc_dofs p) i || constrained (bc_dofs p) k); [reflexivity|].
    rewrite (HT i k Hi Hk), (HJ k i Hk Hi). apply (reciprocal_symmetric _ _ R0); assumption. }
  destruct (C14_adjoint_gradient R_ring design p z (solution p z) c np (fun i k => p_gradient_z (the_pde p) (solution p z) z k i) (ps_solver _ _ _ _ _ P0) HT (fun _ _ _ _ => eq_refl) Hns Hl Hd Hne Hsa) as (g & G1 & G2).
  exists g. split; [exact G1|]. intros dz Hs Hdiff Hz. destruct (solution_rate p _ val F z dz Hs Hdiff) as (w & W1 & W2 & W3).
  assert (T : tangent (K := R_ring) (n_dofs p) np (bc_dofs p) (p_gradient_u (the_pde p) (solution p z) z) (fun i k => p_gradient_z (the_pde p) (solution p z) z k i) w dz).
  { split; [exact W2|]. intros i Hi Ni. exact (W3 i _ Hi Ni (Hz i Hi)). }
  specialize (G2 w dz T). unfold dot in G2. change (rs np (fun j => g j * dz j)) with (sum (K := R_ring) np (fun j => rmul (g j) (dz j))). rewrite G2.
  eassert (Q : _). { apply (Hf (fun t => solution p (changed z dz t)) w dz). intros k Hk. cbn beta. rewrite changed_0. split; [reflexivity|]. apply W1. exact Hk. }
  match type of Q with derivable_pt_lim _ 0 ?a => match goal with |- derivable_pt_lim _ 0 ?b => replace b with a; [exact Q|] end end.
  apply Rplus_comm.
Qed.
Print Assumptions C166_gradient.

(** ** Bodies: the hypotheses on solvability near the design follow from supports, connectedness and material. *)
(** The penalty has a derivative at the density of every cell. *)
Definition smooth_penalty {M} (d : nat) (pen : R -> R) (z : design) (cells : list (cell M)) : Prop :=
  forall c, In c cells -> exists l, derivable_pt_lim pen (rs (S d) (fun a => z (c_node c a)) / INR (S d)) l.
Lemma penalty_curve {M} d pen (z dz : design) (c : cell M) l : derivable_pt_lim pen (rs (S d) (fun a => z (c_node c a)) / INR (S d)) l ->
  exists m, derivable_pt_lim (fun t => pen (rs (S d) (fun a => changed z dz t (c_node c a)) / INR (S d))) 0 m.
Proof.
  intros H. exists (l * (rs (S d) (fun a => dz (c_node c a)) / INR (S d))).
  apply (derivable_pt_lim_comp (fun t => rs (S d) (fun a => changed z dz t (c_node c a)) / INR (S d)) pen).
  - apply (affine_derivative _ (rs (S d) (fun a => z (c_node c a)) / INR (S d))). intros t. unfold changed, Rdiv. rewrite <- Rmult_assoc, <- Rmult_plus_distr_r. f_equal.
    unfold rs. rewrite rsum_add, rsum_scal_l. reflexivity.
  - cbn beta. replace (rs (S d) (fun a => changed z dz 0 (c_node c a)) / INR (S d)) with (rs (S d) (fun a => z (c_node c a)) / INR (S d)); [exact H|]. rewrite changed_0. reflexivity.
Qed.
Lemma solid_near {M} d pen (z dz : design) (cells : list (cell M)) : smooth_penalty d pen z cells -> (forall c, In c cells -> solid d pen z c) ->
  near (fun t => forall c, In c cells -> solid d pen (changed z dz t) c).
Proof.
  induction cells as [|c cells IH]; intros Hs Hc; [exists 1; split; [lra|intros ? ? ? []]|].
  assert (N1 : near (fun t => forall c, In c cells -> solid d pen (changed z dz t) c)) by (apply IH; [intros c' H; apply Hs|intros c' H; apply Hc]; right; exact H).
  assert (N2 : near (fun t => solid d pen (changed z dz t) c)).
  { destruct (Hs c (or_introl eq_refl)) as (l & Hl). destruct (penalty_curve d pen z dz c l Hl) as (m & Hm). pose proof (Hc c (or_introl eq_refl)) as S0. unfold solid in S0.
    pose proof (derivative_bound _ _ Hm) as B. cbn beta in B. rewrite changed_0 in B. set (v := pen (rs (S d) (fun a => z (c_node c a)) / INR (S d))) in *.
    pose proof (Rabs_pos m) as Pm. assert (P : 0 < v / (Rabs m + 1)) by (apply Rdiv_lt_0_compat; lra).
    pose proof (near_and _ _ B (near_small _ P)) as N. revert N. apply near_imp. intros t [K1 K2]. unfold solid.
    assert (W : (Rabs m + 1) * Rabs t < v). { replace v with ((Rabs m + 1) * (v / (Rabs m + 1))) by (field; lra). apply Rmult_lt_compat_l; lra. }
    assert (Q : Rabs (pen (rs (S d) (fun a => changed z dz t (c_node c a)) / INR (S d)) - v) < v) by lra. apply Rabs_def2 in Q. lra. }
  pose proof (near_and _ _ N1 N2) as N. revert N. apply near_imp. intros t [K1 K2] c' [<-|H]; [exact K2|apply K1; exact H].
Qed.
(** Sums of cell contributions times the penalised density. *)
Lemma weighted_derivative {M} d pen (z dz : design) (cells : list (cell M)) (h : cell M -> R) : smooth_penalty d pen z cells ->
  has_derivative (fun t => sum_over cells (fun c => pen (cell_density (S d) (gather_control (changed z dz t) c)) * h c)).
Proof.
  induction cells as [|c cells IH]; intros Hs; [exists 0; apply derivable_pt_lim_const|].
  destruct IH as (l1 & H1); [intros c' H; apply Hs; right; exact H|]. destruct (Hs c (or_introl eq_refl)) as (l & Hl). destruct (penalty_curve d pen z dz c l Hl) as (m & Hm).
  exists (m * h c + l1). cbn [sum_over].
  apply (derivable_pt_lim_plus (fun t => pen (cell_density (S d) (gather_control (changed z dz t) c)) * h c)); [|exact H1].
  replace (m * h c) with (m * h c + pen (cell_density (S d) (gather_control (changed z dz 0) c)) * 0) by ring.
  apply (derivative_mult (fun t => pen (cell_density (S d) (gather_control (changed z dz t) c))) (fun _ => h c)); [exact Hm|apply derivable_pt_lim_const].
Qed.
(** What a problem about a body says to its user: near every design it poses the body, and the derivatives it assembles at the solution are the true ones. *)
Record poses_designs (p : problem R_ring design) (np n : nat) (val : design -> (nat -> R) -> nat -> R) (F : design -> nat -> R) (z : design) : Prop := {
  pd_poses : forall y, poses p y n (val y) (F y);
  pd_loads : forall dz k, (k < n)%nat -> has_derivative (fun t => F (changed z dz t) k);
  pd_transposed : forall i j, (i < n)%nat -> (j < n)%nat -> p_gradient_u_T (the_pde p) (solution p z) z i j = p_gradient_u (the_pde p) (solution p z) z j i;
  pd_design : forall dz k, (k < n)%nat -> derivable_pt_lim (fun t => p_value (the_pde p) (solution p z) (changed z dz t) k) 0 (rs np (fun j => p_gradient_z (the_pde p) (solution p z) z j k * dz j));
  pd_adjoint : self_adjoint p = false;
  pd_values : bc_vals p <> [] }.
(** The gradient is returned and is the derivative of the criterion, the body being solved anew for each design. *)
Definition gradient_true (p : problem R_ring design) (np : nat) (z : design) (f : (nat -> R) -> design -> R) (c : criterion R_ring design) : Prop :=
  exists g : nat -> R, EllipticModel.criterionGradient (K := R_ring) p z (solution p z) c = Ok g /\
  forall dz, derivable_pt_lim (fun t => f (solution p (changed z dz t)) (changed z dz t)) 0 (rs np (fun j => g j * dz j)).
Lemma body_gradient {M} (p : problem R_ring design) np n val F z f c d pen (cells : list (cell M)) (h : (nat -> R) -> nat -> cell M -> R) :
  poses_designs p np n val F z -> smooth_penalty d pen z cells -> (forall c, In c cells -> solid d pen z c) ->
  (forall y, reciprocal n (val y)) ->
  (forall y, (forall c, In c cells -> solid d pen y c) -> forall U U', same_conditions n (listed (bc_dofs p)) U U' (val y U) (val y U') -> forall k, (k < n)%nat -> U k = U' k) ->
  (forall y U k, (k < n)%nat -> val y U k = sum_over cells (fun c => pen (cell_density (S d) (gather_control y c)) * h U k c)) ->
  differentiable_with n np f (solution p z) z (c_gradient_u c (solution p z) z) (c_gradient_z c (solution p z) z) ->
  gradient_true p np z f c.
Proof.
  intros [Hp Hl HT HZ Hsa Hne] Hs Hc HR HU HV Hf.
  destruct (C166_gradient p np n val F z f c (ps_size _ _ _ _ _ (Hp z)) Hne Hsa (Hp z) (HR z) (HU z Hc) HT Hf) as (g & G1 & G2).
  exists g. split; [exact G1|]. intros dz. apply G2.
  - pose proof (solid_near d pen z dz cells Hs Hc) as N. revert N. apply near_imp. intros t K. split; [apply Hp|]. split; [apply HR|]. apply HU. exact K.
  - intros U k Hk. destruct (weighted_derivative d pen z dz cells (h U k) Hs) as (l1 & L1). destruct (Hl dz k Hk) as (l2 & L2). exists (l1 - l2).
    apply (derivative_near (fun t => sum_over cells (fun c => pen (cell_density (S d) (gather_control (changed z dz t) c)) * h U k c) - F (changed z dz t) k)).
    + exists 1. split; [lra|]. intros t _. rewrite (ps_value _ _ _ _ _ (Hp _) U k Hk), (HV _ U k Hk). reflexivity.
    + apply derivative_minus; assumption.
  - apply HZ.
Qed.

(** Elastic bodies held so that they cannot move, for every criterion. *)
Theorem C166_elastic : forall (p : problem R_ring design) np d nn pen col X cells F z f c, (1 <= d <= 3)%nat -> mesh_ok d nn X cells -> one_piece d nn (map c_node cells) ->
  restrains d nn d X (listed (bc_dofs p)) ->
  (forall c, In c cells -> symmetric (num_voigt d) (e_stiff (c_mat c)) /\ positive_form (num_voigt d) (e_stiff (c_mat c)) /\ solid d pen z c) ->
  smooth_penalty d pen z cells -> poses_designs p np (nn * d) (fun y U => elastostatic d pen col X U y cells) F z ->
  differentiable_with (nn * d) np f (solution p z) z (c_gradient_u c (solution p z) z) (c_gradient_z c (solution p z) z) ->
  gradient_true p np z f c.
Proof.
  intros p np d nn pen col X cells F z f c Hd Hm Hone Hres Hc Hs Hp Hf.
  apply (body_gradient p np (nn * d) (fun y U => elastostatic d pen col X U y cells) F z f c d pen cells
    (fun U k c => cell_measure d (gather_coords X c) * rsum (num_voigt d) (fun v => elastic_stress d (c_mat c) col (gather_coords X c) (gather d U c) v * strain d d zero (gather d (unit k) c) (cell_gradient d (gather_coords X c)) v))); try assumption.
  - intros c' H. apply (Hc c' H).
  - intros y. apply elastic_reciprocal; try assumption. intros c' H. apply (Hc c' H).
  - intros y Hy U U' HsU. apply (C162_elastic d nn pen col X U U' y cells (listed (bc_dofs p))); try assumption. intros c' H. destruct (Hc c' H) as (_ & H1 & _). split; [exact H1|apply Hy; exact H].
  - intros y U k Hk. rewrite <- (work_unit (nn * d) _ k Hk). unfold elastostatic. rewrite assemble_work by (apply (mesh_nodes d nn X); exact Hm).
    apply sum_over_ext. intros c' H. rewrite elastic_work by exact Hd. req. ring.
Qed.
Print Assumptions C166_elastic.
(** Conducting bodies. *)
Theorem C166_heat : forall (p : problem R_ring design) np d nn pen X cells F z f c, (1 <= d <= 3)%nat -> mesh_ok d nn X cells ->
  (forall n, (n < nn)%nat -> anchored d (map c_node cells) (listed (bc_dofs p)) n) ->
  (forall c, In c cells -> t_nonlinear (c_mat c) = false /\ symmetric d (t_cond_const (c_mat c)) /\ positive_form d (t_cond_const (c_mat c)) /\ solid d pen z c) ->
  smooth_penalty d pen z cells -> poses_designs p np nn (fun y T => thermostatic d pen X T y cells) F z ->
  differentiable_with nn np f (solution p z) z (c_gradient_u c (solution p z) z) (c_gradient_z c (solution p z) z) ->
  gradient_true p np z f c.
Proof.
  intros p np d nn pen X cells F z f c Hd Hm Hanc Hc Hs Hp Hf.
  apply (body_gradient p np nn (fun y T => thermostatic d pen X T y cells) F z f c d pen cells
    (fun U k c => - (cell_measure d (gather_coords X c) * rsum d (fun i => flux_at d (c_mat c) (scalar_gradient d 1 0 (gather 1 U c) (cell_gradient d (gather_coords X c))) (interpolate d 1 0 (gather 1 U c)) i * scalar_gradient d 1 0 (gather 1 (unit k) c) (cell_gradient d (gather_coords X c)) i)))); try assumption.
  - intros c' H. apply (Hc c' H).
  - intros y. apply symmetric_reciprocal. intros T S'. apply (C99_thermal d nn); try assumption. intros c' Hin. destruct (Hc c' Hin) as (H1 & H2 & _). split; assumption.
  - intros y Hy T T' HsU n Hn. apply (C162_heat d nn pen X T T' y cells (listed (bc_dofs p))); try assumption; [|apply Hanc; exact Hn]. intros c' Hin. destruct (Hc c' Hin) as (H1 & _ & H2 & _). split; [exact H1|]. split; [exact H2|apply Hy; exact Hin].
  - intros y U k Hk. rewrite <- (work_unit nn _ k Hk). rewrite <- (Nat.mul_1_r nn) at 1. unfold thermostatic. rewrite assemble_work by (rewrite ?Nat.mul_1_r; apply (mesh_nodes d nn X); exact Hm).
    apply sum_over_ext. intros c' H. rewrite thermostatic_work. req. ring.
Qed.
Print Assumptions C166_heat.
(** Piezoelectric bodies. *)
Theorem C166_electroelastic : forall (p : problem R_ring design) np d nn pen X cells F z f c, (1 <= d <= 3)%nat -> mesh_ok d nn X cells -> one_piece d nn (map c_node cells) ->
  restrains d nn (S d) X (listed (bc_dofs p)) -> (forall n, (n < nn)%nat -> anchored d (map c_node cells) (held_last d (listed (bc_dofs p))) n) ->
  (forall c, In c cells -> p_alpha (c_mat c) <> 0 /\ symmetric (num_voigt d) (p_stiff (c_mat c)) /\ positive_form (num_voigt d) (p_stiff (c_mat c)) /\
     symmetric d (p_perm (c_mat c)) /\ positive_form d (p_perm (c_mat c)) /\ solid d pen z c) ->
  smooth_penalty d pen z cells -> poses_designs p np (nn * S d) (fun y U => electroelastostatic d pen X U y cells) F z ->
  differentiable_with (nn * S d) np f (solution p z) z (c_gradient_u c (solution p z) z) (c_gradient_z c (solution p z) z) ->
  gradient_true p np z f c.
Proof.
  intros p np d nn pen X cells F z f c Hd Hm Hone Hres Hanc Hc Hs Hp Hf.
  apply (body_gradient p np (nn * S d) (fun y U => electroelastostatic d pen X U y cells) F z f c d pen cells
    (fun U k c => cell_measure d (gather_coords X c) * (rsum (num_voigt d) (fun v => em_stress d (c_mat c) (strain d (S d) zero (gather (S d) U c) (cell_gradient d (gather_coords X c))) (em_field d (gather (S d) U c) (cell_gradient d (gather_coords X c))) v * strain d (S d) zero (gather (S d) (unit k) c) (cell_gradient d (gather_coords X c)) v)
      - rsum d (fun i => em_displacement d (c_mat c) (strain d (S d) zero (gather (S d) U c) (cell_gradient d (gather_coords X c))) (em_field d (gather (S d) U c) (cell_gradient d (gather_coords X c))) i * em_field d (gather (S d) (unit k) c) (cell_gradient d (gather_coords X c)) i)))); try assumption.
  - intros c' H. apply (Hc c' H).
  - intros y. apply symmetric_reciprocal. intros U V. apply (C99_electroelastic d nn); try assumption. intros c' Hin. destruct (Hc c' Hin) as (_ & H1 & _ & H2 & _). split; assumption.
  - intros y Hy U U' HsU. apply (C162_electroelastic d nn pen X U U' y cells (listed (bc_dofs p))); try assumption. intros c' Hin. destruct (Hc c' Hin) as (H1 & _ & H2 & _ & H3 & _). split; [exact H1|]. split; [exact H2|]. split; [exact H3|apply Hy; exact Hin].
  - intros y U k Hk. rewrite <- (work_unit (nn * S d) _ k Hk). unfold electroelastostatic. rewrite assemble_work by (apply (mesh_nodes d nn X); exact Hm).
    apply sum_over_ext. intros c' H. rewrite em_work by exact Hd. req. ring.
Qed.
Print Assumptions C166_electroelastic.

(** The hypotheses met: the loaded bar of C165, its stiffness proportional to the density; the criterion is the displacement of the right end, 1 + 1 / (2 density). *)
Definition bar_density (y : design) : R := (y 0%nat + y 1%nat) / 2.
Definition bar_forces (y U : nat -> R) (k : nat) : R := elastostatic 1 (fun x => x) None bar_X U y (bar rod) k.
Definition sign (k : nat) : R := if Nat.eqb k 1 then 1 else -1.
Definition bar_design : problem R_ring design :=
  mkProblem (K := R_ring) (Z := design) 2 1 (fun _ => false) (fun _ => false) [0%nat] [1] false (solver2 (K := R_field))
    (mkPde (K := R_ring) (Z := design) (fun U y k => bar_forces y U k - pull k)
      (fun _ y i j => 2 * bar_density y * sign i * sign j) (fun _ y i j => 2 * bar_density y * sign i * sign j)
      (fun U y j k => (U 1%nat - U 0%nat) * sign k) (fun _ _ _ _ => 0)).
Definition end_displacement : criterion R_ring design :=
  mkCriterion (K := R_ring) (Z := design) (fun _ _ k => if Nat.eqb k 1 then 1 else 0) (fun _ _ _ => 0) (fun _ _ _ => 0).
Lemma bar_forces_at y U k : (k < 2)%nat -> bar_forces y U k = 2 * bar_density y * (U 1%nat - U 0%nat) * sign k.
Proof.
  intros Hk. unfold bar_forces. rewrite <- (work_unit 2 _ k Hk). change 2%nat with (2 * 1)%nat. unfold elastostatic. rewrite assemble_work by (apply (mesh_nodes 1 2 bar_X); apply bar_ok).
  cbn [bar sum_over]. rewrite elastic_work by lia. rewrite density_sum. unfold elastic_stress, add_forcing, linear_stress, strain. cbn [num_voigt]. unfold rs, bar_density, sign. rsums.
  unfold cell_measure, cell_volume, cell_gradient, gradient1, cell_det, det1, gather_coords, gather, bar_X, cub_weight. cbn -[Rabs].
  replace (Rabs (0 - 1)) with 1. 2: { replace (0 - 1) with (- (1)) by ring. rewrite Rabs_Ropp, Rabs_R1. reflexivity. }
  rsums. replace (0 - 1) with (-1) by ring. destruct k as [|[|k]]; [| |lia]; unfold unit; cbn; field.
Qed.
Example C166_case : mesh_ok 1 2 bar_X (bar rod) /\ one_piece 1 2 (map c_node (bar rod)) /\ restrains 1 2 1 bar_X (listed (bc_dofs bar_design)) /\
  (forall c, In c (bar rod) -> symmetric (num_voigt 1) (e_stiff (c_mat c)) /\ positive_form (num_voigt 1) (e_stiff (c_mat c)) /\ solid 1 (fun x => x) (fun _ => 1) c) /\
  smooth_penalty 1 (fun x => x) (fun _ => 1) (bar rod) /\
  poses_designs bar_design 2 2 (fun y U => elastostatic 1 (fun x => x) None bar_X U y (bar rod)) (fun _ => pull) (fun _ => 1) /\
  differentiable_with 2 2 (fun U _ => U 1%nat) (solution bar_design (fun _ => 1)) (fun _ => 1)
    (c_gradient_u end_displacement (solution bar_design (fun _ => 1)) (fun _ => 1)) (c_gradient_z end_displacement (solution bar_design (fun _ => 1)) (fun _ => 1)) /\
  solution bar_design (fun _ => 1) 1%nat = 3 / 2 /\
  exists g : nat -> R, EllipticModel.criterionGradient (K := R_ring) bar_design (fun _ => 1) (solution bar_design (fun _ => 1)) end_displacement = Ok g /\ g 0%nat = - (1 / 4) /\ g 1%nat = - (1 / 4).
Proof.
  destruct C165_case as (C1 & C2 & C3 & C4 & _). split; [exact C1|]. split; [exact C2|]. split; [exact C3|]. split; [exact C4|].
  split. { intros c _. exists 1. apply derivable_pt_lim_id. }
  assert (S1 : forall y, bar_density y <> 0 -> solution bar_design y 0%nat = 1 /\ solution bar_design y 1%nat = 1 + 1 / (2 * bar_density y)).
  { intros y Hy. unfold solution, newton. cbn [newton_steps bar_design the_pde p_value p_gradient_u lin_solve bc_dofs bc_vals].
    unfold solver2, bc_matrix, constrained_matrix, bc_rhs, prescribed, constrained. cbn -[bar_forces bar_density]. rewrite !bar_forces_at by lia. unfold sign. cbn -[bar_density]. split; field; exact Hy. }
  assert (D1 : bar_density (fun _ => 1) = 1) by (unfold bar_density; field).
  destruct (S1 (fun _ => 1) ltac:(rewrite D1; lra)) as [S10 S11]. rewrite D1 in S11.
  split.
  { split.
    - intros y. split; try reflexivity.
      + intros U i j Hi Hj. cbn [the_pde bar_design p_value p_gradient_u]. apply (affine_derivative _ (bar_forces y U i - pull i)). intros t. rewrite !bar_forces_at by exact Hi. unfold sign.
        destruct j as [|[|j]]; try lia; unfold moved; cbn -[bar_density]; ring.
      + apply (solver2_ok (K := R_field)).
      + split; [reflexivity|]. split; [repeat constructor; intros []|]. intros k [<-|[]]. cbn. lia.
      + cbn. lia.
      + left. reflexivity.
    - intros dz k _. exists 0. apply derivable_pt_lim_const.
    - intros i j _ _. cbn. ring.
    - intros dz k Hk. set (V := solution bar_design (fun _ => 1)) in *. cbn [the_pde bar_design p_value p_gradient_z].
      apply (affine_derivative _ (bar_forces (fun _ => 1) V k - pull k)). intros t. rewrite !bar_forces_at by exact Hk. unfold rs, bar_density, changed. rsums. field.
    - reflexivity.
    - cbn. discriminate. }
  split.
  { intros curve du dz H. destruct (H 1%nat ltac:(lia)) as [_ H1]. cbn [c_gradient_u c_gradient_z end_displacement]. unfold rs. rsums. cbn.
    match goal with |- derivable_pt_lim _ 0 ?b => replace b with (du 1%nat) by ring end. exact H1. }
  split; [rewrite S11; change (1 + 1 / (2 * 1) = 3 / 2); field|].
  eexists. split; [reflexivity|]. set (V := solution bar_design (fun _ => 1)) in *. 
  cbn [n_dofs bar_design the_pde p_gradient_z p_gradient_u_T c_gradient_z c_gradient_u end_displacement lin_solve bc_dofs]. rewrite S10, S11.
  unfold solver2, bc_matrix, constrained_matrix, bc_rhs, prescribed, constrained, mv. cbn -[bar_density]. rewrite D1. unfold sign. cbn. split; field.
Qed.
