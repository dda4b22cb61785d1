(** Properties of the dynamics problem (C20-C23). *)
From Coq Require Import ZArith QArith Qcanon Arith Lia List Bool Ring Field.
From Verif Require Import Base.Field Base.Sums Base.Res BC.ConstraintsSpec BC.ConstraintsMain Problem.DenseBC Problem.SmallSolver
  Problem.EllipticProof Problem.HyperbolicModel Problem.HyperbolicSpec Problem.HyperbolicProof.
Import ListNotations.
Local Open Scope nat_scope.

(** ** C20 *)

(** The Newmark formulas hold at every step, for nonlinear problems too. *)
Theorem C20_newmark :
  forall (K : CField) (Z : Type) (p : hproblem K Z) (z : Z) (h : hhistory K),
    hq_beta p <> r0 -> hq_dt p <> r0 -> @two K <> r0 ->
    forall k, 1 <= k < hq_steps p ->
      newmark (hq_n p) (hq_gamma p) (hq_beta p) (hq_dt p) (hsolution p z h (k - 1)) (hsolution p z h k).
Proof.
  intros K Z p z h Hb Hdt H2 k Hk. rewrite (hsolution_step p z h k Hk), hstep_eq. apply hupd_newmark; assumption.
Qed.
Print Assumptions C20_newmark.

(** Linear problems: at every step k the displacement takes the values prescribed at time k dt, and the equation of motion
    M a + C v + A u = F(k dt) holds at the free dofs. *)
Theorem C20_equation_of_motion :
  forall (K : CField) (Z : Type) (p : hproblem K Z) (z : Z) (h : hhistory K) (A C M : matr K) (F : K -> vect K),
    linear_hpde (hq_n p) (hq_pde p) z A C M F ->
    symmetric (hq_n p) A -> symmetric (hq_n p) C -> symmetric (hq_n p) M ->
    hq_beta p <> r0 -> hq_dt p <> r0 -> solver_ok (hq_n p) (hq_solve p) ->
    (forall t, nonsingular (hq_n p) (bc_matrix (fst (hq_bcs p t))
       (fun i j => radd (radd (A i j) (rmul (fdiv (hq_gamma p) (rmul (hq_beta p) (hq_dt p))) (C i j)))
                        (rmul (fdiv r1 (rmul (rmul (hq_beta p) (hq_dt p)) (hq_dt p))) (M i j))))) ->
    (forall t, length (snd (hq_bcs p t)) = length (fst (hq_bcs p t)) /\ NoDup (fst (hq_bcs p t)) /\
               forall d, In d (fst (hq_bcs p t)) -> d < hq_n p) ->
    forall k, 1 <= k < hq_steps p ->
      let t := times k (hq_dt p) in let s := hsolution p z h k in
      (forall d w, In (d, w) (combine (fst (hq_bcs p t)) (snd (hq_bcs p t))) -> hu s d = w) /\
      (forall i, i < hq_n p -> ~ In i (fst (hq_bcs p t)) ->
         radd (radd (mv (hq_n p) M (ha s) i) (mv (hq_n p) C (hv s) i)) (mv (hq_n p) A (hu s) i) = F t i).
Proof.
  intros K Z p z h A C M F Hlin HA HC HM Hb Hdt Hs Hns Hbc k Hk t s. destruct (Hbc t) as [Hlen [Hnd Hd]].
  unfold s. rewrite (hsolution_step p z h k Hk), hstep_eq. fold t.
  assert (Hns' : nonsingular (hq_n p) (bc_matrix (fst (hq_bcs p t)) (htang p z t hzero))).
  { eapply nonsingular_ext; [|exact (Hns t)]. apply bc_matrix_ext. intros i j Hi Hj. unfold htang.
    destruct (Hlin hzero t) as [_ [-> [-> ->]]]; auto. apply htang_form; assumption. }
  assert (Hc : compatible r1 (fst (hq_bcs p t)) (snd (hq_bcs p t))) by (apply NoDup_compatible; exact Hnd).
  split.
  - intros d w Hin. cbn [hu hupd]. rewrite (hinc_values p z t _ hzero Hc Hd Hs Hns' d w Hin). apply hzero_add.
  - intros i Hi Hni. eapply hupd_free; eauto.
Qed.
Print Assumptions C20_equation_of_motion.

(** Two nodes, mass [[2,1],[1,2]], no damping, stiffness [[2,-1],[-1,2]]; node 0 moved by t, load at node 1; gamma = 1/2, beta = 1/4, dt = 2. *)
Definition exA : matr Qc_ring := fun i j => if Nat.eqb i j then Q2Qc 2 else Q2Qc (-1).
Definition exM : matr Qc_ring := fun i j => if Nat.eqb i j then Q2Qc 2 else Q2Qc 1.
Definition exO : matr Qc_ring := fun i j => Q2Qc 0.
Definition exF (t : Qc) : vect Qc_ring := fun i => match i with 1 => t | _ => Q2Qc 0 end.
Definition exHP : hpde Qc_field unit :=
  mkHPde (K := Qc_field) (Z := unit)
    (fun s _ t i => rsub (radd (radd (mv 2 exM (ha s) i) (mv 2 exO (hv s) i)) (mv 2 exA (hu s) i)) (exF t i))
    (fun _ _ _ => exA) (fun _ _ _ => exO) (fun _ _ _ => exM) (fun _ _ _ c i => Q2Qc 1) (fun _ _ _ c i => Q2Qc 1).
Definition exHQ (bcs : Qc -> list nat * list Qc) (u0 v0 : Qc) : hproblem Qc_field unit :=
  mkHProblem (K := Qc_field) (Z := unit) 2 3 bcs (solver2 (K := Qc_field)) (Q2Qc (1#2)) (Q2Qc (1#4)) (Q2Qc 2)
    (fun i => match i with 1 => u0 | _ => Q2Qc 0 end) (fun i => match i with 1 => v0 | _ => Q2Qc 0 end) (fun _ => Q2Qc 0) exHP.
Definition anyh : hhistory Qc_field := fun _ => mkH (K := Qc_field) (fun _ => Q2Qc 7) (fun _ => Q2Qc 7) (fun _ => Q2Qc 7).
Lemma exHP_linear : linear_hpde (K := Qc_field) 2 exHP tt exA exO exM exF.
Proof. intros s t. repeat split. Qed.
Example C20_instance :
  (forall t, nonsingular (K := Qc_field) 2 (bc_matrix (K := Qc_field) (fst (hq_bcs (exHQ (fun t => ([0], [t])) (Q2Qc 0) (Q2Qc 0)) t))
       (fun i j => radd (radd (exA i j) (rmul (fdiv (c := Qc_field) (Q2Qc (1#2)) (rmul (Q2Qc (1#4) : Qc_ring) (Q2Qc 2))) (exO i j)))
                        (rmul (fdiv (c := Qc_field) (Q2Qc 1) (rmul (rmul (Q2Qc (1#4) : Qc_ring) (Q2Qc 2)) (Q2Qc 2))) (exM i j))))) /\
  map (fun k => (this (hu (hsolution (exHQ (fun t => ([0], [t])) (Q2Qc 0) (Q2Qc 0)) tt anyh k) 0),
                 this (hu (hsolution (exHQ (fun t => ([0], [t])) (Q2Qc 0) (Q2Qc 0)) tt anyh k) 1))) [0; 1; 2] = [(0, 0); (2, 1#2); (4, 4)]%Q.
Proof.
  split. { intros t. apply (nonsingular2 (K := Qc_field)). vm_compute. discriminate. }
  vm_compute. reflexivity.
Qed.

(** ** C21 *)

(** Average acceleration, no damping, no load, homogeneous conditions: the energy is the same at all computed steps; it is also
    that of the initial state if the initial acceleration is in equilibrium.  Missing with respect to C21: the first step
    when the initial displacement is not at equilibrium, since the initial acceleration is zero (refuted below). *)
Theorem C21_energy_partial :
  forall (K : CField) (Z : Type) (p : hproblem K Z) (z : Z) (h : hhistory K) (A M : matr K) (dofs : list nat),
    linear_hpde (hq_n p) (hq_pde p) z A (fun _ _ => r0) M (fun _ _ => r0) ->
    symmetric (hq_n p) A -> symmetric (hq_n p) M ->
    @two K <> r0 -> hq_dt p <> r0 -> hq_gamma p = fdiv r1 two -> hq_beta p = fdiv r1 (rmul two two) ->
    solver_ok (hq_n p) (hq_solve p) ->
    nonsingular (hq_n p) (bc_matrix dofs (fun i j => radd (A i j) (rmul (fdiv (rmul two two) (rmul (hq_dt p) (hq_dt p))) (M i j)))) ->
    (forall t, hq_bcs p t = (dofs, map (fun _ => r0) dofs)) -> NoDup dofs -> (forall d, In d dofs -> d < hq_n p) ->
    (forall d, In d dofs -> hq_init_u p d = r0) ->
    (forall k, 1 <= k < hq_steps p -> energy2 (hq_n p) A M (hsolution p z h k) = energy2 (hq_n p) A M (hsolution p z h 1)) /\
    ((forall i, i < hq_n p -> ~ In i dofs -> radd (mv (hq_n p) M (hq_init_a p) i) (mv (hq_n p) A (hq_init_u p) i) = r0) ->
     forall k, k < hq_steps p -> energy2 (hq_n p) A M (hsolution p z h k) = energy2 (hq_n p) A M (hsolution p z h 0)).
Proof.
  intros K Z p z h A M dofs Hlin HA HM H2 Hdt Hg Hb Hs Hns Hbc Hnd Hd Hu0.
  pose proof (quarter_nz H2) as Hb0. rewrite <- Hb in Hb0.
  assert (ES : forall k, 1 <= k < hq_steps p ->
    (forall d, In d dofs -> hu (hsolution p z h k) d = r0) /\
    (forall i, i < hq_n p -> ~ In i dofs -> radd (mv (hq_n p) M (ha (hsolution p z h k)) i) (mv (hq_n p) A (hu (hsolution p z h k)) i) = r0)).
  { intros k Hk. destruct (C20_equation_of_motion K Z p z h A (fun _ _ => r0) M (fun _ _ => r0)) with (k := k) as [V E]; auto.
    - intros i j _ _. reflexivity.
    - intros t. rewrite Hbc. cbn [fst]. eapply nonsingular_ext; [|exact Hns]. apply bc_matrix_ext. intros i j Hi Hj.
      rewrite Hb, Hg. apply avg_tang; assumption.
    - intros t. rewrite Hbc. cbn [fst snd]. rewrite map_length. auto.
    - rewrite Hbc in V, E. cbn [fst snd] in V, E. split.
      + intros d Hin. apply V. apply zero_pairs. exact Hin.
      + intros i Hi Hni. rewrite <- (E i Hi Hni). symmetry. apply add_mv0. }
  assert (EU0 : forall k d, k < hq_steps p -> In d dofs -> hu (hsolution p z h k) d = r0).
  { intros [|k] d Hk Hin; [rewrite hsolution_init; apply Hu0; exact Hin|apply ES; [lia|exact Hin]]. }
  assert (Step : forall k, 1 <= k < hq_steps p ->
     (forall i, i < hq_n p -> ~ In i dofs -> radd (mv (hq_n p) M (ha (hsolution p z h (k - 1))) i) (mv (hq_n p) A (hu (hsolution p z h (k - 1))) i) = r0) ->
     energy2 (hq_n p) A M (hsolution p z h k) = energy2 (hq_n p) A M (hsolution p z h (k - 1))).
  { intros k Hk Heq. pose proof (C20_newmark K Z p z h Hb0 Hdt H2 k Hk) as HN. rewrite Hg, Hb in HN.
    rewrite (energy_step (hq_n p) A M (hq_dt p) _ _ H2 HA HM HN). apply energy_zero. unfold dot. apply sum_0. intros i Hi.
    destruct (in_dec Nat.eq_dec i dofs) as [Hin|Hni].
    - rewrite (avg_velocity (hq_n p) (hq_dt p) (hsolution p z h (k - 1)) (hsolution p z h k) H2 Hdt HN i Hi).
      + apply mul_0_l_h.
      + rewrite !EU0 by (auto; lia). reflexivity.
    - rewrite (proj2 (ES k Hk) i Hi Hni), (Heq i Hi Hni). apply mul_00_h. }
  split.
  - intros k. induction k as [|k IH]; intros Hk; [lia|]. destruct (Nat.eq_dec k 0) as [->|Hk0]; [reflexivity|].
    rewrite (Step (S k) Hk) by (replace (S k - 1) with k by lia; apply ES; lia). replace (S k - 1) with k by lia. apply IH. lia.
  - intros H0 k. induction k as [|k IH]; intros Hk; [reflexivity|].
    assert (Hk' : S k - 1 = k) by lia.
    rewrite (Step (S k) ltac:(lia)); rewrite Hk'; [apply IH; lia|].
    destruct k as [|k]; [rewrite hsolution_init; exact H0|apply ES; lia].
Qed.
Print Assumptions C21_energy_partial.

Definition exHP0 : hpde Qc_field unit :=
  mkHPde (K := Qc_field) (Z := unit)
    (fun s _ t i => rsub (radd (radd (mv 2 exM (ha s) i) (mv 2 exO (hv s) i)) (mv 2 exA (hu s) i)) r0)
    (fun _ _ _ => exA) (fun _ _ _ => exO) (fun _ _ _ => exM) (fun _ _ _ c i => Q2Qc 1) (fun _ _ _ c i => Q2Qc 1).
Definition exHQ0 (u0 v0 : Qc) : hproblem Qc_field unit :=
  mkHProblem (K := Qc_field) (Z := unit) 2 3 (fun _ => ([0], [Q2Qc 0])) (solver2 (K := Qc_field)) (Q2Qc (1#2)) (Q2Qc (1#4)) (Q2Qc 2)
    (fun i => match i with 1 => u0 | _ => Q2Qc 0 end) (fun i => match i with 1 => v0 | _ => Q2Qc 0 end) (fun _ => Q2Qc 0) exHP0.
Lemma exHP0_linear : linear_hpde (K := Qc_field) 2 exHP0 tt exA (fun _ _ => r0) exM (fun _ _ => r0).
Proof. intros s t. repeat split. Qed.
Lemma exA_sym : symmetric (K := Qc_ring) 2 exA.
Proof. intros i j Hi Hj. unfold exA. rewrite Nat.eqb_sym. reflexivity. Qed.
Lemma exM_sym : symmetric (K := Qc_ring) 2 exM.
Proof. intros i j Hi Hj. unfold exM. rewrite Nat.eqb_sym. reflexivity. Qed.
(** A body with initial velocity 3 at node 1, at rest position: same energy 18 at all three states, with different velocities. *)
Example C21_partial_instance :
  nonsingular (K := Qc_field) 2 (bc_matrix (K := Qc_field) [0] (fun i j => radd (exA i j) (rmul (fdiv (c := Qc_field) (rmul two two) (rmul (Q2Qc 2 : Qc_ring) (Q2Qc 2))) (exM i j)))) /\
  map (fun k => (this (energy2 (K := Qc_field) 2 exA exM (hsolution (exHQ0 (Q2Qc 0) (Q2Qc 3)) tt anyh k)), this (hv (hsolution (exHQ0 (Q2Qc 0) (Q2Qc 3)) tt anyh k) 1))) [0; 1; 2]
    = [(18, 3); (18, 0); (18, -3#1)]%Q.
Proof.
  split. { apply (nonsingular2 (K := Qc_field)). vm_compute. discriminate. }
  vm_compute. reflexivity.
Qed.

(** Released from a displaced position, the energy of the first computed step differs from the initial one. *)
Theorem C21_initial_acceleration_refuted :
  exists (p : hproblem Qc_field unit) (A M : matr Qc_ring),
    linear_hpde (K := Qc_field) (hq_n p) (hq_pde p) tt A (fun _ _ => r0) M (fun _ _ => r0) /\
    symmetric (hq_n p) A /\ symmetric (hq_n p) M /\ hq_gamma p = Q2Qc (1#2) /\ hq_beta p = Q2Qc (1#4) /\
    (forall t, hq_bcs p t = ([0], [Q2Qc 0])) /\ hq_init_u p 0 = Q2Qc 0 /\ (forall i, hq_init_a p i = Q2Qc 0) /\
    forall h, energy2 (K := Qc_field) (hq_n p) A M (hsolution p tt h 1) <> energy2 (K := Qc_field) (hq_n p) A M (hsolution p tt h 0).
Proof.
  exists (exHQ0 (Q2Qc 1) (Q2Qc 0)), exA, exM. split; [exact exHP0_linear|]. split; [exact exA_sym|]. split; [exact exM_sym|].
  repeat (split; [reflexivity|]). intros h H. apply (f_equal this) in H. vm_compute in H. discriminate H.
Qed.
Print Assumptions C21_initial_acceleration_refuted.

(** ** C22 *)

(** With symmetric Jacobians and prescribed values zero at the last step, the gradient is the total derivative for the equations whose
    derivatives at step k are those evaluated at time (k+1) dt: the right ones if they do not depend on time.
    Missing with respect to C22: nonzero prescribed values, unsymmetric Jacobians, and derivatives that depend on time (refuted below). *)
Theorem C22_adjoint_partial :
  forall (K : CField) (Z : Type) (p : hproblem K Z) (z : Z) (h : hhistory K) (c : hcriterion K Z) (np : nat) (bc : list nat * list K)
         (JU JV JA RP : nat -> matr K),
    hq_beta p <> r0 -> hq_dt p <> r0 -> @two K <> r0 -> solver_ok (hq_n p) (hq_solve p) ->
    length (snd bc) = length (fst bc) -> (forall d, In d (fst bc) -> d < hq_n p) -> (forall w, In w (snd bc) -> w = r0) ->
    let t k := times (S k) (hq_dt p) in
    (forall k i j, 1 <= k < hq_steps p -> i < hq_n p -> j < hq_n p ->
       hp_gradient_u (hq_pde p) (h k) z (t k) i j = JU k i j /\ hp_gradient_v (hq_pde p) (h k) z (t k) i j = JV k i j /\
       hp_gradient_a (hq_pde p) (h k) z (t k) i j = JA k i j) ->
    (forall k i q, 1 <= k < hq_steps p -> i < hq_n p -> q < np -> hp_gradient_z (hq_pde p) (h k) z (t k) q i = RP k i q) ->
    (forall k, 1 <= k < hq_steps p -> symmetric (hq_n p) (JU k) /\ symmetric (hq_n p) (JV k) /\ symmetric (hq_n p) (JA k)) ->
    (forall k, 1 <= k < hq_steps p -> nonsingular (hq_n p) (bc_matrix (fst bc)
       (fun i j => radd (radd (JU k i j) (rmul (ropp (nv_grad_u (hq_gamma p) (hq_beta p) (hq_dt p))) (JV k i j)))
                        (rmul (ropp (na_grad_u (hq_gamma p) (hq_beta p) (hq_dt p))) (JA k i j))))) ->
    hhistory_gradient (hq_steps p) (hq_n p) np (fst bc) (hq_gamma p) (hq_beta p) (hq_dt p) JU JV JA RP
      (hc_gradient_u c h z) (hc_gradient_v c h z) (hc_gradient_a c h z) (hc_gradient_z c h z) (hcriterionGradient p z h bc c).
Proof.
  intros K Z p z h c np bc JU JV JA RP Hb Hdt H2 Hs Hlen Hd Hz t HJ HP Hsym Hns ds dp Ht.
  unfold hcriterionGradient. destruct (Nat.eq_dec (hq_steps p) 0) as [E0|E0].
  { rewrite E0. simpl. symmetry. apply add_0_r_h. }
  rewrite (hbackward_ok p z h bc _ _ _ _ (hq_steps p) np JU JV JA RP ds dp); auto; try lia;
    [..|replace (S (hq_steps p - 1)) with (hq_steps p) by lia; reflexivity].
  - simpl hcarry. rewrite add_0_r_h. reflexivity.
  - intros; apply HJ; assumption.
  - intros; apply HJ; assumption.
  - intros; apply HJ; assumption.
  - intros; apply HP; assumption.
  - intros; apply Hsym; assumption.
  - intros; apply Hsym; assumption.
  - intros; apply Hsym; assumption.
  - intros k Hk. eapply nonsingular_ext; [|exact (Hns k Hk)]. apply bc_matrix_ext. intros i j Hi Hj. unfold htang.
    destruct (HJ k i j Hk Hi Hj) as [E1 [E2 E3]]. unfold t in *. rewrite E1, E2, E3. reflexivity.
Qed.
Print Assumptions C22_adjoint_partial.

(** The same for the derivative with respect to the nodal coordinates. *)
Theorem C22_adjoint_shape_partial :
  forall (K : CField) (Z : Type) (p : hproblem K Z) (z : Z) (h : hhistory K) (c : hcriterion K Z) (np : nat) (bc : list nat * list K)
         (JU JV JA RP : nat -> matr K),
    hq_beta p <> r0 -> hq_dt p <> r0 -> @two K <> r0 -> solver_ok (hq_n p) (hq_solve p) ->
    length (snd bc) = length (fst bc) -> (forall d, In d (fst bc) -> d < hq_n p) -> (forall w, In w (snd bc) -> w = r0) ->
    let t k := times (S k) (hq_dt p) in
    (forall k i j, 1 <= k < hq_steps p -> i < hq_n p -> j < hq_n p ->
       hp_gradient_u (hq_pde p) (h k) z (t k) i j = JU k i j /\ hp_gradient_v (hq_pde p) (h k) z (t k) i j = JV k i j /\
       hp_gradient_a (hq_pde p) (h k) z (t k) i j = JA k i j) ->
    (forall k i q, 1 <= k < hq_steps p -> i < hq_n p -> q < np -> hp_gradient_x (hq_pde p) (h k) z (t k) q i = RP k i q) ->
    (forall k, 1 <= k < hq_steps p -> symmetric (hq_n p) (JU k) /\ symmetric (hq_n p) (JV k) /\ symmetric (hq_n p) (JA k)) ->
    (forall k, 1 <= k < hq_steps p -> nonsingular (hq_n p) (bc_matrix (fst bc)
       (fun i j => radd (radd (JU k i j) (rmul (ropp (nv_grad_u (hq_gamma p) (hq_beta p) (hq_dt p))) (JV k i j)))
                        (rmul (ropp (na_grad_u (hq_gamma p) (hq_beta p) (hq_dt p))) (JA k i j))))) ->
    hhistory_gradient (hq_steps p) (hq_n p) np (fst bc) (hq_gamma p) (hq_beta p) (hq_dt p) JU JV JA RP
      (hc_gradient_u c h z) (hc_gradient_v c h z) (hc_gradient_a c h z) (hc_gradient_x c h z) (hcriterionGradientX p z h bc c).
Proof.
  intros K Z p z h c np bc JU JV JA RP Hb Hdt H2 Hs Hlen Hd Hz t HJ HP Hsym Hns ds dp Ht.
  unfold hcriterionGradientX. destruct (Nat.eq_dec (hq_steps p) 0) as [E0|E0].
  { rewrite E0. simpl. symmetry. apply add_0_r_h. }
  rewrite (hbackward_ok p z h bc _ _ _ _ (hq_steps p) np JU JV JA RP ds dp); auto; try lia;
    [..|replace (S (hq_steps p - 1)) with (hq_steps p) by lia; reflexivity].
  - simpl hcarry. rewrite add_0_r_h. reflexivity.
  - intros; apply HJ; assumption.
  - intros; apply HJ; assumption.
  - intros; apply HJ; assumption.
  - intros; apply HP; assumption.
  - intros; apply Hsym; assumption.
  - intros; apply Hsym; assumption.
  - intros; apply Hsym; assumption.
  - intros k Hk. eapply nonsingular_ext; [|exact (Hns k Hk)]. apply bc_matrix_ext. intros i j Hi Hj. unfold htang.
    destruct (HJ k i j Hk Hi Hj) as [E1 [E2 E3]]. unfold t in *. rewrite E1, E2, E3. reflexivity.
Qed.
Print Assumptions C22_adjoint_shape_partial.

(** A one-dof oscillator (plus a fixed node) and the variation of its first step when the parameter varies by 1. *)
Definition unitm : matr Qc_ring := fun i j => if Nat.eqb i j then Q2Qc 1 else Q2Qc 0.
Definition exHPt (time_dep : bool) : hpde Qc_field unit :=
  mkHPde (K := Qc_field) (Z := unit)
    (fun s _ t i => rsub (radd (mv 2 unitm (ha s) i) (mv 2 unitm (hu s) i)) (if time_dep then t else r1))
    (fun _ _ _ => unitm) (fun _ _ _ => exO) (fun _ _ _ => unitm) (fun _ _ _ c i => Q2Qc (-1))
    (fun _ _ t c i => ropp (if time_dep then t else r1 : Qc_ring)).
Definition exHQt (time_dep : bool) (w : Qc) : hproblem Qc_field unit :=
  mkHProblem (K := Qc_field) (Z := unit) 2 2 (fun _ => ([0], [w])) (solver2 (K := Qc_field)) (Q2Qc (1#2)) (Q2Qc (1#4)) (Q2Qc 1)
    (fun _ => Q2Qc 0) (fun _ => Q2Qc 0) (fun _ => Q2Qc 0) (exHPt time_dep).
Definition exHC : hcriterion Qc_field unit :=
  mkHCriterion (K := Qc_field) (Z := unit) (fun _ _ k i => Q2Qc 1) (fun _ _ k i => Q2Qc 0) (fun _ _ k i => Q2Qc 0) (fun _ _ _ => Q2Qc 0) (fun _ _ _ => Q2Qc 0).
Definition ex_ds (k : nat) : hstate Qc_field :=
  match k with
  | 1 => mkH (K := Qc_field) (fun i => match i with 1 => Q2Qc (1#5) | _ => Q2Qc 0 end) (fun i => match i with 1 => Q2Qc (2#5) | _ => Q2Qc 0 end)
             (fun i => match i with 1 => Q2Qc (4#5) | _ => Q2Qc 0 end)
  | _ => hzero (K := Qc_field)
  end.
Definition ex_RPx (b : bool) (w : Qc) : nat -> matr Qc_ring := fun k i q => hp_gradient_x (exHPt b) (hsolution (exHQt b w) tt anyh k) tt (times (K := Qc_field) k (Q2Qc 1)) q i.
Lemma ex_tangent b w : hhistory_tangent (K := Qc_field) 2 2 1 [0] (Q2Qc (1#2)) (Q2Qc (1#4)) (Q2Qc 1) (fun _ => unitm) (fun _ => exO) (fun _ => unitm) (ex_RPx b w) ex_ds (fun _ => Q2Qc 1).
Proof.
  split; [intros i Hi; repeat split|]. intros k Hk. assert (k = 1) as -> by lia.
  split; [intros d [<-|[]]; reflexivity|]. split.
  - intros i Hi Hni. destruct i as [|[|i]]; [exfalso; apply Hni; left; reflexivity| |lia]. unfold ex_RPx. destruct b; apply Qc_is_canon; vm_compute; reflexivity.
  - intros i Hi. destruct i as [|[|i]]; [| |lia]; split; apply Qc_is_canon; vm_compute; reflexivity.
Qed.
(** Non-vacuity of the partial theorems: static load. The gradient 1/5 is the derivative of u. *)
Definition exJ : matr Qc_ring := fun i j => match i, j with 0, 0 => Q2Qc 2 | 0, _ => Q2Qc 1 | _, 0 => Q2Qc 3 | _, _ => Q2Qc 4 end.
Example C22_partial_instance :
  nonsingular (K := Qc_field) 2 (bc_matrix (K := Qc_field) [0]
       (fun i j => radd (radd (unitm i j) (rmul (ropp (nv_grad_u (K := Qc_field) (Q2Qc (1#2)) (Q2Qc (1#4)) (Q2Qc 1))) (exO i j)))
                        (rmul (ropp (na_grad_u (K := Qc_field) (Q2Qc (1#2)) (Q2Qc (1#4)) (Q2Qc 1))) (unitm i j)))) /\
  this (hcriterionGradientX (exHQt false (Q2Qc 0)) tt (hsolution (exHQt false (Q2Qc 0)) tt anyh) (hlast_bc (exHQt false (Q2Qc 0))) exHC 0) = (1#5)%Q /\
  this (hcriterionGradient (exHQt false (Q2Qc 0)) tt (hsolution (exHQt false (Q2Qc 0)) tt anyh) (hlast_bc (exHQt false (Q2Qc 0))) exHC 0) = (1#5)%Q.
Proof.
  split. { apply (nonsingular2 (K := Qc_field)). vm_compute. discriminate. }
  split; vm_compute; reflexivity.
Qed.

(** A load that grows with time: the shape gradient evaluates step k at time (k+1) dt. *)
Theorem C22_time_shift_refuted :
  exists (p : hproblem Qc_field unit) (c : hcriterion Qc_field unit) (A C M : matr Qc_ring) (F : Qc -> vect Qc_ring),
    linear_hpde (K := Qc_field) (hq_n p) (hq_pde p) tt A C M F /\ symmetric (hq_n p) A /\ symmetric (hq_n p) C /\ symmetric (hq_n p) M /\
    solver_ok (hq_n p) (hq_solve p) /\ (forall t, hq_bcs p t = ([0], [Q2Qc 0])) /\
    forall stored, let h := hsolution p tt stored in
    ~ hhistory_gradient (K := Qc_field) (hq_steps p) (hq_n p) 1 [0] (hq_gamma p) (hq_beta p) (hq_dt p) (fun _ => A) (fun _ => C) (fun _ => M)
        (fun k i q => hp_gradient_x (hq_pde p) (h k) tt (times (K := Qc_field) k (hq_dt p)) q i)
        (hc_gradient_u c h tt) (hc_gradient_v c h tt) (hc_gradient_a c h tt) (hc_gradient_x c h tt)
        (hcriterionGradientX p tt h (hlast_bc p) c).
Proof.
  exists (exHQt true (Q2Qc 0)), exHC, unitm, (fun _ _ => r0), unitm, (fun t _ => t).
  split. { intros s t. split; [|split; [|split]; reflexivity]. intros i Hi. cbn [hp_value hq_pde exHQt exHPt hq_n].
    rewrite (add_mv0 (K := Qc_field)). reflexivity. }
  assert (U : symmetric (K := Qc_ring) 2 unitm) by (intros i j Hi Hj; unfold unitm; rewrite Nat.eqb_sym; reflexivity).
  split; [exact U|]. split; [intros i j _ _; reflexivity|]. split; [exact U|]. split; [exact (solver2_ok (K := Qc_field))|]. split; [reflexivity|].
  intros stored h H. specialize (H _ _ (ex_tangent true (Q2Qc 0))).
  apply (f_equal this) in H. vm_compute in H. discriminate H.
Qed.
Print Assumptions C22_time_shift_refuted.

(** Nonzero prescribed values: the adjoint takes them too. *)
Theorem C22_nonzero_values_refuted :
  exists (p : hproblem Qc_field unit) (c : hcriterion Qc_field unit) (A C M : matr Qc_ring) (F : Qc -> vect Qc_ring),
    linear_hpde (K := Qc_field) (hq_n p) (hq_pde p) tt A C M F /\ symmetric (hq_n p) A /\ symmetric (hq_n p) C /\ symmetric (hq_n p) M /\
    solver_ok (hq_n p) (hq_solve p) /\ (forall t, hq_bcs p t = ([0], [Q2Qc 3])) /\
    (forall s z t t', hp_gradient_z (hq_pde p) s z t = hp_gradient_z (hq_pde p) s z t') /\
    forall stored, let h := hsolution p tt stored in
    ~ hhistory_gradient (K := Qc_field) (hq_steps p) (hq_n p) 1 [0] (hq_gamma p) (hq_beta p) (hq_dt p) (fun _ => A) (fun _ => C) (fun _ => M)
        (fun k i q => hp_gradient_z (hq_pde p) (h k) tt (times (K := Qc_field) k (hq_dt p)) q i)
        (hc_gradient_u c h tt) (hc_gradient_v c h tt) (hc_gradient_a c h tt) (hc_gradient_z c h tt)
        (hcriterionGradient p tt h (hlast_bc p) c).
Proof.
  exists (exHQt false (Q2Qc 3)), exHC, unitm, (fun _ _ => r0), unitm, (fun t _ => r1).
  split. { intros s t. split; [|split; [|split]; reflexivity]. intros i Hi. cbn [hp_value hq_pde exHQt exHPt hq_n].
    rewrite (add_mv0 (K := Qc_field)). reflexivity. }
  assert (U : symmetric (K := Qc_ring) 2 unitm) by (intros i j Hi Hj; unfold unitm; rewrite Nat.eqb_sym; reflexivity).
  split; [exact U|]. split; [intros i j _ _; reflexivity|]. split; [exact U|]. split; [exact (solver2_ok (K := Qc_field))|]. split; [reflexivity|].
  split; [reflexivity|].
  intros stored h H. specialize (H _ _ (ex_tangent false (Q2Qc 3))).
  apply (f_equal this) in H. vm_compute in H. discriminate H.
Qed.
Print Assumptions C22_nonzero_values_refuted.

(** Unsymmetric stiffness: the adjoint system is not transposed. *)
Definition exHPu : hpde Qc_field unit :=
  mkHPde (K := Qc_field) (Z := unit)
    (fun s _ t i => mv 2 exJ (hu s) i) (fun _ _ _ => exJ) (fun _ _ _ => exO) (fun _ _ _ => exO)
    (fun _ _ _ c i => match i with 0 => Q2Qc 5 | _ => Q2Qc 6 end) (fun _ _ _ c i => Q2Qc 1).
Definition exHQu : hproblem Qc_field unit :=
  mkHProblem (K := Qc_field) (Z := unit) 2 2 (fun _ => ([], [])) (solver2 (K := Qc_field)) (Q2Qc (1#2)) (Q2Qc (1#4)) (Q2Qc 1)
    (fun _ => Q2Qc 0) (fun _ => Q2Qc 0) (fun _ => Q2Qc 0) exHPu.
Definition exHCu : hcriterion Qc_field unit :=
  mkHCriterion (K := Qc_field) (Z := unit) (fun _ _ k i => match i with 0 => Q2Qc 1 | _ => Q2Qc 0 end) (fun _ _ k i => Q2Qc 0) (fun _ _ k i => Q2Qc 0) (fun _ _ _ => Q2Qc 0) (fun _ _ _ => Q2Qc 0).
Lemma Qc_00pm (x : Qc) : (x = Q2Qc 0 + Q2Qc 0 + x - Q2Qc 0)%Qc.
Proof. ring. Qed.
Theorem C22_unsymmetric_refuted :
  exists (p : hproblem Qc_field unit) (c : hcriterion Qc_field unit) (A C M : matr Qc_ring) (F : Qc -> vect Qc_ring),
    linear_hpde (K := Qc_field) (hq_n p) (hq_pde p) tt A C M F /\
    solver_ok (hq_n p) (hq_solve p) /\ (forall t, hq_bcs p t = ([], [])) /\
    (forall s z t t', hp_gradient_z (hq_pde p) s z t = hp_gradient_z (hq_pde p) s z t') /\
    forall stored, let h := hsolution p tt stored in
    ~ hhistory_gradient (K := Qc_field) (hq_steps p) (hq_n p) 1 [] (hq_gamma p) (hq_beta p) (hq_dt p) (fun _ => A) (fun _ => C) (fun _ => M)
        (fun k i q => hp_gradient_z (hq_pde p) (h k) tt (times (K := Qc_field) k (hq_dt p)) q i)
        (hc_gradient_u c h tt) (hc_gradient_v c h tt) (hc_gradient_a c h tt) (hc_gradient_z c h tt)
        (hcriterionGradient p tt h (hlast_bc p) c).
Proof.
  exists exHQu, exHCu, exJ, (fun _ _ => r0), (fun _ _ => r0), (fun _ _ => r0).
  split. { intros s t. split; [|split; [|split]; reflexivity]. intros i Hi. cbn [hp_value hq_pde exHQu exHPu hq_n].
    change (mv 2 exJ (hu s) i = sum 2 (fun j => r0 * ha s j) + sum 2 (fun j => r0 * hv s j) + mv 2 exJ (hu s) i - r0)%K.
    rewrite !sum_0 by (intros; apply (mul_0_l_h (K := Qc_field))). apply (Qc_00pm (mv 2 exJ (hu s) i)). }
  split; [exact (solver2_ok (K := Qc_field))|]. split; [reflexivity|]. split; [reflexivity|].
  intros stored h H.
  specialize (H (fun k => match k with 1 => mkH (K := Qc_field) (fun i => match i with 0 => Q2Qc (-14#5) | _ => Q2Qc (3#5) end)
                                       (fun i => match i with 0 => Q2Qc (-28#5) | _ => Q2Qc (6#5) end)
                                       (fun i => match i with 0 => Q2Qc (-56#5) | _ => Q2Qc (12#5) end) | _ => hzero (K := Qc_field) end) (fun _ => Q2Qc 1)).
  match type of H with ?T -> _ => assert (T0 : T) end.
  { split; [intros i Hi; repeat split|]. intros k Hk. cbn in Hk. assert (k = 1) as -> by lia.
    split; [intros d []|]. split; intros i Hi; cbn in Hi.
    - intros _. destruct i as [|[|i]]; [| |lia]; apply Qc_is_canon; vm_compute; reflexivity.
    - destruct i as [|[|i]]; [| |lia]; split; apply Qc_is_canon; vm_compute; reflexivity. }
  specialize (H T0). apply (f_equal this) in H. vm_compute in H. discriminate H.
Qed.
Print Assumptions C22_unsymmetric_refuted.

(** ** C23 *)

(** Whatever was done before with the same problem object, solving again gives the same history, and the gradients computed
    from it are the same. *)
Theorem C23_history_independent :
  forall (K : CField) (Z : Type) (p : hproblem K Z) (m1 m2 : hmem K) (ops1 ops2 : list (hop K Z)) (z : Z),
    snd (hexec p (OSolve z) (hrun p ops1 m1)) = snd (hexec p (OSolve z) (hrun p ops2 m2)) /\
    forall c, snd (hexec p (OGradient z c) (hrun p (ops1 ++ [OSolve z]) m1)) = snd (hexec p (OGradient z c) (hrun p (ops2 ++ [OSolve z]) m2)) /\
              snd (hexec p (OGradientX z c) (hrun p (ops1 ++ [OSolve z]) m1)) = snd (hexec p (OGradientX z c) (hrun p (ops2 ++ [OSolve z]) m2)).
Proof.
  intros K Z p m1 m2 ops1 ops2 z. split; [reflexivity|]. intros c.
  assert (R : forall ops m, hrun p (ops ++ [OSolve z]) m = fst (hexec p (OSolve z) (hrun p ops m))).
  { induction ops as [|o ops IH]; intros m; [reflexivity|]. cbn [app hrun]. apply IH. }
  rewrite !R. cbn [hexec fst snd hm_hist hm_bc]. destruct (Nat.leb_spec 2 (hq_steps p)) as [H|H]; [split; reflexivity|].
  assert (E : hq_steps p - 1 = 0) by lia. unfold hcriterionGradient, hcriterionGradientX. rewrite E. split; reflexivity.
Qed.
Print Assumptions C23_history_independent.

(** Gradients asked for after storing a state are those of that state, whatever else was stored or solved before; after a solve the
    boundary conditions they use are those of the last step. *)
Theorem C23_given_state :
  forall (K : CField) (Z : Type) (p : hproblem K Z) (m : hmem K) (ops : list (hop K Z)) (h : hhistory K) (z z' : Z) (c : hcriterion K Z),
    2 <= hq_steps p -> In (OSolve z') ops ->
    snd (hexec p (OGradient z c) (hrun p (ops ++ [OSet h]) m)) = OutVector (hcriterionGradient p z h (hlast_bc p) c) /\
    snd (hexec p (OGradientX z c) (hrun p (ops ++ [OSet h]) m)) = OutVector (hcriterionGradientX p z h (hlast_bc p) c).
Proof.
  intros K Z p m ops h z z' c Hn Hin.
  assert (R : forall ops o m, hrun p (ops ++ [o]) m = fst (hexec p o (hrun p ops m))).
  { clear. induction ops as [|o' ops IH]; intros o m; [reflexivity|]. cbn [app hrun]. apply IH. }
  assert (B : hm_bc (hrun p ops m) = hlast_bc p).
  { clear h. revert Hin. pattern ops. apply rev_ind; clear ops; [intros []|]. intros o ops IH Hin. rewrite R.
    destruct o as [z1|z1 c1|z1 c1|h1]; cbn [hexec fst hm_bc].
    - destruct (Nat.leb_spec 2 (hq_steps p)); [reflexivity|lia].
    - apply IH. apply in_app_or in Hin as [H|[H|[]]]; [exact H|discriminate].
    - apply IH. apply in_app_or in Hin as [H|[H|[]]]; [exact H|discriminate].
    - apply IH. apply in_app_or in Hin as [H|[H|[]]]; [exact H|discriminate]. }
  rewrite !R. cbn [hexec fst snd hm_hist hm_bc]. rewrite B. split; reflexivity.
Qed.
Print Assumptions C23_given_state.
(** The second of two solves, after a gradient, gives displacement 1/5 as the first one does. *)
Example C23_instance :
  match snd (hexec (exHQt false (Q2Qc 0)) (OSolve tt) (hrun (exHQt false (Q2Qc 0)) [OSolve tt; OGradient tt exHC; OSet anyh] (mkHMem (K := Qc_field) anyh ([], [])))) with
  | OutHistory h => this (hu (h 1) 1) = (1#5)%Q | _ => False end.
Proof. vm_compute. reflexivity. Qed.
