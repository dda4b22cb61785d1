(** Properties of the transient heat problem (C17-C19). *)
From Coq Require Import ZArith QArith Qcanon Arith Lia List Bool Ring Field.
From Verif Require Import Base.Field Base.Sums Base.Res BC.ConstraintsSpec BC.ConstraintsMain Problem.DenseBC Problem.SmallSolver
  Problem.EllipticProof Problem.ParabolicModel Problem.ParabolicSpec Problem.ParabolicProof.
Import ListNotations.
Local Open Scope nat_scope.

(** ** C17 *)

(** The trapezoid rule holds at every step, for nonlinear problems too. *)
Theorem C17_trapezoid :
  forall (K : CField) (Z : Type) (p : pproblem K Z) (z : Z) (h : phistory K),
    pq_alpha p <> r0 -> pq_dt p <> r0 -> 0 < pq_newton p ->
    pq_newton p = 1 \/ (forall r, pq_res_small p r = false) ->
    forall k, 1 <= k < pq_steps p ->
      trapezoid (pq_n p) (pq_alpha p) (pq_dt p) (psolution p z h (k - 1)) (psolution p z h k).
Proof.
  intros K Z p z h Ha Hdt Hn Hno k Hk. rewrite (psolution_step p z h k Hk). destruct (h k) as [u v].
  apply (pnewton_first p z (fun s => trapezoid (pq_n p) (pq_alpha p) (pq_dt p) _ s)); auto.
  - destruct Hno as [H|H]; [left; exact H|right; apply H].
  - apply upd_trapezoid; assumption.
  - intros. apply upd_trapezoid; assumption.
Qed.
Print Assumptions C17_trapezoid.

(** Linear problems: every step also takes the prescribed values and satisfies the equations at the free dofs.  The stored
    states of the steps to compute are zero at the constrained dofs (they are zero in a new problem; see C18). *)
Theorem C17_linear_steps :
  forall (K : CField) (Z : Type) (p : pproblem K Z) (z : Z) (h : phistory K) (A C : matr K) (F : vect K),
    linear_ppde (pq_n p) (pq_pde p) z A C F -> symmetric (pq_n p) A -> symmetric (pq_n p) C ->
    pq_alpha p <> r0 -> pq_dt p <> r0 -> 0 < pq_newton p ->
    pq_newton p = 1 \/ (forall r, pq_res_small p r = false) ->
    solver_ok (pq_n p) (pq_solve p) ->
    nonsingular (pq_n p) (bc_matrix (pq_dofs p) (fun i j => radd (A i j) (fdiv (C i j) (rmul (pq_alpha p) (pq_dt p))))) ->
    length (pq_vals p) = length (pq_dofs p) -> NoDup (pq_dofs p) -> (forall d, In d (pq_dofs p) -> d < pq_n p) ->
    (forall k d, 1 <= k < pq_steps p -> In d (pq_dofs p) -> fst (h k) d = r0) ->
    forall k, 1 <= k < pq_steps p ->
      (forall d w, In (d, w) (combine (pq_dofs p) (pq_vals p)) -> fst (psolution p z h k) d = w) /\
      (forall i, i < pq_n p -> ~ In i (pq_dofs p) ->
         radd (mv (pq_n p) A (fst (psolution p z h k)) i) (mv (pq_n p) C (snd (psolution p z h k)) i) = F i).
Proof.
  intros K Z p z h A C F Hlin HA HC Ha Hdt Hn Hno Hs Hns Hlen Hnd Hd Hh k Hk.
  assert (Hns' : forall u v, nonsingular (pq_n p) (bc_matrix (pq_dofs p) (tang p z u v))).
  { intros u v. eapply nonsingular_ext; [|exact Hns]. apply bc_matrix_ext. intros i j Hi Hj. unfold tang.
    destruct (Hlin u v) as [_ [-> ->]]; auto. apply tang_form; assumption. }
  assert (Hc : compatible r1 (pq_dofs p) (pq_vals p)) by (apply NoDup_compatible; exact Hnd).
  pose proof (Hh k) as Hz. rewrite (psolution_step p z h k Hk). destruct (h k) as [u v] eqn:Eh.
  apply (pnewton_first p z (fun s => (forall d w, In (d, w) (combine (pq_dofs p) (pq_vals p)) -> fst s d = w) /\ eq_free p A C F s)); auto.
  - destruct Hno as [H|H]; [left; exact H|right; apply H].
  - split; [|apply upd_free; auto].
    intros d w Hin. cbn [fst]. unfold upd_u. rewrite (pinc_values p z Hc Hd Hs Hns' _ u v d w Hin).
    cbn [fst] in Hz. rewrite Hz by (auto; eapply in_combine_l; eauto). apply zero_one_mul.
  - intros u0 v0 [I1 I2]. split; [|apply upd_free; auto].
    intros d w Hin. cbn [fst] in *. unfold upd_u.
    rewrite (pinc_zero p z Hlen Hd Hs Hns' _ u0 v0 d) by (eapply in_combine_l; eauto). rewrite (I1 d w Hin). apply add_one_zero.
Qed.
Print Assumptions C17_linear_steps.

(** When more than one Newton step is allowed and the test on the residual passes on the stored content of the step, the step
    is left as it was stored (neither the boundary conditions nor the trapezoid rule are imposed). *)
Theorem C17_early_exit :
  forall (K : CField) (Z : Type) (p : pproblem K Z) (z : Z) (h : phistory K) k u v,
    1 < pq_newton p -> 1 <= k < pq_steps p -> h k = (u, v) ->
    pq_res_small p (fun i => radd (rmul (ropp r1) (pp_value (pq_pde p) u v z i))
      (mv (pq_n p) (pp_gradient_v (pq_pde p) u v z)
         (v_value (pq_alpha p) (pq_dt p) u (fst (psolution p z h (k - 1))) v (snd (psolution p z h (k - 1)))) i)) = true ->
    psolution p z h k = (u, v).
Proof.
  intros K Z p z h k u v Hn Hk Eh Hr. rewrite (psolution_step p z h k Hk), Eh.
  destruct (pq_newton p) as [|m] eqn:E; [lia|]. rewrite pnewton_S. unfold pres. rewrite Hr, E.
  assert (H : Nat.ltb 1 (S m) = true) by (apply Nat.ltb_lt; exact Hn). rewrite H. reflexivity.
Qed.
Print Assumptions C17_early_exit.

(** Two nodes: conductivity [[2,-1],[-1,2]], capacity [[2,1],[1,2]]; node 0 held at 3; alpha = 1/2, dt = 2; three states. *)
Definition exA : matr Qc_ring := fun i j => if Nat.eqb i j then Q2Qc 2 else Q2Qc (-1).
Definition exCap : matr Qc_ring := fun i j => if Nat.eqb i j then Q2Qc 2 else Q2Qc 1.
Definition exF : vect Qc_ring := fun i => match i with 1 => Q2Qc 3 | _ => Q2Qc 0 end.
Definition exPP : ppde Qc_field unit :=
  mkPPde (K := Qc_field) (Z := unit) (fun u v _ i => rsub (radd (mv 2 exA u i) (mv 2 exCap v i)) (exF i))
    (fun _ _ _ => exA) (fun _ _ _ => exCap) (fun _ _ _ c i => Q2Qc 1) (fun _ _ _ c i => Q2Qc 1).
Definition exPQ (vals : list Qc) (newton : nat) : pproblem Qc_field unit :=
  mkPProblem (K := Qc_field) (Z := unit) 2 3 newton (fun _ => false) (fun _ => false) [0] vals (solver2 (K := Qc_field)) (Q2Qc (1#2)) (Q2Qc 2) exPP.
Definition fresh : phistory Qc_field := fun _ => (fun _ => Q2Qc 0, fun _ => Q2Qc 0).
Lemma exPP_linear : linear_ppde (K := Qc_field) 2 exPP tt exA exCap exF.
Proof. intros u v. repeat split. Qed.
Lemma exA_sym : symmetric (K := Qc_ring) 2 exA.
Proof. intros i j Hi Hj. unfold exA. rewrite Nat.eqb_sym. reflexivity. Qed.
Lemma exCap_sym : symmetric (K := Qc_ring) 2 exCap.
Proof. intros i j Hi Hj. unfold exCap. rewrite Nat.eqb_sym. reflexivity. Qed.
Example C17_instance :
  nonsingular (K := Qc_field) 2 (bc_matrix (K := Qc_field) [0] (fun i j => radd (exA i j) (fdiv (c := Qc_field) (exCap i j) (rmul (Q2Qc (1#2) : Qc_ring) (Q2Qc 2))))) /\
  map (fun k => (this (fst (psolution (exPQ [Q2Qc 3] 2) tt fresh k) 0), this (fst (psolution (exPQ [Q2Qc 3] 2) tt fresh k) 1))) [0; 1; 2] =
    [(0, 0); (3, 3#4); (3, 3)]%Q.
Proof.
  split. { apply (nonsingular2 (K := Qc_field)). vm_compute. discriminate. }
  vm_compute. reflexivity.
Qed.

(** ** C18: refuted. *)

(** Each solve adds the prescribed values to what is stored. *)
Theorem C18_accumulates :
  forall (K : CField) (Z : Type) (p : pproblem K Z) (z : Z) (h : phistory K),
    pq_newton p = 1 -> solver_ok (pq_n p) (pq_solve p) ->
    (forall u v, nonsingular (pq_n p) (bc_matrix (pq_dofs p)
       (fun i j => radd (pp_gradient_u (pq_pde p) u v z i j) (rmul (ropp (v_grad_u (pq_alpha p) (pq_dt p))) (pp_gradient_v (pq_pde p) u v z i j))))) ->
    NoDup (pq_dofs p) -> (forall d, In d (pq_dofs p) -> d < pq_n p) ->
    forall k d w, 1 <= k < pq_steps p -> In (d, w) (combine (pq_dofs p) (pq_vals p)) ->
      fst (psolution p z h k) d = radd (fst (h k) d) w.
Proof.
  intros K Z p z h Hn Hs Hns Hnd Hd k d w Hk Hin.
  assert (Hc : compatible r1 (pq_dofs p) (pq_vals p)) by (apply NoDup_compatible; exact Hnd).
  rewrite (psolution_step p z h k Hk). destruct (h k) as [u v].
  rewrite Hn, pnewton_S, Hn. cbn [Nat.ltb Nat.leb andb Nat.eqb]. cbn [fst pnewton]. unfold upd_u.
  rewrite (pinc_values p z Hc Hd Hs Hns _ u v d w Hin). apply add_one_mul.
Qed.
Print Assumptions C18_accumulates.

Theorem C18_refuted :
  exists (p : pproblem Qc_field unit) (A C : matr Qc_ring) (F : vect Qc_ring) (h : phistory Qc_field),
    linear_ppde (K := Qc_field) (pq_n p) (pq_pde p) tt A C F /\ solver_ok (pq_n p) (pq_solve p) /\ NoDup (pq_dofs p) /\
    (forall k, h k = (fun _ => r0, fun _ => r0)) /\
    exists k d, k < pq_steps p /\ d < pq_n p /\
      fst (psolution p tt (psolution p tt h) k) d <> fst (psolution p tt h k) d.
Proof.
  exists (exPQ [Q2Qc 3] 1), exA, exCap, exF, fresh. split; [exact exPP_linear|]. split; [exact (solver2_ok (K := Qc_field))|].
  split; [repeat constructor; simpl; tauto|]. split; [reflexivity|]. exists 1, 0. split; [simpl; lia|]. split; [simpl; lia|].
  intros H. apply (f_equal this) in H. vm_compute in H. discriminate H.
Qed.
Print Assumptions C18_refuted.

(** With all prescribed values zero, the computed history of a linear problem depends on the stored history only
    through its initial state.  Missing with respect to C18: nonzero prescribed values (refuted above) and more than one
    Newton step. *)
Theorem C18_zero_values_partial :
  forall (K : CField) (Z : Type) (p : pproblem K Z) (z : Z) (h1 h2 : phistory K) (A C : matr K) (F : vect K),
    linear_ppde (pq_n p) (pq_pde p) z A C F -> symmetric (pq_n p) A -> symmetric (pq_n p) C ->
    pq_alpha p <> r0 -> pq_dt p <> r0 -> pq_newton p = 1 -> solver_ok (pq_n p) (pq_solve p) ->
    let T := bc_matrix (pq_dofs p) (fun i j => radd (A i j) (fdiv (C i j) (rmul (pq_alpha p) (pq_dt p)))) in
    nonsingular (pq_n p) T ->
    (forall x, (forall i, i < pq_n p -> mv (pq_n p) T x i = r0) -> forall i, i < pq_n p -> x i = r0) ->
    length (pq_vals p) = length (pq_dofs p) -> NoDup (pq_dofs p) -> (forall d, In d (pq_dofs p) -> d < pq_n p) ->
    (forall w, In w (pq_vals p) -> w = r0) ->
    (forall i, i < pq_n p -> fst (h1 0) i = fst (h2 0) i /\ snd (h1 0) i = snd (h2 0) i) ->
    (forall k d, 1 <= k < pq_steps p -> In d (pq_dofs p) -> fst (h1 k) d = r0 /\ fst (h2 k) d = r0) ->
    forall k i, k < pq_steps p -> i < pq_n p ->
      fst (psolution p z h1 k) i = fst (psolution p z h2 k) i /\ snd (psolution p z h1 k) i = snd (psolution p z h2 k) i.
Proof.
  intros K Z p z h1 h2 A C F Hlin HA HC Ha Hdt Hn Hs T Hns Hinj Hlen Hnd Hd Hz H0 Hst.
  assert (P : forall h, (forall k d, 1 <= k < pq_steps p -> In d (pq_dofs p) -> fst (h k) d = r0) ->
    forall k, 1 <= k < pq_steps p -> trapezoid (pq_n p) (pq_alpha p) (pq_dt p) (psolution p z h (k - 1)) (psolution p z h k) /\
     (forall d, In d (pq_dofs p) -> fst (psolution p z h k) d = r0) /\
     (forall i, i < pq_n p -> ~ In i (pq_dofs p) ->
         radd (mv (pq_n p) A (fst (psolution p z h k)) i) (mv (pq_n p) C (snd (psolution p z h k)) i) = F i)).
  { intros h Hh k Hk. split; [apply C17_trapezoid; auto; lia|].
    destruct (C17_linear_steps K Z p z h A C F) with (k := k) as [V E]; auto; try lia.
    split; [|exact E]. intros d Hin. destruct (In_nth _ _ 0 Hin) as [j [Hj Ej]].
    assert (Hin' : In (d, nth j (pq_vals p) r0) (combine (pq_dofs p) (pq_vals p))).
    { rewrite <- Ej, <- combine_nth by (symmetry; exact Hlen). apply nth_In. rewrite combine_length, Hlen. lia. }
    rewrite (V _ _ Hin'). apply Hz. eapply in_combine_r; eauto. }
  pose proof (P h1 (fun k d Hk Hin => proj1 (Hst k d Hk Hin))) as P1. pose proof (P h2 (fun k d Hk Hin => proj2 (Hst k d Hk Hin))) as P2.
  induction k as [|k IH]; intros i Hk Hi; [rewrite !psolution_init; apply H0; exact Hi|].
  destruct (P1 (S k) ltac:(lia)) as [T1 [V1 E1]]. destruct (P2 (S k) ltac:(lia)) as [T2 [V2 E2]].
  replace (S k - 1) with k in * by lia.
  apply (step_unique (pq_n p) (pq_dofs p) (pq_alpha p) (pq_dt p) Ha Hdt A C F (psolution p z h1 k) (psolution p z h2 k)); auto.
  intros j Hj. apply IH; [lia|exact Hj].
Qed.
Print Assumptions C18_zero_values_partial.

Lemma injective2 (A : matr Qc_ring) : rsub (rmul (A 0 0) (A 1 1)) (rmul (A 0 1) (A 1 0)) <> r0 ->
  forall x : vect Qc_ring, (forall i, i < 2 -> mv 2 A x i = r0) -> forall i, i < 2 -> x i = r0.
Proof.
  assert (G : forall a b c d x y : Qc, (a * d - b * c <> 0 -> 0 + a * x + b * y = 0 -> 0 + c * x + d * y = 0 -> x = 0 /\ y = 0)%Qc).
  { intros a b c d x y Hdet E0 E1.
    assert (G0 : ((a * d - b * c) * x = 0)%Qc) by (transitivity (d * (0 + a * x + b * y) - b * (0 + c * x + d * y))%Qc; [ring|rewrite E0, E1; ring]).
    assert (G1 : ((a * d - b * c) * y = 0)%Qc) by (transitivity (a * (0 + c * x + d * y) - c * (0 + a * x + b * y))%Qc; [ring|rewrite E0, E1; ring]).
    split; [destruct (Qcmult_integral _ _ G0)|destruct (Qcmult_integral _ _ G1)]; [contradiction|assumption|contradiction|assumption]. }
  intros Hdet x Hx i Hi. destruct (G _ _ _ _ (x 0) (x 1) Hdet (Hx 0 ltac:(lia)) (Hx 1 ltac:(lia))) as [H0 H1].
  destruct i as [|[|i]]; [exact H0|exact H1|lia].
Qed.
Example C18_partial_instance :
  (let T := bc_matrix (K := Qc_field) [0] (fun i j => radd (exA i j) (fdiv (c := Qc_field) (exCap i j) (rmul (Q2Qc (1#2) : Qc_ring) (Q2Qc 2)))) in
   forall x : vect Qc_ring, (forall i, i < 2 -> mv 2 T x i = r0) -> forall i, i < 2 -> x i = r0) /\
  fst (psolution (exPQ [Q2Qc 0] 1) tt fresh 2) 1 = Q2Qc (3#2).
Proof.
  split; [|apply Qc_is_canon; vm_compute; reflexivity]. intros T. apply injective2. vm_compute. discriminate.
Qed.

(** ** C19: refuted in general; holds for symmetric Jacobians and zero prescribed values. *)
Theorem C19_adjoint_partial :
  forall (K : CField) (Z : Type) (p : pproblem K Z) (z : Z) (h : phistory K) (c : pcriterion K Z) (np : nat) (RP : nat -> matr K),
    let JU := fun k => pp_gradient_u (pq_pde p) (fst (h k)) (snd (h k)) z in
    let JV := fun k => pp_gradient_v (pq_pde p) (fst (h k)) (snd (h k)) z in
    pq_alpha p <> r0 -> pq_dt p <> r0 -> solver_ok (pq_n p) (pq_solve p) ->
    length (pq_vals p) = length (pq_dofs p) -> (forall d, In d (pq_dofs p) -> d < pq_n p) ->
    (forall w, In w (pq_vals p) -> w = r0) ->
    (forall k, 1 <= k < pq_steps p -> symmetric (pq_n p) (JU k) /\ symmetric (pq_n p) (JV k)) ->
    (forall k, 1 <= k < pq_steps p -> nonsingular (pq_n p) (bc_matrix (pq_dofs p)
       (fun i j => radd (JU k i j) (rmul (ropp (v_grad_u (pq_alpha p) (pq_dt p))) (JV k i j))))) ->
    (forall k i q, 1 <= k < pq_steps p -> i < pq_n p -> q < np -> pp_gradient_z (pq_pde p) (fst (h k)) (snd (h k)) z q i = RP k i q) ->
    history_gradient (pq_steps p) (pq_n p) np (pq_dofs p) (pq_alpha p) (pq_dt p) JU JV RP
      (pc_gradient_u c h z) (pc_gradient_v c h z) (pc_gradient_z c h z) (pcriterionGradient p z h c).
Proof.
  intros K Z p z h c np RP JU JV Ha Hdt Hs Hlen Hd Hz Hsym Hns HP du dv dp Ht.
  unfold pcriterionGradient. destruct (Nat.eq_dec (pq_steps p) 0) as [E0|E0].
  { rewrite E0. simpl. symmetry. apply add_0_r_field. }
  rewrite (pbackward_ok p z h _ _ _ (pq_steps p) np JU JV RP du dv dp); auto.
  - simpl carry. rewrite add_0_r_field. reflexivity.
  - intros; apply Hsym; assumption.
  - intros; apply Hsym; assumption.
  - lia.
Qed.
Print Assumptions C19_adjoint_partial.

(** The same for the derivative with respect to the nodal coordinates. *)
Theorem C19_adjoint_shape_partial :
  forall (K : CField) (Z : Type) (p : pproblem K Z) (z : Z) (h : phistory K) (c : pcriterion K Z) (np : nat) (RP : nat -> matr K),
    let JU := fun k => pp_gradient_u (pq_pde p) (fst (h k)) (snd (h k)) z in
    let JV := fun k => pp_gradient_v (pq_pde p) (fst (h k)) (snd (h k)) z in
    pq_alpha p <> r0 -> pq_dt p <> r0 -> solver_ok (pq_n p) (pq_solve p) ->
    length (pq_vals p) = length (pq_dofs p) -> (forall d, In d (pq_dofs p) -> d < pq_n p) ->
    (forall w, In w (pq_vals p) -> w = r0) ->
    (forall k, 1 <= k < pq_steps p -> symmetric (pq_n p) (JU k) /\ symmetric (pq_n p) (JV k)) ->
    (forall k, 1 <= k < pq_steps p -> nonsingular (pq_n p) (bc_matrix (pq_dofs p)
       (fun i j => radd (JU k i j) (rmul (ropp (v_grad_u (pq_alpha p) (pq_dt p))) (JV k i j))))) ->
    (forall k i q, 1 <= k < pq_steps p -> i < pq_n p -> q < np -> pp_gradient_x (pq_pde p) (fst (h k)) (snd (h k)) z q i = RP k i q) ->
    history_gradient (pq_steps p) (pq_n p) np (pq_dofs p) (pq_alpha p) (pq_dt p) JU JV RP
      (pc_gradient_u c h z) (pc_gradient_v c h z) (pc_gradient_x c h z) (pcriterionGradientX p z h c).
Proof.
  intros K Z p z h c np RP JU JV Ha Hdt Hs Hlen Hd Hz Hsym Hns HP du dv dp Ht.
  unfold pcriterionGradientX. destruct (Nat.eq_dec (pq_steps p) 0) as [E0|E0].
  { rewrite E0. simpl. symmetry. apply add_0_r_field. }
  rewrite (pbackward_ok p z h _ _ _ (pq_steps p) np JU JV RP du dv dp); auto.
  - simpl carry. rewrite add_0_r_field. reflexivity.
  - intros; apply Hsym; assumption.
  - intros; apply Hsym; assumption.
  - lia.
Qed.
Print Assumptions C19_adjoint_shape_partial.

Definition exPC : pcriterion Qc_field unit :=
  mkPCriterion (K := Qc_field) (Z := unit) (fun _ _ k i => match i with 0 => Q2Qc 1 | _ => Q2Qc 2 end) (fun _ _ k i => Q2Qc 1)
    (fun _ _ _ => Q2Qc 5) (fun _ _ _ => Q2Qc 5).
Example C19_partial_instance :
  nonsingular (K := Qc_field) 2 (bc_matrix (K := Qc_field) [0]
     (fun i j => radd (exA i j) (rmul (ropp (v_grad_u (K := Qc_field) (Q2Qc (1#2)) (Q2Qc 2))) (exCap i j)))) /\
  pcriterionGradient (exPQ [Q2Qc 0] 1) tt (psolution (exPQ [Q2Qc 0] 1) tt fresh) exPC 0 = Q2Qc (13#4) /\
  history_tangent (K := Qc_field) 3 2 1 [0] (Q2Qc (1#2)) (Q2Qc 2) (fun _ => exA) (fun _ => exCap) (fun _ _ _ => Q2Qc 1)
    (fun k i => match k, i with 1, 1 => Q2Qc (-1#4) | 2, 1 => Q2Qc (-1#2) | _, _ => Q2Qc 0 end)
    (fun k i => match k, i with 1, 1 => Q2Qc (-1#4) | 2, 1 => Q2Qc 0 | _, _ => Q2Qc 0 end) (fun _ => Q2Qc 1).
Proof.
  split. { apply (nonsingular2 (K := Qc_field)). vm_compute. discriminate. }
  split. { apply Qc_is_canon. vm_compute. reflexivity. }
  split; [intros i Hi; split; reflexivity|]. intros k Hk. assert (k = 1 \/ k = 2) as [->| ->] by lia.
  - split; [intros d [<-|[]]; reflexivity|]. split; intros i Hi.
    + intros Hni. destruct i as [|[|i]]; [exfalso; apply Hni; left; reflexivity| |lia]. apply Qc_is_canon. vm_compute. reflexivity.
    + destruct i as [|[|i]]; [| |lia]; apply Qc_is_canon; vm_compute; reflexivity.
  - split; [intros d [<-|[]]; reflexivity|]. split; intros i Hi.
    + intros Hni. destruct i as [|[|i]]; [exfalso; apply Hni; left; reflexivity| |lia]. apply Qc_is_canon. vm_compute. reflexivity.
    + destruct i as [|[|i]]; [| |lia]; apply Qc_is_canon; vm_compute; reflexivity.
Qed.

(** Nonzero prescribed values: the adjoint takes them too. *)
Definition exPC0 : pcriterion Qc_field unit :=
  mkPCriterion (K := Qc_field) (Z := unit) (fun _ _ k i => Q2Qc 0) (fun _ _ k i => Q2Qc 0) (fun _ _ _ => Q2Qc 0) (fun _ _ _ => Q2Qc 0).
Theorem C19_nonzero_values_refuted :
  exists (p : pproblem Qc_field unit) (h : phistory Qc_field) (c : pcriterion Qc_field unit) (A C : matr Qc_ring) (F : vect Qc_ring),
    linear_ppde (K := Qc_field) (pq_n p) (pq_pde p) tt A C F /\ symmetric (pq_n p) A /\ symmetric (pq_n p) C /\
    solver_ok (pq_n p) (pq_solve p) /\ h = psolution p tt (fun _ => (fun _ => r0, fun _ => r0)) /\
    ~ history_gradient (K := Qc_field) (pq_steps p) (pq_n p) 1 (pq_dofs p) (pq_alpha p) (pq_dt p) (fun _ => A) (fun _ => C)
        (fun k i q => pp_gradient_z (pq_pde p) (fst (h k)) (snd (h k)) tt q i)
        (pc_gradient_u c h tt) (pc_gradient_v c h tt) (pc_gradient_z c h tt) (pcriterionGradient p tt h c).
Proof.
  exists (exPQ [Q2Qc 3] 1), (psolution (exPQ [Q2Qc 3] 1) tt fresh), exPC0, exA, exCap, exF.
  split; [exact exPP_linear|]. split; [exact exA_sym|]. split; [exact exCap_sym|]. split; [exact (solver2_ok (K := Qc_field))|].
  split; [reflexivity|]. intros H. destruct C19_partial_instance as [_ [_ T]]. specialize (H _ _ _ T).
  apply (f_equal this) in H. vm_compute in H. discriminate H.
Qed.
Print Assumptions C19_nonzero_values_refuted.

(** Unsymmetric Jacobian: the adjoint system is not transposed. *)
Definition exJ : matr Qc_ring := fun i j => match i, j with 0, 0 => Q2Qc 2 | 0, _ => Q2Qc 1 | _, 0 => Q2Qc 3 | _, _ => Q2Qc 4 end.
Definition exPQu : pproblem Qc_field unit :=
  mkPProblem (K := Qc_field) (Z := unit) 2 2 1 (fun _ => false) (fun _ => false) [] [] (solver2 (K := Qc_field)) (Q2Qc 1) (Q2Qc 1)
    (mkPPde (K := Qc_field) (Z := unit) (fun u v _ i => mv 2 exJ u i) (fun _ _ _ => exJ) (fun _ _ _ _ _ => Q2Qc 0)
       (fun _ _ _ c i => match i with 0 => Q2Qc 5 | _ => Q2Qc 6 end) (fun _ _ _ c i => Q2Qc 1)).
Definition exPCu : pcriterion Qc_field unit :=
  mkPCriterion (K := Qc_field) (Z := unit) (fun _ _ k i => match i with 0 => Q2Qc 1 | _ => Q2Qc 0 end) (fun _ _ k i => Q2Qc 0) (fun _ _ _ => Q2Qc 0) (fun _ _ _ => Q2Qc 0).
Lemma Qc_pm0 (x : Qc) : (x = x + Q2Qc 0 - Q2Qc 0)%Qc.
Proof. ring. Qed.
Theorem C19_unsymmetric_refuted :
  exists (p : pproblem Qc_field unit) (h : phistory Qc_field) (c : pcriterion Qc_field unit) (A C : matr Qc_ring) (F : vect Qc_ring),
    linear_ppde (K := Qc_field) (pq_n p) (pq_pde p) tt A C F /\ pq_vals p = [] /\
    solver_ok (pq_n p) (pq_solve p) /\ h = psolution p tt (fun _ => (fun _ => r0, fun _ => r0)) /\
    ~ history_gradient (K := Qc_field) (pq_steps p) (pq_n p) 1 (pq_dofs p) (pq_alpha p) (pq_dt p) (fun _ => A) (fun _ => C)
        (fun k i q => pp_gradient_z (pq_pde p) (fst (h k)) (snd (h k)) tt q i)
        (pc_gradient_u c h tt) (pc_gradient_v c h tt) (pc_gradient_z c h tt) (pcriterionGradient p tt h c).
Proof.
  exists exPQu, (psolution exPQu tt fresh), exPCu, exJ, (fun _ _ => Q2Qc 0), (fun _ => Q2Qc 0).
  split. { intros u v. split; [|split; reflexivity]. intros i Hi. cbn [pp_value pq_pde exPQu pq_n].
    change (mv 2 exJ u i = mv 2 exJ u i + sum 2 (fun j => r0 * v j) - r0)%K. rewrite sum_0 by (intros; apply (mul_0_l_field (K := Qc_field))).
    apply (Qc_pm0 (mv 2 exJ u i)). }
  split; [reflexivity|]. split; [exact (solver2_ok (K := Qc_field))|]. split; [reflexivity|]. intros H.
  specialize (H (fun k i => match k, i with 0, _ => Q2Qc 0 | _, 0 => Q2Qc (-14#5) | _, _ => Q2Qc (3#5) end)
                (fun k i => match k, i with 0, _ => Q2Qc 0 | _, 0 => Q2Qc (-14#5) | _, _ => Q2Qc (3#5) end) (fun _ => Q2Qc 1)).
  match type of H with ?T -> _ => assert (T0 : T) end.
  { split; [intros i Hi; split; reflexivity|]. intros k Hk. cbn in Hk. assert (k = 1) as -> by lia.
    split; [intros d []|]. split; intros i Hi; cbn in Hi.
    - intros _. destruct i as [|[|i]]; [| |lia]; apply Qc_is_canon; vm_compute; reflexivity.
    - destruct i as [|[|i]]; [| |lia]; apply Qc_is_canon; vm_compute; reflexivity. }
  specialize (H T0). apply (f_equal this) in H. vm_compute in H. discriminate H.
Qed.
Print Assumptions C19_unsymmetric_refuted.
