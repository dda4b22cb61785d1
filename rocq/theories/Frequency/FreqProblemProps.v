(** C148-C150: the frequency domain problem and the frequency response misfit. *)
From Coq Require Import Arith Lia List Bool Ring QArith Qcanon Reals Lra.
From Verif Require Import Base.Field Base.Sums Base.Res BC.ConstraintsSpec BC.ConstraintsMain Problem.DenseBC Problem.EllipticModel Problem.EllipticSpec Problem.EllipticProof Problem.SmallSolver
  Frequency.FreqProblemModel.
Import ListNotations.
Local Open Scope nat_scope.

(** ** C148: the states *)
(** A linear residual: A u - b, b the loads that the residual itself contains. *)
Definition linear_residual {K : CRing} {F Z} (p : vibrating K F Z) (z : Z) (w : F) (A : matr K) (b : vect K) : Prop :=
  forall u, (forall i, i < v_dofs p -> v_value p w u z i = rsub (mv (v_dofs p) A u i) (b i)) /\
            (forall i j, i < v_dofs p -> j < v_dofs p -> v_gradient_u p w u z i j = A i j).
(** The prescribed values are zero, or the matrix is symmetric. *)
Definition tame {K : CRing} (n : nat) (A : matr K) (vals : list K) : Prop := symmetric n A \/ forall v, In v vals -> v = r0.
Definition bcs_ok {K : CRing} {F Z} (p : vibrating K F Z) : Prop :=
  length (v_bc_vals p) = length (v_bc_dofs p) /\ NoDup (v_bc_dofs p) /\ forall d, In d (v_bc_dofs p) -> d < v_dofs p.

Theorem C148_state : forall (K : CRing) (F Z : Type) (p : vibrating K F Z) (z : Z) (freqs : list F) (A : F -> matr K) (b : F -> vect K),
  v_amgx p = true -> solver_ok (v_dofs p) (v_solve p) -> bcs_ok p ->
  (forall w, In w freqs -> linear_residual p z w (A w) (b w) /\ tame (v_dofs p) (A w) (v_bc_vals p) /\ nonsingular (v_dofs p) (bc_matrix (v_bc_dofs p) (A w))) ->
  length (vib_solution p z freqs) = length freqs /\
  forall k w u, nth_error freqs k = Some w -> nth_error (vib_solution p z freqs) k = Some u ->
    (forall d v, In (d, v) (combine (v_bc_dofs p) (v_bc_vals p)) -> u d = v) /\
    (** internal loads act against their direction *)
    (forall i, i < v_dofs p -> ~ In i (v_bc_dofs p) -> mv (v_dofs p) (A w) u i = rsub (v_force p i) (b w i)).
Proof.
  intros K F Z p z freqs A b Ha Hs (Hl & Hnd & Hd) H. unfold vib_solution. split; [apply map_length|].
  intros k w u Hk Hu. rewrite (map_nth_error _ _ _ Hk) in Hu. injection Hu as <-.
  destruct (H w (nth_error_In _ _ Hk)) as (Hlin & Ht & Hns).
  set (u0 := fun _ : nat => (r0 : K)). set (J := v_gradient_u p w u0 z).
  assert (HJ : forall i j, i < v_dofs p -> j < v_dofs p -> J i j = A w i j) by (intros; apply (Hlin u0); assumption).
  assert (Hns' : nonsingular (v_dofs p) (bc_matrix (v_bc_dofs p) J)).
  { apply (nonsingular_ext (v_dofs p) (bc_matrix (v_bc_dofs p) (A w))); [|exact Hns]. apply bc_matrix_ext. intros. symmetry. apply HJ; assumption. }
  set (r := fun i => radd (v_value p w u0 z i) (v_force p i)).
  assert (Hx : solves (v_dofs p) (bc_matrix (v_bc_dofs p) J) (bc_rhs r1 (v_bc_dofs p) (v_bc_vals p) J r) (vib_state p z w)).
  { unfold vib_state, vib_solve. rewrite Ha. apply Hs. exact Hns'. }
  assert (Hc : compatible r1 (v_bc_dofs p) (v_bc_vals p)) by (apply NoDup_compatible; exact Hnd).
  apply (bc_system (v_dofs p) r1 (v_bc_dofs p) (v_bc_vals p) Hl Hc Hd) in Hx.
  - destruct Hx as [Hv Hf]. split.
    + intros d v Hin. apply Hv. apply (prescribed_all r1 (v_bc_dofs p) (v_bc_vals p) Hc d v). unfold bcs_of. apply in_map_iff. exists (d, v). split; [|exact Hin]. cbn. f_equal. 
      apply (Rmul_1_l (r_th K)).
    + intros i Hi Hni. assert (Hcon : constrained (v_bc_dofs p) i = false).
      { destruct (constrained (v_bc_dofs p) i) eqn:E; [|reflexivity]. apply constrained_in in E. contradiction. }
      specialize (Hf i Hi Hcon). rewrite (mv_ext (v_dofs p) J (A w) _ (vib_state p z w)) in Hf; [|intros; apply HJ; assumption|reflexivity]. rewrite Hf.
      unfold r. rewrite (proj1 (Hlin u0) i Hi). unfold u0. rewrite mv_0. 
      pose proof (r_th K) as T. rewrite (Rsub_def T), (Rsub_def T (v_force p i)). rewrite (Radd_0_l T). apply (Radd_comm T).
  - intros d v i Hin Hi. destruct Ht as [Hsy|Hz].
    + assert (Hdn : d < v_dofs p) by (apply Hd; eapply in_combine_l; eauto). rewrite !HJ by assumption. rewrite (Hsy d i) by assumption. reflexivity.
    + rewrite (Hz v) by (eapply in_combine_r; eauto). rewrite !mul0_r. reflexivity.
Qed.
Print Assumptions C148_state.
(** Without internal loads the state balances the external force, for every frequency. *)
Theorem C148_balance_partial : forall (K : CRing) (F Z : Type) (p : vibrating K F Z) (z : Z) (freqs : list F) (A : F -> matr K),
  v_amgx p = true -> solver_ok (v_dofs p) (v_solve p) -> bcs_ok p ->
  (forall w, In w freqs -> linear_residual p z w (A w) (fun _ => r0) /\ tame (v_dofs p) (A w) (v_bc_vals p) /\ nonsingular (v_dofs p) (bc_matrix (v_bc_dofs p) (A w))) ->
  forall k w u, nth_error freqs k = Some w -> nth_error (vib_solution p z freqs) k = Some u ->
    (forall d v, In (d, v) (combine (v_bc_dofs p) (v_bc_vals p)) -> u d = v) /\
    (forall i, i < v_dofs p -> ~ In i (v_bc_dofs p) -> v_value p w u z i = v_force p i).
Proof.
  intros K F Z p z freqs A Ha Hs Hb H k w u Hk Hu.
  destruct (C148_state K F Z p z freqs A (fun _ _ => r0) Ha Hs Hb H) as [_ G]. destruct (G k w u Hk Hu) as [G1 G2]. split; [exact G1|].
  intros i Hi Hni. destruct (H w (nth_error_In _ _ Hk)) as (Hlin & _). rewrite (proj1 (Hlin u) i Hi), (G2 i Hi Hni).
  pose proof (r_th K) as T. rewrite !(Rsub_def T). rewrite <- (Radd_assoc T). assert (E : radd (ropp (r0 : K)) (ropp r0) = r0).
  { assert (N : ropp (r0 : K) = r0) by (rewrite <- (Radd_0_l T (ropp r0)); apply (Ropp_def T)). rewrite N. apply (Radd_0_l T). }
  rewrite E. rewrite (Radd_comm T). apply (Radd_0_l T).
Qed.
Print Assumptions C148_balance_partial.

Definition exV (A : matr Qc_ring) (b f : vect Qc_ring) (n : nat) (dofs : list nat) (vals : list Qc) (slv : solver) : vibrating Qc_ring nat unit :=
  mkVibrating n (fun _ u _ i => rsub (mv n A u i) (b i)) (fun _ _ _ => A) (fun _ _ _ => tr A) (fun _ _ _ _ _ => r0) dofs vals f true slv.
Definition one1 : matr Qc_ring := fun _ _ => r1.
Lemma nonsingular_one1 : nonsingular 1 one1.
Proof. exists one1. intros i j Hi Hj. assert (i = 0) as -> by lia. assert (j = 0) as -> by lia. apply Qc_is_canon. reflexivity. Qed.
(** A body load of 1 on a spring of stiffness 1 moves it the wrong way: the balance fails by 2. *)
Theorem C148_balance_refuted : ~ (forall (K : CRing) (F Z : Type) (p : vibrating K F Z) (z : Z) (freqs : list F) (A : F -> matr K) (b : F -> vect K),
  v_amgx p = true -> solver_ok (v_dofs p) (v_solve p) -> bcs_ok p ->
  (forall w, In w freqs -> linear_residual p z w (A w) (b w) /\ symmetric (v_dofs p) (A w) /\ nonsingular (v_dofs p) (bc_matrix (v_bc_dofs p) (A w))) ->
  forall k w u, nth_error freqs k = Some w -> nth_error (vib_solution p z freqs) k = Some u ->
    forall i, i < v_dofs p -> ~ In i (v_bc_dofs p) -> v_value p w u z i = v_force p i).
Proof.
  intros H. specialize (H Qc_ring nat unit (exV one1 (fun _ => r1) (fun _ => r0) 1 [] [] (solver1 (K := Qc_field))) tt [7] (fun _ => one1) (fun _ _ => r1) eq_refl (solver1_ok (K := Qc_field))).
  assert (Hb : bcs_ok (exV one1 (fun _ => r1) (fun _ => r0) 1 [] [] (solver1 (K := Qc_field)))) by (split; [reflexivity|split; [constructor|intros d []]]).
  specialize (H Hb). clear Hb.
  specialize (H ltac:(intros w _; split; [intros u; split; reflexivity|split; [intros i j _ _; reflexivity|exact nonsingular_one1]]) 0 7 _ eq_refl eq_refl 0 ltac:(cbn; lia) ltac:(intros [])).
  apply (f_equal this) in H. vm_compute in H. discriminate.
Qed.
Print Assumptions C148_balance_refuted.
(** With an unsymmetric matrix, as damping makes it, a nonzero prescribed value leaves the balance at the other dofs wrong. *)
Definition lowerA : matr Qc_ring := fun i j => match i, j with 0, 0 => r1 | 1, 0 => r1 | 1, 1 => r1 | _, _ => r0 end.
Theorem C148_damped_support_refuted : ~ (forall (K : CRing) (F Z : Type) (p : vibrating K F Z) (z : Z) (freqs : list F) (A : F -> matr K),
  v_amgx p = true -> solver_ok (v_dofs p) (v_solve p) -> bcs_ok p ->
  (forall w, In w freqs -> linear_residual p z w (A w) (fun _ => r0) /\ nonsingular (v_dofs p) (bc_matrix (v_bc_dofs p) (A w))) ->
  forall k w u, nth_error freqs k = Some w -> nth_error (vib_solution p z freqs) k = Some u ->
    forall i, i < v_dofs p -> ~ In i (v_bc_dofs p) -> v_value p w u z i = v_force p i).
Proof.
  intros H. set (p := exV lowerA (fun _ => r0) (fun _ => r0) 2 [0] [Q2Qc 1] (solver2 (K := Qc_field))).
  specialize (H Qc_ring nat unit p tt [7] (fun _ => lowerA) eq_refl (solver2_ok (K := Qc_field))).
  assert (Hb : bcs_ok p) by (split; [reflexivity|split; [constructor; [intros []|constructor]|intros d [<-|[]]; cbn; lia]]).
  specialize (H Hb). clear Hb.
  assert (N : nonsingular 2 (bc_matrix [0] lowerA)).
  { exists (fun i j => if Nat.eqb i j then r1 else r0). intros i j Hi Hj. destruct i as [|[|i]], j as [|[|j]]; try lia; apply Qc_is_canon; reflexivity. }
  specialize (H ltac:(intros w _; split; [intros u; split; reflexivity|exact N]) 0 7 _ eq_refl eq_refl 1 ltac:(cbn; lia) ltac:(cbn; intros [?|[]]; lia)).
  apply (f_equal this) in H. vm_compute in H. discriminate.
Qed.
Print Assumptions C148_damped_support_refuted.
(** A build without AmgX returns zero states, whatever the loads and the prescribed values. *)
Theorem C148_without_amgx : forall (K : CRing) (F Z : Type) (p : vibrating K F Z) (z : Z) (freqs : list F) u i, v_amgx p = false -> In u (vib_solution p z freqs) -> u i = r0.
Proof. intros K F Z p z freqs u i Ha Hu. apply in_map_iff in Hu. destruct Hu as (w & <- & _). unfold vib_state, vib_solve. rewrite Ha. reflexivity. Qed.
Print Assumptions C148_without_amgx.
(** Two dofs, the first held at 2, an external force of 3: the hypotheses of C148_balance_partial are met and the state is not zero. *)
Definition chain2 : matr Qc_ring := fun i j => match i, j with 0, 0 => Q2Qc 2 | 1, 1 => Q2Qc 1 | _, _ => Q2Qc (-1) end.
Definition exB := exV chain2 (fun _ => r0) (fun _ => Q2Qc 3) 2 [0] [Q2Qc 2] (solver2 (K := Qc_field)).
Example C148_nonvacuous : v_amgx exB = true /\ solver_ok (v_dofs exB) (v_solve exB) /\ bcs_ok exB /\
  linear_residual exB tt 7 chain2 (fun _ => r0) /\ tame 2 chain2 (v_bc_vals exB) /\ nonsingular 2 (bc_matrix (v_bc_dofs exB) chain2) /\
  match vib_solution exB tt [7; 8] with [u; _] => u 0 = Q2Qc 2 /\ u 1 = Q2Qc 5 | _ => False end.
Proof.
  split; [reflexivity|]. split; [apply (solver2_ok (K := Qc_field))|]. split; [split; [reflexivity|split; [constructor; [intros []|constructor]|intros d [<-|[]]; cbn; lia]]|].
  split; [intros u; split; reflexivity|]. split; [left; intros i j Hi Hj; destruct i as [|[|i]], j as [|[|j]]; try lia; reflexivity|].
  split; [exists (fun i j => if Nat.eqb i j then r1 else r0); intros i j Hi Hj; destruct i as [|[|i]], j as [|[|j]]; try lia; apply Qc_is_canon; reflexivity|].
  split; apply Qc_is_canon; reflexivity.
Qed.

(** ** C149: the gradient *)
(** One frequency, homogeneous supports: the total derivative. *)
Theorem C149_one_frequency_partial : forall (K : CRing) (F Z : Type) (p : vibrating K F Z) (z : Z) (w : F) (u : vect K) (o : response K F Z) (nz : nat) (Rz : matr K),
  v_amgx p = true -> solver_ok (v_dofs p) (v_solve p) ->
  (** the adjoint residual has the transposed Jacobian (see C146), gradient_z is stored transposed (C06) *)
  (forall i j, i < v_dofs p -> j < v_dofs p -> v_adjoint_u p w u z i j = v_gradient_u p w u z j i) ->
  (forall i k, i < v_dofs p -> k < nz -> v_gradient_z p w u z k i = Rz i k) ->
  nonsingular (v_dofs p) (bc_matrix (v_bc_dofs p) (v_adjoint_u p w u z)) -> bcs_ok p -> (forall v, In v (v_bc_vals p) -> v = r0) ->
  exists g, vib_gradient p z [w] [u] (Some o) = Ok g /\
    total_gradient (v_dofs p) nz (v_bc_dofs p) (v_gradient_u p w u z) Rz (o_gradient_u o w u z) (o_gradient_z o w u z) g.
Proof.
  intros K F Z p z w u o nz Rz Ha Hs HT HZ Hns (Hl & Hnd & Hd) Hz. unfold vib_gradient. cbn [combine fold_left fst snd add_residual]. eexists. split; [reflexivity|].
  pose proof (r_th K) as T.
  set (gu := fun i => radd (rmul r1 (o_gradient_u o w u z i)) (rmul r1 r0)).
  set (b := bc_rhs r1 (v_bc_dofs p) (v_bc_vals p) (v_adjoint_u p w u z) (fun i => rmul (ropp r1) (gu i))).
  set (lam := vib_solve p (bc_matrix (v_bc_dofs p) (v_adjoint_u p w u z)) b).
  assert (Gu : forall i, gu i = o_gradient_u o w u z i) by (intros i; unfold gu; rewrite !(Rmul_1_l T), (Radd_comm T); apply (Radd_0_l T)).
  assert (Hlam : solves (v_dofs p) (bc_matrix (v_bc_dofs p) (v_adjoint_u p w u z)) b lam).
  { unfold lam, vib_solve. rewrite Ha. apply Hs. exact Hns. }
  apply (bc_zero (v_dofs p) r1 (v_bc_dofs p) (v_bc_vals p) _ _ lam Hl Hd) in Hlam.
  - destruct Hlam as [H1 H2].
    assert (Htg : total_gradient (v_dofs p) nz (v_bc_dofs p) (v_gradient_u p w u z) Rz (o_gradient_u o w u z) (o_gradient_z o w u z)
        (fun k => radd (o_gradient_z o w u z k) (mv (v_dofs p) (tr Rz) lam k))).
    { apply adjoint_identity; auto. intros i Hi Hni. specialize (H2 i Hi Hni).
      rewrite <- (mv_ext (v_dofs p) (v_adjoint_u p w u z) (tr (v_gradient_u p w u z)) lam lam i); [|intros j Hj; apply HT; assumption|reflexivity].
      rewrite H2, Gu. apply neg1_mul. }
    intros du dz Ht. rewrite <- (Htg du dz Ht). apply dot_ext; [|reflexivity]. intros k Hk. f_equal.
    + unfold partial_z. cbn [map lsum]. rewrite !(Rmul_1_l T). rewrite (Radd_comm T _ r0), (Radd_0_l T). rewrite (Radd_comm T _ r0). apply (Radd_0_l T).
    + apply mv_ext; [|reflexivity]. intros j Hj. apply HZ; assumption.
  - intros v Hv. rewrite (Hz v Hv). apply mul0_r.
Qed.
Print Assumptions C149_one_frequency_partial.

(** The derivative for several frequencies is the sum of those of the frequencies, each with its own state and adjoint. *)
Definition sum_of_gradients {K : CRing} {F Z} (p : vibrating K F Z) (z : Z) (nz : nat) (o : response K F Z) (steps : list (F * vect K)) (g : vect K) : Prop :=
  exists gs, length gs = length steps /\ (forall k, k < nz -> g k = lsum (map (fun h => h k) gs)) /\
    forall j wu h, nth_error steps j = Some wu -> nth_error gs j = Some h ->
      total_gradient (v_dofs p) nz (v_bc_dofs p) (v_gradient_u p (fst wu) (snd wu) z) (fun i k => v_gradient_z p (fst wu) (snd wu) z k i)
        (o_gradient_u o (fst wu) (snd wu) z) (o_gradient_z o (fst wu) (snd wu) z) h.
Definition good_steps {K : CRing} {F Z} (p : vibrating K F Z) (z : Z) (steps : list (F * vect K)) : Prop := forall wu, In wu steps ->
  (forall i j, i < v_dofs p -> j < v_dofs p -> v_adjoint_u p (fst wu) (snd wu) z i j = v_gradient_u p (fst wu) (snd wu) z j i) /\
  nonsingular (v_dofs p) (bc_matrix (v_bc_dofs p) (v_adjoint_u p (fst wu) (snd wu) z)).
(** Two frequencies: the adjoints are solved with the sum of the derivatives of all frequencies. *)
Definition exG : vibrating Qc_ring nat unit :=
  mkVibrating 1 (fun _ _ _ _ => r0) (fun _ _ _ => one1) (fun _ _ _ => one1) (fun w _ _ _ _ => match w with 0 => r1 | _ => r0 end) [] [] (fun _ => r0) true (solver1 (K := Qc_field)).
Definition exO : response Qc_ring nat unit := mkResponse (fun _ u _ => u 0) (fun _ _ _ _ => r1) (fun _ _ _ _ => r0).
Lemma tg_one (Rz fu fp g : rcar Qc_ring) : total_gradient 1 1 [] one1 (fun _ _ => Rz) (fun _ => fu) (fun _ => fp) (fun _ => g) -> g = radd fp (ropp (rmul fu Rz)) :> rcar Qc_ring.
Proof.
  intros H. specialize (H (fun _ => ropp Rz) (fun _ => r1)). unfold dot in H. cbn [sum] in H.
  assert (E : tangent 1 1 [] one1 (fun _ _ => Rz : rcar Qc_ring) (fun _ => ropp Rz) (fun _ => r1)).
  { split; [intros d []|]. intros i Hi _. unfold mv, one1. cbn [sum]. cbn. ring. }
  specialize (H E). cbn in H. cbn. ring_simplify in H. rewrite H. ring.
Qed.
Theorem C149_frequencies_refuted : ~ (forall (K : CRing) (F Z : Type) (p : vibrating K F Z) (z : Z) (freqs : list F) (states : list (vect K)) (o : response K F Z) (nz : nat) g,
  v_amgx p = true -> solver_ok (v_dofs p) (v_solve p) -> bcs_ok p -> (forall v, In v (v_bc_vals p) -> v = r0) -> length freqs = length states -> good_steps p z (combine freqs states) ->
  vib_gradient p z freqs states (Some o) = Ok g -> sum_of_gradients p z nz o (combine freqs states) g).
Proof.
  intros H.
  assert (Hg : good_steps exG tt (combine [0; 1] [(fun _ => r0); (fun _ => r0)])).
  { intros wu _. split; [reflexivity|]. exact nonsingular_one1. }
  assert (Hb : bcs_ok exG) by (split; [reflexivity|split; [constructor|intros d []]]).
  destruct (H Qc_ring nat unit exG tt [0; 1] [(fun _ => r0); (fun _ => r0)] exO 1 _ eq_refl (solver1_ok (K := Qc_field)) Hb ltac:(intros v []) eq_refl Hg eq_refl) as (gs & Hl & Hs & Ht).
  destruct gs as [|h0 [|h1 [|? ?]]]; try discriminate Hl.
  pose proof (Ht 0 _ h0 eq_refl eq_refl) as T0. pose proof (Ht 1 _ h1 eq_refl eq_refl) as T1. cbn [fst snd] in T0, T1.
  assert (G0 : h0 0 = radd r0 (ropp (rmul r1 r1)) :> rcar Qc_ring) by (apply (tg_one r1 r1 r0 (h0 0)); intros du dz Htan; exact (T0 du dz Htan)).
  assert (G1 : h1 0 = radd r0 (ropp (rmul r1 r0)) :> rcar Qc_ring) by (apply (tg_one r0 r1 r0 (h1 0)); intros du dz Htan; exact (T1 du dz Htan)).
  specialize (Hs 0 ltac:(lia)). cbn [map lsum] in Hs. rewrite G0, G1 in Hs. apply (f_equal this) in Hs. vm_compute in Hs. discriminate.
Qed.
Print Assumptions C149_frequencies_refuted.
(** Two frequencies, an objective that depends on the control alone: its derivative is counted once per frequency and state. *)
Theorem C149_control_counted : forall (K : CRing) (F Z : Type) (p : vibrating K F Z) (z : Z) (freqs : list F) (states : list (vect K)) (o : response K F Z) (c : vect K),
  (forall w u, o_gradient_z o w u z = c) -> (forall w u k i, v_gradient_z p w u z k i = r0) -> length freqs = length states ->
  exists g, vib_gradient p z freqs states (Some o) = Ok g /\ forall k, g k = lsum (map (fun _ => lsum (map (fun _ => c k) states)) freqs).
Proof.
  intros K F Z p z freqs states o c Hc Hz Hl. eexists. split; [reflexivity|]. intros k. pose proof (r_th K) as T.
  assert (A : forall steps grad out, snd (add_residual p z steps grad out) k = out k).
  { induction steps as [|[w u] steps IH]; intros grad out; [reflexivity|]. unfold add_residual. cbn [fold_left fst snd]. unfold add_residual in IH. rewrite IH.
    unfold mv. rewrite (sum_0 (v_dofs p)); [rewrite (Radd_comm T); apply (Radd_0_l T)|]. intros i _. rewrite Hz. 
    rewrite (Rmul_comm T). apply mul0_r. }
  rewrite A.
  assert (P : forall w, partial_z o z states w k = lsum (map (fun _ => c k) states)).
  { intros w. unfold partial_z. induction states as [|u us IH] in |- *; [reflexivity|]. cbn [map lsum]. rewrite IH, Hc. reflexivity. }
  assert (B : forall l t, fold_left (fun t wu => radd (rmul r1 (partial_z o z states (fst wu) k)) (rmul r1 t)) (l : list (F * vect K)) t = radd (lsum (map (fun _ => lsum (map (fun _ => c k) states)) l)) t).
  { induction l as [|wu l IH]; intros t; cbn [fold_left map lsum]; [symmetry; apply (Radd_0_l T)|]. rewrite IH, P, !(Rmul_1_l T). rewrite (Radd_assoc T). f_equal. apply (Radd_comm T). }
  rewrite B. rewrite (Radd_comm T), (Radd_0_l T).
  assert (L : forall (fs : list F) (ss : list (vect K)), length fs = length ss -> lsum (map (fun _ : F * vect K => lsum (map (fun _ : vect K => c k) states)) (combine fs ss)) = lsum (map (fun _ : F => lsum (map (fun _ : vect K => c k) states)) fs)).
  { induction fs as [|f fs IH]; intros [|s ss] E; try discriminate E; [reflexivity|]. cbn [combine map lsum]. rewrite IH by (injection E as E; exact E). reflexivity. }
  apply L. exact Hl.
Qed.
Print Assumptions C149_control_counted.
(** A support that moves: the adjoint gets the prescribed value. *)
Definition exS : vibrating Qc_ring nat unit :=
  mkVibrating 1 (fun _ _ _ _ => r0) (fun _ _ _ => one1) (fun _ _ _ => one1) (fun _ _ _ _ _ => r1) [0] [Q2Qc 1] (fun _ => r0) true (solver1 (K := Qc_field)).
Theorem C149_supports_refuted : ~ (forall (K : CRing) (F Z : Type) (p : vibrating K F Z) (z : Z) (w : F) (u : vect K) (o : response K F Z) (nz : nat) g,
  v_amgx p = true -> solver_ok (v_dofs p) (v_solve p) -> bcs_ok p -> good_steps p z [(w, u)] ->
  vib_gradient p z [w] [u] (Some o) = Ok g -> sum_of_gradients p z nz o [(w, u)] g).
Proof.
  intros H.
  assert (Hg : good_steps exS tt [(0, (fun _ => r0 : rcar Qc_ring))]).
  { intros wu _. split; [reflexivity|]. exists one1. cbn [exS v_dofs]. intros i j Hi Hj. assert (i = 0) as -> by lia. assert (j = 0) as -> by lia. apply Qc_is_canon. reflexivity. }
  assert (Hb : bcs_ok exS) by (split; [reflexivity|split; [constructor; [intros []|constructor]|intros d [<-|[]]; cbn; lia]]).
  destruct (H Qc_ring nat unit exS tt 0 (fun _ => r0) exO 1 _ eq_refl (solver1_ok (K := Qc_field)) Hb Hg eq_refl) as (gs & Hl & Hs & Ht).
  destruct gs as [|h0 [|? ?]]; try discriminate Hl.
  pose proof (Ht 0 _ h0 eq_refl eq_refl (fun _ => r0) (fun _ => r1)) as T0.
  specialize (Hs 0 ltac:(lia)). cbn [map lsum] in Hs.
  assert (Tn : dot 1 h0 (fun _ => r1 : rcar Qc_ring) = r0).
  { rewrite T0; [apply Qc_is_canon; reflexivity|]. split; [reflexivity|]. intros i Hi Hni. exfalso. apply Hni. cbn in Hi. left. lia. }
  assert (E : h0 0 = r0 :> rcar Qc_ring) by (unfold dot in Tn; cbn in Tn; cbn; ring_simplify in Tn; exact Tn).
  rewrite E in Hs. apply (f_equal this) in Hs. vm_compute in Hs. discriminate.
Qed.
Print Assumptions C149_supports_refuted.
Theorem C149_no_objective : forall (K : CRing) (F Z : Type) (p : vibrating K F Z) (z : Z) (freqs : list F) (states : list (vect K)), vib_gradient p z freqs states None = Throw.
Proof. reflexivity. Qed.
Print Assumptions C149_no_objective.
Example C149_nonvacuous : exists g, vib_gradient exG tt [0] [(fun _ => r0)] (Some exO) = Ok g /\
  total_gradient 1 1 [] one1 (fun _ _ => r1) (fun _ => r1) (fun _ => r0) g /\ g 0 = ropp r1 :> rcar Qc_ring.
Proof.
  destruct (C149_one_frequency_partial Qc_ring nat unit exG tt 0 (fun _ => r0) exO 1 (fun _ _ => r1) eq_refl (solver1_ok (K := Qc_field))) as (g & E & T).
  - reflexivity.
  - reflexivity.
  - exact nonsingular_one1.
  - split; [reflexivity|split; [constructor|intros d []]].
  - intros v [].
  - exists g. split; [exact E|]. split; [exact T|]. injection E as <-. apply Qc_is_canon. vm_compute. reflexivity.
Qed.
