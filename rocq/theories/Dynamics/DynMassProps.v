(** C121, continued: the energy criterion, the kinetic energy of the one-point mass matrix, and a run that meets the hypotheses of C121_run. *)
From Coq Require Import Reals List Arith Bool Lia Lra.
From Verif Require Import Base.Field Base.Sums Base.Res Element.ElementModel Element.ElementSpec Element.ElementProof Element.ElementProps
  Penalty.PenaltyModel Residual.ResidualModel Residual.ResidualSpec Residual.ResidualProof Residual.ResidualProps Residual.ResidualEnergyProps
  Problem.DenseBC Problem.SmallSolver Problem.HyperbolicModel Problem.HyperbolicSpec Norms.PNormProps
  Dynamics.DynModel Dynamics.DynSpec Dynamics.DynProof Dynamics.DynProps Dynamics.DynEnergyProps.
Import ListNotations.
Local Open Scope R_scope.

(** ** The energy criterion *)
Definition unstrained (d : nat) (cells : list (cell dynamic)) : Prop := forall c, In c cells -> forall v, (v < num_voigt d)%nat -> e_ref (y_law (c_mat c)) v = 0.
Theorem C121_criterion_partial : forall d nn pen X U Z cells, (1 <= d <= 3)%nat -> mesh_ok d nn X cells -> unstrained d cells ->
  dyn_energy d pen X U Z cells = 2 * strain_energy d pen X Z cells U.
Proof.
  intros d nn pen X U Z cells Hd Hm Hr. unfold dyn_energy, strain_energy. rewrite total_sum, <- sum_over_scal. apply sum_over_ext. intros c Hc.
  destruct (mesh_cell _ _ _ _ _ Hm Hc) as [Hn Hv]. unfold dyn_energy_cell, scalar_product. cbv zeta.
  rewrite <- (weight_eq d pen X Z c Hd Hv). unfold weigh, linear_stress, stiff, rs. fold (strain_of d X U c).
  rewrite (rsum_ext (num_voigt d) (fun v => rsum (num_voigt d) (fun j => (strain_of d X U c j - e_ref (y_law (c_mat c)) j) * e_stiff (y_law (c_mat c)) v j) * (strain_of d X U c v - e_ref (y_law (c_mat c)) v))
     (fun v => rsum (num_voigt d) (fun j => (strain_of d X U c j - e_ref (y_law (c_mat c)) j) * e_stiff (y_law (c_mat c)) v j) * strain_of d X U c v)).
  2: { intros v Hv'. rewrite (Hr c Hc v Hv'). req. ring. }
  rewrite (rsum_ext (num_voigt d) (fun i => rsum (num_voigt d) (fun j => (strain_of d X U c j - e_ref (y_law (c_mat c)) j) * e_stiff (y_law (c_mat c)) i j) * pen (cell_density (S d) (gather_control Z c)) * strain_of d X U c i)
     (fun i => pen (cell_density (S d) (gather_control Z c)) * (rsum (num_voigt d) (fun j => (strain_of d X U c j - e_ref (y_law (c_mat c)) j) * e_stiff (y_law (c_mat c)) i j) * strain_of d X U c i))) by (intros; req; ring).
  rewrite rsum_scal_l. field.
Qed.
Print Assumptions C121_criterion_partial.
Definition pull (k : nat) : R := match k with 1%nat => 1 | _ => 0 end.
Definition rod : list (cell dynamic) := bar steel.
Lemma rod_measure : simplex_measure 1 (fun a i => bar_X (c_node (mkCell (fun a => a) steel) a) i) = 1.
Proof. unfold simplex_measure. cbn. replace (1 - 0) with 1 by ring. rewrite Rabs_R1. field. Qed.
Lemma rod_weight pen Z : weight_of 1 pen bar_X Z (mkCell (fun a => a) steel) = pen ((Z 0%nat + Z 1%nat) / 2).
Proof. unfold weight_of. rewrite rod_measure. unfold rs. rsums. cbn [c_node INR]. rewrite Rmult_1_l. f_equal. cbn. field. Qed.
Lemma rod_strain U : strain_of 1 bar_X U (mkCell (fun a => a) steel) 0%nat = U 1%nat - U 0%nat.
Proof. unfold strain_of, strain, cell_gradient, gradient1, det1, gather_coords, gather, bar_X. cbn. rsums. cbn. field. Qed.
Lemma rod_mean U : mean_of 1 U (mkCell (fun a => a) steel) 0%nat = (U 0%nat + U 1%nat) / 2.
Proof. unfold mean_of, rs. rsums. cbn. field. Qed.
(** The criterion is not the stored energy of the power balance (C121_power): a rod of stiffness 3 stretched by 1 stores 3/2, the criterion says 3. *)
Theorem C121_criterion_refuted : ~ (forall d nn pen X U Z cells, (1 <= d <= 3)%nat -> mesh_ok d nn X cells -> unstrained d cells ->
  dyn_energy d pen X U Z cells = strain_energy d pen X Z cells U).
Proof.
  intros H. assert (Hr : unstrained 1 rod) by (intros c [<-|[]] v _; reflexivity).
  specialize (H 1%nat 2%nat (fun _ => 1) bar_X pull (fun _ => 1) rod ltac:(lia) (bar_ok steel) Hr).
  rewrite (C121_criterion_partial 1 2) in H by (try lia; try exact (bar_ok steel); exact Hr).
  enough (E : strain_energy 1 (fun _ => 1) bar_X (fun _ => 1) rod pull = 3 / 2) by (rewrite E in H; lra).
  unfold strain_energy, rod, bar. cbn [sum_over]. rewrite rod_weight. unfold stiff, rs. cbn [num_voigt]. rsums. rewrite rod_strain. cbn. field.
Qed.
Print Assumptions C121_criterion_refuted.

(** ** The mass matrix *)
Lemma cauchy d (w : nat -> R) : (1 <= d <= 3)%nat -> rs (S d) w * rs (S d) w <= INR (S d) * rs (S d) (fun a => w a * w a).
Proof.
  intros Hd. pose proof (Rle_0_sqr (w 0%nat - w 1%nat)) as A. pose proof (Rle_0_sqr (w 0%nat - w 2%nat)) as B. pose proof (Rle_0_sqr (w 0%nat - w 3%nat)) as C.
  pose proof (Rle_0_sqr (w 1%nat - w 2%nat)) as D. pose proof (Rle_0_sqr (w 1%nat - w 3%nat)) as E. pose proof (Rle_0_sqr (w 2%nat - w 3%nat)) as F.
  unfold Rsqr in *. unfold rs. assert (d = 1 \/ d = 2 \/ d = 3)%nat as Q by lia. destruct Q as [Q|[Q|Q]]; subst d; rsums; cbn [INR]; lra.
Qed.
Lemma square_integral_bound d meas w : (1 <= d <= 3)%nat -> 0 <= meas -> meas * ((rs (S d) w / INR (S d)) * (rs (S d) w / INR (S d))) <= square_integral d meas w.
Proof.
  intros Hd Hm. pose proof (cauchy d w Hd) as C. unfold square_integral. set (s := rs (S d) w) in *. set (q := rs (S d) (fun a => w a * w a)) in *.
  assert (N : 0 < INR (S d)) by (apply lt_0_INR; lia). rewrite (S_INR (S d)). set (n := INR (S d)) in *.
  apply Rmult_le_reg_r with (n * n * (n + 1)); [repeat apply Rmult_lt_0_compat; lra|].
  replace (meas * (s / n * (s / n)) * (n * n * (n + 1))) with (meas * (s * s * (n + 1))) by (field; lra).
  replace (meas / (n * (n + 1)) * (q + s * s) * (n * n * (n + 1))) with (meas * (n * q + n * (s * s))) by (field; lra).
  apply Rmult_le_compat_l; [exact Hm|]. lra.
Qed.
Lemma rsum_le n (f g : nat -> R) : (forall i, (i < n)%nat -> f i <= g i) -> rsum n f <= rsum n g.
Proof. induction n as [|n IH]; intros H; [apply Rle_refl|]. change (rsum n f + f n <= rsum n g + g n). apply Rplus_le_compat; [apply IH; intros; apply H; lia|apply H; lia]. Qed.
Lemma square_integral_const d meas w k : (1 <= d <= 3)%nat -> (forall a, (a < S d)%nat -> w a = k) -> square_integral d meas w = meas * (k * k).
Proof.
  intros Hd E. unfold square_integral, rs. rewrite (rsum_ext (S d) (fun a => w a * w a) (fun _ => k * k)), (rsum_ext (S d) w (fun _ => k)) by (intros a Ha; rewrite (E a Ha); reflexivity).
  rewrite !rsum_const. rewrite (S_INR (S d)). assert (N : 0 < INR (S d)) by (apply lt_0_INR; lia). field. lra.
Qed.
Lemma mean_const d (w : nat -> R) k : (forall a, (a < S d)%nat -> w a = k) -> rs (S d) w / INR (S d) = k.
Proof. intros E. unfold rs. rewrite (rsum_ext (S d) w (fun _ => k)) by exact E. rewrite rsum_const. field. apply not_0_INR. lia. Qed.
Definition cellwise_uniform (d : nat) (cells : list (cell dynamic)) (V : nat -> R) : Prop :=
  forall c, In c cells -> forall i a, (i < d)%nat -> (a <= d)%nat -> V (c_node c a * d + i)%nat = V (c_node c 0%nat * d + i)%nat.
(** The kinetic energy of the mass matrix never exceeds that of the velocity field, and equals it for a velocity that is the same at all corners of a cell. *)
Theorem C121_mass_partial : forall d nn pen X Z cells V, (1 <= d <= 3)%nat -> mesh_ok d nn X cells ->
  (passive d pen cells -> kinetic_energy d pen X Z cells V <= exact_kinetic_energy d pen X Z cells V) /\
  (cellwise_uniform d cells V -> kinetic_energy d pen X Z cells V = exact_kinetic_energy d pen X Z cells V).
Proof.
  intros d nn pen X Z cells V Hd Hm. unfold kinetic_energy, exact_kinetic_energy, mass_of, weight_of. split.
  - intros [Hp Hc]. apply sum_over_le. intros c Hin. destruct (Hc c Hin) as (_ & _ & Hr & _). destruct (mesh_cell _ _ _ _ _ Hm Hin) as [_ Hv].
    assert (M0 : 0 <= simplex_measure d (fun a i => X (c_node c a) i)).
    { apply Rlt_le. apply (proj2 (proj2 (proj2 (C31_gradients d (gather_coords X c) Hd Hv)))). }
    set (P := pen _). assert (P0 : 0 <= P) by apply Hp. set (meas := simplex_measure d _) in *.
    replace (1 / 2 * (meas * P * y_rho (c_mat c)) * rs d (fun i => mean_of d V c i * mean_of d V c i))
       with (1 / 2 * (y_rho (c_mat c) * P) * (meas * rs d (fun i => mean_of d V c i * mean_of d V c i))) by ring.
    apply Rmult_le_compat_l; [repeat apply Rmult_le_pos; lra|]. unfold rs at 1. rewrite <- rsum_scal_l. unfold rs at 1.
    apply rsum_le. intros i _. apply (square_integral_bound d meas (fun a => V (c_node c a * d + i)%nat) Hd M0).
  - intros Hu. apply sum_over_ext. intros c Hin. set (P := pen _). set (meas := simplex_measure d _).
    replace (1 / 2 * (meas * P * y_rho (c_mat c)) * rs d (fun i => mean_of d V c i * mean_of d V c i))
       with (1 / 2 * (y_rho (c_mat c) * P) * (meas * rs d (fun i => mean_of d V c i * mean_of d V c i))) by ring.
    f_equal. unfold rs at 1 2. rewrite <- rsum_scal_l. apply rsum_ext. intros i Hi.
    rewrite (square_integral_const d meas _ (V (c_node c 0%nat * d + i)%nat) Hd) by (intros a Ha; apply (Hu c Hin); lia).
    unfold mean_of. rewrite (mean_const d _ (V (c_node c 0%nat * d + i)%nat)) by (intros a Ha; apply (Hu c Hin); lia). reflexivity.
Qed.
Print Assumptions C121_mass_partial.
(** One quadrature point loses the rest: a rod whose ends move apart at unit speed has no kinetic energy, and accelerating its ends apart takes no force. *)
Definition apart (k : nat) : R := match k with 0%nat => -1 | 1%nat => 1 | _ => 0 end.
Theorem C121_mass_refuted :
  ~ (forall d nn pen X Z cells V, (1 <= d <= 3)%nat -> mesh_ok d nn X cells -> passive d pen cells -> kinetic_energy d pen X Z cells V = exact_kinetic_energy d pen X Z cells V) /\
  (forall i, (i < 2)%nat -> elastodynamic 1 (fun _ => 1) bar_X (fun _ => 0) (fun _ => 0) apart (fun _ => 1) rod i = 0) /\ exact_kinetic_energy 1 (fun _ => 1) bar_X (fun _ => 1) rod apart = 4 / 3.
Proof.
  assert (E : exact_kinetic_energy 1 (fun _ => 1) bar_X (fun _ => 1) rod apart = 4 / 3).
  { unfold exact_kinetic_energy, rod, bar. cbn [sum_over]. rewrite rod_measure. unfold square_integral, rs. rsums. cbn. field. }
  split; [|split; [|exact E]].
  - intros H. specialize (H 1%nat 2%nat (fun _ => 1) bar_X (fun _ => 1) rod apart ltac:(lia) (bar_ok steel)). rewrite E in H.
    assert (P : passive 1 (fun _ => 1) rod).
    { split; [intros; lra|]. intros c [<-|[]]. cbn [c_mat steel y_ra y_rb y_rho y_law]. repeat split; try lra. intros e. cbn [num_voigt]. rsums. cbn. pose proof (Rle_0_sqr (e 0%nat)) as Q. unfold Rsqr in Q. lra. }
    specialize (H P). unfold kinetic_energy, rod, bar in H. cbn [sum_over] in H. unfold rs in H. rewrite (rsum_ext 1 _ (fun _ => 0)) in H.
    + rewrite rsum_const in H. cbn in H. lra.
    + intros i Hi. assert (i = 0)%nat as -> by lia. rewrite rod_mean. unfold apart. req. field.
  - intros i Hi. rewrite <- (work_unit (2 * 1) _ i Hi), (dyn_work 1 2) by (try lia; apply (bar_ok steel)). unfold rod, bar. cbn [sum_over].
    unfold inertia_work, stress_power, rs, stiff, rs. cbn [num_voigt]. rsums. rewrite !rod_mean, !rod_strain. cbn -[unit_at]. field.
Qed.
Print Assumptions C121_mass_refuted.

(** ** A run *)
Definition rod_res := elastodynamic 1 (fun z => z * z) bar_X.
Definition none (_ : nat) : R := 0.
Definition full (_ : nat) : R := 1.
Definition rod_pde : hpde R_field unit := mkHPde (K := R_field)
  (fun s _ _ => rod_res (hu s) (hv s) (ha s) full rod)
  (fun _ _ _ i j => rod_res (unit_at j) none none full rod i - rod_res none none none full rod i)
  (fun _ _ _ i j => rod_res none (unit_at j) none full rod i - rod_res none none none full rod i)
  (fun _ _ _ i j => rod_res none none (unit_at j) full rod i - rod_res none none none full rod i)
  (fun _ _ _ _ _ => 0) (fun _ _ _ _ _ => 0).
(** Held at the left end, released from a unit stretch, unit step. *)
Definition rod_problem : hproblem R_field unit := mkHProblem (K := R_field) 2%nat 4%nat (fun _ => ([0%nat], [0])) (solver2 (K := R_field)) (1 / 2)%R (1 / 4)%R 1%R pull none none rod_pde.
Lemma rod_work U V A i : (i < 2)%nat -> rod_res U V A full rod i =
  (8 * ((A 0%nat + A 1%nat) / 2) + 8 / 10 * ((V 0%nat + V 1%nat) / 2)) / 2 + (if Nat.eqb i 0 then -1 else 1) * (3 * (U 1%nat - U 0%nat) + 3 / 5 * (V 1%nat - V 0%nat)).
Proof.
  intros Hi. unfold rod_res. rewrite <- (work_unit (2 * 1) _ i Hi), (dyn_work 1 2) by (try lia; apply (bar_ok steel)). unfold rod, bar. cbn [sum_over].
  unfold inertia_work, stress_power, rs, stiff, rs, mass_of. cbn [num_voigt]. rsums. rewrite !rod_mean, !rod_strain, !rod_weight.
  destruct i as [|[|i]]; [| |lia]; cbn; unfold full; field.
Qed.
Lemma rod_hyps : symmetric_laws 1 rod /\ passive 1 (fun z => z * z) rod /\ dynamic_problem 1 2 (fun z => z * z) bar_X full rod rod_problem tt /\ solvable 1 2 (fun z => z * z) bar_X full rod rod_problem [0%nat].
Proof.
  repeat split.
  - intros c [<-|[]] i j Hi Hj. cbn in *. assert (i = j) by lia. subst j. reflexivity.
  - intros z. pose proof (Rle_0_sqr z) as Q. unfold Rsqr in Q. lra.
  - destruct H as [<-|[]]. cbn. lra.
  - destruct H as [<-|[]]. cbn. lra.
  - destruct H as [<-|[]]. cbn. lra.
  - destruct H as [<-|[]]. intros e. cbn [num_voigt]. rsums. cbn. pose proof (Rle_0_sqr (e 0%nat)) as Q. unfold Rsqr in Q. lra.
  - apply (solver2_ok (K := R_field)).
  - apply (nonsingular2 (K := R_field)). unfold bc_matrix. fold (rod_res). fold none.
    match goal with |- ?x <> _ => assert (E : (x : R) = 63 / 5) end.
    { cbn -[rod_res Rplus Rminus Rmult Rdiv]. cbn [ConstraintsSpec.constrained_matrix ConstraintsSpec.constrained existsb Nat.eqb orb andb].
      rewrite !rod_work by lia. unfold none, unit_at. cbn. field. }
    rewrite E. change (63 / 5 <> 0)%R. lra.
Qed.

(** Held at its left end and released from a unit stretch, the rod's energy decreases from step 1 on; after the first step the stretch is 16/21. *)
Definition at_rest : hhistory R_field := fun _ => mkH (K := R_field) none none none.
Example C121_run_instance :
  (forall k, (2 <= k < 4)%nat -> total_energy 1 (fun z => z * z) bar_X full rod (hu (hsolution rod_problem tt at_rest k)) (hv (hsolution rod_problem tt at_rest k)) <=
     total_energy 1 (fun z => z * z) bar_X full rod (hu (hsolution rod_problem tt at_rest (k - 1)%nat)) (hv (hsolution rod_problem tt at_rest (k - 1)%nat))) /\
  hu (hsolution rod_problem tt at_rest 1%nat) 1%nat = 16 / 21.
Proof.
  destruct rod_hyps as (Hs & Hp & Hd & Hsv). split.
  - intros k Hk. apply (C121_run unit 1 2 (fun z => z * z) bar_X full rod rod_problem tt at_rest [0%nat] [0]); try assumption; try lia; try reflexivity; try (cbn; lra).
    + apply bar_ok.
    + repeat constructor. intros [].
    + intros j [<-|[]]. lia.
  - destruct (C121_motion unit 1 2 (fun z => z * z) bar_X full rod rod_problem tt at_rest [0%nat] [0]) with (j := 1%nat) as (V & Q & N); try assumption; try lia; try reflexivity; try (cbn; lra).
    + apply bar_ok.
    + repeat constructor. intros [].
    + intros j [<-|[]]. lia.
    + cbn; lia.
    + set (s := hsolution rod_problem tt at_rest 1%nat) in *. specialize (V 0%nat 0 (or_introl eq_refl)). specialize (Q 1%nat ltac:(lia) ltac:(intros [E|[]]; discriminate E)).
      assert (Ei : hsolution rod_problem tt at_rest (1 - 1)%nat = mkH (K := R_field) pull none none) by reflexivity. rewrite Ei in N.
      destruct (newmark_real 2 1%R _ _ N 0%nat ltac:(lia)) as [U0 V0]. destruct (newmark_real 2 1%R _ _ N 1%nat ltac:(lia)) as [U1 V1].
      fold rod_res in Q. rewrite rod_work in Q by lia. cbn [hu hv ha] in *. unfold pull, none in *. cbn [Nat.eqb] in Q. clearbody s.
      generalize dependent (hu s 0%nat). generalize dependent (hu s 1%nat). generalize dependent (hv s 0%nat). generalize dependent (hv s 1%nat). generalize dependent (ha s 0%nat). generalize dependent (ha s 1%nat).
      clear N Ei. cbn [rcar fring R_field R_ring] in *. intros. lra.
Qed.
