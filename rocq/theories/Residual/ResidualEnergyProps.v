(** C96-C100: balance, energy, reciprocity and steady state of the residuals on any mesh. *)
From Coq Require Import Reals List Arith Bool Lia Lra.
From Verif Require Import Base.Field Base.Sums Base.Res Element.ElementModel Element.ElementSpec Element.ElementProof Element.ElementProps
  Penalty.PenaltyModel Residual.ResidualModel Residual.ResidualSpec Residual.ResidualProof Residual.ResidualProps.
Import ListNotations.
Local Open Scope R_scope.

(** ** C96: internal forces balance, whatever the state: no resultant force, no resultant moment, no heat, no charge. *)
Lemma rigid_strain {M} d nn ndof X t A W (c : cell M) v : (1 <= d <= 3)%nat -> (d <= ndof)%nat ->
  (forall a, (a <= d)%nat -> (c_node c a < nn)%nat) -> simplex_measure d (gather_coords X c) <> 0 ->
  moves d nn ndof X t A W -> antisymmetric d A -> (v < num_voigt d)%nat ->
  strain d ndof (fun _ => 0) (gather ndof W c) (cell_gradient d (gather_coords X c)) v = 0.
Proof.
  intros Hd Hn Hc Hm HW HA Hv. apply (proj2 (C32_strain d ndof _ t A _ Hd Hn Hm (gather_moves d nn ndof X t A W c Hn Hc HW)) HA v Hv).
Qed.
Lemma uniform_gradient {M} d nn ndof off X b0 W (c : cell M) k : (1 <= d <= 3)%nat -> (off < ndof)%nat ->
  (forall a, (a <= d)%nat -> (c_node c a < nn)%nat) -> simplex_measure d (gather_coords X c) <> 0 ->
  scalar_field d nn ndof off X b0 (fun _ => 0) W -> (k < d)%nat ->
  scalar_gradient d ndof off (gather ndof W c) (cell_gradient d (gather_coords X c)) k = 0.
Proof.
  intros Hd Ho Hc Hm HW Hk. exact (scalar_gradient_affine d ndof off _ b0 (fun _ => 0) _ Hd Hm (gather_scalar d nn ndof off X b0 _ W c Ho Hc HW) k Hk).
Qed.

Theorem C96_elastic : forall d nn pen col X U Z cells t A W, (1 <= d <= 3)%nat -> mesh_ok d nn X cells ->
  moves d nn d X t A W -> antisymmetric d A -> work (nn * d) (elastostatic d pen col X U Z cells) W = 0.
Proof.
  intros d nn pen col X U Z cells t A W Hd Hm HW HA. unfold elastostatic. rewrite assemble_work by (apply (mesh_nodes d nn X); exact Hm).
  apply sum_over_0. intros c Hc. destruct (mesh_cell _ _ _ _ _ Hm Hc) as [Hn Hv]. rewrite elastic_work by exact Hd.
  rewrite rsum_0; [ring|]. intros v Hv'. rewrite (rigid_strain d nn d X t A W c v Hd (le_n d) Hn Hv HW HA Hv'). req. ring.
Qed.
Print Assumptions C96_elastic.
(** Density and specific heat of a law at temperature [T]: the functions of the temperature when the law is nonlinear, else the constants; the
    average of the nodal values of a quantity over the nodes of a cell. *)
Definition density_at (m : thermal) (T : R) : R := if t_nonlinear m then t_rho_fun m T else t_rho_const m.
Definition heat_capacity_at (m : thermal) (T : R) : R := if t_nonlinear m then t_cp_fun m T else t_cp_const m.
Definition average {M} (d ndof off : nat) (U : nat -> R) (c : cell M) : R := rs (S d) (fun a => U (c_node c a * ndof + off)%nat) / INR (S d).
Lemma interpolate_average {M} d ndof off U (c : cell M) : (1 <= d <= 3)%nat -> (off < ndof)%nat -> interpolate d ndof off (gather ndof U c) = average d ndof off U c.
Proof.
  intros Hd Ho. transitivity (rsum (S d) (fun a => / INR (S d) * U (c_node c a * ndof + off)%nat)).
  2: { rewrite rsum_scal_l. unfold average, rs. req. unfold Rdiv. ring. }
  unfold interpolate. apply rsum_ext. intros a Ha. rewrite gather_at by lia. req. f_equal.
  assert (BS : cub_basis d a = / INR (S d)).
  { dims d; unfold cub_basis, cub_point; destruct a as [|[|[|[|a]]]]; try lia; cbn; field. }
  exact BS.
Qed.
Lemma content_at m T rate : thermal_content m T rate = density_at m T * heat_capacity_at m T * rate.
Proof. unfold thermal_content, density_at, heat_capacity_at. destruct (t_nonlinear m); ring. Qed.
Theorem C96_thermal : forall d nn pen X T Tdot Z cells, (1 <= d <= 3)%nat -> mesh_ok d nn X cells ->
  rs nn (thermostatic d pen X T Z cells) = 0 /\
  rs nn (heat_equation d pen X T Tdot Z cells) =
    sum_over cells (fun c => simplex_measure d (fun a i => X (c_node c a) i) * pen (rs (S d) (fun a => Z (c_node c a)) / INR (S d)) *
                             (density_at (c_mat c) (average d 1 0 T c) * heat_capacity_at (c_mat c) (average d 1 0 T c) * average d 1 0 Tdot c)).
Proof.
  intros d nn pen X T Tdot Z cells Hd Hm.
  assert (G : forall (c : cell thermal) k, In c cells -> (k < d)%nat -> scalar_gradient d 1 0 (gather 1 (fun _ => 1) c) (cell_gradient d (gather_coords X c)) k = 0).
  { intros c k Hc Hk. destruct (mesh_cell _ _ _ _ _ Hm Hc) as [Hn Hv].
    apply (uniform_gradient d nn 1 0 X 1 (fun _ => 1) c k Hd ltac:(lia) Hn Hv); [|exact Hk]. intros n _. symmetry. apply affine_const. }
  assert (W1 : forall F, rs nn F = work (nn * 1) F (fun _ => 1)).
  { intros F. unfold work, rs. rewrite Nat.mul_1_r. apply rsum_ext. intros. req. ring. }
  split.
  - rewrite W1. unfold thermostatic. rewrite assemble_work by (apply (mesh_nodes d nn X); exact Hm).
    apply sum_over_0. intros c Hc. rewrite thermostatic_work. rewrite rsum_0; [ring|]. intros k Hk. rewrite (G c k Hc Hk). req. ring.
  - rewrite W1. unfold heat_equation. rewrite assemble_work by (apply (mesh_nodes d nn X); exact Hm).
    apply sum_over_ext. intros c Hc. destruct (mesh_cell _ _ _ _ _ Hm Hc) as [Hn Hv]. rewrite heat_work.
    rewrite rsum_0. 2: { intros k Hk. rewrite (G c k Hc Hk). req. ring. }
    rewrite (interpolate_const d 1 0 (gather 1 (fun _ => 1) c) 1 Hd) by reflexivity.
    rewrite (proj1 (measure_simplex d (gather_coords X c) Hd Hv)).
    change (simplex_measure d (gather_coords X c)) with (simplex_measure d (fun a i => X (c_node c a) i)).
    change (cell_density (S d) (gather_control Z c)) with (rs (S d) (fun a => Z (c_node c a)) / INR (S d)).
    rewrite !interpolate_average, content_at by lia. ring.
Qed.
Print Assumptions C96_thermal.
Theorem C96_thermoelastic : forall d nn pen X U Z cells t A T0 W, (2 <= d <= 3)%nat -> mesh_ok d nn X cells ->
  moves d nn (S d) X t A W -> antisymmetric d A -> scalar_field d nn (S d) d X T0 (fun _ => 0) W ->
  exists r, thermoelastostatic d pen X U Z cells = Ok r /\ work (nn * S d) r W = 0.
Proof.
  intros d nn pen X U Z cells t A T0 W Hd Hm HW HA HT. destruct (tm_ok d pen X U Z cells Hd) as (r & E & Hr). exists r. split; [exact E|].
  transitivity (work (nn * S d) (assemble (S d) (S d) (fun c => tm_cell_value d pen (c_mat c) (gather_coords X c) (gather (S d) U c) (gather_control Z c)) cells) W).
  { unfold work, rs. apply rsum_ext. intros k _. rewrite Hr. reflexivity. }
  rewrite assemble_work by (apply (mesh_nodes d nn X); exact Hm).
  apply sum_over_0. intros c Hc. destruct (mesh_cell _ _ _ _ _ Hm Hc) as [Hn Hv]. rewrite tm_work by lia.
  rewrite !rsum_0; [ring| |].
  - intros k Hk. rewrite (uniform_gradient d nn (S d) d X T0 W c k ltac:(lia) ltac:(lia) Hn Hv HT Hk). req. ring.
  - intros v Hv'. rewrite (rigid_strain d nn (S d) X t A W c v ltac:(lia) ltac:(lia) Hn Hv HW HA Hv'). req. ring.
Qed.
Print Assumptions C96_thermoelastic.
(** In transient thermoelasticity a rigid motion feels no force, whatever the rate, and a uniform temperature measures the heat content rate. *)
Theorem C96_transient_thermoelastic : forall d nn pen X U Udot Z cells t A T0 W, (2 <= d <= 3)%nat -> mesh_ok d nn X cells ->
  moves d nn (S d) X t A W -> antisymmetric d A -> scalar_field d nn (S d) d X T0 (fun _ => 0) W ->
  exists r, transient_tm d pen X U Udot Z cells = Ok r /\ work (nn * S d) r W =
    T0 * sum_over cells (fun c => simplex_measure d (fun a i => X (c_node c a) i) * pen (rs (S d) (fun a => Z (c_node c a)) / INR (S d)) *
           (density_at (snd (c_mat c)) (average d (S d) d U c) * heat_capacity_at (snd (c_mat c)) (average d (S d) d U c) * average d (S d) d Udot c)).
Proof.
  intros d nn pen X U Udot Z cells t A T0 W Hd Hm HW HA HT.
  set (f := fun c : cell (thermoelastic * thermal) => match transient_tm_cell d pen (c_mat c) (gather_coords X c) (gather (S d) U c) (gather (S d) Udot c) (gather_control Z c) with Ok r => r | _ => fun _ => 0 end).
  assert (OK : forall c, exists r, transient_tm_cell d pen (c_mat c) (gather_coords X c) (gather (S d) U c) (gather (S d) Udot c) (gather_control Z c) = Ok r /\
      forall w, cell_work (S d) (S d) r w = cell_work (S d) (S d) (tm_cell_value d pen (fst (c_mat c)) (gather_coords X c) (gather (S d) U c) (gather_control Z c)) w
        + cell_measure d (gather_coords X c) * (pen (cell_density (S d) (gather_control Z c)) * (density_at (snd (c_mat c)) (average d (S d) d U c) * heat_capacity_at (snd (c_mat c)) (average d (S d) d U c) * average d (S d) d Udot c)) * interpolate d (S d) d w).
  { intros c. destruct (tm_cell_ok d pen (fst (c_mat c)) (gather_coords X c) (gather (S d) U c) (gather_control Z c) ltac:(lia)) as (r & E & H).
    unfold transient_tm_cell. rewrite E. cbn [rbind]. eexists. split; [reflexivity|]. intros w. rewrite project_work by lia. unfold weigh.
    rewrite !interpolate_average, content_at by lia. f_equal; [|req; ring]. unfold cell_work. apply rsum_ext. intros a _. apply rsum_ext. intros i _. rewrite H. reflexivity. }
  exists (assemble (S d) (S d) f cells). split.
  { apply assembleR_ok. intros c _. unfold f. destruct (OK c) as (r & E & _). rewrite E. reflexivity. }
  rewrite assemble_work by (apply (mesh_nodes d nn X); exact Hm). rewrite <- sum_over_scal.
  apply sum_over_ext. intros c Hc. destruct (mesh_cell _ _ _ _ _ Hm Hc) as [Hn Hv]. unfold f. destruct (OK c) as (r & E & H). rewrite E, H, tm_work by lia.
  rewrite (rsum_0 (num_voigt d)). 2: { intros v Hv'. rewrite (rigid_strain d nn (S d) X t A W c v ltac:(lia) ltac:(lia) Hn Hv HW HA Hv'). req. ring. }
  rewrite (rsum_0 d). 2: { intros k Hk. rewrite (uniform_gradient d nn (S d) d X T0 W c k ltac:(lia) ltac:(lia) Hn Hv HT Hk). req. ring. }
  rewrite (interpolate_const d (S d) d (gather (S d) W c) T0 ltac:(lia)).
  2: { intros a Ha. rewrite gather_at by lia. rewrite HT by (apply Hn; lia). apply affine_const. }
  rewrite (proj1 (measure_simplex d (gather_coords X c) ltac:(lia) Hv)).
  change (simplex_measure d (gather_coords X c)) with (simplex_measure d (fun a i => X (c_node c a) i)).
  change (cell_density (S d) (gather_control Z c)) with (rs (S d) (fun a => Z (c_node c a)) / INR (S d)). ring.
Qed.
Print Assumptions C96_transient_thermoelastic.
Theorem C96_electroelastic : forall d nn pen X U Z cells t A p0 W, (1 <= d <= 3)%nat -> mesh_ok d nn X cells ->
  moves d nn (S d) X t A W -> antisymmetric d A -> scalar_field d nn (S d) d X p0 (fun _ => 0) W ->
  work (nn * S d) (electroelastostatic d pen X U Z cells) W = 0 /\
  (forall k, electroelastostatic d pen X W Z cells k = 0).
Proof.
  intros d nn pen X U Z cells t A p0 W Hd Hm HW HA HT. split.
  - unfold electroelastostatic. rewrite assemble_work by (apply (mesh_nodes d nn X); exact Hm).
    apply sum_over_0. intros c Hc. destruct (mesh_cell _ _ _ _ _ Hm Hc) as [Hn Hv]. rewrite em_work by lia.
    rewrite !rsum_0; [ring| |].
    + intros k Hk. rewrite em_field_gradient, (uniform_gradient d nn (S d) d X p0 W c k ltac:(lia) ltac:(lia) Hn Hv HT Hk). req. ring.
    + intros v Hv'. rewrite (rigid_strain d nn (S d) X t A W c v ltac:(lia) ltac:(lia) Hn Hv HW HA Hv'). req. ring.
  - apply assemble_0. intros c k Hc _. destruct (mesh_cell _ _ _ _ _ Hm Hc) as [Hn Hv]. unfold em_cell. cbv zeta.
    assert (S0 : forall v, (v < num_voigt d)%nat -> strain d (S d) (fun _ => 0) (gather (S d) W c) (cell_gradient d (gather_coords X c)) v = 0).
    { intros v Hv'. apply (rigid_strain d nn (S d) X t A W c v ltac:(lia) ltac:(lia) Hn Hv HW HA Hv'). }
    assert (F0 : forall k, (k < d)%nat -> em_field d (gather (S d) W c) (cell_gradient d (gather_coords X c)) k = 0).
    { intros k' Hk. rewrite em_field_gradient, (uniform_gradient d nn (S d) d X p0 W c k' ltac:(lia) ltac:(lia) Hn Hv HT Hk). ring. }
    rewrite flux_0, divergence_0; [reflexivity|exact Hd| |]; intros v Hv'; unfold weigh, em_stress, em_displacement; rewrite !rsum_0; try (req; ring);
      intros j Hj; rewrite ?S0, ?F0 by exact Hj; req; ring.
Qed.
Print Assumptions C96_electroelastic.
(** A rigid motion without reference strain needs no force; a uniform temperature no heat source. *)
Theorem C96_rest : forall d nn pen X Z, (1 <= d <= 3)%nat ->
  (forall cells t A W, mesh_ok d nn X cells -> moves d nn d X t A W -> antisymmetric d A ->
     (forall c v, In c cells -> (v < num_voigt d)%nat -> e_ref (c_mat c) v = 0) -> forall k, elastostatic d pen None X W Z cells k = 0) /\
  (forall cells T0 T, mesh_ok d nn X cells -> scalar_field d nn 1 0 X T0 (fun _ => 0) T -> forall k, thermostatic d pen X T Z cells k = 0).
Proof.
  intros d nn pen X Z Hd. split.
  - intros cells t A W Hm HW HA Href. apply assemble_0. intros c k Hc _. destruct (mesh_cell _ _ _ _ _ Hm Hc) as [Hn Hv].
    unfold elastostatic_cell. rewrite divergence_0; [reflexivity|exact Hd|]. intros v Hv'. unfold weigh, elastic_stress, add_forcing, linear_stress.
    rewrite rsum_0; [req; ring|]. intros j Hj. rewrite (rigid_strain d nn d X t A W c j Hd (le_n d) Hn Hv HW HA Hj), Href by assumption. req. ring.
  - intros cells T0 T Hm HT. apply assemble_0. intros c k Hc _. destruct (mesh_cell _ _ _ _ _ Hm Hc) as [Hn Hv].
    unfold thermostatic_cell. cbv zeta. rewrite flux_0; [reflexivity|]. intros v Hv'. unfold weigh, flux_at, thermal_flux.
    rewrite rsum_0; [req; ring|]. intros j Hj. rewrite (uniform_gradient d nn 1 0 X T0 T c j ltac:(lia) ltac:(lia) Hn Hv HT Hj). req. ring.
Qed.
Print Assumptions C96_rest.
Example C96_reachable : exists W, moves 2 4 2 square_X (fun _ => 1) (fun i j => if Nat.eqb i j then 0 else if Nat.ltb i j then -1 else 1) W /\
  antisymmetric 2 (fun i j => if Nat.eqb i j then 0 else if Nat.ltb i j then -1 else 1) /\ W 0%nat <> W 4%nat.
Proof.
  exists (fun k => affine 2 1 ((fun i j => if Nat.eqb i j then 0 else if Nat.ltb i j then -1 else 1) (k mod 2)) square_X (k / 2)). split; [|split].
  - intros n i Hn Hi. destruct n as [|[|[|[|n]]]]; try lia; destruct i as [|[|i]]; try lia; reflexivity.
  - intros i j Hi Hj. destruct i as [|[|i]]; try lia; destruct j as [|[|j]]; try lia; cbn; ring.
  - unfold affine, rs. rsums. cbn. lra.
Qed.

(** ** C97: the internal energy criteria measure the work of the internal forces. *)
Theorem C97_elastic : forall d nn pen X U Z cells, (1 <= d <= 3)%nat -> mesh_ok d nn X cells ->
  elastic_energy d pen X U Z cells = 1 / 2 * work (nn * d) (elastostatic d pen None X U Z cells) U.
Proof.
  intros d nn pen X U Z cells Hd Hm. unfold elastostatic. rewrite assemble_work by (apply (mesh_nodes d nn X); exact Hm).
  unfold elastic_energy. rewrite total_sum, <- sum_over_scal. apply sum_over_ext. intros c Hc. rewrite elastic_work by exact Hd.
  unfold elastic_energy_cell, scalar_product, weigh. set (P := pen _). set (V := cell_measure _ _).
  replace (1 / 2 * (V * P * rsum (num_voigt d) (fun v => elastic_stress d (c_mat c) None (gather_coords X c) (gather d U c) v *
      strain d d (fun _ => 0) (gather d U c) (cell_gradient d (gather_coords X c)) v)))
    with (1 / 2 * rsum (num_voigt d) (fun v => P * (elastic_stress d (c_mat c) None (gather_coords X c) (gather d U c) v *
      strain d d (fun _ => 0) (gather d U c) (cell_gradient d (gather_coords X c)) v)) * V) by (rewrite rsum_scal_l; ring).
  f_equal. f_equal. apply rsum_ext. intros. req. ring.
Qed.
Print Assumptions C97_elastic.
Theorem C97_thermal_partial : forall d nn pen X T Z cells, (1 <= d <= 3)%nat -> mesh_ok d nn X cells ->
  (forall c, In c cells -> t_nonlinear (c_mat c) = false) ->
  thermal_energy d pen X T Z cells = work nn (thermostatic d pen X T Z cells) T.
Proof.
  intros d nn pen X T Z cells Hd Hm Hl. replace nn with (nn * 1)%nat by lia. unfold thermostatic. rewrite assemble_work by (apply (mesh_nodes d nn X); exact Hm).
  unfold thermal_energy. rewrite total_sum. apply sum_over_ext. intros c Hc. rewrite thermostatic_work.
  unfold thermal_energy_cell, scalar_product, weigh. cbv zeta. unfold flux_no_temperature, flux_at. rewrite (Hl c Hc).
  set (P := pen _). set (V := cell_measure _ _). set (tg := scalar_gradient _ _ _ _ _).
  replace (- (V * P * rsum d (fun k => thermal_flux d (t_cond_const (c_mat c)) tg k * tg k)))
     with (-1 * rsum d (fun k => P * (thermal_flux d (t_cond_const (c_mat c)) tg k * tg k)) * V) by (rewrite rsum_scal_l; ring).
  f_equal. f_equal. apply rsum_ext. intros. req. ring.
Qed.
Print Assumptions C97_thermal_partial.
(** For a temperature dependent conductivity the criterion is zero, whatever the temperature field; the work is not. *)
Theorem C97_thermal_zero : forall d pen X T Z cells, (forall c, In c cells -> t_nonlinear (c_mat c) = true) -> thermal_energy d pen X T Z cells = 0.
Proof.
  intros d pen X T Z cells Hn. unfold thermal_energy. rewrite total_sum. apply sum_over_0. intros c Hc. unfold thermal_energy_cell, scalar_product. cbv zeta.
  rewrite rsum_0; [ring|]. intros k Hk. unfold weigh, flux_no_temperature, thermal_flux. rewrite (Hn c Hc). rewrite rsum_0; [req; ring|]. intros. req. ring.
Qed.
Print Assumptions C97_thermal_zero.
Definition bar_X (n i : nat) : R := match n with 1%nat => 1 | _ => 0 end.
Definition bar {M} (m : M) : list (cell M) := [mkCell (fun a => a) m].
Example bar_ok {M} (m : M) : mesh_ok 1 2 bar_X (bar m).
Proof.
  intros c [E|[]]; subst c. split; [intros [|[|a]] Ha; cbn; lia|]. unfold simplex_measure; cbn. replace (1 - 0) with 1 by ring. rewrite Rabs_R1. lra.
Qed.
Definition hot_law : thermal := mkThermal true (fun _ _ => 0) (fun T _ _ => 1 + T) 0 (fun _ => 1) 0 (fun _ => 1).
Definition ramp_T (n : nat) : R := match n with 1%nat => 2 | _ => 0 end.
Lemma bar_work (m : thermal) : work 2 (thermostatic 1 (fun _ => 1) bar_X ramp_T (fun _ => 1) (bar m)) ramp_T =
  4 * (if t_nonlinear m then t_cond_fun m 1 0%nat 0%nat else t_cond_const m 0%nat 0%nat).
Proof.
  change 2%nat with (2 * 1)%nat. unfold thermostatic. rewrite assemble_work by (apply (mesh_nodes 1 2 bar_X); apply bar_ok).
  cbn [bar sum_over]. rewrite thermostatic_work. unfold flux_at, thermal_flux, scalar_gradient, interpolate. rsums.
  unfold cell_measure, cell_volume, cell_gradient, gradient1, cell_det, det1, cub_basis, cub_point, gather_coords, gather, bar_X, cub_weight. cbn -[Rabs].
  replace (Rabs (0 - 1)) with 1. 2: { replace (0 - 1) with (- (1)) by ring. rewrite Rabs_Ropp, Rabs_R1. reflexivity. }
  rsums. replace (0 + (1 - 1 / 2) * 0 + 1 / 2 * 2) with 1 by field. replace (0 - 1) with (-1) by ring.
  destruct (t_nonlinear m); field.
Qed.
Theorem C97_thermal_refuted : ~ (forall d nn pen X T Z cells, (1 <= d <= 3)%nat -> mesh_ok d nn X cells ->
  thermal_energy d pen X T Z cells = work nn (thermostatic d pen X T Z cells) T).
Proof.
  intros H. specialize (H 1%nat 2%nat (fun _ => 1) bar_X ramp_T (fun _ => 1) (bar hot_law) ltac:(lia) (bar_ok hot_law)).
  rewrite C97_thermal_zero in H by (intros c [E|[]]; subst c; reflexivity). rewrite bar_work in H. cbn in H. lra.
Qed.
Print Assumptions C97_thermal_refuted.
Theorem C97_thermoelastic : forall d nn pen X U Z cells, (2 <= d <= 3)%nat -> mesh_ok d nn X cells ->
  exists r v, thermoelastostatic d pen X U Z cells = Ok r /\ tm_energy d pen X U Z cells = Ok v /\ v = work (nn * S d) r U.
Proof.
  intros d nn pen X U Z cells Hd Hm. destruct (tm_ok d pen X U Z cells Hd) as (r & E & Hr). exists r.
  set (f := fun c : cell thermoelastic => cell_work (S d) (S d) (tm_cell_value d pen (c_mat c) (gather_coords X c) (gather (S d) U c) (gather_control Z c)) (gather (S d) U c)).
  exists (sum_over cells f). split; [exact E|]. split.
  - unfold tm_energy. apply totalR_ok. intros c Hc. unfold tm_energy_cell. cbv zeta.
    destruct (tm_kinetics_ok d (c_mat c) (strain d (S d) (fun _ => 0) (gather (S d) U c) (cell_gradient d (gather_coords X c)))
      (scalar_gradient d (S d) d (gather (S d) U c) (cell_gradient d (gather_coords X c))) (interpolate d (S d) d (gather (S d) U c)) Hd) as (s & Es & Hs).
    rewrite Es. cbn [rbind fst snd]. f_equal. unfold f. rewrite tm_work by lia. unfold scalar_product, weigh.
    set (P := pen _). set (V := cell_measure _ _). rewrite Rmult_plus_distr_l. f_equal.
    + rewrite !Rmult_1_l, rsum_scal_r. rewrite <- rsum_scal_l. apply rsum_ext. intros v Hv. rewrite Hs. req. ring.
    + rewrite !Rmult_1_l, rsum_scal_r. rewrite <- rsum_scal_l. apply rsum_ext. intros v Hv. req. ring.
  - transitivity (work (nn * S d) (assemble (S d) (S d) (fun c => tm_cell_value d pen (c_mat c) (gather_coords X c) (gather (S d) U c) (gather_control Z c)) cells) U).
    { rewrite assemble_work by (apply (mesh_nodes d nn X); exact Hm). reflexivity. }
    unfold work, rs. apply rsum_ext. intros k _. rewrite Hr. reflexivity.
Qed.
Print Assumptions C97_thermoelastic.
Theorem C97_electroelastic : forall d nn pen X U Z cells, (1 <= d <= 3)%nat -> mesh_ok d nn X cells ->
  em_energy d pen X U Z cells = work (nn * S d) (electroelastostatic d pen X U Z cells) U.
Proof.
  intros d nn pen X U Z cells Hd Hm. unfold electroelastostatic. rewrite assemble_work by (apply (mesh_nodes d nn X); exact Hm).
  unfold em_energy. rewrite total_sum. apply sum_over_ext. intros c Hc. rewrite em_work by lia. unfold em_energy_cell, scalar_product, weigh. cbv zeta.
  set (P := pen _). set (V := cell_measure _ _). unfold Rminus. rewrite Rmult_plus_distr_l. f_equal.
  - rewrite !Rmult_1_l, rsum_scal_r. rewrite <- rsum_scal_l. apply rsum_ext. intros v Hv. req. ring.
  - match goal with |- -1 * rsum d ?F * V = V * P * - rsum d ?G => assert (EQ : rsum d F = P * rsum d G) end.
    { rewrite <- rsum_scal_l. apply rsum_ext. intros v Hv. req. ring. }
    rewrite EQ. ring.
Qed.
Print Assumptions C97_electroelastic.
Example C97_reachable : work 2 (thermostatic 1 (fun _ => 1) bar_X ramp_T (fun _ => 1) (bar (mkThermal false (fun _ _ => 3) (fun _ _ _ => 0) 1 (fun _ => 1) 1 (fun _ => 1)))) ramp_T = 12.
Proof. rewrite bar_work. cbn. ring. Qed.

(** ** C98: the internal elastic energy and the residual are consistent: the derivative of the energy is the internal force. *)
Definition no_reference (d : nat) (cells : list (cell elastic)) : Prop := forall c v, In c cells -> (v < num_voigt d)%nat -> e_ref (c_mat c) v = 0.
Definition all_symmetric (n : nat) (cells : list (cell elastic)) : Prop := forall c, In c cells -> symmetric n (e_stiff (c_mat c)).
Definition along (U V : nat -> R) (s : R) (k : nat) : R := U k + s * V k.

Lemma stress_none d m x u v : (forall j, (j < num_voigt d)%nat -> e_ref m j = 0) ->
  elastic_stress d m None x u v = rsum (num_voigt d) (fun j => strain d d (fun _ => 0) u (cell_gradient d x) j * e_stiff m v j).
Proof. intros H. unfold elastic_stress, add_forcing, linear_stress. apply rsum_ext. intros j Hj. rewrite H by exact Hj. req. ring. Qed.

(** ** C99: reciprocity (Maxwell-Betti): the work of the forces of one state in another does not depend on their order; and is never negative in itself. *)
Theorem C99_elastic : forall d nn pen X U V Z cells, (1 <= d <= 3)%nat -> mesh_ok d nn X cells -> no_reference d cells -> all_symmetric (num_voigt d) cells ->
  work (nn * d) (elastostatic d pen None X U Z cells) V = work (nn * d) (elastostatic d pen None X V Z cells) U.
Proof.
  intros d nn pen X U V Z cells Hd Hm Hr Hs. unfold elastostatic. rewrite !assemble_work by (apply (mesh_nodes d nn X); exact Hm).
  apply sum_over_ext. intros c Hc. rewrite !elastic_work by exact Hd. f_equal.
  rewrite (rsum_ext _ _ _ (fun v Hv => f_equal (fun a => a * _) (stress_none d (c_mat c) _ _ v (fun j Hj => Hr c j Hc Hj)))).
  rewrite (form_sym _ _ _ _ (Hs c Hc)). apply rsum_ext. intros v Hv. rewrite stress_none by (intros; apply Hr; assumption). reflexivity.
Qed.
Print Assumptions C99_elastic.

Lemma elastic_work_linear d nn pen X U V W Z cells s : (1 <= d <= 3)%nat -> mesh_ok d nn X cells -> no_reference d cells ->
  work (nn * d) (elastostatic d pen None X (along U V s) Z cells) W =
  work (nn * d) (elastostatic d pen None X U Z cells) W + s * work (nn * d) (elastostatic d pen None X V Z cells) W.
Proof.
  intros Hd Hm Hr. unfold elastostatic. rewrite !assemble_work by (apply (mesh_nodes d nn X); exact Hm).
  rewrite <- sum_over_scal, <- sum_over_add. apply sum_over_ext. intros c Hc. rewrite !elastic_work by exact Hd.
  set (q := cell_measure _ _ * _).
  replace (s * (q * rsum (num_voigt d) (fun v => elastic_stress d (c_mat c) None (gather_coords X c) (gather d V c) v * strain d d (fun _ => 0) (gather d W c) (cell_gradient d (gather_coords X c)) v)))
    with (q * rsum (num_voigt d) (fun v => s * (elastic_stress d (c_mat c) None (gather_coords X c) (gather d V c) v * strain d d (fun _ => 0) (gather d W c) (cell_gradient d (gather_coords X c)) v)))
    by (rewrite rsum_scal_l; ring).
  rewrite <- Rmult_plus_distr_l. f_equal. rewrite <- rsum_add. apply rsum_ext. intros v Hv.
  rewrite !stress_none by (intros; apply Hr; assumption).
  replace (rsum (num_voigt d) (fun j => strain d d (fun _ => 0) (gather d (along U V s) c) (cell_gradient d (gather_coords X c)) j * e_stiff (c_mat c) v j))
    with (rsum (num_voigt d) (fun j => strain d d (fun _ => 0) (gather d U c) (cell_gradient d (gather_coords X c)) j * e_stiff (c_mat c) v j
                                      + s * (strain d d (fun _ => 0) (gather d V c) (cell_gradient d (gather_coords X c)) j * e_stiff (c_mat c) v j))).
  2: { apply rsum_ext. intros j Hj. change (gather d (along U V s) c) with (fun k => gather d U c k + s * gather d V c k).
       rewrite (strain_lin d d (gather d U c) (gather d V c) s _ j Hj Hd). req. ring. }
  rewrite rsum_add, rsum_scal_l. req. ring.
Qed.
Lemma work_along n F U V s : work n F (along U V s) = work n F U + s * work n F V.
Proof. unfold work, rs, along. rewrite <- rsum_scal_l, <- rsum_add. apply rsum_ext. intros. req. ring. Qed.

Theorem C98_energy_partial : forall d nn pen X U V Z cells, (1 <= d <= 3)%nat -> mesh_ok d nn X cells -> all_symmetric (num_voigt d) cells -> no_reference d cells ->
  derivable_pt_lim (fun s => elastic_energy d pen X (along U V s) Z cells) 0 (work (nn * d) (elastostatic d pen None X U Z cells) V).
Proof.
  intros d nn pen X U V Z cells Hd Hm Hs Hr.
  set (w := work (nn * d) (elastostatic d pen None X U Z cells) V).
  set (e0 := elastic_energy d pen X U Z cells). set (e1 := elastic_energy d pen X V Z cells).
  assert (E : forall s, elastic_energy d pen X (along U V s) Z cells = e0 + s * w + s * s * e1).
  { intros s. unfold e0, e1, w. rewrite !(C97_elastic d nn) by assumption. rewrite !work_along, !elastic_work_linear by assumption.
    rewrite (C99_elastic d nn pen X V U Z cells Hd Hm Hr Hs). field. }
  intros eps Heps. assert (Hp : 0 < eps / (Rabs e1 + 1)).
  { apply Rdiv_lt_0_compat; [exact Heps|]. pose proof (Rabs_pos e1). lra. }
  exists (mkposreal _ Hp). intros h Hh Hlt. cbn in Hlt. rewrite !E.
  replace ((e0 + (0 + h) * w + (0 + h) * (0 + h) * e1 - (e0 + 0 * w + 0 * 0 * e1)) / h - w) with (h * e1) by (field; exact Hh).
  rewrite Rabs_mult. pose proof (Rabs_pos e1) as P1. pose proof (Rabs_pos h) as P2.
  apply Rle_lt_trans with (Rabs h * (Rabs e1 + 1)); [nra|].
  apply Rmult_lt_compat_r with (r := Rabs e1 + 1) in Hlt; [|lra]. replace (eps / (Rabs e1 + 1) * (Rabs e1 + 1)) with eps in Hlt by (field; lra). exact Hlt.
Qed.
Print Assumptions C98_energy_partial.

(** With a reference strain the criterion's derivative is not the internal force: a bar with unit stiffness and unit reference strain at rest. *)
Definition strained : elastic := mkElastic (fun _ _ => 1) (fun _ => 1).
Lemma bar_elastic (m : elastic) U V Z : work 2 (elastostatic 1 (fun _ => 1) None bar_X U Z (bar m)) V =
  ((U 1%nat - U 0%nat) - e_ref m 0%nat) * e_stiff m 0%nat 0%nat * (V 1%nat - V 0%nat).
Proof.
  change 2%nat with (2 * 1)%nat. unfold elastostatic. rewrite assemble_work by (apply (mesh_nodes 1 2 bar_X); apply bar_ok).
  cbn [bar sum_over]. rewrite elastic_work by lia. unfold elastic_stress, add_forcing, linear_stress, strain. cbn [num_voigt]. rsums.
  unfold cell_measure, cell_volume, cell_gradient, gradient1, cell_det, det1, gather_coords, gather, bar_X, cub_weight. cbn -[Rabs].
  replace (Rabs (0 - 1)) with 1. 2: { replace (0 - 1) with (- (1)) by ring. rewrite Rabs_Ropp, Rabs_R1. reflexivity. }
  rsums. replace (0 - 1) with (-1) by ring. field.
Qed.
Theorem C98_refuted : ~ (forall d nn pen X U V Z cells, (1 <= d <= 3)%nat -> mesh_ok d nn X cells -> all_symmetric (num_voigt d) cells ->
  derivable_pt_lim (fun s => elastic_energy d pen X (along U V s) Z cells) 0 (work (nn * d) (elastostatic d pen None X U Z cells) V)).
Proof.
  intros H. set (V := fun k : nat => match k with 1%nat => 1 | _ => 0 end).
  specialize (H 1%nat 2%nat (fun _ => 1) bar_X (fun _ => 0) V (fun _ => 1) (bar strained) ltac:(lia) (bar_ok strained)).
  assert (Hs : all_symmetric (num_voigt 1) (bar strained)) by (intros c [<-|[]] i j _ _; reflexivity).
  specialize (H Hs). change (2 * 1)%nat with 2%nat in H. rewrite bar_elastic in H.
  assert (E : forall s, elastic_energy 1 (fun _ => 1) bar_X (along (fun _ => 0) V s) (fun _ => 1) (bar strained) = (s * s - s) / 2).
  { intros s. rewrite (C97_elastic 1 2) by (try lia; apply bar_ok). change (2 * 1)%nat with 2%nat. rewrite bar_elastic. unfold along, V. cbn. field. }
  assert (D : derivable_pt_lim (fun s => elastic_energy 1 (fun _ => 1) bar_X (along (fun _ => 0) V s) (fun _ => 1) (bar strained)) 0 (- / 2)).
  { intros eps Heps. exists (mkposreal _ Heps). intros h Hh Hlt. cbn in Hlt. rewrite !E.
    replace ((((0 + h) * (0 + h) - (0 + h)) / 2 - (0 * 0 - 0) / 2) / h - - / 2) with (h / 2) by (field; exact Hh).
    unfold Rdiv. rewrite Rabs_mult, (Rabs_right (/ 2)) by lra. pose proof (Rabs_pos h). lra. }
  pose proof (uniqueness_limite _ _ _ _ H D) as Q. cbn in Q. lra.
Qed.
Print Assumptions C98_refuted.
Example C98_reachable : all_symmetric 1 (bar (mkElastic (fun _ _ => 2) (fun _ => 0))) /\ no_reference 1 (bar (mkElastic (fun _ _ => 2) (fun _ => 0))) /\
  work 2 (elastostatic 1 (fun _ => 1) None bar_X ramp_T (fun _ => 1) (bar (mkElastic (fun _ _ => 2) (fun _ => 0)))) ramp_T = 8.
Proof.
  split; [|split].
  - intros c [<-|[]] i j _ _; reflexivity.
  - intros c v [<-|[]] _; reflexivity.
  - rewrite bar_elastic. cbn. ring.
Qed.

Theorem C99_thermal : forall d nn pen X T S' Z cells, (1 <= d <= 3)%nat -> mesh_ok d nn X cells ->
  (forall c, In c cells -> t_nonlinear (c_mat c) = false /\ symmetric d (t_cond_const (c_mat c))) ->
  work nn (thermostatic d pen X T Z cells) S' = work nn (thermostatic d pen X S' Z cells) T.
Proof.
  intros d nn pen X T S' Z cells Hd Hm Hs. replace nn with (nn * 1)%nat by lia. unfold thermostatic. rewrite !assemble_work by (apply (mesh_nodes d nn X); exact Hm).
  apply sum_over_ext. intros c Hc. rewrite !thermostatic_work. f_equal. f_equal. unfold flux_at, thermal_flux. destruct (Hs c Hc) as [-> Hsy].
  set (a := scalar_gradient d 1 0 (gather 1 T c) _). set (b := scalar_gradient d 1 0 (gather 1 S' c) _).
  rewrite (rsum_ext d _ (fun k => - (rsum d (fun j => a j * t_cond_const (c_mat c) k j) * b k))) by (intros; req; ring).
  rewrite rsum_opp, (form_sym _ _ _ _ Hsy), <- rsum_opp. apply rsum_ext. intros. req. ring.
Qed.
Print Assumptions C99_thermal.
Theorem C99_electroelastic : forall d nn pen X U V Z cells, (1 <= d <= 3)%nat -> mesh_ok d nn X cells ->
  (forall c, In c cells -> symmetric (num_voigt d) (p_stiff (c_mat c)) /\ symmetric d (p_perm (c_mat c))) ->
  work (nn * S d) (electroelastostatic d pen X U Z cells) V = work (nn * S d) (electroelastostatic d pen X V Z cells) U.
Proof.
  intros d nn pen X U V Z cells Hd Hm Hs. unfold electroelastostatic. rewrite !assemble_work by (apply (mesh_nodes d nn X); exact Hm).
  apply sum_over_ext. intros c Hc. rewrite !em_work by exact Hd. f_equal. destruct (Hs c Hc) as [HC HP].
  set (e := strain d (S d) (fun _ => 0) (gather (S d) U c) _). set (f := strain d (S d) (fun _ => 0) (gather (S d) V c) _).
  set (a := em_field d (gather (S d) U c) _). set (b := em_field d (gather (S d) V c) _). set (m := c_mat c) in *. set (n := num_voigt d) in *.
  assert (S1 : forall e f a, rsum n (fun v => em_stress d m e a v * f v) =
     rsum n (fun i => rsum n (fun j => e j * p_stiff m i j) * f i) - p_alpha m * rsum n (fun i => rsum d (fun j => a j * p_piezo m j i) * f i)).
  { intros e' f' a'. rewrite <- rsum_scal_l, <- rsum_sub. apply rsum_ext. intros i Hi. unfold em_stress. fold n.
    rewrite (rsum_ext d (fun j => p_alpha m * a' j * p_piezo m j i) (fun j => p_alpha m * (a' j * p_piezo m j i))) by (intros; req; ring).
    rewrite rsum_scal_l. req. ring. }
  assert (S2 : forall e a b, rsum d (fun k => em_displacement d m e a k * b k) =
     p_alpha m * p_alpha m * rsum d (fun i => rsum d (fun j => a j * p_perm m i j) * b i) + p_alpha m * rsum d (fun i => rsum n (fun j => e j * p_piezo m i j) * b i)).
  { intros e' a' b'. rewrite <- !rsum_scal_l, <- rsum_add. apply rsum_ext. intros i Hi. unfold em_displacement. fold n.
    rewrite (rsum_ext d (fun j => p_alpha m * p_alpha m * a' j * p_perm m i j) (fun j => p_alpha m * p_alpha m * (a' j * p_perm m i j))) by (intros; req; ring).
    rewrite (rsum_ext n (fun j => p_alpha m * e' j * p_piezo m i j) (fun j => p_alpha m * (e' j * p_piezo m i j))) by (intros; req; ring).
    rewrite !rsum_scal_l. req. ring. }
  assert (X1 : forall e a, rsum n (fun i => rsum d (fun j => a j * p_piezo m j i) * e i) = rsum d (fun i => rsum n (fun j => e j * p_piezo m i j) * a i)).
  { intros e' a'.
    rewrite (rsum_ext n _ (fun i => rsum d (fun j => a' j * p_piezo m j i * e' i))) by (intros i _; apply rsum_scal_r).
    rewrite rsum_swap. apply rsum_ext. intros j Hj. rewrite rsum_scal_r. apply rsum_ext. intros. req. ring. }
  rewrite !S1, !S2, !X1. rewrite (form_sym n (p_stiff m) e f HC), (form_sym d (p_perm m) a b HP). ring.
Qed.
Print Assumptions C99_electroelastic.
Theorem C99_positive : forall d nn pen X Z, (1 <= d <= 3)%nat -> (forall r, 0 <= pen r) ->
  (forall U cells, mesh_ok d nn X cells -> no_reference d cells -> (forall c, In c cells -> nonnegative_form (num_voigt d) (e_stiff (c_mat c))) ->
     0 <= work (nn * d) (elastostatic d pen None X U Z cells) U) /\
  (forall T cells, mesh_ok d nn X cells -> (forall c s, In c cells -> nonnegative_form d (if t_nonlinear (c_mat c) then t_cond_fun (c_mat c) s else t_cond_const (c_mat c))) ->
     0 <= work nn (thermostatic d pen X T Z cells) T).
Proof.
  intros d nn pen X Z Hd Hp. split.
  - intros U cells Hm Hr Hn. unfold elastostatic. rewrite assemble_work by (apply (mesh_nodes d nn X); exact Hm). apply sum_over_nonneg. intros c Hc.
    destruct (mesh_cell _ _ _ _ _ Hm Hc) as [_ Hv]. rewrite elastic_work by exact Hd.
    apply Rmult_le_pos; [apply Rmult_le_pos; [left; apply (measure_simplex d _ Hd Hv)|apply Hp]|].
    set (e := strain d d (fun _ => 0) (gather d U c) (cell_gradient d (gather_coords X c))).
    eapply Rle_trans; [apply (Hn c Hc e)|]. right. unfold rs. apply rsum_ext. intros i Hi. rewrite stress_none by (intros; apply Hr; assumption).
    req. rewrite Rmult_comm. f_equal. apply rsum_ext. intros. req. unfold e. ring.
  - intros T cells Hm Hn. replace nn with (nn * 1)%nat by lia. unfold thermostatic. rewrite assemble_work by (apply (mesh_nodes d nn X); exact Hm). apply sum_over_nonneg. intros c Hc.
    destruct (mesh_cell _ _ _ _ _ Hm Hc) as [_ Hv]. rewrite thermostatic_work.
    set (tg := scalar_gradient d 1 0 (gather 1 T c) (cell_gradient d (gather_coords X c))). set (s := interpolate d 1 0 (gather 1 T c)).
    rewrite Ropp_mult_distr_r. apply Rmult_le_pos; [apply Rmult_le_pos; [left; apply (measure_simplex d _ Hd Hv)|apply Hp]|].
    eapply Rle_trans; [apply (Hn c s Hc tg)|]. right. rewrite <- rsum_opp. unfold rs. apply rsum_ext. intros i Hi. unfold flux_at, thermal_flux. req.
    replace (rsum d (fun j => tg j * (if t_nonlinear (c_mat c) then t_cond_fun (c_mat c) s else t_cond_const (c_mat c)) i j))
      with (rsum d (fun j => (if t_nonlinear (c_mat c) then t_cond_fun (c_mat c) s else t_cond_const (c_mat c)) i j * tg j)) by (apply rsum_ext; intros; req; ring). ring.
Qed.
Print Assumptions C99_positive.
Example C99_reachable : symmetric 2 (fun i j => if Nat.eqb i j then 3 else 1) /\ nonnegative_form 2 (fun i j => if Nat.eqb i j then 3 else 1).
Proof.
  split; [intros i j _ _; rewrite Nat.eqb_sym; reflexivity|]. intros e. unfold rs. rsums. cbn.
  replace (_ + _ + _) with ((e 0%nat + e 1%nat) * (e 0%nat + e 1%nat) + 2 * (e 0%nat * e 0%nat) + 2 * (e 1%nat * e 1%nat)) by ring.
  pose proof (Rle_0_sqr (e 0%nat + e 1%nat)). pose proof (Rle_0_sqr (e 0%nat)). pose proof (Rle_0_sqr (e 1%nat)). unfold Rsqr in *. lra.
Qed.

(** ** C100: a transient residual at rest is the static one. *)
Lemma content_rest m T : thermal_content m T 0 = 0. Proof. unfold thermal_content. destruct (t_nonlinear m); ring. Qed.
Lemma gather_zero {M} ndof (c : cell M) : gather ndof (fun _ => 0) c = fun _ => 0. Proof. reflexivity. Qed.
Lemma interpolate_zero d ndof off : interpolate d ndof off (fun _ => 0) = 0. Proof. unfold interpolate. apply rsum_0. intros. req. ring. Qed.
Lemma project_zero d ndof off vol out k : project_to_node d ndof off vol 0 out k = out k.
Proof. rewrite project_entry. rewrite rsum_0; [ring|]. intros a _. unfold pick. destruct (Nat.eqb _ _); [req; ring|reflexivity]. Qed.
Theorem C100_heat_partial : forall d pen X T Z cells, (forall c, In c cells -> t_nonlinear (c_mat c) = false) ->
  forall k, heat_equation d pen X T (fun _ => 0) Z cells k = thermostatic d pen X T Z cells k.
Proof.
  intros d pen X T Z cells Hl. apply assemble_ext. intros c k Hc _. unfold heat_cell, thermostatic_cell. cbv zeta.
  rewrite gather_zero, interpolate_zero. unfold weigh at 1. rewrite content_rest, Rmult_0_l, project_zero. rewrite !flux_entry. f_equal.
  apply rsum_ext. intros a _. destruct (Nat.eqb k _); [|reflexivity]. f_equal. apply rsum_ext. intros j _. f_equal. unfold weigh. f_equal.
  unfold flux_no_temperature, flux_at. rewrite (Hl c Hc). reflexivity.
Qed.
Print Assumptions C100_heat_partial.
(** With a temperature dependent conductivity nothing is conducted in the transient problem. *)
Theorem C100_no_conduction : forall d pen X T Z cells, (forall c, In c cells -> t_nonlinear (c_mat c) = true) ->
  forall k, heat_equation d pen X T (fun _ => 0) Z cells k = 0.
Proof.
  intros d pen X T Z cells Hl. apply assemble_0. intros c k Hc _. unfold heat_cell. cbv zeta.
  rewrite gather_zero, interpolate_zero. unfold weigh at 1. rewrite content_rest, Rmult_0_l, project_zero. apply flux_0.
  intros v _. unfold weigh, flux_no_temperature, thermal_flux. rewrite (Hl c Hc). rewrite rsum_0; [req; ring|]. intros. req. ring.
Qed.
Print Assumptions C100_no_conduction.
Theorem C100_refuted : ~ (forall d nn pen X T Z cells, (1 <= d <= 3)%nat -> mesh_ok d nn X cells ->
  forall k, heat_equation d pen X T (fun _ => 0) Z cells k = thermostatic d pen X T Z cells k).
Proof.
  intros H. specialize (H 1%nat 2%nat (fun _ => 1) bar_X ramp_T (fun _ => 1) (bar hot_law) ltac:(lia) (bar_ok hot_law)).
  assert (W : work 2 (thermostatic 1 (fun _ => 1) bar_X ramp_T (fun _ => 1) (bar hot_law)) ramp_T = 0).
  { unfold work, rs. apply rsum_0. intros k _. rewrite <- H. rewrite C100_no_conduction; [req; ring|]. intros c [<-|[]]; reflexivity. }
  rewrite bar_work in W. cbn in W. lra.
Qed.
Print Assumptions C100_refuted.
Theorem C100_thermoelastic : forall d pen X U Z cells, (2 <= d <= 3)%nat ->
  exists r, transient_tm d pen X U (fun _ => 0) Z cells = Ok r /\
  exists r', thermoelastostatic d pen X U Z (map (fun c => mkCell (c_node c) (fst (c_mat c))) cells) = Ok r' /\ forall k, r k = r' k.
Proof.
  intros d pen X U Z cells Hd.
  destruct (tm_ok d pen X U Z (map (fun c => mkCell (c_node c) (fst (c_mat c))) cells) Hd) as (r' & E' & H').
  set (f := fun c : cell (thermoelastic * thermal) => match transient_tm_cell d pen (c_mat c) (gather_coords X c) (gather (S d) U c) (gather (S d) (fun _ => 0) c) (gather_control Z c) with Ok r => r | _ => fun _ => 0 end).
  assert (OK : forall c, exists r, transient_tm_cell d pen (c_mat c) (gather_coords X c) (gather (S d) U c) (gather (S d) (fun _ => 0) c) (gather_control Z c) = Ok r /\
      forall k, r k = tm_cell_value d pen (fst (c_mat c)) (gather_coords X c) (gather (S d) U c) (gather_control Z c) k).
  { intros c. destruct (tm_cell_ok d pen (fst (c_mat c)) (gather_coords X c) (gather (S d) U c) (gather_control Z c) Hd) as (r & E & H).
    unfold transient_tm_cell. rewrite E. cbn [rbind]. eexists. split; [reflexivity|]. intros k. rewrite gather_zero, interpolate_zero. unfold weigh.
    rewrite content_rest, Rmult_0_l, project_zero. apply H. }
  exists (assemble (S d) (S d) f cells). split.
  - apply assembleR_ok. intros c _. unfold f. destruct (OK c) as (r & E & _). rewrite E. reflexivity.
  - exists r'. split; [exact E'|]. intros k. rewrite H', !assemble_entry.
    replace (sum_over (map (fun c => mkCell (c_node c) (fst (c_mat c))) cells)) with (fun g : cell thermoelastic -> R => sum_over cells (fun c => g (mkCell (c_node c) (fst (c_mat c))))).
    2: { apply FunctionalExtensionality.functional_extensionality. intros g. clear. induction cells as [|c cells IH]; [reflexivity|]. cbn. rewrite IH. reflexivity. }
    apply sum_over_ext. intros c _. apply rsum_ext. intros a _. apply rsum_ext. intros i _. f_equal. unfold f.
    destruct (OK c) as (r & E & H). rewrite E. apply H.
Qed.
Print Assumptions C100_thermoelastic.
