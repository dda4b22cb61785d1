(** C129: the plasticity residual. *)
From Coq Require Import Reals List Arith Bool Lia Lra.
From Verif Require Import Base.Field Base.Sums Base.Res Element.ElementModel Element.ElementSpec Element.ElementProof Element.ElementProps Element.MaterialModel Element.MaterialSpec
  Penalty.PenaltyModel Ortho.OrthoModel Residual.ResidualModel Residual.ResidualSpec Residual.ResidualProof Residual.ResidualProps Residual.CouplingProof Residual.CouplingProps Stab.StabModel Stab.StabProof
  Plasticity.J2Model Plasticity.J2Spec Plasticity.GlobalModel Plasticity.GlobalSpec Plasticity.GlobalProof.
Import ListNotations.
Local Open Scope R_scope.

(** The fields of a state, cell by cell: mean over the corners, scaled pressure, expansion in each direction, strains, penalised weight. *)
Definition corner_mean (d ndof off : nat) (U : nat -> R) (c : cell plastic) : R := rs (S d) (fun a => U (c_node c a * ndof + off)%nat) / INR (S d).
Definition pressure_of (th : bool) (d : nat) (U : nat -> R) (c : cell plastic) : R := k_ps (c_mat c) * corner_mean d (dofs th d) (pressure_at th d) U c.
Definition expansion_of (th : bool) (d : nat) (U : nat -> R) (c : cell plastic) : R :=
  if th then k_alpha (c_mat c) * (k_ts (c_mat c) * corner_mean d (dofs th d) d U c - k_tref (c_mat c)) else 0.
Definition strain_of (th : bool) (d : nat) (X : nat -> nat -> R) (U : nat -> R) (c : cell plastic) : nat -> R :=
  strain d (dofs th d) (fun _ => 0) (gather (dofs th d) U c) (cell_gradient d (gather_coords X c)).
Definition plastic_of (LS : nat -> nat -> R) (c : cell plastic) (v : nat) : R := LS (k_cell (c_mat c)) (2 + v)%nat.
Definition elastic_of (th : bool) (d : nat) (X : nat -> nat -> R) (U : nat -> R) (LS : nat -> nat -> R) (c : cell plastic) : nat -> R :=
  elastic_part d (strain_of th d X U c) (plastic_of LS c) (expansion_of th d U c).
Definition weight (d : nat) (pen : R -> R) (Z : nat -> R) (c : cell plastic) : R := pen (cell_density (S d) (gather_control Z c)).
Definition gradient_of (th : bool) (d off : nat) (X : nat -> nat -> R) (U : nat -> R) (c : cell plastic) : nat -> R :=
  scalar_gradient d (dofs th d) off (gather (dofs th d) U c) (cell_gradient d (gather_coords X c)).

Lemma basis_mean d a : (1 <= d <= 3)%nat -> (a < S d)%nat -> cub_basis d a = / INR (S d).
Proof. intros Hd Ha. dims d; unfold cub_basis, cub_point; destruct a as [|[|[|[|a]]]]; try lia; cbn; field. Qed.
Lemma interpolate_corner d ndof off U (c : cell plastic) : (1 <= d <= 3)%nat -> (off < ndof)%nat -> interpolate d ndof off (gather ndof U c) = corner_mean d ndof off U c.
Proof.
  intros Hd Ho. unfold interpolate, corner_mean. transitivity (rsum (S d) (fun a => / INR (S d) * U (c_node c a * ndof + off)%nat)).
  - apply rsum_ext. intros a Ha. rewrite basis_mean, gather_at by assumption. reflexivity.
  - rewrite rsum_scal_l. unfold rs, Rdiv. req. ring.
Qed.
Lemma thermal_corner th d U (c : cell plastic) : (1 <= d <= 3)%nat -> cell_thermal th d (c_mat c) (gather (dofs th d) U c) = expansion_of th d U c.
Proof.
  intros Hd. unfold cell_thermal, expansion_of. destruct th; [|reflexivity]. unfold J2Model.thermal_strain.
  rewrite <- interpolate_corner by (try exact Hd; cbn; lia). unfold interpolate, temperature_at. f_equal. f_equal. rewrite Rmult_comm. f_equal.
  apply rsum_ext. intros. req. ring.
Qed.
Lemma volume_corner th d U (c : cell plastic) : (1 <= d <= 3)%nat -> thermal_volume th d (c_mat c) (gather (dofs th d) U c) = 3 * expansion_of th d U c.
Proof.
  intros Hd. unfold thermal_volume, expansion_of. destruct th; [|ring]. unfold temperature_at. rewrite interpolate_corner by (try exact Hd; cbn; lia). ring.
Qed.
Lemma normal_same d v : (2 <= d <= 3)%nat -> normal d v = normal_component d v.
Proof. intros Hd. destruct d as [|[|[|[|d]]]]; try lia; reflexivity. Qed.
Lemma nst_same d : (2 <= d <= 3)%nat -> nst d = components d.
Proof. intros Hd. destruct d as [|[|[|[|d]]]]; try lia; reflexivity. Qed.
Lemma elastic_corner th d X U LS (c : cell plastic) v : (2 <= d <= 3)%nat ->
  state_strain th d (c_mat c) (gather_coords X c) (gather (dofs th d) U c) (LS (k_cell (c_mat c))) v = elastic_of th d X U LS c v.
Proof. intros Hd. unfold state_strain, elastic_strain, elastic_of, elastic_part. rewrite thermal_corner by lia. rewrite normal_same by exact Hd. reflexivity. Qed.
Lemma press_corner th d U (c : cell plastic) : (1 <= d <= 3)%nat -> cell_press th d (c_mat c) (gather (dofs th d) U c) = pressure_of th d U c.
Proof. intros Hd. unfold cell_press, pressure_of. rewrite interpolate_corner by (try exact Hd; apply po_lt). ring. Qed.
Lemma dev_isotropic d w K G e v : (2 <= d <= 3)%nat -> (v < num_voigt d)%nat ->
  deviatoric_stress d (w * G) e v + hydrostatic d (w * K * trace_of d e) v = w * isotropic_stress d K G e v.
Proof.
  intros Hd Hv. unfold deviatoric_stress, hydrostatic, isotropic_stress, isotropic_component, trace_of, normal_component.
  destruct d as [|[|[|[|d]]]]; try lia; cbn in Hv; destruct v as [|[|[|[|[|[|v]]]]]]; try lia; cbn; field.
Qed.
Lemma plastic_part_trace d (LS : nat -> nat -> R) (c : cell plastic) : trace_of d (plastic_of LS c) = trace_of d (plastic_strain d (LS (k_cell (c_mat c)))).
Proof. unfold trace_of, plastic_of, plastic_strain, tensorial. destruct d as [|[|[|d]]]; reflexivity. Qed.
(** The unfilled component of the plane total strain is zero. *)
Lemma strain_33 th X U c : strain_of th 2 X U c 3 = 0. Proof. reflexivity. Qed.
Lemma elastic_trace th d X U LS c : (2 <= d <= 3)%nat -> trace_of d (plastic_strain d (LS (k_cell (c_mat c)))) = 0 ->
  trace_of d (elastic_of th d X U LS c) = strain_divergence d (strain_of th d X U c) - 3 * expansion_of th d U c.
Proof.
  intros Hd H. rewrite <- plastic_part_trace in H. unfold elastic_of, elastic_part, normal_component. unfold trace_of, strain_divergence in *.
  destruct d as [|[|[|[|d]]]]; try lia; cbn [Nat.eqb negb Nat.ltb Nat.leb]; rewrite ?strain_33; lra.
Qed.

(** ** Forces in equilibrium with themselves: no work in any rigid motion, whatever the state. *)
Theorem C129_balanced : forall th d nn pen X U LS Q Z cells t A W r, (1 <= d <= 3)%nat -> mesh_ok d nn X cells ->
  plastic_residual th d pen X U LS Q Z cells = Ok r -> moduli_ok d pen Z cells ->
  antisymmetric d A -> moves d nn (dofs th d) X t A W -> only_displacements d (dofs th d) W -> work (nn * dofs th d) r W = 0.
Proof.
  intros th d nn pen X U LS Q Z cells t A W r Hd Hm E Hk HA HW HO. rewrite plastic_ok in E by exact Hk. injection E as <-.
  rewrite assemble_work by (apply (mesh_nodes d nn X); exact Hm). apply sum_over_0. intros c Hc. destruct (mesh_cell _ _ _ _ _ Hm Hc) as [Hn Hv].
  unfold value_at. rewrite value_work by exact Hd. pose proof (d_le th d) as Hle.
  pose proof (gather_moves d nn (dofs th d) X t A W c Hle Hn HW) as Hw.
  assert (Z0 : forall off, (d <= off < dofs th d)%nat -> forall a, (a <= d)%nat -> gather (dofs th d) W c (a * dofs th d + off)%nat = affine d 0 (fun _ => 0) (gather_coords X c) a).
  { intros off Ho a Ha. rewrite gather_at by lia. rewrite HO by exact Ho. symmetry. apply affine_const. }
  rewrite (rsum_0 (num_voigt d)).
  2: { intros v Hv'. unfold cell_strain. rewrite (proj1 (C32_strain d (dofs th d) _ t A _ Hd Hle Hv Hw) v Hv').
       assert (EE : engineering_strain d A v = 0).
       { clear -Hd HA Hv'. dims d; cbn in Hv'; destruct v as [|[|[|[|[|[|v]]]]]]; try lia; cbn;
           try (match goal with |- A ?i ?i = 0 => pose proof (HA i i ltac:(lia) ltac:(lia)); lra end);
           match goal with |- A ?i ?j + _ = 0 => pose proof (HA i j ltac:(lia) ltac:(lia)); lra end. }
       rewrite EE. req. ring. }
  rewrite (rsum_0 d (fun k => cell_stab _ _ _ _ _ _ _ _ * _)).
  2: { intros k Hk'. rewrite (scalar_gradient_affine d (dofs th d) (pressure_at th d) _ 0 (fun _ => 0) _ Hd Hv (Z0 _ (conj (po_ge th d) (po_lt th d))) k Hk'). req. ring. }
  rewrite (interpolate_const d (dofs th d) (pressure_at th d) _ 0 Hd).
  2: { intros a Ha. rewrite (Z0 _ (conj (po_ge th d) (po_lt th d))) by exact Ha. apply affine_const. }
  destruct th; [|ring]. rewrite (rsum_0 d); [ring|].
  intros k Hk'. unfold temperature_at. rewrite (scalar_gradient_affine d (dofs true d) d _ 0 (fun _ => 0) _ Hd Hv (Z0 d ltac:(cbn; lia)) k Hk'). req. ring.
Qed.
Print Assumptions C129_balanced.

(** ** The stress behind the mechanical rows, and the pressure rows. *)
(** The scaled pressure of every cell is the penalised bulk modulus times the elastic volume change. *)
Definition pressure_holds (th : bool) (d : nat) (pen : R -> R) (X : nat -> nat -> R) (U : nat -> R) (LS : nat -> nat -> R) (Z : nat -> R) (c : cell plastic) : Prop :=
  pressure_of th d U c = weight d pen Z c * k_bulk (c_mat c) * trace_of d (elastic_of th d X U LS c).
Theorem C129_stress : forall th d nn pen X U LS Q Z cells W, (2 <= d <= 3)%nat -> mesh_ok d nn X cells -> moduli_ok d pen Z cells ->
  (forall c, In c cells -> pressure_holds th d pen X U LS Z c) -> only_displacements d (dofs th d) W ->
  exists r, plastic_residual th d pen X U LS Q Z cells = Ok r /\
    work (nn * dofs th d) r W = sum_over cells (fun c => simplex_measure d (fun a i => X (c_node c a) i) * weight d pen Z c *
      rs (num_voigt d) (fun v => isotropic_stress d (k_bulk (c_mat c)) (k_shear (c_mat c)) (elastic_of th d X U LS c) v * strain_of th d X W c v)).
Proof.
  intros th d nn pen X U LS Q Z cells W Hd Hm Hk HP HO. eexists. split; [apply plastic_ok; exact Hk|].
  rewrite assemble_work by (apply (mesh_nodes d nn X); exact Hm). apply sum_over_ext. intros c Hc. destruct (mesh_cell _ _ _ _ _ Hm Hc) as [Hn Hv].
  assert (Hd' : (1 <= d <= 3)%nat) by lia. unfold value_at. rewrite value_work by exact Hd'. change (fun a i => X (c_node c a) i) with (gather_coords X c).
  rewrite (proj1 (measure_simplex d _ Hd' Hv)). rewrite Rmult_assoc. f_equal.
  assert (Z0 : forall off, (d <= off < dofs th d)%nat -> forall a, (a <= d)%nat -> gather (dofs th d) W c (a * dofs th d + off)%nat = affine d 0 (fun _ => 0) (gather_coords X c) a).
  { intros off Ho a Ha. rewrite gather_at by lia. rewrite HO by exact Ho. symmetry. apply affine_const. }
  rewrite (rsum_0 d (fun k => cell_stab _ _ _ _ _ _ _ _ * _)).
  2: { intros k Hk'. rewrite (scalar_gradient_affine d (dofs th d) (pressure_at th d) _ 0 (fun _ => 0) _ Hd' Hv (Z0 _ (conj (po_ge th d) (po_lt th d))) k Hk'). req. ring. }
  rewrite (interpolate_const d (dofs th d) (pressure_at th d) _ 0 Hd').
  2: { intros a Ha. rewrite (Z0 _ (conj (po_ge th d) (po_lt th d))) by exact Ha. apply affine_const. }
  match goal with |- _ - ?h - 0 + _ = _ => assert (EH : h = 0) end.
  { destruct th; [|reflexivity]. apply rsum_0. intros k Hk'. unfold temperature_at. rewrite (scalar_gradient_affine d (dofs true d) d _ 0 (fun _ => 0) _ Hd' Hv (Z0 d ltac:(cbn; lia)) k Hk'). req. ring. }
  rewrite EH. clear EH. rewrite Rmult_0_r, !Rminus_0_r, Rplus_0_r. unfold rs. rewrite <- rsum_scal_l. apply rsum_ext. intros v Hv'.
  rewrite press_corner by exact Hd'. rewrite (HP c Hc). unfold cell_dev. change (cell_strain th d (gather_coords X c) (gather (dofs th d) W c) v) with (strain_of th d X W c v).
  assert (ED : forall s, deviatoric_stress d s (state_strain th d (c_mat c) (gather_coords X c) (gather (dofs th d) U c) (LS (k_cell (c_mat c)))) v = deviatoric_stress d s (elastic_of th d X U LS c) v).
  { intros s. unfold deviatoric_stress. destruct d as [|[|[|[|d]]]]; try lia; cbn in Hv'; destruct v as [|[|[|[|[|[|v]]]]]]; try lia; rewrite !elastic_corner by lia; reflexivity. }
  rewrite ED. fold (weight d pen Z c). rewrite dev_isotropic by assumption. req. ring.
Qed.
Print Assumptions C129_stress.
(** The pressure rows vanish where that relation holds, the stabilisation sees no difference and the plastic strain is trace-free. *)
Definition smooth_pressure (th : bool) (d : nat) (X : nat -> nat -> R) (U Q : nat -> R) (c : cell plastic) : Prop :=
  forall i, (i < d)%nat -> k_ps (c_mat c) * gradient_of th d (pressure_at th d) X U c i = corner_mean d d i Q c.
Theorem C129_pressure : forall th d pen X U LS Q Z cells, (2 <= d <= 3)%nat -> moduli_ok d pen Z cells ->
  (forall c, In c cells -> smooth_pressure th d X U Q c /\ trace_of d (plastic_strain d (LS (k_cell (c_mat c)))) = 0) ->
  exists r, plastic_residual th d pen X U LS Q Z cells = Ok r /\
    ((forall c, In c cells -> pressure_holds th d pen X U LS Z c) -> forall n, r (n * dofs th d + pressure_at th d)%nat = 0).
Proof.
  intros th d pen X U LS Q Z cells Hd Hk HS. eexists. split; [apply plastic_ok; exact Hk|]. intros HP n.
  rewrite assemble_row by (try lia; apply po_lt). apply sum_over_0. intros c Hc. apply rsum_0. intros a Ha. destruct (Nat.eqb n _); [|reflexivity].
  unfold value_at. rewrite value_pressure by lia. destruct (HS c Hc) as [Hs Ht].
  rewrite (rsum_0 d).
  2: { intros j Hj. unfold cell_stab, apply_penalty, stabilization. fold (gradient_of th d (pressure_at th d) X U c). rewrite (Hs j Hj), interpolate_corner by lia. req. ring. }
  unfold volume_strain. fold (strain_of th d X U c). rewrite volume_corner by lia. change (cell_strain th d (gather_coords X c) (gather (dofs th d) U c)) with (strain_of th d X U c).
  fold (cell_press th d (c_mat c) (gather (dofs th d) U c)). rewrite press_corner by lia. rewrite (HP c Hc). rewrite <- (elastic_trace th d X U LS c Hd Ht). fold (weight d pen Z c).
  destruct (Hk c Hc) as [Hw _]. fold (weight d pen Z c) in Hw. field. split; intros E; apply Hw; rewrite E; ring.
Qed.
Print Assumptions C129_pressure.

(** ** A body that yielded and expanded freely carries no load. *)
Definition full_strain (d : nat) (A : nat -> nat -> R) (v : nat) : R := if Nat.ltb v (num_voigt d) then engineering_strain d A v else 0.
Theorem C129_stress_free : forall th d nn pen X U LS Z cells t A T0, (2 <= d <= 3)%nat -> mesh_ok d nn X cells -> moduli_ok d pen Z cells ->
  moves d nn (dofs th d) X t A U -> scalar_field d nn (dofs th d) (pressure_at th d) X 0 (fun _ => 0) U ->
  (th = true -> scalar_field d nn (dofs th d) d X T0 (fun _ => 0) U) ->
  (forall c, In c cells -> trace_of d (plastic_strain d (LS (k_cell (c_mat c)))) = 0 /\
     forall v, (v < components d)%nat -> elastic_part d (full_strain d A) (plastic_of LS c) (if th then k_alpha (c_mat c) * (k_ts (c_mat c) * T0 - k_tref (c_mat c)) else 0) v = 0) ->
  exists r, plastic_residual th d pen X U LS (fun _ => 0) Z cells = Ok r /\ forall k, r k = 0.
Proof.
  intros th d nn pen X U LS Z cells t A T0 Hd Hm Hk HU HP HT HE. eexists. split; [apply plastic_ok; exact Hk|].
  assert (Hd' : (1 <= d <= 3)%nat) by lia. intros k. apply assemble_0. clear k. intros c k Hc _. destruct (mesh_cell _ _ _ _ _ Hm Hc) as [Hn Hv].
  pose proof (gather_moves d nn (dofs th d) X t A U c (d_le th d) Hn HU) as Hu.
  pose proof (gather_scalar d nn (dofs th d) _ X 0 _ U c (po_lt th d) Hn HP) as Hp.
  destruct (HE c Hc) as [Htr He].
  assert (EX : expansion_of th d U c = if th then k_alpha (c_mat c) * (k_ts (c_mat c) * T0 - k_tref (c_mat c)) else 0).
  { unfold expansion_of. destruct th; [|reflexivity]. f_equal. f_equal. f_equal. rewrite <- interpolate_corner by (try exact Hd'; cbn; lia).
    apply interpolate_const; [exact Hd'|]. intros a Ha. rewrite (gather_scalar d nn (dofs true d) d X T0 _ U c (to_lt true d) Hn (HT eq_refl)) by exact Ha. apply affine_const. }
  assert (ES : forall v, strain_of th d X U c v = full_strain d A v).
  { intros v. unfold full_strain. destruct (Nat.ltb_spec v (num_voigt d)) as [L|L].
    - unfold strain_of. apply (proj1 (C32_strain d (dofs th d) _ t A _ Hd' (d_le th d) Hv Hu) v L).
    - unfold strain_of, strain. destruct (nth_error (voigt_pairs d) v) as [[i j]|] eqn:EN; [|reflexivity]. exfalso.
      assert (v < length (voigt_pairs d))%nat by (apply nth_error_Some; rewrite EN; discriminate).
      assert (length (voigt_pairs d) = num_voigt d) by (clear -Hd; destruct d as [|[|[|[|d]]]]; try lia; reflexivity). lia. }
  assert (EE : forall v, (v < components d)%nat -> elastic_of th d X U LS c v = 0).
  { intros v L. rewrite <- (He v L). unfold elastic_of, elastic_part. rewrite ES, EX. reflexivity. }
  assert (EP : interpolate d (dofs th d) (pressure_at th d) (gather (dofs th d) U c) = 0).
  { apply interpolate_const; [exact Hd'|]. intros a Ha. rewrite Hp by exact Ha. apply affine_const. }
  unfold value_at, plastic_value. cbv zeta. rewrite project_entry. rewrite flux_0.
  2: { intros j Hj. unfold cell_stab, apply_penalty, stabilization. rewrite (scalar_gradient_affine d _ _ _ 0 (fun _ => 0) _ Hd' Hv Hp j Hj).
       assert (E0 : interpolate d d j (gather d (fun _ => 0) c) = 0) by (unfold interpolate; apply rsum_0; intros; unfold gather; req; ring). rewrite E0. ring. }
  rewrite pressure_stress by exact Hd'. rewrite divergence_0; [|exact Hd'|].
  2: { intros v _. unfold hydrostatic, cell_press. rewrite EP. destruct (Nat.ltb v d); [ring|reflexivity]. }
  rewrite (rsum_0 (S d)).
  2: { intros a _. unfold volume_strain. change (cell_strain th d (gather_coords X c) (gather (dofs th d) U c)) with (strain_of th d X U c).
       rewrite volume_corner by exact Hd'. rewrite <- (elastic_trace th d X U LS c Hd Htr). rewrite EP.
       assert (ET : trace_of d (elastic_of th d X U LS c) = 0).
       { unfold trace_of. destruct d as [|[|[|[|d]]]]; try lia; rewrite !EE by (cbn; lia); ring. }
       rewrite ET. unfold pick, Rdiv. destruct (Nat.eqb k _); [ring|reflexivity]. }
  assert (ED : forall v, (v < num_voigt d)%nat -> cell_dev th d (pen (cell_density (S d) (gather_control Z c))) (c_mat c) (gather_coords X c) (gather (dofs th d) U c) (LS (k_cell (c_mat c))) v = 0).
  { intros v L. unfold cell_dev, deviatoric_stress. destruct d as [|[|[|[|d]]]]; try lia; cbn in L; destruct v as [|[|[|[|[|[|v]]]]]]; try lia; rewrite !elastic_corner, !EE by (cbn; lia); field. }
  destruct th.
  - rewrite flux_0; [rewrite divergence_0 by assumption; apply Rplus_0_r|].
    intros j Hj. unfold heat_flux, temperature_at.
    rewrite (scalar_gradient_affine d _ _ _ T0 (fun _ => 0) _ Hd' Hv (gather_scalar d nn (dofs true d) d X T0 _ U c (to_lt true d) Hn (HT eq_refl)) j Hj). ring.
  - rewrite divergence_0 by assumption. apply Rplus_0_r.
Qed.
Print Assumptions C129_stress_free.

(** ** The system with the plastic state held fixed is reciprocal. *)
Lemma dev_linear d s e e' v : (2 <= d <= 3)%nat -> deviatoric_stress d s e v - deviatoric_stress d s e' v = deviatoric_stress d s (fun k => e k - e' k) v.
Proof. intros Hd. unfold deviatoric_stress. destruct d as [|[|[|[|d]]]]; try lia; destruct v as [|[|[|[|[|[|v]]]]]]; field. Qed.
Lemma dev_symmetric d s e f : (2 <= d <= 3)%nat -> (d = 2%nat -> e 3%nat = 0 /\ f 3%nat = 0) ->
  rsum (num_voigt d) (fun v => deviatoric_stress d s e v * f v) = rsum (num_voigt d) (fun v => deviatoric_stress d s f v * e v).
Proof.
  intros Hd H3. unfold deviatoric_stress. destruct d as [|[|[|[|d]]]]; try lia; cbn [num_voigt].
  - destruct (H3 eq_refl) as [-> ->]. rsums. req. field.
  - rsums. req. field.
Qed.
Lemma hydro_sum d p f : (2 <= d <= 3)%nat -> rsum (num_voigt d) (fun v => hydrostatic d p v * f v) = p * strain_divergence d f.
Proof. intros Hd. unfold hydrostatic, strain_divergence. destruct d as [|[|[|[|d]]]]; try lia; cbn [num_voigt]; rsums; cbn; ring. Qed.
Theorem C129_reciprocal : forall d nn pen X U W LS Z cells, (2 <= d <= 3)%nat -> mesh_ok d nn X cells -> moduli_ok d pen Z cells ->
  exists r0 rU rW, plastic_residual false d pen X (fun _ => 0) LS (fun _ => 0) Z cells = Ok r0 /\
    plastic_residual false d pen X U LS (fun _ => 0) Z cells = Ok rU /\ plastic_residual false d pen X W LS (fun _ => 0) Z cells = Ok rW /\
    work (nn * S d) rU W - work (nn * S d) r0 W = work (nn * S d) rW U - work (nn * S d) r0 U.
Proof.
  intros d nn pen X U W LS Z cells Hd Hm Hk. do 3 eexists. do 3 (split; [apply plastic_ok; exact Hk|]).
  change (nn * S d)%nat with (nn * dofs false d)%nat. rewrite !assemble_work by (apply (mesh_nodes d nn X); exact Hm).
  assert (Hd' : (1 <= d <= 3)%nat) by lia.
  assert (SUB : forall f g : cell plastic -> R, sum_over cells f - sum_over cells g = sum_over cells (fun c => f c - g c)).
  { intros f g. induction cells as [|c l IH]; cbn; [ring|]. rewrite <- IH; [ring| |]; [intros x Hx; apply Hm; right; exact Hx|intros x Hx; apply Hk; right; exact Hx]. }
  rewrite !SUB. apply sum_over_ext. intros c Hc.
  assert (D : forall V V', cell_work (S d) (dofs false d) (value_at false d pen X V LS (fun _ => 0) Z c) (gather (dofs false d) V' c)
              - cell_work (S d) (dofs false d) (value_at false d pen X (fun _ => 0) LS (fun _ => 0) Z c) (gather (dofs false d) V' c)
     = cell_measure d (gather_coords X c) * (rsum (num_voigt d) (fun v => deviatoric_stress d (weight d pen Z c * k_shear (c_mat c)) (strain_of false d X V c) v * strain_of false d X V' c v)
        + k_ps (c_mat c) * corner_mean d (S d) d V c * strain_divergence d (strain_of false d X V' c) + k_ps (c_mat c) * corner_mean d (S d) d V' c * strain_divergence d (strain_of false d X V c)
        - weight d pen Z c * k_ps (c_mat c) * (Rpower (cell_measure d (gather_coords X c)) (2 / 3) / (2 * k_shear (c_mat c))) * k_ps (c_mat c) * rsum d (fun k => gradient_of false d d X V c k * gradient_of false d d X V' c k)
        - k_ps (c_mat c) * corner_mean d (S d) d V c * (k_ps (c_mat c) * corner_mean d (S d) d V' c) / (weight d pen Z c * k_bulk (c_mat c)))).
  { intros V V'. unfold value_at. rewrite !value_work by exact Hd'. rewrite <- Rmult_minus_distr_l. f_equal.
    assert (S0 : forall v, strain_of false d X (fun _ => 0) c v = 0).
    { intros v. unfold strain_of, strain. destruct (nth_error (voigt_pairs d) v) as [[i j]|]; [|reflexivity]. unfold gather.
      destruct (Nat.eqb i j); [apply rsum_0; intros; req; ring|]. rewrite (rsum_0 (S d)); [req; ring|intros; req; ring]. }
    assert (I0 : forall n off, interpolate d n off (gather n (fun _ => 0) c) = 0) by (intros; unfold interpolate; apply rsum_0; intros; unfold gather; req; ring).
    assert (G0 : forall k, gradient_of false d d X (fun _ => 0) c k = 0) by (intros; unfold gradient_of, scalar_gradient; apply rsum_0; intros; unfold gather; req; ring).
    rewrite (rsum_ext (num_voigt d) (fun v => (cell_dev false d _ _ _ (gather _ V c) _ v + _) * _)
      (fun v => cell_dev false d (weight d pen Z c) (c_mat c) (gather_coords X c) (gather (dofs false d) V c) (LS (k_cell (c_mat c))) v * strain_of false d X V' c v
              + hydrostatic d (k_ps (c_mat c) * corner_mean d (S d) d V c) v * strain_of false d X V' c v)).
    2: { intros v Hv. rewrite press_corner by exact Hd'. fold (weight d pen Z c). change (cell_strain false d (gather_coords X c) (gather (dofs false d) V' c) v) with (strain_of false d X V' c v). unfold pressure_of. change (pressure_at false d) with d. change (dofs false d) with (S d). req. ring. }
    rewrite (rsum_ext (num_voigt d) (fun v => (cell_dev false d _ _ _ (gather _ (fun _ => 0) c) _ v + _) * _)
      (fun v => cell_dev false d (weight d pen Z c) (c_mat c) (gather_coords X c) (gather (dofs false d) (fun _ => 0) c) (LS (k_cell (c_mat c))) v * strain_of false d X V' c v)).
    2: { intros v Hv. unfold cell_press. rewrite I0. unfold hydrostatic. fold (weight d pen Z c). change (cell_strain false d (gather_coords X c) (gather (dofs false d) V' c) v) with (strain_of false d X V' c v). destruct (Nat.ltb v d); req; ring. }
    rewrite rsum_add, hydro_sum by exact Hd.
    rewrite (rsum_ext (num_voigt d) (fun v => deviatoric_stress d _ _ v * _)
      (fun v => cell_dev false d (weight d pen Z c) (c_mat c) (gather_coords X c) (gather (dofs false d) V c) (LS (k_cell (c_mat c))) v * strain_of false d X V' c v
        - cell_dev false d (weight d pen Z c) (c_mat c) (gather_coords X c) (gather (dofs false d) (fun _ => 0) c) (LS (k_cell (c_mat c))) v * strain_of false d X V' c v)).
    2: { intros v Hv. rewrite <- Rmult_minus_distr_r. f_equal. unfold cell_dev. rewrite dev_linear by exact Hd. unfold deviatoric_stress, trace_of.
         assert (SS : forall k, strain_of false d X V c k = state_strain false d (c_mat c) (gather_coords X c) (gather (dofs false d) V c) (LS (k_cell (c_mat c))) k
            - state_strain false d (c_mat c) (gather_coords X c) (gather (dofs false d) (fun _ => 0) c) (LS (k_cell (c_mat c))) k).
         { intros k. rewrite !elastic_corner by exact Hd. unfold elastic_of, elastic_part, expansion_of. rewrite S0. ring. }
         rewrite !SS. reflexivity. }
    rewrite rsum_sub.
    rewrite (rsum_ext d (fun k => cell_stab _ _ _ _ _ (gather _ (fun _ => 0) c) _ _ * _) (fun _ => 0)).
    2: { intros k Hk'. unfold cell_stab, apply_penalty, stabilization. fold (gradient_of false d d X (fun _ => 0) c). cbn [pressure_at]. fold (gradient_of false d d X (fun _ => 0) c). rewrite G0, I0. req. ring. }
    rewrite (rsum_ext d (fun k => cell_stab _ _ _ _ _ (gather _ V c) _ _ * _)
      (fun k => (weight d pen Z c * k_ps (c_mat c) * (Rpower (cell_measure d (gather_coords X c)) (2 / 3) / (2 * k_shear (c_mat c))) * k_ps (c_mat c)) * (gradient_of false d d X V c k * gradient_of false d d X V' c k))).
    2: { intros k Hk'. unfold cell_stab, apply_penalty, stabilization. cbn [pressure_at]. fold (gradient_of false d d X V c). fold (gradient_of false d d X V' c). rewrite I0. fold (weight d pen Z c). req. ring. }
    rewrite rsum_scal_l, (rsum_0 d (fun _ => 0)) by reflexivity.
    unfold volume_strain. cbn [thermal_volume pressure_at]. rewrite I0.
    change (cell_strain false d (gather_coords X c) (gather (dofs false d) V c)) with (strain_of false d X V c).
    change (cell_strain false d (gather_coords X c) (gather (dofs false d) (fun _ => 0) c)) with (strain_of false d X (fun _ => 0) c).
    rewrite !(interpolate_corner d (dofs false d) d) by (try exact Hd'; cbn; lia). cbn [dofs]. fold (weight d pen Z c).
    assert (T0 : strain_divergence d (strain_of false d X (fun _ => 0) c) = 0) by (unfold strain_divergence; rewrite !S0; destruct d as [|[|[|d']]]; ring).
    rewrite T0. unfold Rdiv. ring. }
  rewrite (D U W), (D W U). f_equal.
  rewrite (dev_symmetric d _ (strain_of false d X U c)) by (try exact Hd; intros ->; split; reflexivity).
  rewrite (rsum_ext d (fun k => gradient_of false d d X U c k * gradient_of false d d X W c k) (fun k => gradient_of false d d X W c k * gradient_of false d d X U c k)) by (intros; req; ring).
  unfold Rdiv. ring.
Qed.
Print Assumptions C129_reciprocal.

(** ** Heat conduction does not see the mechanics. *)
Definition only_temperatures (d : nat) (W : nat -> R) : Prop := forall n i, (i < d \/ i = S d)%nat -> W (n * S (S d) + i)%nat = 0.
Theorem C129_heat : forall d nn pen X U LS Q Z cells W, (1 <= d <= 3)%nat -> mesh_ok d nn X cells -> moduli_ok d pen Z cells -> only_temperatures d W ->
  exists r, plastic_residual true d pen X U LS Q Z cells = Ok r /\
    work (nn * S (S d)) r W = sum_over cells (fun c => simplex_measure d (fun a i => X (c_node c a) i) * weight d pen Z c * k_cond (c_mat c) * k_ts (c_mat c) *
      rs d (fun k => gradient_of true d d X U c k * gradient_of true d d X W c k)).
Proof.
  intros d nn pen X U LS Q Z cells W Hd Hm Hk HO. eexists. split; [apply plastic_ok; exact Hk|].
  change (nn * S (S d))%nat with (nn * dofs true d)%nat. rewrite assemble_work by (apply (mesh_nodes d nn X); exact Hm). apply sum_over_ext. intros c Hc. destruct (mesh_cell _ _ _ _ _ Hm Hc) as [Hn Hv].
  unfold value_at. rewrite value_work by exact Hd. change (fun a i => X (c_node c a) i) with (gather_coords X c). rewrite (proj1 (measure_simplex d _ Hd Hv)). rewrite !Rmult_assoc. f_equal.
  assert (Z0 : forall a, (a <= d)%nat -> gather (dofs true d) W c (a * dofs true d + pressure_at true d)%nat = affine d 0 (fun _ => 0) (gather_coords X c) a).
  { intros a Ha. rewrite gather_at by (cbn; lia). cbn [dofs pressure_at]. rewrite HO by (right; reflexivity). symmetry. apply affine_const. }
  rewrite (rsum_0 d (fun k => cell_stab _ _ _ _ _ _ _ _ * _)).
  2: { intros k Hk'. rewrite (scalar_gradient_affine d (dofs true d) (pressure_at true d) _ 0 (fun _ => 0) _ Hd Hv Z0 k Hk'). req. ring. }
  rewrite (interpolate_const d (dofs true d) (pressure_at true d) _ 0 Hd).
  2: { intros a Ha. rewrite Z0 by exact Ha. apply affine_const. }
  rewrite (rsum_0 (num_voigt d)).
  2: { intros v Hv'. assert (E : cell_strain true d (gather_coords X c) (gather (dofs true d) W c) v = 0); [|rewrite E; req; ring].
       unfold cell_strain, strain. destruct (nth_error (voigt_pairs d) v) as [[i j]|] eqn:E; [|reflexivity]. destruct (pairs_lt d v i j Hd E) as [Hi Hj].
       assert (G : forall a k, (k < d)%nat -> gather (dofs true d) W c (a * dofs true d + k)%nat = 0).
       { intros a k Hk'. rewrite gather_at by (cbn; lia). cbn [dofs]. apply HO. left. exact Hk'. }
       destruct (Nat.eqb i j); [apply rsum_0; intros; rewrite G by exact Hi; req; ring|]. rewrite (rsum_0 (S d)); [req; ring|]. intros. rewrite !G by assumption. req. ring. }
  rewrite Rmult_0_r, Rminus_0_r, Rplus_0_r, Rminus_0_l.
  rewrite (rsum_ext d _ (fun k => - (weight d pen Z c * k_cond (c_mat c) * k_ts (c_mat c)) * (gradient_of true d d X U c k * gradient_of true d d X W c k))).
  - rewrite rsum_scal_l. unfold rs. req. ring.
  - intros k _. unfold heat_flux, temperature_at. fold (gradient_of true d d X U c). fold (gradient_of true d d X W c). fold (weight d pen Z c). req. ring.
Qed.
Print Assumptions C129_heat.

(** ** Without stiffness somewhere the residual divides by zero, and only then. *)
Theorem C129_defined : forall th d pen X U LS Q Z cells,
  (plastic_residual th d pen X U LS Q Z cells = UB <-> exists c, In c cells /\ (weight d pen Z c * k_bulk (c_mat c) = 0 \/ k_shear (c_mat c) = 0)) /\
  plastic_residual th d pen X U LS Q Z cells <> Throw.
Proof.
  intros th d pen X U LS Q Z cells. unfold plastic_residual, assembleR. generalize (fun _ : nat => 0) as o.
  induction cells as [|c l IH]; intros o.
  - cbn. split; [split; [discriminate|intros (c & [] & _)]|discriminate].
  - cbn [foldR].
    set (v := plastic_cell th d pen (c_mat c) (gather_coords X c) (gather (dofs th d) U c) (LS (k_cell (c_mat c))) (gather d Q c) (gather_control Z c)).
    assert (V : (v = UB /\ (weight d pen Z c * k_bulk (c_mat c) = 0 \/ k_shear (c_mat c) = 0)) \/ ((exists x, v = Ok x) /\ ~ (weight d pen Z c * k_bulk (c_mat c) = 0 \/ k_shear (c_mat c) = 0))).
    { destruct (Req_EM_T (weight d pen Z c * k_bulk (c_mat c)) 0) as [E|N1].
      - left. split; [|left; exact E]. unfold v, plastic_cell. cbv zeta. unfold quot at 1. fold (weight d pen Z c). rewrite E. destruct (Req_EM_T 0 0) as [_|N]; [reflexivity|exfalso; apply N; reflexivity].
      - destruct (Req_EM_T (k_shear (c_mat c)) 0) as [E|N2].
        + left. split; [|right; exact E]. unfold v, plastic_cell. cbv zeta. unfold quot. fold (weight d pen Z c). destruct (Req_EM_T (weight d pen Z c * _) 0) as [F|_]; [contradiction|]. cbn [rbind].
          rewrite E. destruct (Req_EM_T (2 * 0) 0) as [_|N]; [reflexivity|exfalso; apply N; ring].
        + right. split; [|tauto]. eexists. apply plastic_cell_ok; assumption. }
    destruct V as [[E HV]|[[x E] HV]]; rewrite E; cbn [rbind].
    + split; [|discriminate]. split; [intros _; exists c; split; [left; reflexivity|exact HV]|reflexivity].
    + destruct (IH (scatter (S d) (dofs th d) c x o)) as [I1 I2]. split; [|exact I2]. rewrite I1. split; intros (c' & Hc & H).
      * exists c'. split; [right; exact Hc|exact H].
      * destruct Hc as [<-|Hc]; [contradiction|]. exists c'. split; assumption.
Qed.
Print Assumptions C129_defined.

(** The hypotheses: a sheet growing uniformly under pressure; a heated sheet that yielded. *)
Definition sheet (n : nat) : plastic := mkPlastic 2 1 1 1 0 1 1 n.
Definition grown (k : nat) : R := match (k mod 3)%nat with 2%nat => 4 | i => square_X (k / 3) i end.
Example C129_reachable : moduli_ok 2 (fun z => z) (fun _ => 1) (square (sheet 0)) /\
  (forall c, In c (square (sheet 0)) -> pressure_holds false 2 (fun z => z) square_X grown (fun _ _ => 0) (fun _ => 1) c /\ smooth_pressure false 2 square_X grown (fun _ => 0) c
      /\ pressure_of false 2 grown c = 4 /\ isotropic_stress 2 2 1 (elastic_of false 2 square_X grown (fun _ _ => 0) c) 0 = 14 / 3).
Proof.
  assert (W1 : forall c, In c (square (sheet 0)) -> weight 2 (fun z => z) (fun _ => 1) c = 1).
  { intros c [<-|[<-|[]]]; unfold weight, cell_density, gather_control; rsums; cbn; field. }
  assert (HU : forall n i, (i < 3)%nat -> grown (n * 3 + i)%nat = match i with 2%nat => 4 | _ => square_X n i end).
  { intros n i Hi. unfold grown. rewrite (Nat.add_comm (n * 3)), Nat.mod_add, (Nat.mod_small i 3), Nat.div_add, (Nat.div_small i 3) by lia. destruct i as [|[|[|i]]]; reflexivity. }
  assert (Hm : mesh_ok 2 4 square_X (square (sheet 0))) by apply square_ok.
  assert (M : moves 2 4 3 square_X (fun _ => 0) (fun i j => if Nat.eqb i j then 1 else 0) grown).
  { intros n i Hn Hi. rewrite HU by lia. unfold affine, rs. destruct i as [|[|i]]; try lia; rsums; cbn; ring. }
  split.
  - intros c Hc. pose proof (W1 c Hc) as E. unfold weight in E. rewrite E. destruct Hc as [<-|[<-|[]]]; cbn; lra.
  - intros c Hc. destruct (mesh_cell _ _ _ _ _ Hm Hc) as [Hn Hv].
    assert (Ek : c_mat c = sheet 0) by (destruct Hc as [<-|[<-|[]]]; reflexivity).
    assert (ES : forall v, (v < 3)%nat -> strain_of false 2 square_X grown c v = engineering_strain 2 (fun i j => if Nat.eqb i j then 1 else 0) v).
    { intros v Hv'. unfold strain_of. apply (proj1 (C32_strain 2 3 (gather_coords square_X c) _ _ _ ltac:(lia) ltac:(lia) Hv (gather_moves 2 4 3 square_X _ _ grown c ltac:(lia) Hn M)) v Hv'). }
    assert (EE : forall v, elastic_of false 2 square_X grown (fun _ _ => 0) c v = if Nat.ltb v 2 then 1 else 0).
    { intros v. unfold elastic_of, elastic_part, plastic_of, expansion_of. destruct v as [|[|[|v]]]; rewrite ?ES by lia; try (cbn; ring).
      unfold strain_of, strain. change (voigt_pairs 2) with [(0, 0); (1, 1); (0, 1)]%nat. destruct v; cbn; try ring; destruct v; cbn; ring. }
    assert (EP : pressure_of false 2 grown c = 4).
    { unfold pressure_of, corner_mean. rewrite Ek. unfold rs. rsums. cbn [dofs pressure_at]. rewrite !HU by lia. cbn. field. }
    split; [|split; [|split; [exact EP|]]].
    + unfold pressure_holds. rewrite EP, W1 by exact Hc. unfold trace_of. rewrite !EE, Ek. cbn. ring.
    + intros i Hi. unfold gradient_of. rewrite (scalar_gradient_affine 2 3 2 _ 4 (fun _ => 0) _ ltac:(lia) Hv); [|intros a Ha; rewrite gather_at, HU by lia; symmetry; apply affine_const|exact Hi].
      unfold corner_mean, rs. rsums. cbn. field.
    + unfold isotropic_stress, isotropic_component, trace_of. rewrite !EE. cbn. field.
Qed.
Definition yielded (n k : nat) : R := match k with 2%nat => 2 | 3%nat => -1 | 5%nat => -1 | _ => 0 end.
Definition flowed (k : nat) : R := match (k mod 4)%nat with 0%nat => 3 * square_X (k / 4) 0 | 2%nat => 1 | _ => 0 end.
Example C129_free_reachable : exists r, plastic_residual true 2 (fun z => z) square_X flowed yielded (fun _ => 0) (fun _ => 1) (square (sheet 0)) = Ok r /\ (forall k, r k = 0) /\
  (forall c, In c (square (sheet 0)) -> expansion_of true 2 flowed c = 1 /\ strain_of true 2 square_X flowed c 0 = 3).
Proof.
  assert (HU : forall n i, (i < 4)%nat -> flowed (n * 4 + i)%nat = match i with 0%nat => 3 * square_X n 0 | 2%nat => 1 | _ => 0 end).
  { intros n i Hi. unfold flowed. rewrite (Nat.add_comm (n * 4)), Nat.mod_add, (Nat.mod_small i 4), Nat.div_add, (Nat.div_small i 4) by lia. destruct i as [|[|[|i]]]; reflexivity. }
  assert (Hm : mesh_ok 2 4 square_X (square (sheet 0))) by apply square_ok.
  set (A := fun i j : nat => if (Nat.eqb i 0 && Nat.eqb j 0)%bool then 3 else 0).
  assert (M : moves 2 4 4 square_X (fun _ => 0) A flowed).
  { intros n i Hn Hi. rewrite HU by lia. unfold affine, rs, A. destruct i as [|[|i]]; try lia; rsums; cbn; ring. }
  destruct (C129_stress_free true 2 4 (fun z => z) square_X flowed yielded (fun _ => 1) (square (sheet 0)) (fun _ => 0) A 1) as (r & E & H).
  - lia.
  - exact Hm.
  - exact (proj1 C129_reachable).
  - exact M.
  - intros n Hn. cbn [dofs pressure_at]. rewrite HU by lia. symmetry. apply affine_const.
  - intros _ n Hn. cbn [dofs]. rewrite HU by lia. symmetry. apply affine_const.
  - intros c Hc. assert (Ek : c_mat c = sheet 0) by (destruct Hc as [<-|[<-|[]]]; reflexivity). rewrite Ek. split.
    + unfold trace_of, plastic_strain, tensorial, yielded. cbn. ring.
    + intros v Hv. unfold elastic_part, full_strain, plastic_of, A. rewrite Ek. cbn in Hv. destruct v as [|[|[|[|v]]]]; try lia; cbn; ring.
  - exists r. split; [exact E|]. split; [exact H|]. intros c Hc. destruct (mesh_cell _ _ _ _ _ Hm Hc) as [Hn Hv]. assert (Ek : c_mat c = sheet 0) by (destruct Hc as [<-|[<-|[]]]; reflexivity). split.
    + unfold expansion_of, corner_mean. rewrite Ek. unfold rs. rsums. cbn [dofs]. rewrite !HU by lia. cbn. field.
    + unfold strain_of. change (dofs true 2) with 4%nat. rewrite (proj1 (C32_strain 2 4 (gather_coords square_X c) _ _ _ ltac:(lia) ltac:(lia) Hv (gather_moves 2 4 4 square_X _ _ flowed c ltac:(lia) Hn M)) 0%nat ltac:(cbn; lia)). reflexivity.
Qed.
