(** C109, C110: the projected pressure gradient and the energy criterion of the stabilised formulation. *)
From Coq Require Import Reals List Arith Bool Lia Lra.
From Verif Require Import Base.Field Base.Sums Base.Res Element.ElementModel Element.ElementSpec Element.ElementProof Element.ElementProps Element.MaterialModel Element.MaterialSpec
  Penalty.PenaltyModel Ortho.OrthoModel Residual.ResidualModel Residual.ResidualSpec Residual.ResidualProof Residual.ResidualProps
  Residual.CouplingProof Residual.CouplingProps Stab.StabModel Stab.StabSpec Stab.StabProof Stab.StabProps.
Import ListNotations.
Local Open Scope R_scope.

(** ** C109: for a linear pressure field the stabilisation vanishes. *)
(** The same vector s b at every node. *)
Definition uniform_vector (d nn : nat) (v : nat -> R) (Q : nat -> R) : Prop := forall n i, (n < nn)%nat -> (i < d)%nat -> Q (n * d + i)%nat = v i.
Lemma project_vector_at d s vol v out a i : (a < S d)%nat -> (i < d)%nat -> project_vector d s vol v out (a * d + i)%nat = out (a * d + i)%nat + cub_basis d a * (s * v i) * vol.
Proof.
  intros Ha Hi. unfold project_vector.
  rewrite (fold_add d _ (fun i k => rsum (S d) (fun b => pick k (b * d + i) (cub_basis d b * (s * v i) * vol)))) by (intros; apply project_entry). f_equal.
  rewrite (rsum_single d i); [|exact Hi|].
  - rewrite (rsum_single (S d) a); [unfold pick; rewrite Nat.eqb_refl; reflexivity|exact Ha|].
    intros b _ Hne. unfold pick. destruct (Nat.eqb_spec (a * d + i) (b * d + i)) as [E|]; [|reflexivity]. exfalso. apply Hne. nia.
  - intros j Hj Hne. apply rsum_0. intros b _. unfold pick. destruct (Nat.eqb_spec (a * d + i) (b * d + j)) as [E|]; [|reflexivity]. exfalso. assert (a = b) by nia. lia.
Qed.
(** The projection reproduces the gradient of a linear pressure field, with its scaling. *)
Theorem C109_projection : forall (M : Type) d nn pen s X U Q Z (cells : list (cell M)) b0 b, (1 <= d <= 3)%nat -> mesh_ok d nn X cells ->
  scalar_field d nn (S d) d X b0 b U -> uniform_vector d nn (fun i => s * b i) Q ->
  forall k, projection_residual d pen s X Q (pressures d U) Z cells k = 0.
Proof.
  intros M d nn pen s X U Q Z cells b0 b Hd Hm HU HQ k. unfold projection_residual. apply assemble_0. intros c k' Hc Hk.
  destruct (mesh_cell _ _ _ _ _ Hm Hc) as [Hn Hv].
  assert (Ek : (k' = k' / d * d + k' mod d)%nat) by (rewrite Nat.mul_comm; apply Nat.div_mod; lia).
  assert (Hq : (k' / d < S d)%nat) by (apply Nat.div_lt_upper_bound; lia).
  assert (Hr : (k' mod d < d)%nat) by (apply Nat.mod_upper_bound; lia).
  rewrite Ek. set (a := (k' / d)%nat) in *. set (i := (k' mod d)%nat) in *. unfold projection_cell. cbv zeta. rewrite !project_vector_at by assumption.
  unfold weigh.
  assert (E1 : interpolate d d i (gather d Q c) = s * b i).
  { apply interpolate_const; [exact Hd|]. intros a' Ha'. rewrite gather_at by exact Hr. apply HQ; [apply Hn; lia|exact Hr]. }
  assert (E2 : rsum (S d) (fun a0 => s * gather 1 (pressures d U) c a0 * cell_gradient d (gather_coords X c) a0 i) = s * b i).
  { rewrite <- (scalar_gradient_affine d (S d) d (gather_coords X c) b0 b (gather (S d) U c) Hd Hv (gather_scalar d nn (S d) d X b0 b U c ltac:(lia) Hn HU) i Hr).
    unfold scalar_gradient. rewrite <- rsum_scal_l. apply rsum_ext. intros a' Ha'. rewrite gather_at by lia.
    replace a' with (a' * 1 + 0)%nat at 1 by lia. rewrite gather_at by lia. unfold pressures. rewrite Nat.mul_1_r, Nat.add_0_r. req. ring. }
  rewrite E1, E2. ring.
Qed.
Print Assumptions C109_projection.
(** The volume equation of node n: integral of its shape function times scaling times (volume change - pressure / bulk modulus). *)
Definition volume_equation (d : nat) (pen : R -> R) (K : cell stabilized -> R) (X : nat -> nat -> R) (U Z : nat -> R) (cells : list (cell stabilized)) (n : nat) : R :=
  sum_over cells (fun c => rs (S d) (fun a => if Nat.eqb n (c_node c a) then
    simplex_measure d (gather_coords X c) * pen (rs (S d) (fun a => Z (c_node c a)) / INR (S d)) * / INR (S d)
      * (b_scale (c_mat c) * (rs d (cell_strain d X U c) - cell_pressure d U c / K c)) else 0)).
(** What the two scalings leave in the equation of node n. *)
Definition surplus (d : nat) (pen : R -> R) (mu : cell stabilized -> R) (s : R) (X : nat -> nat -> R) (b Z : nat -> R) (cells : list (cell stabilized)) (n : nat) : R :=
  sum_over cells (fun c => rs (S d) (fun a => if Nat.eqb n (c_node c a) then
    simplex_measure d (gather_coords X c) * pen (rs (S d) (fun a => Z (c_node c a)) / INR (S d))
      * (b_scale (c_mat c) * (Rpower (simplex_measure d (gather_coords X c)) (2 / 3) / (2 * mu c)) * (b_scale (c_mat c) - s)
         * rs d (fun j => b j * cell_gradient d (gather_coords X c) a j)) else 0)).
Theorem C109_rows : forall d nn pen s X U Q Z cells lam mu b0 b, (2 <= d <= 3)%nat -> mesh_ok d nn X cells -> isotropic_cells d lam mu cells ->
  scalar_field d nn (S d) d X b0 b U -> uniform_vector d nn (fun i => s * b i) Q ->
  exists r, stab_residual d pen X U Q Z cells = Ok r /\
    forall n, r (n * S d + d)%nat = volume_equation d pen (fun c => lam c + 2 * mu c / INR d) X U Z cells n - surplus d pen mu s X b Z cells n.
Proof.
  intros d nn pen s X U Q Z cells lam mu b0 b Hd Hm HI HU HQ. eexists. split; [apply (stab_ok d pen X U Q Z cells lam mu Hd HI)|]. intros n.
  rewrite assemble_row by lia. unfold volume_equation, surplus.
  match goal with |- _ = sum_over _ ?f - sum_over _ ?g => replace (sum_over cells f - sum_over cells g) with (sum_over cells (fun c => f c + (-1) * g c)) by (rewrite sum_over_add, sum_over_scal; ring) end.
  apply sum_over_ext. intros c Hc. destruct (mesh_cell _ _ _ _ _ Hm Hc) as [Hn Hv]. unfold rs at 1 6. rewrite <- rsum_scal_l, <- rsum_add. apply rsum_ext. intros a Ha.
  destruct (Nat.eqb n (c_node c a)); [|req; ring].
  rewrite value_pressure by lia. rewrite (proj1 (measure_simplex d (gather_coords X c) ltac:(lia) Hv)). rewrite cell_pressure_value by lia. rewrite basis_third by lia.
  change (cell_density (S d) (gather_control Z c)) with (rs (S d) (fun a => Z (c_node c a)) / INR (S d)).
  set (V := simplex_measure d (gather_coords X c)). set (P := pen _).
  rewrite (rsum_ext d _ (fun j => b_scale (c_mat c) * (Rpower V (2 / 3) / (2 * mu c)) * (b_scale (c_mat c) - s) * (b j * cell_gradient d (gather_coords X c) a j))).
  2: { intros j Hj. unfold stabilization.
       rewrite (scalar_gradient_affine d (S d) d _ b0 b _ ltac:(lia) Hv (gather_scalar d nn (S d) d X b0 b U c ltac:(lia) Hn HU) j Hj).
       rewrite (interpolate_const d d j (gather d Q c) (s * b j) ltac:(lia)).
       2: { intros a' Ha'. rewrite gather_at by exact Hj. apply HQ; [apply Hn; lia|exact Hj]. }
       req. ring. }
  rewrite rsum_scal_l. unfold volume_flux, rs, cell_strain. req. ring.
Qed.
Print Assumptions C109_rows.
Theorem C109_consistent_partial : forall d nn pen s X U Q Z cells lam mu b0 b, (2 <= d <= 3)%nat -> mesh_ok d nn X cells -> isotropic_cells d lam mu cells ->
  scalar_field d nn (S d) d X b0 b U -> uniform_vector d nn (fun i => s * b i) Q -> (forall c, In c cells -> b_scale (c_mat c) = s) ->
  exists r, stab_residual d pen X U Q Z cells = Ok r /\
    forall n, r (n * S d + d)%nat = volume_equation d pen (fun c => lam c + 2 * mu c / INR d) X U Z cells n.
Proof.
  intros d nn pen s X U Q Z cells lam mu b0 b Hd Hm HI HU HQ Hs. destruct (C109_rows d nn pen s X U Q Z cells lam mu b0 b Hd Hm HI HU HQ) as (r & E & H).
  exists r. split; [exact E|]. intros n. rewrite H. unfold surplus. rewrite sum_over_0; [ring|]. intros c Hc. unfold rs at 1. apply rsum_0. intros a Ha.
  destruct (Nat.eqb n _); [|reflexivity]. rewrite (Hs c Hc). req. ring.
Qed.
Print Assumptions C109_consistent_partial.
(** The two scalings are read from different lists and have different defaults. *)
Theorem C109_scalings : forall E v, 1 - 2 * v <> 0 ->
  (material_scaling None E v = projection_scaling None <-> E = 3 * (1 - 2 * v)) /\ (forall s, material_scaling (Some s) E v = s /\ projection_scaling (Some s) = s).
Proof.
  intros E v Hv. split; [|intros s; split; reflexivity]. unfold material_scaling, projection_scaling, pressure_scaling. split; intros H.
  - replace E with (E / (3 * (1 - 2 * v)) * (3 * (1 - 2 * v))) by (field; exact Hv). rewrite H. ring.
  - rewrite H. field. exact Hv.
Qed.
Print Assumptions C109_scalings.
(** With the defaults the stabilisation does not vanish: a triangle with modulus 6 and Poisson ratio 0, pressure growing along the first axis. *)
Definition elastic_sheet : stabilized := mkStab (isotropic_material 2 6 0) (material_scaling None 6 0).
Lemma elastic_sheet_isotropic : isotropic_cells 2 (fun _ => 0) (fun _ => 3) (one elastic_sheet).
Proof.
  intros c [<-|[]]. split; [|cbn; lra]. intros i j Hi Hj. cbn in Hi, Hj. unfold hooke, rs. cbn [c_mat elastic_sheet b_stiff]. unfold isotropic_material, voigt_pattern.
  destruct i as [|[|[|i]]]; try lia; destruct j as [|[|[|j]]]; try lia; rsums; cbn; field.
Qed.
Theorem C109_refuted : exists U Q r, scalar_field 2 3 3 2 square_X 0 (fun i => if Nat.eqb i 0 then 1 else 0) U /\
  (forall k, projection_residual 2 (fun _ => 1) (projection_scaling None) square_X Q (pressures 2 U) (fun _ => 1) (one elastic_sheet) k = 0) /\
  stab_residual 2 (fun _ => 1) square_X U Q (fun _ => 1) (one elastic_sheet) = Ok r /\
  r 5%nat <> volume_equation 2 (fun _ => 1) (fun _ => 3) square_X U (fun _ => 1) (one elastic_sheet) 1.
Proof.
  set (U := fun k : nat => if Nat.eqb k 5 then 1 else 0). set (b := fun i : nat => if Nat.eqb i 0 then 1 else 0). set (Q := fun k : nat => projection_scaling None * b (k mod 2)).
  assert (HU : scalar_field 2 3 3 2 square_X 0 b U).
  { intros n Hn. unfold affine, rs, U, b. destruct n as [|[|[|n]]]; try lia; rsums; cbn; ring. }
  assert (HQ : uniform_vector 2 3 (fun i => projection_scaling None * b i) Q).
  { intros n i Hn Hi. unfold Q. rewrite (Nat.add_comm (n * 2)), Nat.mod_add, Nat.mod_small by lia. reflexivity. }
  destruct (C109_rows 2 3 (fun _ => 1) (projection_scaling None) square_X U Q (fun _ => 1) (one elastic_sheet) (fun _ => 0) (fun _ => 3) 0 b ltac:(lia) (one_ok _) elastic_sheet_isotropic HU HQ) as (r & E & H).
  exists U, Q, r. split; [exact HU|]. split; [apply (C109_projection _ 2 3 (fun _ => 1) (projection_scaling None) square_X U Q (fun _ => 1) (one elastic_sheet) 0 b); [lia|apply one_ok|exact HU|exact HQ]|].
  split; [exact E|]. specialize (H 1%nat). cbn [Nat.mul Nat.add] in H. rewrite H.
  assert (EV : volume_equation 2 (fun _ => 1) (fun _ : cell stabilized => 0 + 2 * 3 / INR 2) square_X U (fun _ => 1) (one elastic_sheet) 1 = volume_equation 2 (fun _ => 1) (fun _ => 3) square_X U (fun _ => 1) (one elastic_sheet) 1).
  { unfold volume_equation. apply sum_over_ext. intros c _. unfold rs. apply rsum_ext. intros a _. destruct (Nat.eqb 1 _); [|reflexivity].
    replace (0 + 2 * 3 / INR 2) with 3 by (cbn; field). reflexivity. }
  rewrite EV. enough (0 < surplus 2 (fun _ => 1) (fun _ => 3) (projection_scaling None) square_X b (fun _ => 1) (one elastic_sheet) 1) by lra.
  unfold surplus. cbn [one sum_over c_node c_mat]. change (gather_coords square_X (mkCell (fun a => a) elastic_sheet)) with square_X.
  rewrite <- (proj1 (measure_simplex 2 square_X ltac:(lia) (proj2 (one_ok tt (fun a => a) (or_introl eq_refl))))), one_measure.
  assert (0 < Rpower (1 / 2) (2 / 3)) by apply exp_pos. unfold rs. rsums. cbn [Nat.eqb]. rewrite !one_gradient by lia.
  unfold elastic_sheet, material_scaling, projection_scaling, pressure_scaling, b. cbn. lra.
Qed.
Print Assumptions C109_refuted.

(** ** C110: the energy criterion measures the work of the internal forces. *)
Lemma displaced_gather {M} d U (c : cell M) a i : (i < S d)%nat -> gather (S d) (displaced d U) c (a * S d + i) = if Nat.ltb i d then gather (S d) U c (a * S d + i) else 0.
Proof.
  intros Hi. rewrite !gather_at by exact Hi. unfold displaced. rewrite (Nat.add_comm (c_node c a * S d)), Nat.mod_add, Nat.mod_small by lia. reflexivity.
Qed.
Theorem C110_energy_partial : forall d nn pen X U Q Z cells lam mu, (2 <= d <= 3)%nat -> mesh_ok d nn X cells -> isotropic_cells d lam mu cells ->
  (forall c v, In c cells -> (d <= v < num_voigt d)%nat -> cell_strain d X U c v = 0) ->
  exists w r, stab_energy d pen X U Z cells = Ok w /\ stab_residual d pen X U Q Z cells = Ok r /\ w = work (nn * S d) r (displaced d U).
Proof.
  intros d nn pen X U Q Z cells lam mu Hd Hm HI Hsh. eexists. eexists.
  split; [|split; [apply (stab_ok d pen X U Q Z cells lam mu Hd HI)|]].
  { unfold stab_energy. apply (totalR_ok _ (fun c => scalar_product (num_voigt d) 1 (cell_measure d (gather_coords X c)) (weigh d pen (gather_control Z c)
        (fun i => if Nat.ltb i d then dev_stress d (b_stiff (c_mat c)) (cell_strain d X U c) i + b_scale (c_mat c) * interpolate d (S d) d (gather (S d) U c) else 0)) (cell_strain d X U c))).
    intros c Hc. unfold stab_energy_cell. cbv zeta. destruct (HI c Hc) as (H1 & H2 & H3). rewrite (moduli_hooke d (lam c) (mu c)) by assumption. reflexivity. }
  rewrite assemble_work by (apply (mesh_nodes d nn X); exact Hm). apply sum_over_ext. intros c Hc. rewrite value_work by lia.
  assert (ES : forall v, strain d (S d) (fun _ => 0) (gather (S d) (displaced d U) c) (cell_gradient d (gather_coords X c)) v = cell_strain d X U c v).
  { intros v. apply strain_disp; [lia|]. intros a i Ha Hi. rewrite displaced_gather by lia. destruct (Nat.ltb_spec i d); [reflexivity|lia]. }
  assert (E0 : interpolate d (S d) d (gather (S d) (displaced d U) c) = 0).
  { unfold interpolate. apply rsum_0. intros a _. rewrite displaced_gather by lia. rewrite Nat.ltb_irrefl. req. ring. }
  rewrite E0. rewrite (rsum_0 d).
  2: { intros j Hj. unfold scalar_gradient at 2. rewrite (rsum_0 (S d)); [req; ring|]. intros a _. rewrite displaced_gather by lia. rewrite Nat.ltb_irrefl. req. ring. }
  unfold scalar_product, weigh. set (P := pen _). fold (cell_strain d X U c). set (p := b_scale (c_mat c) * _).
  rewrite (rsum_ext (num_voigt d) (fun v => total_stress _ _ _ _ v * _) (fun v => total_stress d (c_mat c) (cell_strain d X U c) p v * cell_strain d X U c v)) by (intros v _; rewrite ES; reflexivity).
  match goal with |- 1 * rsum ?n ?f * ?V = _ => rewrite (rsum_ext n f (fun v => P * (total_stress d (c_mat c) (cell_strain d X U c) p v * cell_strain d X U c v))) end.
  - rewrite rsum_scal_l. ring.
  - intros v Hv. unfold total_stress, hydrostatic. destruct (Nat.ltb_spec v d) as [L|L]; [req; ring|]. rewrite (Hsh c v Hc) by lia. req. ring.
Qed.
Print Assumptions C110_energy_partial.
(** Shear work is left out: a triangle in simple shear has no energy. *)
Theorem C110_refuted : exists U r, stab_energy 2 (fun _ => 1) square_X U (fun _ => 1) (one sheet) = Ok 0 /\
  stab_residual 2 (fun _ => 1) square_X U (fun _ => 0) (fun _ => 1) (one sheet) = Ok r /\ 0 < work 9 r (displaced 2 U).
Proof.
  set (U := fun k : nat => if Nat.eqb k 6 then 1 else 0). eexists U, _. split; [|split; [apply (stab_ok 2 _ _ _ _ _ _ (fun _ => 1) (fun _ => 1)); [lia|exact sheet_isotropic]|]].
  - unfold stab_energy. rewrite (totalR_ok _ (fun c => scalar_product 3 1 (cell_measure 2 (gather_coords square_X c)) (weigh 2 (fun _ => 1) (gather_control (fun _ => 1) c)
        (fun i => if Nat.ltb i 2 then dev_stress 2 (b_stiff (c_mat c)) (cell_strain 2 square_X U c) i + b_scale (c_mat c) * interpolate 2 3 2 (gather 3 U c) else 0)) (cell_strain 2 square_X U c))).
    + f_equal. cbn [one sum_over]. unfold scalar_product, weigh. rsums. rewrite !one_strain. unfold U. cbn [Nat.eqb Nat.ltb Nat.leb c_mat]. ring.
    + intros c [<-|[]]. unfold stab_energy_cell. cbv zeta. rewrite (moduli_hooke 2 1 1) by (try (cbn; lra); try lia; apply (sheet_isotropic _ (or_introl eq_refl))). reflexivity.
  - change 9%nat with (3 * 3)%nat. rewrite assemble_work by (apply (mesh_nodes 2 3 square_X); apply one_ok). cbn [one sum_over]. rewrite value_work by lia.
    change (gather_coords square_X (mkCell (fun a => a) sheet)) with square_X. rewrite one_measure.
    rewrite (bilinear 2 1 1) by (try lia; apply (sheet_isotropic _ (or_introl eq_refl))).
    assert (EU : forall k, gather 3 (displaced 2 U) (mkCell (fun a => a) sheet) k = gather 3 U (mkCell (fun a => a) sheet) k).
    { intros k. rewrite !one_gather by lia. unfold displaced, U. destruct (Nat.eqb_spec k 6) as [->|]; [reflexivity|]. destruct (Nat.ltb _ 2); reflexivity. }
    assert (EI : interpolate 2 3 2 (gather 3 U (mkCell (fun a => a) sheet)) = 0).
    { unfold interpolate. apply rsum_0. intros a Ha. rewrite one_gather by lia. unfold U. destruct (Nat.eqb_spec (a * 3 + 2) 6); [lia|req; ring]. }
    assert (EI' : interpolate 2 3 2 (gather 3 (displaced 2 U) (mkCell (fun a => a) sheet)) = 0).
    { rewrite <- EI. unfold interpolate. apply rsum_ext. intros a _. rewrite EU. reflexivity. }
    assert (EG : forall j, scalar_gradient 2 3 2 (gather 3 (displaced 2 U) (mkCell (fun a => a) sheet)) (cell_gradient 2 square_X) j = 0).
    { intros j. unfold scalar_gradient. apply rsum_0. intros a Ha. rewrite EU, one_gather by lia. unfold U. destruct (Nat.eqb_spec (a * 3 + 2) 6); [lia|req; ring]. }
    rewrite EI, EI'. rewrite (rsum_0 2 (fun j => stabilization _ _ _ _ _ j * _)) by (intros j _; rewrite EG; req; ring).
    assert (ES : forall v, strain 2 3 (fun _ => 0) (gather 3 U (mkCell (fun a => a) sheet)) (cell_gradient 2 square_X) v = cell_strain 2 square_X U (mkCell (fun a => a) sheet) v) by reflexivity.
    assert (ED : forall v, strain 2 3 (fun _ => 0) (gather 3 (displaced 2 U) (mkCell (fun a => a) sheet)) (cell_gradient 2 square_X) v = cell_strain 2 square_X U (mkCell (fun a => a) sheet) v).
    { intros v. rewrite <- ES. apply strain_ext; [lia|lia|]. intros k _. apply EU. }
    cbn [num_voigt]. unfold hooke, rs. rsums. rewrite !ED, !ES, !one_strain. unfold U. cbn. lra.
Qed.
Print Assumptions C110_refuted.
(** The hypothesis without shear: the uniformly growing bodies of C107_reachable. *)
Example C110_reachable : forall c v, In c (one sheet) -> (2 <= v < 3)%nat -> cell_strain 2 square_X (fun k => if (Nat.eqb k 3 || Nat.eqb k 7)%bool then 1 else 0) c v = 0.
Proof. intros c v [<-|[]] Hv. assert (v = 2%nat) by lia. subst v. rewrite one_strain. cbn. ring. Qed.
