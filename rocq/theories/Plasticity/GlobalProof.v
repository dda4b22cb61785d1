(** Lemmas for the plasticity residual. *)
From Coq Require Import Reals List Arith Bool Lia Lra.
From Verif Require Import Base.Field Base.Sums Base.Res Element.ElementModel Element.ElementSpec Element.ElementProof Element.ElementProps Element.MaterialModel Element.MaterialSpec
  Penalty.PenaltyModel Ortho.OrthoModel Residual.ResidualModel Residual.ResidualSpec Residual.ResidualProof Residual.ResidualProps Residual.CouplingProof Stab.StabModel Stab.StabProof
  Plasticity.J2Model Plasticity.J2Spec Plasticity.GlobalModel Plasticity.GlobalSpec.
Import ListNotations.
Local Open Scope R_scope.

Definition volume_strain (th : bool) (d : nat) (w : R) (m : plastic) (total u : nat -> R) : R :=
  k_ps m * (strain_divergence d total - thermal_volume th d m u - interpolate d (dofs th d) (pressure_at th d) u * k_ps m / (w * k_bulk m)).
Definition cell_strain (th : bool) (d : nat) (x : coords) (u : nat -> R) : nat -> R := strain d (dofs th d) (fun _ => 0) u (cell_gradient d x).
Definition cell_dev (th : bool) (d : nat) (w : R) (m : plastic) (x : coords) (u ls : nat -> R) : nat -> R := deviatoric_stress d (w * k_shear m) (state_strain th d m x u ls).
Definition cell_press (th : bool) (d : nat) (m : plastic) (u : nat -> R) : R := interpolate d (dofs th d) (pressure_at th d) u * k_ps m.
Definition cell_stab (th : bool) (d : nat) (w : R) (m : plastic) (x : coords) (u q : nat -> R) : nat -> R :=
  apply_penalty w (stabilization (k_ps m) (k_shear m) (cell_measure d x) (scalar_gradient d (dofs th d) (pressure_at th d) u (cell_gradient d x)) (fun i => interpolate d d i q)).
Definition heat_flux (th : bool) (d : nat) (w : R) (m : plastic) (x : coords) (u : nat -> R) (i : nat) : R :=
  -1 * (w * k_cond m) * k_ts m * scalar_gradient d (dofs th d) (temperature_at d) u (cell_gradient d x) i.
Definition plastic_value (th : bool) (d : nat) (pen : R -> R) (m : plastic) (x : coords) (u ls q z : nat -> R) : nat -> R :=
  let n := dofs th d in let po := pressure_at th d in let g := cell_gradient d x in let vol := cell_measure d x in let w := pen (cell_density (S d) z) in
  project_to_node d n po vol (volume_strain th d w m (cell_strain th d x u) u)
    (flux_divergence d n po (-1) vol (cell_stab th d w m x u q) g
      (pressure_divergence d n 1 vol (cell_press th d m u) g
        (let o := stress_divergence d n 0 1 vol (cell_dev th d w m x u ls) g (fun _ => 0) in
         if th then flux_divergence d n (temperature_at d) (-1) vol (heat_flux th d w m x u) g o else o))).
Lemma plastic_cell_ok th d pen m x u ls q z : pen (cell_density (S d) z) * k_bulk m <> 0 -> k_shear m <> 0 ->
  plastic_cell th d pen m x u ls q z = Ok (plastic_value th d pen m x u ls q z).
Proof.
  intros HK HG. unfold plastic_cell. cbv zeta. unfold quot. destruct (Req_EM_T _ 0) as [E|_]; [contradiction|]. cbn [rbind].
  destruct (Req_EM_T _ 0) as [E|_]; [lra|]. reflexivity.
Qed.
(** Usable moduli in every cell. *)
Definition moduli_ok (d : nat) (pen : R -> R) (Z : nat -> R) (cells : list (cell plastic)) : Prop :=
  forall c, In c cells -> pen (cell_density (S d) (gather_control Z c)) * k_bulk (c_mat c) <> 0 /\ k_shear (c_mat c) <> 0.
Definition value_at (th : bool) (d : nat) (pen : R -> R) (X : nat -> nat -> R) (U : nat -> R) (LS : nat -> nat -> R) (Q Z : nat -> R) (c : cell plastic) : nat -> R :=
  plastic_value th d pen (c_mat c) (gather_coords X c) (gather (dofs th d) U c) (LS (k_cell (c_mat c))) (gather d Q c) (gather_control Z c).
Lemma plastic_ok th d pen X U LS Q Z cells : moduli_ok d pen Z cells ->
  plastic_residual th d pen X U LS Q Z cells = Ok (assemble (S d) (dofs th d) (value_at th d pen X U LS Q Z) cells).
Proof. intros H. unfold plastic_residual. apply assembleR_ok. intros c Hc. destruct (H c Hc). apply plastic_cell_ok; assumption. Qed.

Lemma po_lt th d : (pressure_at th d < dofs th d)%nat. Proof. destruct th; cbn; lia. Qed.
Lemma d_le th d : (d <= dofs th d)%nat. Proof. destruct th; cbn; lia. Qed.
Lemma po_ge th d : (d <= pressure_at th d)%nat. Proof. destruct th; cbn; lia. Qed.
Lemma to_lt th d : (temperature_at d < dofs th d)%nat. Proof. unfold temperature_at. destruct th; cbn; lia. Qed.

(** The work of a cell residual in nodal values w. *)
Lemma value_work th d pen m x u ls q z w : (1 <= d <= 3)%nat ->
  let wt := pen (cell_density (S d) z) in let g := cell_gradient d x in
  cell_work (S d) (dofs th d) (plastic_value th d pen m x u ls q z) w = cell_measure d x *
    (rsum (num_voigt d) (fun v => (cell_dev th d wt m x u ls v + hydrostatic d (cell_press th d m u) v) * cell_strain th d x w v)
     - (if th then rsum d (fun k => heat_flux th d wt m x u k * scalar_gradient d (dofs th d) (temperature_at d) w g k) else 0)
     - rsum d (fun k => cell_stab th d wt m x u q k * scalar_gradient d (dofs th d) (pressure_at th d) w g k)
     + volume_strain th d wt m (cell_strain th d x u) u * interpolate d (dofs th d) (pressure_at th d) w).
Proof.
  intros Hd wt g. unfold plastic_value. cbv zeta. fold wt. fold g. rewrite project_work, flux_work by apply po_lt.
  rewrite (cell_work_ext _ _ (pressure_divergence _ _ _ _ _ _ _) _ w (fun k => pressure_stress d (dofs th d) _ _ _ _ _ k Hd)).
  rewrite stress_work by (try lia; apply d_le).
  rewrite (rsum_ext (num_voigt d) (fun v => (_ + _) * cell_strain th d x w v)
     (fun v => cell_dev th d wt m x u ls v * strain d (dofs th d) (fun _ => 0) w g v + hydrostatic d (cell_press th d m u) v * strain d (dofs th d) (fun _ => 0) w g v))
    by (intros; unfold cell_strain; fold g; req; ring).
  rewrite rsum_add. destruct th.
  - rewrite flux_work by apply to_lt. rewrite stress_work by (try lia; apply d_le). rewrite cell_work_0. ring.
  - rewrite stress_work by (try lia; apply d_le). rewrite cell_work_0. ring.
Qed.
(** Its entries. *)
Lemma value_mech th d pen m x u ls q z a i : (1 <= d <= 3)%nat -> (i < d)%nat -> (a < S d)%nat ->
  let wt := pen (cell_density (S d) z) in let g := cell_gradient d x in
  plastic_value th d pen m x u ls q z (a * dofs th d + i)%nat = cell_measure d x *
    rsum d (fun j => (cell_dev th d wt m x u ls (voigt d i j) + hydrostatic d (cell_press th d m u) (voigt d i j)) * g a j).
Proof.
  intros Hd Hi Ha wt g. unfold plastic_value. cbv zeta. fold wt. fold g. pose proof (po_lt th d). pose proof (po_ge th d). pose proof (d_le th d). pose proof (to_lt th d).
  rewrite project_other, flux_other by lia. rewrite pressure_stress by exact Hd. rewrite stress_at by lia.
  rewrite (rsum_ext d (fun j => (_ + _) * g a j) (fun j => cell_dev th d wt m x u ls (voigt d i j) * g a j + hydrostatic d (cell_press th d m u) (voigt d i j) * g a j)) by (intros; req; ring).
  rewrite rsum_add. destruct th.
  - rewrite flux_other by (unfold temperature_at; lia). rewrite stress_at by lia. ring.
  - rewrite stress_at by lia. ring.
Qed.
Lemma value_pressure th d pen m x u ls q z a : (1 <= d <= 3)%nat -> (a < S d)%nat ->
  let wt := pen (cell_density (S d) z) in let g := cell_gradient d x in
  plastic_value th d pen m x u ls q z (a * dofs th d + pressure_at th d)%nat = cell_measure d x *
    (cub_basis d a * volume_strain th d wt m (cell_strain th d x u) u - rsum d (fun j => cell_stab th d wt m x u q j * g a j)).
Proof.
  intros Hd Ha wt g. unfold plastic_value. cbv zeta. fold wt. fold g. pose proof (po_lt th d). pose proof (po_ge th d).
  rewrite project_at, flux_at_node by lia. rewrite pressure_stress by exact Hd. rewrite stress_other by lia. destruct th.
  - rewrite flux_other by (unfold temperature_at; cbn; lia). rewrite stress_other by lia. ring.
  - rewrite stress_other by lia. ring.
Qed.
Lemma value_heat d pen m x u ls q z a : (1 <= d <= 3)%nat -> (a < S d)%nat ->
  let wt := pen (cell_density (S d) z) in
  plastic_value true d pen m x u ls q z (a * dofs true d + d)%nat = - (cell_measure d x * rsum d (fun j => heat_flux true d wt m x u j * cell_gradient d x a j)).
Proof.
  intros Hd Ha wt. unfold plastic_value. cbv zeta. fold wt. cbn [dofs pressure_at]. unfold temperature_at.
  rewrite project_other, flux_other by lia. rewrite pressure_stress by exact Hd. rewrite stress_other by lia. rewrite flux_at_node by lia. rewrite stress_other by lia. ring.
Qed.
