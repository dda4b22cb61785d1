(** Lemmas for stabilised thermoelastostatics. *)
From Coq Require Import Reals List Arith Bool Lia Lra.
From Verif Require Import Base.Field Base.Sums Base.Res Element.ElementModel Element.ElementSpec Element.ElementProof Element.ElementProps Element.MaterialModel Element.MaterialSpec
  Penalty.PenaltyModel Ortho.OrthoModel Residual.ResidualModel Residual.ResidualSpec Residual.ResidualProof Residual.CouplingProof Stab.StabModel Stab.StabSpec Stab.StabProof Stab.HeatModel.
Import ListNotations.
Local Open Scope R_scope.

(** Stress and volume flux of a cell. *)
Definition heated_stress (d : nat) (m : heated) (x : coords) (u : nat -> R) (v : nat) : R :=
  let n := S (S d) in
  dev_stress d (h_stiff m) (fun v => strain d n (fun _ => 0) u (cell_gradient d x) v - expansion d m (interpolate d n (S d) u) v) v
  + hydrostatic d (interpolate d n d u * h_ps m) v.
Definition heated_flux (d : nat) (m : heated) (K : R) (x : coords) (u : nat -> R) : R :=
  heated_volume d m K (strain d (S (S d)) (fun _ => 0) u (cell_gradient d x)) (interpolate d (S (S d)) (S d) u) (interpolate d (S (S d)) d u * h_ps m).
Definition heated_stab (d : nat) (m : heated) (mu : R) (x : coords) (u q : nat -> R) : nat -> R :=
  stabilization (h_ps m) mu (cell_measure d x) (scalar_gradient d (S (S d)) d u (cell_gradient d x)) (fun i => interpolate d d i q).
Definition heated_flow (d : nat) (m : heated) (x : coords) (u : nat -> R) : nat -> R := heat_flow d m (scalar_gradient d (S (S d)) (S d) u (cell_gradient d x)).
Definition heated_value (d : nat) (pen : R -> R) (m : heated) (K mu : R) (x : coords) (u q z : nat -> R) : nat -> R :=
  let n := S (S d) in let g := cell_gradient d x in let vol := cell_measure d x in let w := weigh d pen z in
  project_to_node d n d vol (w (fun _ => heated_flux d m K x u) 0%nat)
    (flux_divergence d n (S d) 1 vol (w (heated_flow d m x u)) g
      (flux_divergence d n d (-1) vol (w (heated_stab d m mu x u q)) g
        (pressure_divergence d n 1 vol (w (fun _ => interpolate d n d u * h_ps m) 0%nat) g
          (stress_divergence d n 0 1 vol (w (dev_stress d (h_stiff m) (fun v => strain d n (fun _ => 0) u g v - expansion d m (interpolate d n (S d) u) v))) g (fun _ => 0))))).
Lemma heated_cell_ok d pen m K mu x u q z : moduli d (h_stiff m) = Ok (K, mu) -> heated_cell d pen m x u q z = Ok (heated_value d pen m K mu x u q z).
Proof. intros H. unfold heated_cell. cbv zeta. rewrite H. reflexivity. Qed.

Lemma weigh_sum n d pen z f h : rsum n (fun j => weigh d pen z f j * h j) = pen (cell_density (S d) z) * rsum n (fun j => f j * h j).
Proof. rewrite <- rsum_scal_l. apply rsum_ext. intros. unfold weigh. req. ring. Qed.
Lemma hydro_scale n d p s (h : nat -> R) (ix : nat -> nat) : rsum n (fun j => hydrostatic d (p * s) (ix j) * h j) = s * rsum n (fun j => hydrostatic d p (ix j) * h j).
Proof. rewrite <- rsum_scal_l. apply rsum_ext. intros. unfold hydrostatic. destruct (Nat.ltb _ d); req; ring. Qed.
Lemma weigh_sum_at n d pen z f h (ix : nat -> nat) : rsum n (fun j => weigh d pen z f (ix j) * h j) = pen (cell_density (S d) z) * rsum n (fun j => f (ix j) * h j).
Proof. rewrite <- rsum_scal_l. apply rsum_ext. intros. unfold weigh. req. ring. Qed.
Lemma rsum_split n (f f' h : nat -> R) : rsum n (fun j => (f j + f' j) * h j) = rsum n (fun j => f j * h j) + rsum n (fun j => f' j * h j).
Proof. rewrite <- rsum_add. apply rsum_ext. intros. req. ring. Qed.

Lemma heated_work d pen m K mu x u q z w : (1 <= d <= 3)%nat -> let n := S (S d) in let g := cell_gradient d x in
  cell_work (S d) n (heated_value d pen m K mu x u q z) w = cell_measure d x * pen (cell_density (S d) z) *
    (rsum (num_voigt d) (fun v => heated_stress d m x u v * strain d n (fun _ => 0) w g v) + rsum d (fun k => heated_flow d m x u k * scalar_gradient d n (S d) w g k)
     - rsum d (fun k => heated_stab d m mu x u q k * scalar_gradient d n d w g k) + heated_flux d m K x u * interpolate d n d w).
Proof.
  intros Hd n g. unfold heated_value. cbv zeta. fold n g. rewrite project_work, !flux_work by lia.
  rewrite (cell_work_ext _ _ (pressure_divergence _ _ _ _ _ _ _) _ w (fun k => pressure_stress d n _ _ _ _ _ k Hd)).
  rewrite !stress_work by (unfold n; lia). rewrite cell_work_0. unfold heated_stress. fold n g.
  rewrite (rsum_split (num_voigt d)). rewrite !weigh_sum. unfold weigh at 1. rewrite (hydro_scale _ _ _ _ _ (fun v => v)). unfold weigh. ring.
Qed.
Lemma heated_mech d pen m K mu x u q z a i : (1 <= d <= 3)%nat -> (i < d)%nat -> (a < S d)%nat ->
  heated_value d pen m K mu x u q z (a * S (S d) + i)%nat = cell_measure d x * pen (cell_density (S d) z) *
    rsum d (fun j => heated_stress d m x u (voigt d i j) * cell_gradient d x a j).
Proof.
  intros Hd Hi Ha. unfold heated_value. cbv zeta. rewrite project_other, !flux_other by lia. rewrite pressure_stress by exact Hd. rewrite !stress_at by lia.
  unfold heated_stress. rewrite rsum_split. rewrite (weigh_sum_at _ _ _ _ _ _ (fun j => voigt d i j)). unfold weigh. rewrite (hydro_scale _ _ _ _ _ (fun j => voigt d i j)). ring.
Qed.
Lemma heated_press d pen m K mu x u q z a : (1 <= d <= 3)%nat -> (a < S d)%nat ->
  heated_value d pen m K mu x u q z (a * S (S d) + d)%nat = cell_measure d x * pen (cell_density (S d) z) *
    (cub_basis d a * heated_flux d m K x u - rsum d (fun j => heated_stab d m mu x u q j * cell_gradient d x a j)).
Proof.
  intros Hd Ha. unfold heated_value. cbv zeta. rewrite project_at, flux_other, flux_at_node by lia. rewrite pressure_stress by exact Hd. rewrite !stress_other by lia.
  rewrite weigh_sum. unfold weigh. ring.
Qed.
Lemma heated_temp d pen m K mu x u q z a : (1 <= d <= 3)%nat -> (a < S d)%nat ->
  heated_value d pen m K mu x u q z (a * S (S d) + S d)%nat = cell_measure d x * pen (cell_density (S d) z) *
    rsum d (fun j => heated_flow d m x u j * cell_gradient d x a j).
Proof.
  intros Hd Ha. unfold heated_value. cbv zeta. rewrite project_other, flux_at_node, flux_other by lia. rewrite pressure_stress by exact Hd. rewrite !stress_other by lia.
  rewrite weigh_sum. ring.
Qed.
