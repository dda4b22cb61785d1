(** C143, C144: the volume criteria and the temperature average. *)
From Coq Require Import Reals List Arith Lia Lra.
From Verif Require Import Base.Field Base.Sums Element.ElementModel Element.ElementSpec Element.ElementProof Element.ElementProps
  Penalty.PenaltyModel Penalty.PenaltyProps Residual.ResidualModel Criteria.VolumeModel.
Import ListNotations.
Local Open Scope R_scope.

(** Specification.  A mesh is a list of cells, each with d + 1 nodes; [all_cells f] adds a quantity over the cells. *)
Definition all_cells {M} (f : cell M -> R) (cells : list (cell M)) : R := fold_right Rplus 0 (map f cells).
Definition corner {M} (X : nat -> nat -> R) (c : cell M) (a i : nat) : R := X (c_node c a) i.
Definition measure {M} (d : nat) (X : nat -> nat -> R) (c : cell M) : R := simplex_measure d (corner X c).
(** The mean over the corners, which is the mean over the cell of the linear interpolant. *)
Definition mean {M} (d : nat) (Z : nat -> R) (c : cell M) : R := rs (S d) (fun a => Z (c_node c a)) / INR (S d).

Lemma fold_left_plus {A} (f : A -> R) l : forall s, fold_left (fun t c => t + f c) l s = s + fold_right Rplus 0 (map f l).
Proof. induction l as [|x l IH]; intros s; cbn; [lra|]. rewrite IH. lra. Qed.
Lemma total_all {M} (f : cell M -> R) cells : total f cells = all_cells f cells.
Proof. unfold total, all_cells. rewrite fold_left_plus. lra. Qed.
Lemma all_cells_ext {M} (f g : cell M -> R) cells : (forall c, In c cells -> f c = g c) -> all_cells f cells = all_cells g cells.
Proof. intros H. unfold all_cells. f_equal. apply map_ext_in. exact H. Qed.
Lemma all_cells_le {M} (f g : cell M -> R) cells : (forall c, In c cells -> f c <= g c) -> all_cells f cells <= all_cells g cells.
Proof.
  unfold all_cells. induction cells as [|c cells IH]; intros H; cbn; [lra|]. specialize (IH (fun c h => H c (or_intror h))). specialize (H c (or_introl eq_refl)). lra.
Qed.
Lemma all_cells_scal {M} k (f : cell M -> R) cells : all_cells (fun c => k * f c) cells = k * all_cells f cells.
Proof. unfold all_cells. induction cells as [|c cells IH]; cbn; [lra|]. rewrite IH. lra. Qed.

Lemma weight_dims d : (1 <= d <= 3)%nat -> volume_weight d = cub_weight d /\ cub_weight d * INR (fact d) = 1.
Proof. intros Hd. dims d; unfold volume_weight; cbn; split; field. Qed.
Lemma measure_volume d x : (1 <= d <= 3)%nat -> cell_volume d x * cub_weight d = simplex_measure d x.
Proof.
  intros Hd. unfold cell_volume, simplex_measure. cbv zeta. dims d; cbn [cell_det cub_weight].
  - unfold det1. rewrite Rmult_1_r, <- Rabs_Ropp. f_equal. ring.
  - unfold det2. cbv zeta. replace (1 / INR 2) with (/ 2) by (cbn; lra). unfold Rdiv. f_equal. f_equal. ring.
  - unfold det3. cbv zeta. replace (1 / INR 2 / INR 3) with (/ 6) by (cbn; field). unfold Rdiv. f_equal. rewrite <- Rabs_Ropp. f_equal. ring.
Qed.
Lemma measure_pos d x : 0 <= simplex_measure d x.
Proof. unfold simplex_measure. cbv zeta. destruct d as [|[|[|d]]]; try apply Rabs_pos; (apply Rmult_le_pos; [apply Rabs_pos|lra]). Qed.
Lemma rs_le n (f g : nat -> R) : (forall a, (a < n)%nat -> f a <= g a) -> rs n f <= rs n g.
Proof.
  unfold rs. induction n as [|n IH]; intros H; cbn; [lra|]. specialize (IH (fun a h => H a ltac:(lia))). specialize (H n ltac:(lia)). cbn in *. lra.
Qed.
Lemma rs_const n k : rs n (fun _ => k) = INR n * k.
Proof. unfold rs. induction n as [|n IH]; [cbn; lra|]. rewrite S_INR. cbn in *. rewrite IH. lra. Qed.
Lemma mean_const {M} d Z (c : cell M) k : (forall a, (a <= d)%nat -> Z (c_node c a) = k) -> mean d Z c = k.
Proof.
  intros H. unfold mean. assert (E : rs (S d) (fun a => Z (c_node c a)) = INR (S d) * k).
  { rewrite <- rs_const. unfold rs. apply (sum_ext (K := R_ring)). intros a Ha. apply H. lia. }
  rewrite E. field. apply not_0_INR. lia.
Qed.
Lemma mean_le {M} d Z Z' (c : cell M) : (forall a, (a <= d)%nat -> Z (c_node c a) <= Z' (c_node c a)) -> mean d Z c <= mean d Z' c.
Proof.
  intros H. unfold mean. apply Rmult_le_compat_r; [left; apply Rinv_0_lt_compat, lt_0_INR; lia|]. apply rs_le. intros a Ha. apply H. lia.
Qed.
Lemma volume_sum {M} d pen X Z (cells : list (cell M)) : (1 <= d <= 3)%nat ->
  volume d pen X Z cells = all_cells (fun c => measure d X c * pen (mean d Z c)) cells.
Proof.
  intros Hd. unfold volume. rewrite total_all. apply all_cells_ext. intros c _. unfold volume_cell. destruct (weight_dims d Hd) as [-> _].
  rewrite measure_volume by exact Hd. reflexivity.
Qed.

(** C143.  The volume is the measure of the cells, each times the penalised mean density of its corners. *)
Theorem C143_volume : forall M d pen X Z (cells : list (cell M)), (1 <= d <= 3)%nat ->
  volume d pen X Z cells = all_cells (fun c => measure d X c * pen (mean d Z c)) cells.
Proof. intros. apply volume_sum. assumption. Qed.
Print Assumptions C143_volume.
(** With a material interpolation between m and 1: full material gives the measure of the mesh, no material m times that, everything else is in between, and
    adding material never makes the volume smaller. *)
Definition densities {M} (d : nat) (Z : nat -> R) (cells : list (cell M)) : Prop :=
  forall c a, In c cells -> (a <= d)%nat -> 0 <= Z (c_node c a) <= 1.
Lemma mean_01 {M} d Z (c : cell M) : (forall a, (a <= d)%nat -> 0 <= Z (c_node c a) <= 1) -> 0 <= mean d Z c <= 1.
Proof.
  intros H. split.
  - rewrite <- (mean_const d (fun _ => 0) c 0) by reflexivity. apply mean_le. intros a Ha. apply H. exact Ha.
  - rewrite <- (mean_const d (fun _ => 1) c 1) by reflexivity. apply mean_le. intros a Ha. apply H. exact Ha.
Qed.
Theorem C143_material : forall M d pen m X (cells : list (cell M)), (1 <= d <= 3)%nat -> interpolates pen 0 1 m ->
  let V := all_cells (measure d X) cells in
  volume d pen X (fun _ => 1) cells = V /\ volume d pen X (fun _ => 0) cells = m * V /\
  (forall Z, densities d Z cells -> m * V <= volume d pen X Z cells <= V) /\
  (forall Z Z', densities d Z cells -> densities d Z' cells -> (forall n, Z n <= Z' n) -> volume d pen X Z cells <= volume d pen X Z' cells).
Proof.
  intros M d pen m X cells Hd (I0 & I1 & Im & Ib) V. split; [|split; [|split]].
  - rewrite volume_sum by exact Hd. apply all_cells_ext. intros c _. rewrite (mean_const d _ c 1) by reflexivity. rewrite I1. ring.
  - rewrite volume_sum by exact Hd. unfold V. rewrite <- all_cells_scal. apply all_cells_ext. intros c _. rewrite (mean_const d _ c 0) by reflexivity. rewrite I0. ring.
  - intros Z HZ. rewrite volume_sum by exact Hd. unfold V. rewrite <- all_cells_scal. 
    assert (Hc : forall c, In c cells -> 0 <= measure d X c /\ m <= pen (mean d Z c) <= 1).
    { intros c Hc. split; [apply measure_pos|]. apply Ib. apply mean_01. intros a Ha. exact (HZ c a Hc Ha). }
    split; apply all_cells_le; intros c Hi; destruct (Hc c Hi) as (P & Q1 & Q2).
    + rewrite Rmult_comm. apply Rmult_le_compat_l; assumption.
    + rewrite <- (Rmult_1_r (measure d X c)) at 2. apply Rmult_le_compat_l; assumption.
  - intros Z Z' HZ HZ' Hle. rewrite !volume_sum by exact Hd. apply all_cells_le. intros c Hc. apply Rmult_le_compat_l; [apply measure_pos|].
    apply Im; [apply (mean_01 d Z c); intros a Ha; exact (HZ c a Hc Ha)|apply mean_le; intros; apply Hle|apply (mean_01 d Z' c); intros a Ha; exact (HZ' c a Hc Ha)].
Qed.
Print Assumptions C143_material.
(** The three penalties of the code are such interpolations (C28); two triangles sharing an edge, half filled. *)
Definition square_X (n i : nat) : R := match n, i with 1%nat, 0%nat => 2 | 2%nat, 1%nat => 1 | 3%nat, _ => if Nat.eqb i 0 then 2 else 1 | _, _ => 0 end.
Definition square_cells : list (cell unit) := [mkCell (fun a => nth a [0; 1; 2] 0)%nat tt; mkCell (fun a => nth a [1; 3; 2] 0)%nat tt].
Example C143_reachable : interpolates (simp (mkPenalty (1 / 1000) 3 0 3 0)) 0 1 (1 / 1000) /\ all_cells (measure 2 square_X) square_cells = 2 /\
  densities 2 (fun n => if Nat.eqb n 0 then 1 else 1 / 2) square_cells.
Proof.
  split; [apply (C28_simp (mkPenalty (1 / 1000) 3 0 3 0)); cbn; lra|]. split.
  - unfold all_cells, measure, simplex_measure, corner, square_cells. cbn.
    replace ((2 - 0) * (1 - 0) - (0 - 0) * (0 - 0)) with 2 by ring. replace ((2 - 2) * (1 - 0) - (1 - 0) * (0 - 2)) with 2 by ring.
    rewrite Rabs_pos_eq by lra. lra.
  - intros c a _ _. destruct (Nat.eqb _ 0); lra.
Qed.

(** C144.  The temperature average.  Every value is d! times the integral of the temperature over the material: it is neither that integral nor, in two and
    three dimensions or on a mesh whose measure is not 1, the average. *)
Lemma state_mean {M} d T (c : cell M) : (1 <= d <= 3)%nat -> state_value d 1 0 (gather 1 T c) = mean d T c.
Proof.
  intros Hd. unfold state_value, mean, gather, rs. dims d; cbn [seq fold_left Nat.mul Nat.add Nat.div Nat.modulo]; cbn -[INR];
  rewrite ?Nat.mul_1_r, ?Nat.add_0_r; cbn; field.
Qed.
Theorem C144_integral_partial : forall M d pen X T Z (cells : list (cell M)), (1 <= d <= 3)%nat ->
  temperature_average d pen X T Z cells = INR (fact d) * all_cells (fun c => measure d X c * mean d T c * pen (mean d Z c)) cells.
Proof.
  intros M d pen X T Z cells Hd. unfold temperature_average. rewrite total_all, <- all_cells_scal. apply all_cells_ext. intros c _.
  unfold temperature_cell. rewrite state_mean by exact Hd. unfold measure. change (corner X c) with (gather_coords X c). rewrite <- measure_volume by exact Hd.
  change (cell_density (S d) (gather_control Z c)) with (mean d Z c). destruct (weight_dims d Hd) as [_ W].
  transitivity (mean d T c * pen (mean d Z c) * cell_volume d (gather_coords X c) * (cub_weight d * INR (fact d))); [rewrite W; ring|ring].
Qed.
Print Assumptions C144_integral_partial.
Theorem C144_average_refuted : forall M d pen X t (cells : list (cell M)), (1 <= d <= 3)%nat -> pen 1 = 1 ->
  temperature_average d pen X (fun _ => t) (fun _ => 1) cells = INR (fact d) * all_cells (measure d X) cells * t.
Proof.
  intros M d pen X t cells Hd Hp. rewrite C144_integral_partial by exact Hd. rewrite Rmult_assoc. f_equal. rewrite Rmult_comm, <- all_cells_scal.
  apply all_cells_ext. intros c _. rewrite (mean_const d _ c t) by reflexivity. rewrite (mean_const d _ c 1) by reflexivity. rewrite Hp. ring.
Qed.
Print Assumptions C144_average_refuted.
(** On the square of measure 2 a uniform temperature of 10 has the "average" 40. *)
Example C144_case : temperature_average 2 (simp (mkPenalty (1 / 1000) 3 0 3 0)) square_X (fun _ => 10) (fun _ => 1) square_cells = 40.
Proof.
  rewrite C144_average_refuted; [|lia|apply (C28_simp (mkPenalty (1 / 1000) 3 0 3 0)); cbn; lra].
  rewrite (proj1 (proj2 C143_reachable)). cbn. lra.
Qed.
