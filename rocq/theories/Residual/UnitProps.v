(** C161: consistent units. *)
From Coq Require Import Reals List Arith Bool Lia Lra.
From Verif Require Import Base.Field Base.Sums Base.Res Element.ElementModel Element.ElementSpec Element.ElementProof Element.ElementProps
  Penalty.PenaltyModel Residual.ResidualModel Residual.ResidualSpec Residual.ResidualProof
  Residual.ResidualProps Residual.FrameSpec Residual.FrameProof Residual.FrameProps.
Import ListNotations.
Local Open Scope R_scope.

(** Every length is s times larger: coordinates and displacements. *)
Definition scaled_places (d nn : nat) (s : R) (X X' : nat -> nat -> R) : Prop := forall n i, (n < nn)%nat -> (i < d)%nat -> X' n i = s * X n i.
Definition scaled_values (n : nat) (s : R) (U U' : nat -> R) : Prop := forall k, (k < n)%nat -> U' k = s * U k.
(** Every modulus and every conductivity is k times larger. *)
Definition stiffer (d : nat) (k : R) (m m' : elastic) : Prop :=
  (forall v w, (v < components d)%nat -> (w < components d)%nat -> e_stiff m' v w = k * e_stiff m v w) /\ (forall w, (w < components d)%nat -> e_ref m' w = e_ref m w).
Definition more_conducting (d : nat) (k : R) (m m' : thermal) : Prop := t_nonlinear m' = t_nonlinear m /\
  forall i j T, (i < d)%nat -> (j < d)%nat -> t_cond_const m' i j = k * t_cond_const m i j /\ t_cond_fun m' T i j = k * t_cond_fun m T i j.

Lemma volume_scaled d s x x' : (1 <= d <= 3)%nat -> 0 < s -> (forall a i, (a <= d)%nat -> (i < d)%nat -> x' a i = s * x a i) -> cell_volume d x' = s ^ d * cell_volume d x.
Proof.
  intros Hd Hs HX. unfold cell_volume. rewrite <- (Rabs_pos_eq (s ^ d)) by (apply pow_le; lra). rewrite <- Rabs_mult. f_equal.
  dims d; cbn [cell_det]; unfold det1, det2, det3; cbv zeta; rewrite !HX by lia; ring.
Qed.
Lemma gradient_scaled d s x x' : (1 <= d <= 3)%nat -> 0 < s -> (forall a i, (a <= d)%nat -> (i < d)%nat -> x' a i = s * x a i) -> cell_det d x <> 0 ->
  forall a k, (a <= d)%nat -> (k < d)%nat -> cell_gradient d x' a k = cell_gradient d x a k / s.
Proof.
  intros Hd Hs HX Hn a k Ha Hk.
  rewrite (gradient_affine d x x' (fun _ => 0) (fun i j => s * delta i j) (fun i j => / s * delta i j) Hd).
  - rewrite (rsum_ext d _ (fun l => (cell_gradient d x a l / s) * delta l k)) by (intros; req; field; lra). apply (rsum_delta_r d k (fun l => cell_gradient d x a l / s) Hk).
  - intros b i Hb Hi. rewrite HX by assumption. rewrite (rsum_ext d _ (fun j => delta i j * (s * x b j))) by (intros; req; ring). rewrite (rsum_delta d i (fun j => s * x b j) Hi). ring.
  - intros i j Hi Hj. rewrite (rsum_ext d _ (fun k => delta i k * delta k j)) by (intros; req; field; lra). apply (rsum_delta d i (fun k => delta k j) Hi).
  - exact Hn.
  - pose proof (volume_scaled d s x x' Hd Hs HX) as V. unfold cell_volume in V. intros E. rewrite E, Rabs_R0 in V. pose proof (pow_lt s d Hs). pose proof (Rabs_pos_lt _ Hn).
    pose proof (Rmult_lt_0_compat _ _ H H0). lra.
  - exact Ha.
  - exact Hk.
Qed.
Lemma strain_of_gradient d ndof q u u' g g' v : (1 <= d <= 3)%nat -> (d <= ndof)%nat -> (v < num_voigt d)%nat -> (forall a i k, (a <= d)%nat -> (i < d)%nat -> (k < d)%nat -> u' (a * ndof + i)%nat * g' a k = q * (u (a * ndof + i)%nat * g a k)) ->
  strain d ndof (fun _ => 0) u' g' v = q * strain d ndof (fun _ => 0) u g v.
Proof.
  intros Hd Hn Hv H. unfold strain. destruct (nth_error (voigt_pairs d) v) as [[i j]|] eqn:E.
  2: { exfalso. apply nth_error_None in E. dims d; cbn in E, Hv; lia. }
  assert (B : (i < d)%nat /\ (j < d)%nat).
  { apply nth_error_In in E. dims d; cbn in E; repeat (destruct E as [E|E]; [injection E as <- <-; lia|]); contradiction. }
  destruct B as [Hi Hj]. destruct (Nat.eqb i j).
  - rewrite <- rsum_scal_l. apply rsum_ext. intros a Ha. apply H; lia.
  - rewrite !Rplus_0_l, <- rsum_scal_l. apply rsum_ext. intros a Ha. rewrite !H by lia. req. ring.
Qed.
Lemma mesh_scaled {M} d nn s X X' (cells cells' : list (cell M)) : (1 <= d <= 3)%nat -> 0 < s -> mesh_ok d nn X cells -> scaled_places d nn s X X' -> map c_node cells' = map c_node cells -> mesh_ok d nn X' cells'.
Proof.
  intros Hd Hs Hm HX E. unfold mesh_ok in *. rewrite E. intros f Hf. destruct (Hm f Hf) as [Hn Hv]. split; [exact Hn|].
  rewrite measure_det in * by exact Hd. rewrite (volume_scaled d s (fun a i => X (f a) i) _ Hd Hs (fun a i Ha Hi => HX (f a) i (Hn a Ha) Hi)).
  pose proof (pow_lt s d Hs). intros Z. apply Hv. apply (Rmult_eq_reg_l (s ^ d)); [|lra]. rewrite Rmult_0_r, <- Z. ring.
Qed.
Lemma rows_of_scaled n q F F' : (forall W, work n F' W = q * work n F W) -> scaled_values n q F F'.
Proof.
  intros H k Hk. specialize (H (fun j => delta j k)). unfold work, rs in H. rewrite (rsum_delta_r n k F' Hk), (rsum_delta_r n k F Hk) in H. exact H.
Qed.
Lemma scaled_cells {A B} (P : A -> B -> Prop) q l l' f f' : Forall2 P l l' -> (forall x y, In x l -> P x y -> f' y = q * f x) -> sum_over l' f' = q * sum_over l f.
Proof.
  intros F G. rewrite <- sum_over_scal. apply (sum_over_pairs P); [exact F|exact G].
Qed.

Theorem C161_elastic : forall d nn pen s k X X' U U' Z cells cells', (1 <= d <= 3)%nat -> 0 < s -> mesh_ok d nn X cells ->
  scaled_places d nn s X X' -> scaled_values (nn * d) s U U' -> moved_cells (stiffer d k) cells cells' ->
  mesh_ok d nn X' cells' /\
  scaled_values (nn * d) (k * s ^ (d - 1)) (elastostatic d pen None X U Z cells) (elastostatic d pen None X' U' Z cells') /\
  elastic_energy d pen X' U' Z cells' = k * s ^ d * elastic_energy d pen X U Z cells.
Proof.
  intros d nn pen s k X X' U U' Z cells cells' Hd Hs Hm HX HU HC. pose proof (mesh_scaled d nn s X X' cells cells' Hd Hs Hm HX (moved_nodes _ _ _ HC)) as Hm'.
  split; [exact Hm'|].
  assert (CX : forall c, In c cells -> forall a i, (a <= d)%nat -> (i < d)%nat -> gather_coords X' c a i = s * gather_coords X c a i).
  { intros c Hc a i Ha Hi. destruct (mesh_cell _ _ _ _ _ Hm Hc) as [Hn _]. apply HX; [apply Hn; exact Ha|exact Hi]. }
  assert (CG : forall c, In c cells -> forall a l, (a <= d)%nat -> (l < d)%nat -> cell_gradient d (gather_coords X' c) a l = cell_gradient d (gather_coords X c) a l / s).
  { intros c Hc. destruct (mesh_cell _ _ _ _ _ Hm Hc) as [_ Hv]. apply gradient_scaled; try assumption; [exact (CX c Hc)|exact (det_measure _ _ Hd Hv)]. }
  assert (CM : forall c, In c cells -> cell_measure d (gather_coords X' c) = s ^ d * cell_measure d (gather_coords X c)).
  { intros c Hc. unfold cell_measure. rewrite (volume_scaled d s (gather_coords X c) _ Hd Hs (CX c Hc)). ring. }
  assert (CE : forall c v, In c cells -> (v < num_voigt d)%nat -> strain d d (fun _ => 0) (gather d U' c) (cell_gradient d (gather_coords X' c)) v = 1 * strain d d (fun _ => 0) (gather d U c) (cell_gradient d (gather_coords X c)) v).
  { intros c v Hc Hv. destruct (mesh_cell _ _ _ _ _ Hm Hc) as [Hn _]. apply strain_of_gradient; try assumption; [lia|]. intros a i l Ha Hi Hl. rewrite CG by assumption. rewrite !gather_at by exact Hi.
    pose proof (Hn a Ha). rewrite HU by nia. field. lra. }
  assert (CS : forall c m' v, In c cells -> stiffer d k (c_mat c) m' -> (v < num_voigt d)%nat -> elastic_stress d m' None (gather_coords X' c) (gather d U' c) v = k * elastic_stress d (c_mat c) None (gather_coords X c) (gather d U c) v).
  { intros c m' v Hc [H1 H2] Hv. rewrite components_voigt in H1, H2 by exact Hd. unfold elastic_stress, add_forcing, linear_stress. rewrite <- rsum_scal_l. apply rsum_ext. intros j Hj.
    rewrite (CE c j Hc Hj), H1, H2 by assumption. req. ring. }
  split.
  - apply rows_of_scaled. intros W. unfold elastostatic.
    rewrite (assemble_work nn (S d) d _ cells') by exact (mesh_nodes d nn X' cells' Hm'). rewrite (assemble_work nn (S d) d _ cells) by exact (mesh_nodes d nn X cells Hm).
    apply (scaled_cells _ _ _ _ _ _ HC). intros c c' Hc [EN HT]. destruct c' as [nd m']. cbn [c_node] in EN. subst nd. cbn [c_mat] in HT |- *.
    rewrite !elastic_work by exact Hd.
    change (gather_coords X' (mkCell (c_node c) m')) with (gather_coords X' c). change (gather d U' (mkCell (c_node c) m')) with (gather d U' c).
    change (gather d W (mkCell (c_node c) m')) with (gather d W c). change (gather_control Z (mkCell (c_node c) m')) with (gather_control Z c).
    rewrite (CM c Hc).
    rewrite (rsum_ext (num_voigt d) _ (fun v => (k / s) * (elastic_stress d (c_mat c) None (gather_coords X c) (gather d U c) v * strain d d (fun _ => 0) (gather d W c) (cell_gradient d (gather_coords X c)) v))).
    2: { intros v Hv. rewrite (CS c m' v Hc HT Hv). rewrite (strain_of_gradient d d (/ s) (gather d W c) (gather d W c) (cell_gradient d (gather_coords X c))); try assumption; [|lia|].
         - req. field. lra.
         - intros a i l Ha Hi Hl. rewrite CG by assumption. field. lra. }
    rewrite rsum_scal_l. replace d with (S (d - 1)) at 1 by lia. rewrite <- tech_pow_Rmult. field. lra.
  - unfold elastic_energy. rewrite !total_sum. apply (scaled_cells _ _ _ _ _ _ HC). intros c c' Hc [EN HT]. destruct c' as [nd m']. cbn [c_node] in EN. subst nd. cbn [c_mat] in HT |- *.
    change (gather_coords X' (mkCell (c_node c) m')) with (gather_coords X' c). change (gather d U' (mkCell (c_node c) m')) with (gather d U' c).
    change (gather_control Z (mkCell (c_node c) m')) with (gather_control Z c).
    unfold elastic_energy_cell, scalar_product, weigh. rewrite (CM c Hc).
    rewrite (rsum_ext (num_voigt d) _ (fun v => k * (elastic_stress d (c_mat c) None (gather_coords X c) (gather d U c) v * pen (cell_density (S d) (gather_control Z c)) * strain d d (fun _ => 0) (gather d U c) (cell_gradient d (gather_coords X c)) v))).
    2: { intros v Hv. rewrite (CS c m' v Hc HT Hv), (CE c v Hc Hv). req. ring. }
    rewrite rsum_scal_l. ring.
Qed.
Print Assumptions C161_elastic.
Example C161_case : mesh_ok 2 4 square_X (square (mkElastic (fun _ _ => 1) (fun _ => 2))) /\ scaled_places 2 4 1000 square_X (fun n i => 1000 * square_X n i) /\
  moved_cells (stiffer 2 (/ 1000000)) (square (mkElastic (fun _ _ => 1) (fun _ => 2))) (square (mkElastic (fun _ _ => / 1000000) (fun _ => 2))).
Proof. split; [apply square_ok|]. split; [intros n i _ _; reflexivity|]. repeat constructor; cbn; intros; lra. Qed.

Theorem C161_heat : forall d nn pen s k X X' T Z cells cells', (1 <= d <= 3)%nat -> 0 < s -> mesh_ok d nn X cells ->
  scaled_places d nn s X X' -> moved_cells (more_conducting d k) cells cells' ->
  scaled_values nn (k * s ^ d / (s * s)) (thermostatic d pen X T Z cells) (thermostatic d pen X' T Z cells') /\
  thermal_energy d pen X' T Z cells' = k * s ^ d / (s * s) * thermal_energy d pen X T Z cells.
Proof.
  intros d nn pen s k X X' T Z cells cells' Hd Hs Hm HX HC. pose proof (mesh_scaled d nn s X X' cells cells' Hd Hs Hm HX (moved_nodes _ _ _ HC)) as Hm'.
  assert (CX : forall c, In c cells -> forall a i, (a <= d)%nat -> (i < d)%nat -> gather_coords X' c a i = s * gather_coords X c a i).
  { intros c Hc a i Ha Hi. destruct (mesh_cell _ _ _ _ _ Hm Hc) as [Hn _]. apply HX; [apply Hn; exact Ha|exact Hi]. }
  assert (CM : forall c, In c cells -> cell_measure d (gather_coords X' c) = s ^ d * cell_measure d (gather_coords X c)).
  { intros c Hc. unfold cell_measure. rewrite (volume_scaled d s (gather_coords X c) _ Hd Hs (CX c Hc)). ring. }
  assert (CS : forall W c l, In c cells -> (l < d)%nat -> scalar_gradient d 1 0 (gather 1 W c) (cell_gradient d (gather_coords X' c)) l = scalar_gradient d 1 0 (gather 1 W c) (cell_gradient d (gather_coords X c)) l / s).
  { intros W c l Hc Hl. destruct (mesh_cell _ _ _ _ _ Hm Hc) as [_ Hv]. unfold scalar_gradient, Rdiv. rewrite rsum_scal_r. apply rsum_ext. intros a Ha.
    rewrite (gradient_scaled d s (gather_coords X c) (gather_coords X' c) Hd Hs (CX c Hc) (det_measure _ _ Hd Hv)) by (try exact Hl; lia). req. field. lra. }
  assert (CF : forall c cond cond' W l, In c cells -> (l < d)%nat -> (forall i j, (i < d)%nat -> (j < d)%nat -> cond' i j = k * cond i j) ->
     thermal_flux d cond' (scalar_gradient d 1 0 (gather 1 W c) (cell_gradient d (gather_coords X' c))) l = k / s * thermal_flux d cond (scalar_gradient d 1 0 (gather 1 W c) (cell_gradient d (gather_coords X c))) l).
  { intros c cond cond' W l Hc Hl H. unfold thermal_flux. rewrite Rmult_minus_distr_l, Rmult_0_r. f_equal. rewrite <- rsum_scal_l. apply rsum_ext. intros j Hj. rewrite (CS W c j Hc Hj), H by assumption. req. field. lra. }
  split.
  - rewrite <- (Nat.mul_1_r nn) at 1. apply rows_of_scaled. intros W. unfold thermostatic.
    rewrite (assemble_work nn (S d) 1 _ cells') by exact (mesh_nodes d nn X' cells' Hm'). rewrite (assemble_work nn (S d) 1 _ cells) by exact (mesh_nodes d nn X cells Hm).
    apply (scaled_cells _ _ _ _ _ _ HC). intros c c' Hc [EN [HN HT]]. destruct c' as [nd m']. cbn [c_node] in EN. subst nd. cbn [c_mat] in HN, HT |- *.
    rewrite !thermostatic_work.
    change (gather_coords X' (mkCell (c_node c) m')) with (gather_coords X' c). change (gather 1 T (mkCell (c_node c) m')) with (gather 1 T c).
    change (gather 1 W (mkCell (c_node c) m')) with (gather 1 W c). change (gather_control Z (mkCell (c_node c) m')) with (gather_control Z c).
    rewrite (CM c Hc).
    rewrite (rsum_ext d _ (fun l => k / (s * s) * (flux_at d (c_mat c) (scalar_gradient d 1 0 (gather 1 T c) (cell_gradient d (gather_coords X c))) (interpolate d 1 0 (gather 1 T c)) l * scalar_gradient d 1 0 (gather 1 W c) (cell_gradient d (gather_coords X c)) l))).
    2: { intros l Hl. rewrite (CS W c l Hc Hl). unfold flux_at. rewrite HN.
         rewrite (CF c (if t_nonlinear (c_mat c) then t_cond_fun (c_mat c) (interpolate d 1 0 (gather 1 T c)) else t_cond_const (c_mat c))); try assumption.
         - req. field. lra.
         - intros i j Hi Hj. destruct (t_nonlinear (c_mat c)); apply (HT i j (interpolate d 1 0 (gather 1 T c)) Hi Hj). }
    rewrite rsum_scal_l. field. lra.
  - unfold thermal_energy. rewrite !total_sum. apply (scaled_cells _ _ _ _ _ _ HC). intros c c' Hc [EN [HN HT]]. destruct c' as [nd m']. cbn [c_node] in EN. subst nd. cbn [c_mat] in HN, HT |- *.
    change (gather_coords X' (mkCell (c_node c) m')) with (gather_coords X' c). change (gather 1 T (mkCell (c_node c) m')) with (gather 1 T c).
    change (gather_control Z (mkCell (c_node c) m')) with (gather_control Z c).
    unfold thermal_energy_cell, scalar_product, weigh. cbv zeta. rewrite (CM c Hc).
    rewrite (rsum_ext d _ (fun l => k / (s * s) * (flux_no_temperature d (c_mat c) (scalar_gradient d 1 0 (gather 1 T c) (cell_gradient d (gather_coords X c))) l * pen (cell_density (S d) (gather_control Z c)) * scalar_gradient d 1 0 (gather 1 T c) (cell_gradient d (gather_coords X c)) l))).
    2: { intros l Hl. rewrite (CS T c l Hc Hl). unfold flux_no_temperature. rewrite HN.
         rewrite (CF c (if t_nonlinear (c_mat c) then fun _ _ => 0 else t_cond_const (c_mat c))); try assumption.
         - req. field. lra.
         - intros i j Hi Hj. destruct (t_nonlinear (c_mat c)); [ring|apply (HT i j 0 Hi Hj)]. }
    rewrite rsum_scal_l. field. lra.
Qed.
Print Assumptions C161_heat.
