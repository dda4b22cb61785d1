(** C162: a supported body has one equilibrium. *)
From Coq Require Import Reals List Arith Bool Lia Lra.
From Verif Require Import Base.Field Base.Sums Base.Res Element.ElementModel Element.ElementSpec Element.ElementProof Element.ElementProps
  Element.MaterialModel Element.MaterialSpec Element.MaterialProps
  Penalty.PenaltyModel Residual.ResidualModel Residual.ResidualSpec Residual.ResidualProof Residual.ResidualProps Residual.ResidualEnergyProps
  Residual.FrameSpec Residual.FrameProof Residual.SupportSpec Residual.SupportProof.
Import ListNotations.
Local Open Scope R_scope.

(** The penalised density of a cell is positive: some material is left everywhere. *)
Definition solid {M} (d : nat) (pen : R -> R) (Z : nat -> R) (c : cell M) : Prop := 0 < pen (rs (S d) (fun a => Z (c_node c a)) / INR (S d)).

Lemma solid_weight {M} d pen X Z (c : cell M) : (1 <= d <= 3)%nat -> simplex_measure d (gather_coords X c) <> 0 -> solid d pen Z c ->
  0 < cell_measure d (gather_coords X c) * pen (cell_density (S d) (gather_control Z c)).
Proof. intros Hd Hv Hs. apply Rmult_lt_0_compat; [apply (measure_simplex d _ Hd Hv)|exact Hs]. Qed.
Lemma weight_zero q s : 0 < q -> q * s = 0 -> s = 0.
Proof. intros Hq H. apply Rmult_integral in H. destruct H; [lra|assumption]. Qed.
Lemma strain_sub {M} d ndof U U' (c : cell M) g v : (1 <= d <= 3)%nat -> (v < num_voigt d)%nat ->
  strain d ndof (fun _ => 0) (gather ndof (fun k => U k - U' k) c) g v = strain d ndof (fun _ => 0) (gather ndof U c) g v - strain d ndof (fun _ => 0) (gather ndof U' c) g v.
Proof.
  intros Hd Hv. transitivity (strain d ndof (fun _ => 0) (fun k => gather ndof U c k + -1 * gather ndof U' c k) g v).
  - unfold strain, gather. destruct (nth_error (voigt_pairs d) v) as [[i j]|]; [|reflexivity]. destruct (Nat.eqb i j); [|f_equal]; apply rsum_ext; intros; req; ring.
  - rewrite strain_lin by assumption. ring.
Qed.
Lemma gradient_sub {M} d ndof off U U' (c : cell M) g k :
  scalar_gradient d ndof off (gather ndof (fun k => U k - U' k) c) g k = scalar_gradient d ndof off (gather ndof U c) g k - scalar_gradient d ndof off (gather ndof U' c) g k.
Proof. unfold scalar_gradient, gather. rewrite <- rsum_sub. apply rsum_ext. intros. req. ring. Qed.
(** e . (C e) with the products the other way round. *)
Lemma form_flip n C e : rsum n (fun i => rsum n (fun j => e j * C i j) * e i) = rs n (fun i => e i * rs n (fun j => C i j * e j)).
Proof.
  unfold rs. apply rsum_ext. intros i _. req. rewrite Rmult_comm. f_equal. apply rsum_ext. intros. req. ring.
Qed.

(** Two temperature fields with the same given temperatures and the same sources at all other nodes agree wherever the body hangs together with a
    node of given temperature. *)
Theorem C162_heat : forall d nn pen X T T' Z cells held, (1 <= d <= 3)%nat -> mesh_ok d nn X cells ->
  (forall c, In c cells -> t_nonlinear (c_mat c) = false /\ positive_form d (t_cond_const (c_mat c)) /\ solid d pen Z c) ->
  same_conditions nn held T T' (thermostatic d pen X T Z cells) (thermostatic d pen X T' Z cells) ->
  forall n, (n < nn)%nat -> anchored d (map c_node cells) held n -> T n = T' n.
Proof.
  intros d nn pen X T T' Z cells held Hd Hm Hc Hs. set (D := fun k => T k - T' k).
  assert (W0 : sum_over cells (fun c => cell_measure d (gather_coords X c) * pen (cell_density (S d) (gather_control Z c)) *
     rs d (fun i => scalar_gradient d 1 0 (gather 1 D c) (cell_gradient d (gather_coords X c)) i *
       rs d (fun j => t_cond_const (c_mat c) i j * scalar_gradient d 1 0 (gather 1 D c) (cell_gradient d (gather_coords X c)) j))) = 0).
  { etransitivity; [|exact (conditions_work _ _ _ _ _ _ Hs)]. rewrite work_sub. fold D. replace nn with (nn * 1)%nat by lia. unfold thermostatic.
    rewrite !assemble_work by (apply (mesh_nodes d nn X); exact Hm).
    transitivity (sum_over cells (fun c => cell_work (S d) 1 (thermostatic_cell d pen (c_mat c) (gather_coords X c) (gather 1 T c) (gather_control Z c)) (gather 1 D c)
        + -1 * cell_work (S d) 1 (thermostatic_cell d pen (c_mat c) (gather_coords X c) (gather 1 T' c) (gather_control Z c)) (gather 1 D c))).
    2: { rewrite sum_over_add, sum_over_scal. ring. }
    apply sum_over_ext. intros c Hin. destruct (Hc c Hin) as (Hl & _ & _). rewrite !thermostatic_work, <- form_flip.
    set (q := cell_measure _ _ * pen _). set (g := cell_gradient _ _).
    transitivity (q * (rsum d (fun k => flux_at d (c_mat c) (scalar_gradient d 1 0 (gather 1 T' c) g) (interpolate d 1 0 (gather 1 T' c)) k * scalar_gradient d 1 0 (gather 1 D c) g k)
       - rsum d (fun k => flux_at d (c_mat c) (scalar_gradient d 1 0 (gather 1 T c) g) (interpolate d 1 0 (gather 1 T c)) k * scalar_gradient d 1 0 (gather 1 D c) g k))); [|req; ring].
    f_equal. rewrite <- rsum_sub. apply rsum_ext. intros k Hk. unfold flux_at, thermal_flux. rewrite Hl. req. rewrite <- Rmult_minus_distr_r. f_equal.
    transitivity (rsum d (fun j => scalar_gradient d 1 0 (gather 1 T c) g j * t_cond_const (c_mat c) k j) - rsum d (fun j => scalar_gradient d 1 0 (gather 1 T' c) g j * t_cond_const (c_mat c) k j)); [|req; ring].
    rewrite <- rsum_sub. apply rsum_ext. intros j Hj. unfold D. rewrite gradient_sub. req. ring. }
  assert (G : forall c, In c cells -> forall l, (l < d)%nat -> scalar_gradient d 1 0 (gather 1 D c) (cell_gradient d (gather_coords X c)) l = 0).
  { intros c Hin. destruct (Hc c Hin) as (_ & HP & HS). destruct (mesh_cell _ _ _ _ _ Hm Hin) as [_ Hv].
    apply (positive_zero d _ _ HP). apply (weight_zero _ _ (solid_weight d pen X Z c Hd Hv HS)).
    refine (sum_over_zero cells _ _ W0 c Hin). clear c Hin HP HS Hv. intros c Hin. destruct (Hc c Hin) as (_ & HP & HS). destruct (mesh_cell _ _ _ _ _ Hm Hin) as [_ Hv].
    apply Rmult_le_pos; [left; apply solid_weight; assumption|apply positive_nonneg; exact HP]. }
  intros n Hn HA. assert (E : D n = 0); [|unfold D in E; lra]. revert Hn. induction HA as [n Hh|f a b Hf Ha Hb HA IH]; intros Hn.
  - pose proof (Hs n Hn) as E. rewrite Hh in E. unfold D. lra.
  - apply in_map_iff in Hf. destruct Hf as (c & <- & Hin). destruct (mesh_cell _ _ _ _ _ Hm Hin) as [Hcn Hv].
    pose proof (flat_gradient d 1 0 (gather 1 D c) (gather_coords X c) Hd (det_measure d _ Hd Hv) (G c Hin) a b Ha Hb) as E.
    rewrite !gather_at in E by lia. rewrite !Nat.mul_1_r, !Nat.add_0_r in E. rewrite <- E. apply IH. apply Hcn. exact Ha.
Qed.
Print Assumptions C162_heat.

(** Two displacement fields with the same given displacements and the same loads at all other entries agree in a body in one piece whose supports
    admit no rigid motion.  Reference strains and cell forcing may be present. *)
Theorem C162_elastic : forall d nn pen col X U U' Z cells held, (1 <= d <= 3)%nat -> mesh_ok d nn X cells -> one_piece d nn (map c_node cells) ->
  restrains d nn d X held ->
  (forall c, In c cells -> positive_form (num_voigt d) (e_stiff (c_mat c)) /\ solid d pen Z c) ->
  same_conditions (nn * d) held U U' (elastostatic d pen col X U Z cells) (elastostatic d pen col X U' Z cells) ->
  forall k, (k < nn * d)%nat -> U k = U' k.
Proof.
  intros d nn pen col X U U' Z cells held Hd Hm Hone Hres Hc Hs. set (D := fun k => U k - U' k).
  assert (W0 : sum_over cells (fun c => cell_measure d (gather_coords X c) * pen (cell_density (S d) (gather_control Z c)) *
     rs (num_voigt d) (fun i => strain d d (fun _ => 0) (gather d D c) (cell_gradient d (gather_coords X c)) i *
       rs (num_voigt d) (fun j => e_stiff (c_mat c) i j * strain d d (fun _ => 0) (gather d D c) (cell_gradient d (gather_coords X c)) j))) = 0).
  { etransitivity; [|exact (conditions_work _ _ _ _ _ _ Hs)]. rewrite work_sub. fold D. unfold elastostatic.
    rewrite !assemble_work by (apply (mesh_nodes d nn X); exact Hm).
    transitivity (sum_over cells (fun c => cell_work (S d) d (elastostatic_cell d pen (c_mat c) col (gather_coords X c) (gather d U c) (gather_control Z c)) (gather d D c)
        + -1 * cell_work (S d) d (elastostatic_cell d pen (c_mat c) col (gather_coords X c) (gather d U' c) (gather_control Z c)) (gather d D c))).
    2: { rewrite sum_over_add, sum_over_scal. ring. }
    apply sum_over_ext. intros c Hin. rewrite !elastic_work by exact Hd. rewrite <- form_flip.
    set (q := cell_measure _ _ * pen _). set (g := cell_gradient _ _).
    transitivity (q * (rsum (num_voigt d) (fun v => elastic_stress d (c_mat c) col (gather_coords X c) (gather d U c) v * strain d d (fun _ => 0) (gather d D c) g v)
       - rsum (num_voigt d) (fun v => elastic_stress d (c_mat c) col (gather_coords X c) (gather d U' c) v * strain d d (fun _ => 0) (gather d D c) g v))); [|req; ring].
    f_equal. rewrite <- rsum_sub. apply rsum_ext. intros v Hv. req. rewrite <- Rmult_minus_distr_r. f_equal.
    assert (E : forall s s', add_forcing (e_stiff (c_mat c)) col s v - add_forcing (e_stiff (c_mat c)) col s' v = s v - s' v) by (intros; unfold add_forcing; destruct col; ring).
    unfold elastic_stress. rewrite E. unfold linear_stress. rewrite <- rsum_sub. apply rsum_ext. intros j Hj. pose proof (strain_sub d d U U' c g j Hd Hj) as SS. fold D in SS. rewrite SS. fold g. req. ring. }
  assert (G : forall c v, In c cells -> (v < num_voigt d)%nat -> strain d d (fun _ => 0) (gather d D c) (cell_gradient d (gather_coords X c)) v = 0).
  { intros c v Hin. revert v. destruct (Hc c Hin) as (HP & HS). destruct (mesh_cell _ _ _ _ _ Hm Hin) as [_ Hv].
    apply (positive_zero _ _ _ HP). apply (weight_zero _ _ (solid_weight d pen X Z c Hd Hv HS)).
    refine (sum_over_zero cells _ _ W0 c Hin). clear c Hin HP HS Hv. intros c Hin. destruct (Hc c Hin) as (HP & HS). destruct (mesh_cell _ _ _ _ _ Hm Hin) as [_ Hv].
    apply Rmult_le_pos; [left; apply solid_weight; assumption|apply positive_nonneg; exact HP]. }
  destruct (rigid_body d nn d X cells D Hd (le_n d) Hm Hone G) as (t & A & HA & HD).
  intros k Hk. pose proof (Nat.div_mod k d ltac:(lia)) as DM. pose proof (Nat.mod_upper_bound k d ltac:(lia)) as MU.
  assert (Hn : (k / d < nn)%nat) by (apply Nat.div_lt_upper_bound; lia).
  assert (E : D (k / d * d + k mod d)%nat = 0).
  { rewrite HD by assumption. apply (Hres t A HA); try assumption. intros n i Hn' Hi Hh. rewrite <- HD by assumption. unfold D.
    pose proof (Hs (n * d + i)%nat ltac:(nia)) as E. rewrite Hh in E. lra. }
  replace (k / d * d + k mod d)%nat with k in E by lia. unfold D in E. lra.
Qed.
Print Assumptions C162_elastic.

(** Coupled problems: the last entry of each node (temperature or potential) of both states on its own. *)
Definition last_entry (d : nat) (U : nat -> R) (k : nat) : R := if Nat.eqb (k mod S d) d then U k else 0.
Lemma last_entry_at d U n i : (i <= d)%nat -> last_entry d U (n * S d + i) = if Nat.eqb i d then U (n * S d + i)%nat else 0.
Proof. intros Hi. unfold last_entry. rewrite (Nat.add_comm (n * S d)), Nat.mod_add, Nat.mod_small by lia. reflexivity. Qed.
Lemma last_entry_strain {M} d U (c : cell M) g v : (1 <= d <= 3)%nat -> (v < num_voigt d)%nat -> strain d (S d) (fun _ => 0) (gather (S d) (last_entry d U) c) g v = 0.
Proof.
  intros Hd Hv.
  assert (Z : forall a i, (i < d)%nat -> gather (S d) (last_entry d U) c (a * S d + i) = 0).
  { intros a i Hi. rewrite gather_at by lia. rewrite last_entry_at by lia. destruct (Nat.eqb_spec i d); [lia|reflexivity]. }
  unfold strain. destruct (nth_error (voigt_pairs d) v) as [[i j]|] eqn:E; [|reflexivity].
  assert (B : (i < d)%nat /\ (j < d)%nat).
  { apply nth_error_In in E. dims d; cbn in E; repeat (destruct E as [E|E]; [injection E as <- <-; lia|]); contradiction. }
  destruct B as [Bi Bj]. destruct (Nat.eqb i j); [|rewrite Rplus_0_l]; apply rsum_0; intros a _; rewrite !Z by assumption; req; ring.
Qed.
Lemma last_entry_gradient {M} d U (c : cell M) g k : scalar_gradient d (S d) d (gather (S d) (last_entry d U) c) g k = scalar_gradient d (S d) d (gather (S d) U c) g k.
Proof. unfold scalar_gradient. apply rsum_ext. intros a _. rewrite !gather_at by lia. rewrite last_entry_at, Nat.eqb_refl by lia. reflexivity. Qed.
(** The temperature part of the held entries. *)
Definition held_last (d : nat) (held : nat -> bool) (n : nat) : bool := held (n * S d + d)%nat.

(** The same for displacements and temperature: every node must hang together with one of given temperature. *)
Theorem C162_thermoelastic : forall d nn pen X U U' Z cells held r r', (2 <= d <= 3)%nat -> mesh_ok d nn X cells -> one_piece d nn (map c_node cells) ->
  restrains d nn (S d) X held -> (forall n, (n < nn)%nat -> anchored d (map c_node cells) (held_last d held) n) ->
  (forall c, In c cells -> m_nonlinear (c_mat c) = false /\ m_scale (c_mat c) <> 0 /\ positive_form (num_voigt d) (m_stiff_const (c_mat c)) /\
     positive_form d (m_cond_const (c_mat c)) /\ solid d pen Z c) ->
  thermoelastostatic d pen X U Z cells = Ok r -> thermoelastostatic d pen X U' Z cells = Ok r' ->
  same_conditions (nn * S d) held U U' r r' ->
  forall k, (k < nn * S d)%nat -> U k = U' k.
Proof.
  intros d nn pen X U U' Z cells held r r' Hd Hm Hone Hres Hanc Hc Hr Hr' Hs. set (D := fun k => U k - U' k).
  assert (Hd' : (1 <= d <= 3)%nat) by lia.
  destruct (tm_ok d pen X U Z cells Hd) as (r1 & E1 & R1). rewrite E1 in Hr. injection Hr as ->.
  destruct (tm_ok d pen X U' Z cells Hd) as (r1' & E1' & R1'). rewrite E1' in Hr'. injection Hr' as ->. clear E1 E1'.
  assert (CW : forall W, (forall k, (k < nn * S d)%nat -> held k = true -> W k = 0) ->
    sum_over cells (fun c => cell_work (S d) (S d) (tm_cell_value d pen (c_mat c) (gather_coords X c) (gather (S d) U c) (gather_control Z c)) (gather (S d) W c)
        + -1 * cell_work (S d) (S d) (tm_cell_value d pen (c_mat c) (gather_coords X c) (gather (S d) U' c) (gather_control Z c)) (gather (S d) W c)) = 0).
  { intros W HW. transitivity (work (nn * S d) (fun k => r k - r' k) W).
    - rewrite sum_over_add, sum_over_scal, work_sub. rewrite <- !(assemble_work nn (S d) (S d)) by (apply (mesh_nodes d nn X); exact Hm).
      unfold work, rs. rewrite (rsum_ext _ (fun k => r k * W k) _ (fun k _ => f_equal (fun y => y * W k) (R1 k))).
      rewrite (rsum_ext _ (fun k => r' k * W k) _ (fun k _ => f_equal (fun y => y * W k) (R1' k))). ring.
    - unfold work, rs. apply rsum_0. intros k Hk. specialize (Hs k Hk). destruct (held k) eqn:Eh; [rewrite HW by assumption|rewrite Hs]; req; ring. }
  (* temperatures *)
  assert (WT : sum_over cells (fun c => cell_measure d (gather_coords X c) * pen (cell_density (S d) (gather_control Z c)) * (m_scale (c_mat c) * m_scale (c_mat c) *
     rs d (fun i => scalar_gradient d (S d) d (gather (S d) D c) (cell_gradient d (gather_coords X c)) i *
       rs d (fun j => m_cond_const (c_mat c) i j * scalar_gradient d (S d) d (gather (S d) D c) (cell_gradient d (gather_coords X c)) j)))) = 0).
  { etransitivity; [|apply (CW (last_entry d D))].
    2: { intros k Hk Hh. unfold last_entry. destruct (Nat.eqb _ _); [|reflexivity]. specialize (Hs k Hk). rewrite Hh in Hs. unfold D. lra. }
    apply sum_over_ext. intros c Hin. destruct (Hc c Hin) as (Hl & _). rewrite !tm_work by exact Hd'. rewrite <- form_flip.
    set (q := cell_measure _ _ * pen _). set (g := cell_gradient _ _).
    rewrite !(rsum_0 (num_voigt d)) by (intros v Hv; rewrite last_entry_strain by assumption; req; ring).
    transitivity (q * (rsum d (fun k => tm_flux d (c_mat c) (scalar_gradient d (S d) d (gather (S d) U c) g) (interpolate d (S d) d (gather (S d) U c)) k * scalar_gradient d (S d) d (gather (S d) (last_entry d D) c) g k)
       - rsum d (fun k => tm_flux d (c_mat c) (scalar_gradient d (S d) d (gather (S d) U' c) g) (interpolate d (S d) d (gather (S d) U' c)) k * scalar_gradient d (S d) d (gather (S d) (last_entry d D) c) g k))); [|req; ring].
    f_equal. rewrite <- rsum_sub, <- rsum_scal_l. apply rsum_ext. intros k Hk. rewrite last_entry_gradient. unfold tm_flux, m_cond. rewrite Hl. req.
    rewrite <- Rmult_minus_distr_r, <- Rmult_assoc. f_equal. rewrite <- rsum_sub, <- rsum_scal_l. apply rsum_ext. intros j Hj.
    pose proof (gradient_sub d (S d) d U U' c g j) as GS. fold D in GS. rewrite GS. req. ring. }
  assert (GT : forall c, In c cells -> forall l, (l < d)%nat -> scalar_gradient d (S d) d (gather (S d) D c) (cell_gradient d (gather_coords X c)) l = 0).
  { intros c Hin. destruct (Hc c Hin) as (_ & Hsc & _ & HP & HS). destruct (mesh_cell _ _ _ _ _ Hm Hin) as [_ Hv].
    apply (positive_zero d _ _ HP). apply (weight_zero (m_scale (c_mat c) * m_scale (c_mat c))); [apply Rsqr_pos_lt; exact Hsc|].
    apply (weight_zero _ _ (solid_weight d pen X Z c Hd' Hv HS)).
    refine (sum_over_zero cells _ _ WT c Hin). clear c Hin Hsc HP HS Hv. intros c Hin. destruct (Hc c Hin) as (_ & Hsc & _ & HP & HS). destruct (mesh_cell _ _ _ _ _ Hm Hin) as [_ Hv].
    apply Rmult_le_pos; [left; apply solid_weight; assumption|]. apply Rmult_le_pos; [apply Rle_0_sqr|apply positive_nonneg; exact HP]. }
  assert (TE : forall n, (n < nn)%nat -> D (n * S d + d)%nat = 0).
  { intros n Hn. pose proof (Hanc n Hn) as HA. revert Hn. induction HA as [n Hh|f a b Hf Ha Hb HA IH]; intros Hn.
    - pose proof (Hs (n * S d + d)%nat ltac:(nia)) as E. unfold held_last in Hh. rewrite Hh in E. unfold D. lra.
    - apply in_map_iff in Hf. destruct Hf as (c & <- & Hin). destruct (mesh_cell _ _ _ _ _ Hm Hin) as [Hcn Hv].
      pose proof (flat_gradient d (S d) d (gather (S d) D c) (gather_coords X c) Hd' (det_measure d _ Hd' Hv) (GT c Hin) a b Ha Hb) as E.
      rewrite !gather_at in E by lia. rewrite <- E. apply IH. apply Hcn. exact Ha. }
  assert (IE : forall c, In c cells -> interpolate d (S d) d (gather (S d) U c) = interpolate d (S d) d (gather (S d) U' c)).
  { intros c Hin. destruct (mesh_cell _ _ _ _ _ Hm Hin) as [Hcn _]. unfold interpolate. apply rsum_ext. intros a Ha. rewrite !gather_at by lia.
    pose proof (TE (c_node c a) (Hcn a ltac:(lia))) as E. unfold D in E. replace (U (c_node c a * S d + d)%nat) with (U' (c_node c a * S d + d)%nat) by lra. reflexivity. }
  (* displacements *)
  assert (WU : sum_over cells (fun c => cell_measure d (gather_coords X c) * pen (cell_density (S d) (gather_control Z c)) *
     rs (num_voigt d) (fun i => strain d (S d) (fun _ => 0) (gather (S d) D c) (cell_gradient d (gather_coords X c)) i *
       rs (num_voigt d) (fun j => m_stiff_const (c_mat c) i j * strain d (S d) (fun _ => 0) (gather (S d) D c) (cell_gradient d (gather_coords X c)) j))) = 0).
  { etransitivity; [|apply (CW D)].
    2: { intros k Hk Hh. specialize (Hs k Hk). rewrite Hh in Hs. unfold D. lra. }
    apply sum_over_ext. intros c Hin. destruct (Hc c Hin) as (Hl & _). rewrite !tm_work by exact Hd'. rewrite <- form_flip, (IE c Hin).
    set (q := cell_measure _ _ * pen _). set (g := cell_gradient _ _). set (T := interpolate _ _ _ _).
    rewrite !(rsum_0 d) by (intros k Hk; unfold g; rewrite GT by assumption; req; ring).
    transitivity (q * (rsum (num_voigt d) (fun v => tm_stress d (c_mat c) (strain d (S d) (fun _ => 0) (gather (S d) U c) g) T v * strain d (S d) (fun _ => 0) (gather (S d) D c) g v)
       - rsum (num_voigt d) (fun v => tm_stress d (c_mat c) (strain d (S d) (fun _ => 0) (gather (S d) U' c) g) T v * strain d (S d) (fun _ => 0) (gather (S d) D c) g v))); [|req; ring].
    f_equal. rewrite <- rsum_sub. apply rsum_ext. intros v Hv. req. rewrite <- Rmult_minus_distr_r. f_equal.
    unfold tm_stress, m_stiff. rewrite Hl, <- rsum_sub. apply rsum_ext. intros j Hj.
    pose proof (strain_sub d (S d) U U' c g j Hd' Hj) as SS. fold D in SS. rewrite SS. req. ring. }
  assert (G : forall c v, In c cells -> (v < num_voigt d)%nat -> strain d (S d) (fun _ => 0) (gather (S d) D c) (cell_gradient d (gather_coords X c)) v = 0).
  { intros c v Hin. revert v. destruct (Hc c Hin) as (_ & _ & HP & _ & HS). destruct (mesh_cell _ _ _ _ _ Hm Hin) as [_ Hv].
    apply (positive_zero _ _ _ HP). apply (weight_zero _ _ (solid_weight d pen X Z c Hd' Hv HS)).
    refine (sum_over_zero cells _ _ WU c Hin). clear c Hin HP HS Hv. intros c Hin. destruct (Hc c Hin) as (_ & _ & HP & _ & HS). destruct (mesh_cell _ _ _ _ _ Hm Hin) as [_ Hv].
    apply Rmult_le_pos; [left; apply solid_weight; assumption|apply positive_nonneg; exact HP]. }
  destruct (rigid_body d nn (S d) X cells D Hd' ltac:(lia) Hm Hone G) as (t & A & HA & HD).
  intros k Hk. pose proof (Nat.div_mod k (S d) ltac:(lia)) as DM. pose proof (Nat.mod_upper_bound k (S d) ltac:(lia)) as MU.
  assert (Hn : (k / S d < nn)%nat) by (apply Nat.div_lt_upper_bound; lia).
  assert (E : D (k / S d * S d + k mod S d)%nat = 0).
  { destruct (Nat.eq_dec (k mod S d) d) as [->|Ne]; [apply TE; exact Hn|].
    rewrite HD by lia. apply (Hres t A HA); try assumption; [|lia]. intros n i Hn' Hi Hh. rewrite <- HD by assumption. unfold D.
    pose proof (Hs (n * S d + i)%nat ltac:(nia)) as E. rewrite Hh in E. lra. }
  replace (k / S d * S d + k mod S d)%nat with k in E by lia. unfold D in E. lra.
Qed.
Print Assumptions C162_thermoelastic.

(** Displacements and potential of a piezoelectric body. *)
Definition flipped (d : nat) (U : nat -> R) (k : nat) : R := if Nat.eqb (k mod S d) d then - U k else U k.
Lemma flipped_at d U n i : (i <= d)%nat -> flipped d U (n * S d + i) = if Nat.eqb i d then - U (n * S d + i)%nat else U (n * S d + i)%nat.
Proof. intros Hi. unfold flipped. rewrite (Nat.add_comm (n * S d)), Nat.mod_add, Nat.mod_small by lia. reflexivity. Qed.
Theorem C162_electroelastic : forall d nn pen X U U' Z cells held, (1 <= d <= 3)%nat -> mesh_ok d nn X cells -> one_piece d nn (map c_node cells) ->
  restrains d nn (S d) X held -> (forall n, (n < nn)%nat -> anchored d (map c_node cells) (held_last d held) n) ->
  (forall c, In c cells -> p_alpha (c_mat c) <> 0 /\ positive_form (num_voigt d) (p_stiff (c_mat c)) /\ positive_form d (p_perm (c_mat c)) /\ solid d pen Z c) ->
  same_conditions (nn * S d) held U U' (electroelastostatic d pen X U Z cells) (electroelastostatic d pen X U' Z cells) ->
  forall k, (k < nn * S d)%nat -> U k = U' k.
Proof.
  intros d nn pen X U U' Z cells held Hd Hm Hone Hres Hanc Hc Hs. set (D := fun k => U k - U' k).
  set (eps := fun c => strain d (S d) (fun _ => 0) (gather (S d) D c) (cell_gradient d (@gather_coords electroelastic X c))).
  set (gr := fun c => scalar_gradient d (S d) d (gather (S d) D c) (cell_gradient d (@gather_coords electroelastic X c))).
  assert (W0 : sum_over cells (fun c => cell_measure d (gather_coords X c) * pen (cell_density (S d) (gather_control Z c)) *
     (rs (num_voigt d) (fun i => eps c i * rs (num_voigt d) (fun j => p_stiff (c_mat c) i j * eps c j))
      + p_alpha (c_mat c) * p_alpha (c_mat c) * rs d (fun i => gr c i * rs d (fun j => p_perm (c_mat c) i j * gr c j)))) = 0).
  { transitivity (work (nn * S d) (fun k => electroelastostatic d pen X U Z cells k - electroelastostatic d pen X U' Z cells k) (flipped d D)).
    2: { unfold work, rs. apply rsum_0. intros k Hk. specialize (Hs k Hk). destruct (held k); [|rewrite Hs; req; ring].
         unfold flipped, D. rewrite Hs. req. destruct (Nat.eqb _ _); ring. }
    rewrite work_sub. unfold electroelastostatic. rewrite !assemble_work by (apply (mesh_nodes d nn X); exact Hm).
    transitivity (sum_over cells (fun c => cell_work (S d) (S d) (em_cell d pen (c_mat c) (gather_coords X c) (gather (S d) U c) (gather_control Z c)) (gather (S d) (flipped d D) c)
        + -1 * cell_work (S d) (S d) (em_cell d pen (c_mat c) (gather_coords X c) (gather (S d) U' c) (gather_control Z c)) (gather (S d) (flipped d D) c))).
    2: { rewrite sum_over_add, sum_over_scal. ring. }
    apply sum_over_ext. intros c Hin. rewrite !em_work by exact Hd. rewrite <- !form_flip.
    set (q := cell_measure _ _ * pen _). set (g := cell_gradient _ _). set (m := c_mat c) in *. set (n := num_voigt d) in *.
    assert (FS : forall v, (v < n)%nat -> strain d (S d) (fun _ => 0) (gather (S d) (flipped d D) c) g v = eps c v).
    { intros v Hv. unfold eps. fold g. unfold strain. destruct (nth_error (voigt_pairs d) v) as [[i j]|] eqn:E; [|reflexivity].
      assert (B : (i < d)%nat /\ (j < d)%nat).
      { apply nth_error_In in E. clear - E Hd. dims d; cbn in E; repeat (destruct E as [E|E]; [injection E as <- <-; lia|]); contradiction. }
      destruct B as [Bi Bj].
      assert (F : forall a i, (i < d)%nat -> gather (S d) (flipped d D) c (a * S d + i) = gather (S d) D c (a * S d + i)).
      { intros a i' Hi'. rewrite !gather_at by lia. rewrite flipped_at by lia. destruct (Nat.eqb_spec i' d); [lia|reflexivity]. }
      destruct (Nat.eqb i j); [|f_equal]; apply rsum_ext; intros a _; rewrite !F by assumption; reflexivity. }
    assert (FG : forall k, em_field d (gather (S d) (flipped d D) c) g k = gr c k).
    { intros k. rewrite em_field_gradient. unfold gr. fold g. unfold scalar_gradient. rewrite <- rsum_opp. apply rsum_ext. intros a _. rewrite !gather_at by lia.
      rewrite flipped_at, Nat.eqb_refl by lia. req. ring. }
    rewrite (rsum_ext n (fun v => em_stress d m (strain d (S d) (fun _ => 0) (gather (S d) U c) g) (em_field d (gather (S d) U c) g) v * strain d (S d) (fun _ => 0) (gather (S d) (flipped d D) c) g v)
      (fun v => em_stress d m (strain d (S d) (fun _ => 0) (gather (S d) U c) g) (em_field d (gather (S d) U c) g) v * eps c v)) by (intros v Hv; rewrite FS by exact Hv; reflexivity).
    rewrite (rsum_ext n (fun v => em_stress d m (strain d (S d) (fun _ => 0) (gather (S d) U' c) g) (em_field d (gather (S d) U' c) g) v * strain d (S d) (fun _ => 0) (gather (S d) (flipped d D) c) g v)
      (fun v => em_stress d m (strain d (S d) (fun _ => 0) (gather (S d) U' c) g) (em_field d (gather (S d) U' c) g) v * eps c v)) by (intros v Hv; rewrite FS by exact Hv; reflexivity).
    rewrite !(rsum_ext d (fun k => em_displacement d m _ _ k * em_field d (gather (S d) (flipped d D) c) g k) _ (fun k _ => f_equal (fun y => _ * y) (FG k))).
    transitivity (q * (rsum n (fun v => (em_stress d m (strain d (S d) (fun _ => 0) (gather (S d) U c) g) (em_field d (gather (S d) U c) g) v
                                        - em_stress d m (strain d (S d) (fun _ => 0) (gather (S d) U' c) g) (em_field d (gather (S d) U' c) g) v) * eps c v)
        - rsum d (fun k => (em_displacement d m (strain d (S d) (fun _ => 0) (gather (S d) U c) g) (em_field d (gather (S d) U c) g) k
                           - em_displacement d m (strain d (S d) (fun _ => 0) (gather (S d) U' c) g) (em_field d (gather (S d) U' c) g) k) * gr c k))).
    2: { rewrite (rsum_ext n (fun v => (_ - _) * eps c v) (fun v => em_stress d m (strain d (S d) (fun _ => 0) (gather (S d) U c) g) (em_field d (gather (S d) U c) g) v * eps c v
            - em_stress d m (strain d (S d) (fun _ => 0) (gather (S d) U' c) g) (em_field d (gather (S d) U' c) g) v * eps c v)) by (intros; req; ring).
         rewrite (rsum_ext d (fun k => (_ - _) * gr c k) (fun k => em_displacement d m (strain d (S d) (fun _ => 0) (gather (S d) U c) g) (em_field d (gather (S d) U c) g) k * gr c k
            - em_displacement d m (strain d (S d) (fun _ => 0) (gather (S d) U' c) g) (em_field d (gather (S d) U' c) g) k * gr c k)) by (intros; req; ring).
         rewrite !rsum_sub. req. ring. }
    f_equal.
    assert (S1 : forall v, em_stress d m (strain d (S d) (fun _ => 0) (gather (S d) U c) g) (em_field d (gather (S d) U c) g) v
                 - em_stress d m (strain d (S d) (fun _ => 0) (gather (S d) U' c) g) (em_field d (gather (S d) U' c) g) v
                 = rsum n (fun j => eps c j * p_stiff m v j) + p_alpha m * rsum d (fun j => gr c j * p_piezo m j v)).
    { intros v. unfold em_stress. fold n. rewrite <- rsum_scal_l.
      transitivity ((rsum n (fun j => strain d (S d) (fun _ => 0) (gather (S d) U c) g j * p_stiff m v j) - rsum n (fun j => strain d (S d) (fun _ => 0) (gather (S d) U' c) g j * p_stiff m v j))
        + (rsum d (fun j => p_alpha m * em_field d (gather (S d) U' c) g j * p_piezo m j v) - rsum d (fun j => p_alpha m * em_field d (gather (S d) U c) g j * p_piezo m j v))); [req; ring|].
      rewrite <- !rsum_sub. f_equal; apply rsum_ext; intros j Hj.
      - assert (SS : eps c j = strain d (S d) (fun _ => 0) (gather (S d) U c) g j - strain d (S d) (fun _ => 0) (gather (S d) U' c) g j) by exact (strain_sub d (S d) U U' c g j Hd Hj). rewrite SS. req. ring.
      - assert (GS : gr c j = scalar_gradient d (S d) d (gather (S d) U c) g j - scalar_gradient d (S d) d (gather (S d) U' c) g j) by exact (gradient_sub d (S d) d U U' c g j). rewrite GS, !em_field_gradient. req. ring. }
    assert (S2 : forall k, em_displacement d m (strain d (S d) (fun _ => 0) (gather (S d) U c) g) (em_field d (gather (S d) U c) g) k
                 - em_displacement d m (strain d (S d) (fun _ => 0) (gather (S d) U' c) g) (em_field d (gather (S d) U' c) g) k
                 = - (p_alpha m * p_alpha m * rsum d (fun j => gr c j * p_perm m k j)) + p_alpha m * rsum n (fun j => eps c j * p_piezo m k j)).
    { intros k. unfold em_displacement. fold n. rewrite <- !rsum_scal_l.
      transitivity (- (rsum d (fun j => p_alpha m * p_alpha m * em_field d (gather (S d) U' c) g j * p_perm m k j) - rsum d (fun j => p_alpha m * p_alpha m * em_field d (gather (S d) U c) g j * p_perm m k j))
        + (rsum n (fun j => p_alpha m * strain d (S d) (fun _ => 0) (gather (S d) U c) g j * p_piezo m k j) - rsum n (fun j => p_alpha m * strain d (S d) (fun _ => 0) (gather (S d) U' c) g j * p_piezo m k j))); [req; ring|].
      rewrite <- !rsum_sub. f_equal; [f_equal|]; apply rsum_ext; intros j Hj.
      - assert (GS : gr c j = scalar_gradient d (S d) d (gather (S d) U c) g j - scalar_gradient d (S d) d (gather (S d) U' c) g j) by exact (gradient_sub d (S d) d U U' c g j). rewrite GS, !em_field_gradient. req. ring.
      - assert (SS : eps c j = strain d (S d) (fun _ => 0) (gather (S d) U c) g j - strain d (S d) (fun _ => 0) (gather (S d) U' c) g j) by exact (strain_sub d (S d) U U' c g j Hd Hj). rewrite SS. req. ring. }
    rewrite (rsum_ext n (fun v => (_ - _) * eps c v) (fun v => rsum n (fun j => eps c j * p_stiff m v j) * eps c v + p_alpha m * (rsum d (fun j => gr c j * p_piezo m j v) * eps c v)))
      by (intros v _; rewrite S1; req; ring).
    rewrite (rsum_ext d (fun k => (_ - _) * gr c k) (fun k => - (p_alpha m * p_alpha m * (rsum d (fun j => gr c j * p_perm m k j) * gr c k)) + p_alpha m * (rsum n (fun j => eps c j * p_piezo m k j) * gr c k)))
      by (intros k _; rewrite S2; req; ring).
    rewrite !rsum_add, rsum_opp, !rsum_scal_l.
    assert (X1 : rsum n (fun i => rsum d (fun j => gr c j * p_piezo m j i) * eps c i) = rsum d (fun i => rsum n (fun j => eps c j * p_piezo m i j) * gr c i)).
    { rewrite (rsum_ext n _ (fun i => rsum d (fun j => gr c j * p_piezo m j i * eps c i))) by (intros i _; apply rsum_scal_r).
      rewrite rsum_swap. apply rsum_ext. intros j Hj. rewrite rsum_scal_r. apply rsum_ext. intros. req. ring. }
    rewrite X1. req. ring. }
  assert (NN : forall c, In c cells -> 0 < cell_measure d (gather_coords X c) * pen (cell_density (S d) (gather_control Z c)) /\
     0 <= rs (num_voigt d) (fun i => eps c i * rs (num_voigt d) (fun j => p_stiff (c_mat c) i j * eps c j)) /\
     0 <= p_alpha (c_mat c) * p_alpha (c_mat c) * rs d (fun i => gr c i * rs d (fun j => p_perm (c_mat c) i j * gr c j))).
  { intros c Hin. destruct (Hc c Hin) as (Ha & HP & HQ & HS). destruct (mesh_cell _ _ _ _ _ Hm Hin) as [_ Hv]. split; [apply solid_weight; assumption|].
    split; [apply positive_nonneg; exact HP|]. apply Rmult_le_pos; [apply Rle_0_sqr|apply positive_nonneg; exact HQ]. }
  assert (ZZ : forall c, In c cells -> rs (num_voigt d) (fun i => eps c i * rs (num_voigt d) (fun j => p_stiff (c_mat c) i j * eps c j))
      + p_alpha (c_mat c) * p_alpha (c_mat c) * rs d (fun i => gr c i * rs d (fun j => p_perm (c_mat c) i j * gr c j)) = 0).
  { intros c Hin. apply (weight_zero _ _ (proj1 (NN c Hin))). refine (sum_over_zero cells _ _ W0 c Hin). clear c Hin. intros c Hin. destruct (NN c Hin) as (A & B & C).
    apply Rmult_le_pos; lra. }
  assert (G : forall c v, In c cells -> (v < num_voigt d)%nat -> eps c v = 0).
  { intros c v Hin. revert v. destruct (Hc c Hin) as (_ & HP & _). apply (positive_zero _ _ _ HP). destruct (NN c Hin) as (_ & B & C). pose proof (ZZ c Hin). lra. }
  assert (GT : forall c l, In c cells -> (l < d)%nat -> gr c l = 0).
  { intros c l Hin. revert l. destruct (Hc c Hin) as (Ha & _ & HQ & _). apply (positive_zero _ _ _ HQ). destruct (NN c Hin) as (_ & B & C). pose proof (ZZ c Hin).
    apply (weight_zero (p_alpha (c_mat c) * p_alpha (c_mat c))); [apply Rsqr_pos_lt; exact Ha|lra]. }
  assert (TE : forall n, (n < nn)%nat -> D (n * S d + d)%nat = 0).
  { intros n Hn. pose proof (Hanc n Hn) as HA. revert Hn. induction HA as [n Hh|f a b Hf Ha Hb HA IH]; intros Hn.
    - pose proof (Hs (n * S d + d)%nat ltac:(nia)) as E. unfold held_last in Hh. rewrite Hh in E. unfold D. lra.
    - apply in_map_iff in Hf. destruct Hf as (c & <- & Hin). destruct (mesh_cell _ _ _ _ _ Hm Hin) as [Hcn Hv].
      pose proof (flat_gradient d (S d) d (gather (S d) D c) (gather_coords X c) Hd (det_measure d _ Hd Hv) (fun l Hl => GT c l Hin Hl) a b Ha Hb) as E.
      rewrite !gather_at in E by lia. rewrite <- E. apply IH. apply Hcn. exact Ha. }
  destruct (rigid_body d nn (S d) X cells D Hd ltac:(lia) Hm Hone G) as (t & A & HA & HD).
  intros k Hk. pose proof (Nat.div_mod k (S d) ltac:(lia)) as DM. pose proof (Nat.mod_upper_bound k (S d) ltac:(lia)) as MU.
  assert (Hn : (k / S d < nn)%nat) by (apply Nat.div_lt_upper_bound; lia).
  assert (E : D (k / S d * S d + k mod S d)%nat = 0).
  { destruct (Nat.eq_dec (k mod S d) d) as [->|Ne]; [apply TE; exact Hn|].
    rewrite HD by lia. apply (Hres t A HA); try assumption; [|lia]. intros n i Hn' Hi Hh. rewrite <- HD by assumption. unfold D.
    pose proof (Hs (n * S d + i)%nat ltac:(nia)) as E. rewrite Hh in E. lra. }
  replace (k / S d * S d + k mod S d)%nat with k in E by lia. unfold D in E. lra.
Qed.
Print Assumptions C162_electroelastic.

(** Every isotropic material qualifies. *)
Theorem C162_isotropic : forall d E v, (1 <= d <= 3)%nat -> admissible E v -> positive_form (num_voigt d) (isotropic_material d E v).
Proof.
  intros d E v Hd Ha e He. destruct (C33_stiffness d E v Hd Ha _ (or_introl eq_refl)) as (_ & _ & P). specialize (P e He). eapply Rlt_le_trans; [exact P|]. right.
  unfold rs. apply rsum_ext. intros i _. req. f_equal. unfold linear_stress. apply rsum_ext. intros. req. ring.
Qed.
Print Assumptions C162_isotropic.

(** The hypotheses met: a square of two triangles, one corner held in both directions and a second one in one direction. *)
Definition steel : elastic := mkElastic (isotropic_material 2 1 (1 / 4)) (fun _ => 0).
Definition three_held (k : nat) : bool := Nat.eqb k 0 || Nat.eqb k 1 || Nat.eqb k 3.
Lemma square_one_piece {M} (m : M) : one_piece 2 4 (map c_node (square m)).
Proof.
  split.
  - exists (fun a => match a with 0%nat => 0%nat | 1%nat => 1%nat | _ => 2%nat end). split; [left; reflexivity|].
    intros c [<-|[<-|[]]]; [apply joined_start|]. eapply joined_next; [apply joined_start|right; left; reflexivity|].
    exists 0%nat. split; [lia|]. intros a Ha Na. destruct a as [|[|[|a]]]; try lia; [exists 2%nat|exists 1%nat]; split; lia || reflexivity.
  - intros n Hn. destruct n as [|[|[|[|n]]]]; try lia.
    + eexists _, 0%nat. split; [left; reflexivity|]. split; [lia|reflexivity].
    + eexists _, 1%nat. split; [left; reflexivity|]. split; [lia|reflexivity].
    + eexists _, 2%nat. split; [left; reflexivity|]. split; [lia|reflexivity].
    + eexists _, 0%nat. split; [right; left; reflexivity|]. split; [lia|reflexivity].
Qed.
Lemma square_restrained : restrains 2 4 2 square_X three_held.
Proof.
  intros t A HA H n i Hn Hi. pose proof (H 0%nat 0%nat ltac:(lia) ltac:(lia) eq_refl) as H0. pose proof (H 0%nat 1%nat ltac:(lia) ltac:(lia) eq_refl) as H1.
  pose proof (H 1%nat 1%nat ltac:(lia) ltac:(lia) eq_refl) as H3. pose proof (HA 0%nat 0%nat ltac:(lia) ltac:(lia)) as A0. pose proof (HA 1%nat 1%nat ltac:(lia) ltac:(lia)) as A1.
  pose proof (HA 0%nat 1%nat ltac:(lia) ltac:(lia)) as A2. unfold affine, rs in *. revert H0 H1 H3. rsums. cbn. intros.
  destruct i as [|[|i]]; try lia; destruct n as [|[|[|[|n]]]]; try lia; cbn; nra.
Qed.
Example C162_case : mesh_ok 2 4 square_X (square steel) /\ one_piece 2 4 (map c_node (square steel)) /\ restrains 2 4 2 square_X three_held /\
  (forall c, In c (square steel) -> positive_form (num_voigt 2) (e_stiff (c_mat c)) /\ solid 2 (fun x => x) (fun _ => 1 / 2) c) /\
  (forall n, (n < 4)%nat -> anchored 2 (map c_node (square steel)) (fun n => Nat.eqb n 0) n).
Proof.
  split; [apply square_ok|]. split; [apply square_one_piece|]. split; [apply square_restrained|]. split.
  - assert (P : positive_form (num_voigt 2) (isotropic_material 2 1 (1 / 4))) by (apply C162_isotropic; [lia|unfold admissible; lra]).
    intros c [<-|[<-|[]]]; (split; [exact P|]); unfold solid, rs; rsums; cbn; lra.
  - intros n Hn. assert (A0 : anchored 2 (map c_node (square steel)) (fun n => Nat.eqb n 0) 0) by (apply anchored_here; reflexivity).
    assert (A1 : forall b, (b <= 2)%nat -> anchored 2 (map c_node (square steel)) (fun n => Nat.eqb n 0) (match b with 0%nat => 0%nat | 1%nat => 1%nat | _ => 2%nat end)).
    { intros b Hb. apply (anchored_next 2 (map c_node (square steel)) _ (fun a => match a with 0%nat => 0%nat | 1%nat => 1%nat | _ => 2%nat end) 0 b); [left; reflexivity|lia|exact Hb|exact A0]. }
    destruct n as [|[|[|[|n]]]]; try lia; [exact A0|exact (A1 1%nat ltac:(lia))|exact (A1 2%nat ltac:(lia))|].
    apply (anchored_next 2 (map c_node (square steel)) _ (fun a => match a with 0%nat => 3%nat | 1%nat => 2%nat | _ => 1%nat end) 1 0); [right; left; reflexivity|lia|lia|exact (A1 2%nat ltac:(lia))].
Qed.

(** Both conditions are needed: without supports a body may be moved as a whole, and a part that hangs by one corner may turn about it. *)
Theorem C162_needs_supports : ~ (forall d nn pen col X U U' Z cells held, (1 <= d <= 3)%nat -> mesh_ok d nn X cells -> one_piece d nn (map c_node cells) ->
  (forall c, In c cells -> positive_form (num_voigt d) (e_stiff (c_mat c)) /\ solid d pen Z c) ->
  same_conditions (nn * d) held U U' (elastostatic d pen col X U Z cells) (elastostatic d pen col X U' Z cells) ->
  forall k, (k < nn * d)%nat -> U k = U' k).
Proof.
  intros H. destruct C162_case as (M & O & _ & P & _).
  assert (Z : forall s k, elastostatic 2 (fun x => x) None square_X (fun _ => s) (fun _ => 1 / 2) (square steel) k = 0).
  { intros s k. refine (proj1 (C96_rest 2 4 (fun x => x) square_X (fun _ => 1 / 2) ltac:(lia)) (square steel) (fun _ => s) (fun _ _ => 0) (fun _ => s) M _ _ _ k).
    - intros n i _ _. symmetry. apply affine_const.
    - intros i j _ _. ring.
    - intros c v [<-|[<-|[]]] _; reflexivity. }
  pose proof (H 2%nat 4%nat (fun x => x) None square_X (fun _ => 0) (fun _ => 1) (fun _ => 1 / 2) (square steel) (fun _ => false) ltac:(lia) M O P) as E.
  assert (Q : (0 : R) = 1); [|lra]. refine (E _ 0%nat ltac:(lia)). intros k Hk. rewrite !Z. reflexivity.
Qed.
Print Assumptions C162_needs_supports.
Definition hinge_X (n i : nat) : R := match n, i with 1%nat, 0%nat => 1 | 2%nat, 1%nat => 1 | 3%nat, 0%nat => -1 | 4%nat, 1%nat => -1 | _, _ => 0 end.
Definition hinge {M} (m : M) : list (cell M) :=
  [mkCell (fun a => match a with 0%nat => 0%nat | 1%nat => 1%nat | _ => 2%nat end) m; mkCell (fun a => match a with 0%nat => 0%nat | 1%nat => 3%nat | _ => 4%nat end) m].
Definition swing (k : nat) : R := match k with 7%nat => -1 | 8%nat => 1 | _ => 0 end.
Theorem C162_needs_facets : ~ (forall d nn pen col X U U' Z cells held, (1 <= d <= 3)%nat -> mesh_ok d nn X cells ->
  (forall n, (n < nn)%nat -> anchored d (map c_node cells) (fun n => Nat.eqb n 0) n) -> restrains d nn d X held ->
  (forall c, In c cells -> positive_form (num_voigt d) (e_stiff (c_mat c)) /\ solid d pen Z c) ->
  same_conditions (nn * d) held U U' (elastostatic d pen col X U Z cells) (elastostatic d pen col X U' Z cells) ->
  forall k, (k < nn * d)%nat -> U k = U' k).
Proof.
  intros H.
  assert (M : mesh_ok 2 5 hinge_X (hinge steel)).
  { intros c [E|[E|[]]]; subst c; (split; [intros [|[|[|a]]] Ha; cbn; lia|]); unfold simplex_measure; cbn;
      match goal with |- Rabs ?q / 2 <> 0 => replace q with 1 by ring end; rewrite Rabs_R1; lra. }
  assert (A : forall n, (n < 5)%nat -> anchored 2 (map c_node (hinge steel)) (fun n => Nat.eqb n 0) n).
  { intros n Hn. assert (A0 : anchored 2 (map c_node (hinge steel)) (fun n => Nat.eqb n 0) 0) by (apply anchored_here; reflexivity).
    destruct n as [|[|[|[|[|n]]]]]; try lia; [exact A0| | | |].
    - apply (anchored_next 2 (map c_node (hinge steel)) _ (fun a => match a with 0%nat => 0%nat | 1%nat => 1%nat | _ => 2%nat end) 0 1); [left; reflexivity|lia|lia|exact A0].
    - apply (anchored_next 2 (map c_node (hinge steel)) _ (fun a => match a with 0%nat => 0%nat | 1%nat => 1%nat | _ => 2%nat end) 0 2); [left; reflexivity|lia|lia|exact A0].
    - apply (anchored_next 2 (map c_node (hinge steel)) _ (fun a => match a with 0%nat => 0%nat | 1%nat => 3%nat | _ => 4%nat end) 0 1); [right; left; reflexivity|lia|lia|exact A0].
    - apply (anchored_next 2 (map c_node (hinge steel)) _ (fun a => match a with 0%nat => 0%nat | 1%nat => 3%nat | _ => 4%nat end) 0 2); [right; left; reflexivity|lia|lia|exact A0]. }
  assert (Rs : restrains 2 5 2 hinge_X (fun k => Nat.ltb k 6)).
  { intros t B HB Hh n i Hn Hi. pose proof (Hh 0%nat 0%nat ltac:(lia) ltac:(lia) eq_refl) as H0. pose proof (Hh 0%nat 1%nat ltac:(lia) ltac:(lia) eq_refl) as H1.
    pose proof (Hh 1%nat 1%nat ltac:(lia) ltac:(lia) eq_refl) as H3. pose proof (HB 0%nat 0%nat ltac:(lia) ltac:(lia)) as A0. pose proof (HB 1%nat 1%nat ltac:(lia) ltac:(lia)) as A1.
    pose proof (HB 0%nat 1%nat ltac:(lia) ltac:(lia)) as A2. unfold affine, rs in *. revert H0 H1 H3. rsums. cbn. intros.
    destruct i as [|[|i]]; try lia; destruct n as [|[|[|[|[|n]]]]]; try lia; cbn; nra. }
  assert (P : forall c, In c (hinge steel) -> positive_form (num_voigt 2) (e_stiff (c_mat c)) /\ solid 2 (fun x => x) (fun _ => 1 / 2) c).
  { assert (P : positive_form (num_voigt 2) (isotropic_material 2 1 (1 / 4))) by (apply C162_isotropic; [lia|unfold admissible; lra]).
    intros c [<-|[<-|[]]]; (split; [exact P|]); unfold solid, rs; rsums; cbn; lra. }
  (* each cell moves rigidly: the first rests, the second turns *)
  assert (Z : forall s k, elastostatic 2 (fun x => x) None hinge_X (fun k => s * swing k) (fun _ => 1 / 2) (hinge steel) k = 0).
  { intros s. apply assemble_0. intros c k Hc _. destruct (mesh_cell _ _ _ _ _ M Hc) as [Hn Hv]. unfold elastostatic_cell. rewrite divergence_0; [reflexivity|lia|].
    intros v Hv'. unfold weigh, elastic_stress, add_forcing, linear_stress. rewrite rsum_0; [req; ring|]. intros j Hj.
    assert (S0 : strain 2 2 (fun _ => 0) (gather 2 (fun k => s * swing k) c) (cell_gradient 2 (gather_coords hinge_X c)) j = 0).
    { set (w := if Nat.eqb (c_node c 1) 3 then s else 0).
      assert (T : affine_displacement 2 2 (gather_coords hinge_X c) (fun _ => 0) (fun i j => if Nat.eqb i j then 0 else if Nat.ltb i j then - w else w) (gather 2 (fun k => s * swing k) c)).
      { intros a i Ha Hi. rewrite gather_at by lia. unfold affine, rs, w, gather_coords. rsums.
        destruct Hc as [<-|[<-|[]]]; destruct a as [|[|[|a]]]; try lia; destruct i as [|[|i]]; try lia; cbn; ring. }
      refine (proj2 (C32_strain 2 2 _ _ _ _ ltac:(lia) ltac:(lia) Hv T) _ j Hj).
      intros i i' Hi Hi'. destruct i as [|[|i]]; try lia; destruct i' as [|[|i']]; try lia; cbn; ring. }
    rewrite S0. destruct Hc as [<-|[<-|[]]]; cbn; req; ring. }
  pose proof (H 2%nat 5%nat (fun x => x) None hinge_X (fun k => 0 * swing k) (fun k => 1 * swing k) (fun _ => 1 / 2) (hinge steel) (fun k => Nat.ltb k 6) ltac:(lia) M A Rs P) as E.
  assert (Q : 0 * swing 8 = 1 * swing 8); [|cbn in Q; lra]. refine (E _ 8%nat ltac:(lia)). intros k Hk. destruct (Nat.ltb_spec k 6); [|rewrite !Z; reflexivity].
  destruct k as [|[|[|[|[|[|k]]]]]]; try lia; cbn; ring.
Qed.
Print Assumptions C162_needs_facets.
