(** C159, continued: a piezoelectric body moved as a whole. *)
From Coq Require Import Reals List Arith Bool Lia Lra.
From Verif Require Import Base.Field Base.Sums Base.Res Element.ElementModel Element.ElementSpec Element.ElementProof Element.ElementProps Penalty.PenaltyModel Residual.Kernel
  Residual.ResidualModel Residual.ResidualSpec Residual.ResidualProof Residual.ResidualProps Residual.ResidualEnergyProps Residual.FrameSpec Residual.FrameProof Residual.FrameProps.
Import ListNotations.
Local Open Scope R_scope.

(** ** Specification *)
(** Stress C e - a f P and electric displacement a^2 K f + a P e of a material with stiffness C, piezoelectric constants P, permittivity K and scale a,
    under the strain e and the electric field f. *)
Definition stress_in_field (d : nat) (m : electroelastic) (e f : nat -> R) (v : nat) : R :=
  rs (components d) (fun w => p_stiff m v w * e w) - p_alpha m * rs d (fun j => f j * p_piezo m j v).
Definition displacement_in_field (d : nat) (m : electroelastic) (e f : nat -> R) (i : nat) : R :=
  p_alpha m * p_alpha m * rs d (fun j => p_perm m i j * f j) + p_alpha m * rs (components d) (fun w => p_piezo m i w * e w).
(** The second material is the first one turned by Q: turned strains and fields give turned stresses and displacements. *)
Definition turned_piezo (d : nat) (Q : nat -> nat -> R) (m m' : electroelastic) : Prop :=
  forall e e' f f', (forall i j, (i < d)%nat -> (j < d)%nat -> as_strain d e' i j = turn_tensor d Q (as_strain d e) i j) -> (forall i, (i < d)%nat -> f' i = turn d Q f i) ->
  (forall i j, (i < d)%nat -> (j < d)%nat -> as_stress d (stress_in_field d m' e' f') i j = turn_tensor d Q (as_stress d (stress_in_field d m e f)) i j) /\
  (forall i, (i < d)%nat -> displacement_in_field d m' e' f' i = turn d Q (displacement_in_field d m e f) i).

Lemma em_stress_law d m e f v : (1 <= d <= 3)%nat -> em_stress d m e f v = stress_in_field d m e f v.
Proof.
  intros Hd. unfold em_stress, stress_in_field, rs. rewrite components_voigt by exact Hd. rewrite <- rsum_scal_l. apply f_equal2; apply rsum_ext; intros; req; ring.
Qed.
Lemma em_displacement_law d m e f i : (1 <= d <= 3)%nat -> em_displacement d m e f i = displacement_in_field d m e f i.
Proof.
  intros Hd. unfold em_displacement, displacement_in_field, rs. rewrite components_voigt by exact Hd. rewrite <- !rsum_scal_l. apply f_equal2; apply rsum_ext; intros; req; ring.
Qed.
Lemma field_gradient d u g i : em_field d u g i = - scalar_gradient d (S d) d u g i.
Proof. unfold em_field, scalar_gradient. ring. Qed.
Lemma turn_opp d Q v i : turn d Q (fun k => - v k) i = - turn d Q v i.
Proof. unfold turn, rs. replace (- rsum d (fun j => Q i j * v j)) with (-1 * rsum d (fun j => Q i j * v j)) by ring. rewrite <- rsum_scal_l. apply rsum_ext. intros. req. ring. Qed.

Theorem C159_electroelastic : forall d nn pen t Q X X' U U' Z cells cells', (1 <= d <= 3)%nat -> orthogonal d Q -> mesh_ok d nn X cells ->
  placed d nn t Q X X' -> carried d nn (S d) Q U U' -> kept nn (S d) d U U' -> moved_cells (turned_piezo d Q) cells cells' ->
  carried d nn (S d) Q (electroelastostatic d pen X U Z cells) (electroelastostatic d pen X' U' Z cells') /\
  kept nn (S d) d (electroelastostatic d pen X U Z cells) (electroelastostatic d pen X' U' Z cells') /\
  em_energy d pen X' U' Z cells' = em_energy d pen X U Z cells.
Proof.
  intros d nn pen t Q X X' U U' Z cells cells' Hd HQ Hm HP HU HT HC. pose proof (moved_mesh d nn t Q X X' _ cells cells' Hd HQ Hm HP HC) as Hm'.
  assert (CW : forall W W' c m', carried d nn (S d) Q W W' -> kept nn (S d) d W W' -> In c cells -> turned_piezo d Q (c_mat c) m' ->
    cell_measure d (gather_coords X' c) = cell_measure d (gather_coords X c) /\
    rsum (num_voigt d) (fun v => em_stress d m' (strain d (S d) (fun _ => 0) (gather (S d) U' c) (cell_gradient d (gather_coords X' c))) (em_field d (gather (S d) U' c) (cell_gradient d (gather_coords X' c))) v
                               * strain d (S d) (fun _ => 0) (gather (S d) W' c) (cell_gradient d (gather_coords X' c)) v) =
    rsum (num_voigt d) (fun v => em_stress d (c_mat c) (strain d (S d) (fun _ => 0) (gather (S d) U c) (cell_gradient d (gather_coords X c))) (em_field d (gather (S d) U c) (cell_gradient d (gather_coords X c))) v
                               * strain d (S d) (fun _ => 0) (gather (S d) W c) (cell_gradient d (gather_coords X c)) v) /\
    rsum d (fun k => em_displacement d m' (strain d (S d) (fun _ => 0) (gather (S d) U' c) (cell_gradient d (gather_coords X' c))) (em_field d (gather (S d) U' c) (cell_gradient d (gather_coords X' c))) k
                   * em_field d (gather (S d) W' c) (cell_gradient d (gather_coords X' c)) k) =
    rsum d (fun k => em_displacement d (c_mat c) (strain d (S d) (fun _ => 0) (gather (S d) U c) (cell_gradient d (gather_coords X c))) (em_field d (gather (S d) U c) (cell_gradient d (gather_coords X c))) k
                   * em_field d (gather (S d) W c) (cell_gradient d (gather_coords X c)) k)).
  { intros W W' c m' HW KW Hc HL. destruct (mesh_cell _ _ _ _ _ Hm Hc) as [_ Hv]. pose proof (det_measure _ _ Hd Hv) as Hn.
    pose proof (mesh_placed _ _ _ _ _ _ _ _ Hm HP Hc) as Px. split; [apply measure_of_volume; exact (volume_turned d Q t _ _ Hd HQ Px)|].
    assert (ST : forall V V', carried d nn (S d) Q V V' -> forall i j, (i < d)%nat -> (j < d)%nat ->
      as_strain d (strain d (S d) (fun _ => 0) (gather (S d) V' c) (cell_gradient d (gather_coords X' c))) i j =
      turn_tensor d Q (as_strain d (strain d (S d) (fun _ => 0) (gather (S d) V c) (cell_gradient d (gather_coords X c)))) i j).
    { intros V V' HV i j Hi Hj. apply (strain_turned d (S d) t Q); try assumption. exact (mesh_carried d nn (S d) Q V V' X cells c ltac:(lia) Hm HV Hc). }
    assert (SG : forall V V', kept nn (S d) d V V' -> forall k, (k < d)%nat -> em_field d (gather (S d) V' c) (cell_gradient d (gather_coords X' c)) k =
      turn d Q (em_field d (gather (S d) V c) (cell_gradient d (gather_coords X c))) k).
    { intros V V' HV k Hk. rewrite field_gradient. rewrite (turn_ext d Q (em_field d (gather (S d) V c) (cell_gradient d (gather_coords X c))) (fun k => - scalar_gradient d (S d) d (gather (S d) V c) (cell_gradient d (gather_coords X c)) k)) by (intros; apply field_gradient).
      rewrite turn_opp. f_equal. apply (scalar_turned d (S d) d t Q); try assumption. exact (mesh_kept d nn (S d) d V V' X cells c ltac:(lia) Hm HV Hc). }
    destruct (HL _ _ _ _ (ST U U' HU) (SG U U' HT)) as [L1 L2].
    split.
    - apply (contraction_turned d Q _ _ _ _ Hd HQ); [|exact (ST W W' HW)]. intros i j Hi Hj. unfold as_stress at 1. rewrite em_stress_law by exact Hd.
      rewrite (tensor_ext d Q _ (as_stress d (stress_in_field d (c_mat c) (strain d (S d) (fun _ => 0) (gather (S d) U c) (cell_gradient d (gather_coords X c))) (em_field d (gather (S d) U c) (cell_gradient d (gather_coords X c)))))) by (intros; apply em_stress_law; exact Hd).
      exact (L1 i j Hi Hj).
    - rewrite <- (turn_dot d Q (em_displacement d (c_mat c) (strain d (S d) (fun _ => 0) (gather (S d) U c) (cell_gradient d (gather_coords X c))) (em_field d (gather (S d) U c) (cell_gradient d (gather_coords X c)))) _ HQ).
      apply rsum_ext. intros k Hk. rewrite (SG W W' KW k Hk). f_equal. rewrite em_displacement_law by exact Hd.
      rewrite (turn_ext d Q _ (displacement_in_field d (c_mat c) (strain d (S d) (fun _ => 0) (gather (S d) U c) (cell_gradient d (gather_coords X c))) (em_field d (gather (S d) U c) (cell_gradient d (gather_coords X c))))) by (intros; apply em_displacement_law; exact Hd).
      exact (L2 k Hk). }
  assert (K : carried d nn (S d) Q (electroelastostatic d pen X U Z cells) (electroelastostatic d pen X' U' Z cells') /\
    (forall off, (d <= off < S d)%nat -> kept nn (S d) off (electroelastostatic d pen X U Z cells) (electroelastostatic d pen X' U' Z cells'))).
  { apply rows_of_work; [lia|exact HQ|]. intros W W' HW KW. specialize (KW d ltac:(lia)). unfold electroelastostatic.
    rewrite (assemble_work nn (S d) (S d) _ cells') by exact (mesh_nodes d nn X' cells' Hm'). rewrite (assemble_work nn (S d) (S d) _ cells) by exact (mesh_nodes d nn X cells Hm).
    apply (sum_over_pairs _ _ _ _ _ HC). intros c c' Hc [EN HL]. destruct c' as [nd m']. cbn [c_node] in EN. subst nd. cbn [c_mat] in HL |- *.
    rewrite !em_work by exact Hd. destruct (CW W W' c m' HW KW Hc HL) as (E1 & E2 & E3).
    change (gather_coords X' (mkCell (c_node c) m')) with (gather_coords X' c). change (gather (S d) U' (mkCell (c_node c) m')) with (gather (S d) U' c).
    change (gather (S d) W' (mkCell (c_node c) m')) with (gather (S d) W' c). change (gather_control Z (mkCell (c_node c) m')) with (gather_control Z c).
    rewrite E1, E2, E3. reflexivity. }
  split; [exact (proj1 K)|]. split; [apply K; lia|].
  unfold em_energy. rewrite !total_sum. apply (sum_over_pairs _ _ _ _ _ HC). intros c c' Hc [EN HL]. destruct c' as [nd m']. cbn [c_node] in EN. subst nd. cbn [c_mat] in HL |- *.
  destruct (CW U U' c m' HU HT Hc HL) as (E1 & E2 & E3).
  change (gather_coords X' (mkCell (c_node c) m')) with (gather_coords X' c). change (gather (S d) U' (mkCell (c_node c) m')) with (gather (S d) U' c).
  change (gather_control Z (mkCell (c_node c) m')) with (gather_control Z c).
  unfold em_energy_cell, scalar_product, weigh. cbv zeta. rewrite E1.
  assert (PF : forall n (q g : nat -> R), rsum n (fun i => q i * pen (cell_density (S d) (gather_control Z c)) * g i) = pen (cell_density (S d) (gather_control Z c)) * rsum n (fun i => q i * g i)).
  { intros n q g. rewrite <- rsum_scal_l. apply rsum_ext. intros. req. ring. }
  rewrite !PF, E2, E3. reflexivity.
Qed.
Print Assumptions C159_electroelastic.

(** A crystal turned by a right angle: its second axis takes the place of the first one, and the shear changes sign. *)
Definition quarter (i j : nat) : R := match i, j with 0%nat, 1%nat => -1 | 1%nat, 0%nat => 1 | _, _ => 0 end.
Definition piezo_square : electroelastic := mkEM (fun i j => if Nat.eqb i j then INR (3 + i) else 1) (fun i j => INR (1 + i + 2 * j)) (fun i j => if Nat.eqb i j then INR (2 + i) else 1) 7.
Definition other (v : nat) : nat := match v with 0%nat => 1%nat | 1%nat => 0%nat | _ => v end.
Definition sign (v : nat) : R := if Nat.eqb v 2 then -1 else 1.
Definition piezo_quarter : electroelastic := mkEM (fun v w => sign v * sign w * p_stiff piezo_square (other v) (other w))
  (fun i v => (if Nat.eqb i 0 then -1 else 1) * sign v * p_piezo piezo_square (other i) (other v)) (fun i j => (if Nat.eqb i j then 1 else -1) * p_perm piezo_square (other i) (other j)) 7.
Lemma quarter_orthogonal : orthogonal 2 quarter.
Proof. intros [|[|i]] [|[|j]] Hi Hj; try lia; unfold rs, delta; rsums; cbn; lra. Qed.
Lemma quarter_turned : turned_piezo 2 quarter piezo_square piezo_quarter.
Proof.
  intros e e' f f' He Hf.
  pose proof (He 0%nat 0%nat ltac:(lia) ltac:(lia)) as H00. pose proof (He 0%nat 1%nat ltac:(lia) ltac:(lia)) as H01. pose proof (He 1%nat 1%nat ltac:(lia) ltac:(lia)) as H11.
  pose proof (Hf 0%nat ltac:(lia)) as F0. pose proof (Hf 1%nat ltac:(lia)) as F1.
  unfold turn_tensor, turn, rs, as_strain in *. revert H00 H01 H11 F0 F1. rsums. cbn [Nat.eqb position quarter]. intros H00 H01 H11 F0 F1.
  assert (A0 : e' 0%nat = e 1%nat) by lra. assert (A1 : e' 1%nat = e 0%nat) by lra. assert (A2 : e' 2%nat = - e 2%nat) by lra.
  assert (B0 : f' 0%nat = - f 1%nat) by lra. assert (B1 : f' 1%nat = f 0%nat) by lra.
  split; [intros [|[|i]] [|[|j]] Hi Hj; try lia|intros [|[|i]] Hi; try lia];
    unfold as_stress, stress_in_field, displacement_in_field, rs; cbn [position Nat.eqb components]; change (components 2) with 3%nat; rsums; cbn [quarter piezo_square piezo_quarter p_stiff p_piezo p_perm p_alpha other sign Nat.eqb Nat.add Nat.mul];
    rewrite ?A0, ?A1, ?A2, ?B0, ?B1; cbn [INR]; ring.
Qed.
Definition charged_bent (k : nat) : R := INR (k * k).
Definition charged_turned (k : nat) : R := if Nat.eqb (k mod 3) 2 then charged_bent k else turn 2 quarter (fun j => charged_bent (k / 3 * 3 + j)%nat) (k mod 3).
Example C159_electroelastic_case :
  orthogonal 2 quarter /\ mesh_ok 2 4 square_X (square piezo_square) /\ placed 2 4 (fun _ => 5) quarter square_X (fun n i => 5 + turn 2 quarter (square_X n) i) /\
  carried 2 4 3 quarter charged_bent charged_turned /\ kept 4 3 2 charged_bent charged_turned /\ moved_cells (turned_piezo 2 quarter) (square piezo_square) (square piezo_quarter) /\
  charged_turned 9 = -100 /\ charged_turned 10 = 81 /\ charged_turned 11 = 121.
Proof.
  split; [exact quarter_orthogonal|]. split; [apply square_ok|]. split; [intros n i _ _; reflexivity|].
  split; [intros [|[|[|[|n]]]] [|[|i]] Hn Hi; try lia; reflexivity|]. split; [intros [|[|[|[|n]]]] Hn; try lia; reflexivity|].
  split; [constructor; [split; [reflexivity|exact quarter_turned]|]; constructor; [split; [reflexivity|exact quarter_turned]|]; constructor|].
  unfold charged_turned, charged_bent, turn, rs. rsums. rewrite !INR_IZR_INZ. cbn [Nat.modulo Nat.div Nat.divmod Nat.eqb fst snd Nat.sub quarter]. cbn. lra.
Qed.
