From Coq Require Import Reals List Arith Bool Lia Lra.
From Verif Require Import Base.Field Base.Sums Base.Res Element.ElementModel Element.ElementSpec Element.ElementProof Element.ElementProps
  Penalty.PenaltyModel Residual.ResidualModel Residual.ResidualSpec Residual.ResidualProof Residual.ResidualProps Residual.ResidualEnergyProps Residual.CouplingProof
  Dynamics.DynModel Dynamics.DynSpec Dynamics.DynProof Frequency.FrequencyModel Frequency.FrequencySpec.
Import ListNotations.
Local Open Scope R_scope.

Lemma part_at d c U a i : (i < d)%nat -> part d c U (a * d + i)%nat = U (a * (2 * d) + (c * d + i))%nat.
Proof.
  intros Hi. unfold part. rewrite Nat.div_add_l by lia. rewrite Nat.div_small by lia. rewrite Nat.add_0_r.
  replace (a * d + i)%nat with (i + a * d)%nat by lia. rewrite Nat.mod_add by lia. rewrite Nat.mod_small by lia. reflexivity.
Qed.
Lemma slot_lt d c i : (c < 2)%nat -> (i < d)%nat -> (c * d + i < 2 * d)%nat.
Proof. intros Hc Hi. assert (c = 0 \/ c = 1)%nat as [-> | ->] by lia; lia. Qed.

(** Strains and stresses part by part. *)
Lemma complex_strain_part d u g c v : (1 <= d <= 3)%nat -> complex_strain d u g c v = strain d d (fun _ => 0) (part d c u) g v.
Proof.
  intros Hd. unfold complex_strain, strain. destruct (nth_error (voigt_pairs d) v) as [[i j]|] eqn:E; [|reflexivity].
  destruct (pairs_lt d v i j Hd E) as [Hi Hj].
  assert (P : forall a k, (k < d)%nat -> u (a * (2 * d) + k + d * c)%nat = part d c u (a * d + k)%nat).
  { intros a k Hk. rewrite part_at by exact Hk. f_equal. lia. }
  destruct (Nat.eqb i j); [|f_equal]; apply rsum_ext; intros a _; rewrite !P by assumption; reflexivity.
Qed.
Lemma divergence_part d vol s g a c i : (1 <= d <= 3)%nat -> (a < S d)%nat -> (c < 2)%nat -> (i < d)%nat ->
  complex_divergence d vol s g (a * (2 * d) + (c * d + i))%nat = vol * rsum d (fun j => s c (voigt d i j) * g a j).
Proof.
  intros Hd Ha Hc Hi. unfold complex_divergence. cbn [seq fold_left].
  assert (O : forall c', c' <> c -> (c' < 2)%nat -> forall a' i', (i' < d)%nat -> (a' < S d)%nat -> (a * (2 * d) + (c * d + i) <> a' * (2 * d) + i' + c' * d)%nat).
  { intros c' Hne Hc' a' i' Hi' Ha' E.
    assert (Q : (c * d + i < 2 * d)%nat) by (apply slot_lt; assumption). assert (Q' : (c' * d + i' < 2 * d)%nat) by (apply slot_lt; assumption).
    assert (a = a') by nia. subst a'. apply Hne. nia. }
  assert (c = 0 \/ c = 1)%nat as [-> | ->] by lia.
  - rewrite divergence_other by (intros; apply O; lia).
    replace (a * (2 * d) + (0 * d + i))%nat with (a * (2 * d) + i + 0 * d)%nat by lia. rewrite divergence_at by lia. ring.
  - replace (a * (2 * d) + (1 * d + i))%nat with (a * (2 * d) + i + 1 * d)%nat by lia. rewrite divergence_at by lia.
    rewrite divergence_other; [ring|]. intros a' i' Hi' Ha'. replace (a * (2 * d) + i + 1 * d)%nat with (a * (2 * d) + (1 * d + i))%nat by lia. apply O; lia.
Qed.

(** Inertia. *)
Lemma inner_assign n b (f : nat -> R) o k :
  fold_left (fun (o : nat -> R) i => fun k => if Nat.eqb k (b + i) then f i else o k) (seq 0 n) o k =
  if (Nat.leb b k && Nat.ltb k (b + n))%bool then f (k - b)%nat else o k.
Proof.
  induction n as [|n IH].
  - cbn [seq fold_left]. destruct (Nat.leb_spec b k), (Nat.ltb_spec k (b + 0)); try lia; reflexivity.
  - rewrite seq_S, fold_left_app. cbn [fold_left Nat.add]. rewrite IH.
    destruct (Nat.eqb_spec k (b + n)) as [->|Hne].
    + destruct (Nat.leb_spec b (b + n)), (Nat.ltb_spec (b + n) (b + S n)); try lia. cbn. f_equal. lia.
    + destruct (Nat.leb_spec b k), (Nat.ltb_spec k (b + n)), (Nat.ltb_spec k (b + S n)); try lia; reflexivity.
Qed.
Lemma inertial_at d rho vol q a k : (a < S d)%nat -> (k < 2 * d)%nat ->
  inertial_forces d rho vol q (a * (2 * d) + k)%nat = cub_basis d a * q k * vol * rho.
Proof.
  intros Ha Hk. unfold inertial_forces. generalize (fun _ : nat => 0) as o.
  assert (H : forall n o, fold_left (fun o a0 => fold_left (fun (o : nat -> R) i => fun k0 => if Nat.eqb k0 (2 * d * a0 + i) then cub_basis d a0 * q i * vol * rho else o k0) (seq 0 (2 * d)) o) (seq 0 n) o (a * (2 * d) + k)%nat
    = if Nat.ltb a n then cub_basis d a * q k * vol * rho else o (a * (2 * d) + k)%nat).
  { induction n as [|n IH]; intros o; [reflexivity|]. rewrite seq_S, fold_left_app. cbn [fold_left Nat.add].
    rewrite (inner_assign (2 * d) (2 * d * n) (fun i => cub_basis d n * q i * vol * rho)). rewrite IH.
    destruct (Nat.leb_spec (2 * d * n) (a * (2 * d) + k)), (Nat.ltb_spec (a * (2 * d) + k) (2 * d * n + 2 * d)), (Nat.ltb_spec a n), (Nat.ltb_spec a (S n)); try nia; cbn [andb]; try reflexivity.
    assert (a = n) by nia. subst n. replace (a * (2 * d) + k - 2 * d * a)%nat with k by nia. reflexivity. }
  intros o. rewrite H. rewrite (proj2 (Nat.ltb_lt a (S d)) Ha). reflexivity.
Qed.
Lemma state_part d u c i : (i < d)%nat -> state_values d u (c * d + i)%nat = interpolate d d i (part d c u).
Proof. intros Hi. unfold state_values, interpolate. apply rsum_ext. intros a _. rewrite part_at by exact Hi. reflexivity. Qed.

(** Damping: only the first node. *)
Lemma damping_at d (P Q : nat -> R) k :
  fold_left (fun (o : nat -> R) i => fun k => if Nat.eqb k (d + i) then P i else if Nat.eqb k i then Q i else o k) (seq 0 d) (fun _ => 0) k =
  if Nat.ltb k d then Q k else if Nat.ltb k (2 * d) then P (k - d)%nat else 0.
Proof.
  assert (H : forall n, (n <= d)%nat -> fold_left (fun (o : nat -> R) i => fun k => if Nat.eqb k (d + i) then P i else if Nat.eqb k i then Q i else o k) (seq 0 n) (fun _ => 0) k =
    if Nat.ltb k n then Q k else if (Nat.leb d k && Nat.ltb k (d + n))%bool then P (k - d)%nat else 0).
  { induction n as [|n IH]; intros Hn.
    - cbn [seq fold_left]. destruct (Nat.ltb_spec k 0); [lia|]. destruct (Nat.leb_spec d k), (Nat.ltb_spec k (d + 0)); try lia; reflexivity.
    - rewrite seq_S, fold_left_app. cbn [fold_left Nat.add]. rewrite IH by lia.
      destruct (Nat.eqb_spec k (d + n)) as [->|H1].
      + destruct (Nat.ltb_spec (d + n) (S n)); [lia|]. destruct (Nat.leb_spec d (d + n)), (Nat.ltb_spec (d + n) (d + S n)); try lia. cbn. f_equal. lia.
      + destruct (Nat.eqb_spec k n) as [->|H2].
        * destruct (Nat.ltb_spec n (S n)); [reflexivity|lia].
        * destruct (Nat.ltb_spec k n), (Nat.ltb_spec k (S n)); try lia; [reflexivity|].
          destruct (Nat.leb_spec d k), (Nat.ltb_spec k (d + n)), (Nat.ltb_spec k (d + S n)); try lia; reflexivity. }
  rewrite H by lia. destruct (Nat.ltb_spec k d); [reflexivity|]. destruct (Nat.leb_spec d k), (Nat.ltb_spec k (d + d)), (Nat.ltb_spec k (2 * d)); try lia; reflexivity.
Qed.
Lemma complex_damping_at d ra rb fe fi k : complex_damping d ra rb fe fi k =
  if Nat.ltb k d then ra * fi (d + k)%nat + rb * fe (d + k)%nat else if Nat.ltb k (2 * d) then - (ra * fi (k - d)%nat + rb * fe (k - d)%nat) else 0.
Proof.
  unfold complex_damping. rewrite (damping_at d (fun i => (-1) * (ra * fi i + rb * fe i)) (fun i => ra * fi (d + i)%nat + rb * fe (d + i)%nat)).
  destruct (Nat.ltb k d); [reflexivity|]. destruct (Nat.ltb k (2 * d)); [ring|reflexivity].
Qed.
Lemma adjoint_damping_at d ra rb fe fi k : adjoint_damping d ra rb fe fi k = - complex_damping d ra rb fe fi k.
Proof.
  rewrite complex_damping_at. unfold adjoint_damping. rewrite (damping_at d (fun i => ra * fi i + rb * fe i) (fun i => (-1) * (ra * fi (d + i)%nat + rb * fe (d + i)%nat))).
  destruct (Nat.ltb k d); [ring|]. destruct (Nat.ltb k (2 * d)); ring.
Qed.

(** The elastic and inertial forces of a cell, part by part. *)
Definition elastic_force (d : nat) (C : nat -> nat -> R) (x : coords) (u : nat -> R) (a i : nat) : R :=
  cell_measure d x * rsum d (fun j => rsum (num_voigt d) (fun v => strain d d (fun _ => 0) u (cell_gradient d x) v * C (voigt d i j) v) * cell_gradient d x a j).
Definition inertia_force (d : nat) (rho : R) (x : coords) (u : nat -> R) (a i : nat) : R := cub_basis d a * interpolate d d i u * cell_measure d x * rho.
Definition elastic_part (d : nat) (m : harmonic) (x : coords) (u : nat -> R) (c a i : nat) : R := elastic_force d (h_stiff m) x (part d c u) a i.
Definition inertia_part (d : nat) (m : harmonic) (x : coords) (u : nat -> R) (c a i : nat) : R := inertia_force d (h_rho m) x (part d c u) a i.
Lemma elastic_at d m x u a c i : (1 <= d <= 3)%nat -> (a < S d)%nat -> (c < 2)%nat -> (i < d)%nat ->
  complex_divergence d (cell_measure d x) (complex_stress (num_voigt d) (h_stiff m) (complex_strain d u (cell_gradient d x))) (cell_gradient d x) (a * (2 * d) + (c * d + i))%nat
  = elastic_part d m x u c a i.
Proof.
  intros Hd Ha Hc Hi. rewrite divergence_part by assumption. unfold elastic_part, elastic_force. f_equal. apply rsum_ext. intros j _. f_equal. unfold complex_stress.
  apply rsum_ext. intros v _. rewrite complex_strain_part by exact Hd. reflexivity.
Qed.
Lemma inertia_at d m x u a c i : (1 <= d <= 3)%nat -> (a < S d)%nat -> (c < 2)%nat -> (i < d)%nat ->
  inertial_forces d (h_rho m) (cell_measure d x) (state_values d u) (a * (2 * d) + (c * d + i))%nat = inertia_part d m x u c a i.
Proof. intros Hd Ha Hc Hi. rewrite inertial_at by (assumption || apply slot_lt; assumption). rewrite state_part by exact Hi. reflexivity. Qed.
Definition damping_part (d : nat) (m : harmonic) (x : coords) (u : nat -> R) (c a i : nat) : R :=
  match a with
  | O => match c with O => h_ra m * inertia_part d m x u 1 0 i + h_rb m * elastic_part d m x u 1 0 i
                    | _ => - (h_ra m * inertia_part d m x u 0 0 i + h_rb m * elastic_part d m x u 0 0 i) end
  | _ => 0
  end.
Lemma frequency_cell_at d pen proj w m x u z a c i : (1 <= d <= 3)%nat -> (a < S d)%nat -> (c < 2)%nat -> (i < d)%nat ->
  frequency_cell complex_damping d pen proj w m x u z (a * (2 * d) + (c * d + i))%nat =
    cell_penalty d pen proj z * (elastic_part d m x u c a i + damping_part d m x u c a i - w * w * inertia_part d m x u c a i) /\
  frequency_cell adjoint_damping d pen proj w m x u z (a * (2 * d) + (c * d + i))%nat =
    cell_penalty d pen proj z * (elastic_part d m x u c a i - damping_part d m x u c a i - w * w * inertia_part d m x u c a i).
Proof.
  intros Hd Ha Hc Hi. unfold frequency_cell. cbv zeta. unfold cell_residual.
  pose proof (slot_lt d c i Hc Hi) as Q.
  assert (L : (a * (2 * d) + (c * d + i) < S d * (2 * d))%nat) by nia. rewrite (proj2 (Nat.ltb_lt _ _) L).
  rewrite adjoint_damping_at. rewrite elastic_at, inertia_at by assumption.
  set (fe := complex_divergence d (cell_measure d x) _ _). set (fi := inertial_forces d (h_rho m) _ _).
  assert (D : complex_damping d (h_ra m) (h_rb m) fe fi (a * (2 * d) + (c * d + i))%nat = damping_part d m x u c a i).
  { rewrite complex_damping_at. destruct a as [|a].
    - cbn [Nat.mul Nat.add]. assert (c = 0 \/ c = 1)%nat as [-> | ->] by lia; cbn [Nat.mul Nat.add damping_part].
      + rewrite (proj2 (Nat.ltb_lt i d) Hi).
        replace (d + i)%nat with (0 * (2 * d) + (1 * d + i))%nat by lia. unfold fe, fi. rewrite elastic_at, inertia_at by lia. reflexivity.
      + destruct (Nat.ltb_spec (d + 0 + i) d); [lia|]. assert (N : (d + 0 + i <? d + (d + 0))%nat = true) by (apply Nat.ltb_lt; lia). rewrite N.
        replace (d + 0 + i - d)%nat with (0 * (2 * d) + (0 * d + i))%nat by lia. unfold fe, fi. rewrite elastic_at, inertia_at by lia. reflexivity.
    - destruct (Nat.ltb_spec (S a * (2 * d) + (c * d + i)) d); [nia|]. destruct (Nat.ltb_spec (S a * (2 * d) + (c * d + i)) (2 * d)); [nia|]. reflexivity. }
  rewrite D. split; ring.
Qed.

(** The equation of motion, part by part. *)
Lemma part_gather {M} d c U (cl : cell M) k : (1 <= d)%nat -> (c < 2)%nat -> part d c (gather (2 * d) U cl) k = gather d (part d c U) cl k.
Proof.
  intros Hd Hc. pose proof (Nat.mod_upper_bound k d ltac:(lia)) as Hk. pose proof (slot_lt d c (k mod d) Hc Hk) as Q.
  unfold part at 1. rewrite gather_at by exact Q. unfold gather. rewrite part_at by exact Hk. reflexivity.
Qed.

Lemma strain_scale d k u g v : (1 <= d <= 3)%nat -> (v < num_voigt d)%nat -> strain d d (fun _ => 0) (fun j => k * u j) g v = k * strain d d (fun _ => 0) u g v.
Proof.
  intros Hd Hv. pose proof (strain_lin d d u u (k - 1) g v Hv Hd) as E.
  rewrite (strain_ext d d (fun j => k * u j) (fun j => u j + (k - 1) * u j)) by (intros; lia || ring). rewrite E. ring.
Qed.
Lemma voigt_lt d i j : (1 <= d <= 3)%nat -> (i < d)%nat -> (j < d)%nat -> (voigt d i j < num_voigt d)%nat.
Proof. intros Hd Hi Hj. dims d; destruct i as [|[|[|i]]], j as [|[|[|j]]]; try lia; cbn; lia. Qed.
Lemma elastic_ext d C x u v a i : (1 <= d <= 3)%nat -> (forall j, (j < S d * d)%nat -> u j = v j) -> elastic_force d C x u a i = elastic_force d C x v a i.
Proof.
  intros Hd H. unfold elastic_force. f_equal. apply rsum_ext. intros j _. f_equal. apply rsum_ext. intros k _. rewrite (strain_ext d d u v) by (assumption || lia). reflexivity.
Qed.
Lemma elastic_scale d C x k u a i : (1 <= d <= 3)%nat -> elastic_force d C x (fun j => k * u j) a i = k * elastic_force d C x u a i.
Proof.
  intros Hd. unfold elastic_force.
  rewrite (rsum_ext d _ (fun j => k * (rsum (num_voigt d) (fun v => strain d d (fun _ => 0) u (cell_gradient d x) v * C (voigt d i j) v) * cell_gradient d x a j))).
  - rewrite rsum_scal_l. ring.
  - intros j _. rewrite (rsum_ext (num_voigt d) _ (fun v => k * (strain d d (fun _ => 0) u (cell_gradient d x) v * C (voigt d i j) v))).
    + rewrite rsum_scal_l. req. ring.
    + intros v Hv. rewrite strain_scale by assumption. req. ring.
Qed.
Lemma inertia_ext d rho x u v a i : (1 <= d)%nat -> (i < d)%nat -> (forall j, (j < S d * d)%nat -> u j = v j) -> inertia_force d rho x u a i = inertia_force d rho x v a i.
Proof. intros Hd Hi H. unfold inertia_force, interpolate. do 3 f_equal. apply rsum_ext. intros b Hb. rewrite H by nia. reflexivity. Qed.
Lemma inertia_scale d rho x k u a i : inertia_force d rho x (fun j => k * u j) a i = k * inertia_force d rho x u a i.
Proof.
  unfold inertia_force, interpolate. rewrite (rsum_ext (S d) (fun b => cub_basis d b * (k * u (b * d + i)%nat)) (fun b => k * (cub_basis d b * u (b * d + i)%nat))) by (intros; req; ring).
  rewrite rsum_scal_l. req. ring.
Qed.
Lemma elastic_0 d C x u a i : (1 <= d <= 3)%nat -> (forall j, u j = 0) -> elastic_force d C x u a i = 0.
Proof. intros Hd H. rewrite (elastic_ext d C x u (fun j => 0 * u j)) by (intros; rewrite ?H; lia || ring). rewrite elastic_scale by exact Hd. ring. Qed.
Lemma inertia_0 d rho x u a i : (1 <= d)%nat -> (i < d)%nat -> (forall j, u j = 0) -> inertia_force d rho x u a i = 0.
Proof. intros Hd Hi H. rewrite (inertia_ext d rho x u (fun j => 0 * u j)) by (intros; rewrite ?H; lia || ring). rewrite inertia_scale. ring. Qed.

Lemma project_at d vol q out a i : (a < S d)%nat -> (i < d)%nat -> project_vector d vol q out (a * d + i)%nat = out (a * d + i)%nat + cub_basis d a * q i * vol.
Proof.
  intros Ha Hi. rewrite project_vector_entry. f_equal. rewrite (rsum_single (S d) a); [|exact Ha|].
  - rewrite (rsum_single d i); [unfold pick; rewrite Nat.eqb_refl; reflexivity|exact Hi|].
    intros j Hj Hne. unfold pick. destruct (Nat.eqb_spec (a * d + i) (a * d + j)); [lia|reflexivity].
  - intros b Hb Hne. apply rsum_0. intros j Hj. unfold pick. destruct (Nat.eqb_spec (a * d + i) (b * d + j)) as [E|]; [|reflexivity].
    exfalso. apply Hne. assert (i = j /\ a = b)%nat; [|lia]. nia.
Qed.
Lemma dyn_cell_at d pen m x u v b z a i : (1 <= d <= 3)%nat -> (a < S d)%nat -> (i < d)%nat ->
  dyn_cell d pen (in_time m) x u v b z (a * d + i)%nat =
  pen (cell_density (S d) z) * (elastic_force d (h_stiff m) x u a i + h_rb m * elastic_force d (h_stiff m) x v a i
    + inertia_force d (h_rho m) x b a i + h_ra m * inertia_force d (h_rho m) x v a i).
Proof.
  intros Hd Ha Hi. unfold dyn_cell. cbv zeta. rewrite project_at by assumption.
  replace (a * d + i)%nat with (a * d + i + 0)%nat by lia. rewrite divergence_at by lia.
  unfold elastic_force.
  rewrite (rsum_ext d (fun j => dyn_stress d pen (in_time m) x u v z (voigt d i j) * cell_gradient d x a j)
    (fun j => pen (cell_density (S d) z) * (rsum (num_voigt d) (fun k => strain d d (fun _ => 0) u (cell_gradient d x) k * h_stiff m (voigt d i j) k) * cell_gradient d x a j)
       + pen (cell_density (S d) z) * h_rb m * (rsum (num_voigt d) (fun k => strain d d (fun _ => 0) v (cell_gradient d x) k * h_stiff m (voigt d i j) k) * cell_gradient d x a j))).
  2: { intros j _. rewrite dyn_stress_eq. unfold in_time. cbn [y_law y_rb e_stiff e_ref].
       rewrite (rsum_ext (num_voigt d) (fun k => (strain d d (fun _ => 0) u (cell_gradient d x) k - 0) * h_stiff m (voigt d i j) k) (fun k => strain d d (fun _ => 0) u (cell_gradient d x) k * h_stiff m (voigt d i j) k)) by (intros; req; ring).
       req. ring. }
  rewrite rsum_add, !rsum_scal_l. unfold weigh, inertia_force.
  destruct (damped (in_time m)) eqn:D.
  - unfold inertial_content_damped, interpolate_vector, in_time. cbn [y_rho y_ra]. req. ring.
  - destruct (damped_false _ D) as [H1 H2]. unfold in_time in H1, H2. cbn in H1, H2. rewrite H1, H2. unfold inertial_content, interpolate_vector, in_time. cbn [y_rho]. req. ring.
Qed.

(** One slot of a cell against the equation of motion of the cell. *)
Lemma forward_slot d pen proj w s X U Z (cl : cell harmonic) a c i : (1 <= d <= 3)%nat -> (a < S d)%nat -> (c < 2)%nat -> (i < d)%nat ->
  h_ra (c_mat cl) = 0 -> h_rb (c_mat cl) = 0 -> forall damping, (damping = complex_damping \/ damping = adjoint_damping) ->
  frequency_cell damping d pen proj w (c_mat cl) (gather_coords X cl) (gather (2 * d) U cl) (gather_control Z cl) (a * (2 * d) + (c * d + i))%nat =
  dyn_cell d (fun r => pen (proj r)) (in_time (c_mat cl)) (gather_coords X cl) (gather d (part d c U) cl) (gather d (velocity d s U c) cl)
    (gather d (fun k => - (w * w) * part d c U k) cl) (gather_control Z cl) (a * d + i)%nat.
Proof.
  intros Hd Ha Hc Hi H1 H2 damping Hdamp. rewrite dyn_cell_at by assumption. rewrite H1, H2.
  assert (D : damping_part d (c_mat cl) (gather_coords X cl) (gather (2 * d) U cl) c a i = 0).
  { unfold damping_part. rewrite H1, H2. destruct a; [|reflexivity]. destruct c; ring. }
  assert (E : elastic_part d (c_mat cl) (gather_coords X cl) (gather (2 * d) U cl) c a i = elastic_force d (h_stiff (c_mat cl)) (gather_coords X cl) (gather d (part d c U) cl) a i).
  { unfold elastic_part. apply elastic_ext; [exact Hd|]. intros j _. apply part_gather; lia. }
  assert (I : inertia_part d (c_mat cl) (gather_coords X cl) (gather (2 * d) U cl) c a i = inertia_force d (h_rho (c_mat cl)) (gather_coords X cl) (gather d (part d c U) cl) a i).
  { unfold inertia_part. apply inertia_ext; [lia|exact Hi|]. intros j _. apply part_gather; lia. }
  assert (A : inertia_force d (h_rho (c_mat cl)) (gather_coords X cl) (gather d (fun k => - (w * w) * part d c U k) cl) a i =
              - (w * w) * inertia_force d (h_rho (c_mat cl)) (gather_coords X cl) (gather d (part d c U) cl) a i).
  { rewrite <- inertia_scale. reflexivity. }
  destruct (frequency_cell_at d pen proj w (c_mat cl) (gather_coords X cl) (gather (2 * d) U cl) (gather_control Z cl) a c i Hd Ha Hc Hi) as [F G].
  rewrite A. unfold cell_penalty in F, G. destruct Hdamp as [-> | ->]; [rewrite F|rewrite G]; rewrite D, E, I; ring.
Qed.
Lemma undamped_motion damping d pen proj w s X U Z cells : (1 <= d <= 3)%nat -> undamped cells -> (damping = complex_damping \/ damping = adjoint_damping) ->
  is_motion d (fun r => pen (proj r)) w s X U Z cells (frequency_residual damping d pen proj w X U Z cells).
Proof.
  intros Hd Hu Hdamp n c i Hc Hi. unfold frequency_residual, motion, elastodynamic, cells_in_time.
  rewrite (assemble_rows (S d) (2 * d) d (fun c => mkCell (c_node c) (in_time (c_mat c))) _
    (fun cl => dyn_cell d (fun r => pen (proj r)) (c_mat cl) (gather_coords X cl) (gather d (part d c U) cl) (gather d (velocity d s U c) cl)
       (gather d (fun k => - (w * w) * part d c U k) cl) (gather_control Z cl)) cells n (c * d + i) i 1).
  - ring.
  - apply slot_lt; assumption.
  - exact Hi.
  - reflexivity.
  - intros cl a Hcl Ha. destruct (Hu cl Hcl) as [H1 H2]. rewrite (forward_slot d pen proj w s X U Z cl a c i Hd Ha Hc Hi H1 H2 damping Hdamp). cbn [c_mat]. rewrite Rmult_1_l. reflexivity.
Qed.

(** Work of a complex force, part by part. *)
Lemma work_parts d nn F W : (1 <= d)%nat ->
  work (nn * (2 * d)) F W = work (nn * d) (part d 0 F) (part d 0 W) + work (nn * d) (part d 1 F) (part d 1 W).
Proof.
  intros Hd. unfold work, rs. rewrite !(sum_block (K := R_ring)). rewrite <- rsum_add. apply rsum_ext. intros n Hn.
  replace (2 * d)%nat with (d + d)%nat at 1 by lia. rewrite (sum_split (K := R_ring)). change (@radd R_ring) with Rplus. f_equal; apply rsum_ext; intros i Hi; rewrite !part_at by exact Hi; do 2 f_equal; lia.
Qed.
Lemma work_ext n F G W : (forall k, (k < n)%nat -> F k = G k) -> work n F W = work n G W.
Proof. intros H. unfold work, rs. apply rsum_ext. intros k Hk. rewrite H by exact Hk. reflexivity. Qed.
Lemma motion_work d nn pen w s X U Z cells F W : (1 <= d <= 3)%nat -> is_motion d pen w s X U Z cells F ->
  work (nn * (2 * d)) F W = work (nn * d) (motion d pen w s X U Z cells 0) (part d 0 W) + work (nn * d) (motion d pen w s X U Z cells 1) (part d 1 W).
Proof.
  intros Hd H. rewrite work_parts by lia.
  assert (E : forall c k, (c < 2)%nat -> part d c F k = motion d pen w s X U Z cells c k).
  { intros c k Hc. pose proof (Nat.mod_upper_bound k d ltac:(lia)) as Hk. unfold part. rewrite (H (k / d)%nat c (k mod d)%nat Hc Hk). f_equal.
    rewrite (Nat.mul_comm (k / d)). symmetry. apply Nat.div_mod. lia. }
  f_equal; apply work_ext; intros k _; apply E; lia.
Qed.
Lemma mesh_in_time d nn X cells : mesh_ok d nn X cells -> mesh_ok d nn X (cells_in_time cells).
Proof. intros H. unfold mesh_ok, cells_in_time in *. rewrite map_map. exact H. Qed.
(** Weight and mass do not depend on the kind of material. *)
Lemma motion_energy d nn pen w X U Z cells c W : (1 <= d <= 3)%nat -> mesh_ok d nn X cells ->
  work (nn * d) (motion d pen w 0 X U Z cells c) W =
  sum_over cells (fun cl => - (w * w) * (mass_of d pen h_rho X Z cl * rs d (fun i => mean_of d (part d c U) cl i * mean_of d W cl i))
    + weight_of d pen X Z cl * stiff d (h_stiff (c_mat cl)) (strain_of d X (part d c U) cl) (strain_of d X W cl)).
Proof.
  intros Hd Hm. unfold motion. rewrite (dyn_work d nn) by (exact Hd || apply mesh_in_time; exact Hm). unfold cells_in_time. rewrite sum_over_map.
  assert (V : forall k, velocity d 0 U c k = 0) by (intros k; destruct c; cbn [velocity]; ring).
  apply sum_over_ext. intros cl Hcl. destruct (mesh_cell _ _ _ _ _ Hm Hcl) as [Hn Hv].
  set (cl' := mkCell (c_node cl) (in_time (c_mat cl))).
  assert (V1 : inertia_work d pen X Z cl' (velocity d 0 U c) W = 0).
  { unfold inertia_work. replace (rs d _) with 0; [ring|]. symmetry. unfold rs. apply rsum_0. intros i Hi. replace (mean_of d (velocity d 0 U c) cl' i) with 0; [ring|].
    unfold mean_of, rs. rewrite rsum_0 by (intros; apply V). unfold Rdiv. req. ring. }
  assert (V2 : stress_power d pen X Z cl' (strain_of d X (velocity d 0 U c) cl') (strain_of d X W cl') = 0).
  { unfold stress_power. replace (stiff d _ _ _) with 0; [ring|]. symmetry.
    assert (S0 : forall v, (v < num_voigt d)%nat -> strain_of d X (velocity d 0 U c) cl' v = 0).
    { intros v Hv'. unfold strain_of. rewrite (strain_ext d d _ (fun j => 0 * 0)) by (lia || (intros; unfold gather; rewrite V; ring)). rewrite strain_scale by assumption. ring. }
    unfold stiff, rs. apply rsum_0. intros v Hv'. rewrite rsum_0; [req; ring|]. intros j Hj. rewrite S0 by exact Hj. req. ring. }
  rewrite V1, V2.
  assert (I1 : inertia_work d pen X Z cl' (fun k => - (w * w) * part d c U k) W = - (w * w) * (mass_of d pen h_rho X Z cl * rs d (fun i => mean_of d (part d c U) cl i * mean_of d W cl i))).
  { unfold inertia_work. change (mass_of d pen y_rho X Z cl') with (mass_of d pen h_rho X Z cl).
    rewrite (rsum_ext d _ (fun i => - (w * w) * (mean_of d (part d c U) cl i * mean_of d W cl i))).
    - rewrite rsum_scal_l. unfold rs. ring.
    - intros i _. change (mean_of d W cl' i) with (mean_of d W cl i). replace (mean_of d (fun k => - (w * w) * part d c U k) cl' i) with (- (w * w) * mean_of d (part d c U) cl i); [req; ring|].
      unfold mean_of, rs. rewrite rsum_scal_l. unfold Rdiv. cbn [c_node cl']. ring. }
  rewrite I1. unfold stress_power. change (weight_of d pen X Z cl') with (weight_of d pen X Z cl).
  change (strain_of d X (part d c U) cl') with (strain_of d X (part d c U) cl). change (strain_of d X W cl') with (strain_of d X W cl).
  cbn [cl' c_mat in_time y_law e_stiff e_ref y_ra y_rb].
  rewrite (stiff_ext d (h_stiff (c_mat cl)) (fun j => strain_of d X (part d c U) cl j - 0) (strain_of d X W cl) (strain_of d X (part d c U) cl) (strain_of d X W cl)) by (intros; ring || reflexivity).
  ring.
Qed.
