(** C130, C131: elastic and plastic work, principal stresses. *)
From Coq Require Import String Reals List Arith Bool Lia Lra FunctionalExtensionality.
From Verif Require Import Base.Field Base.Sums Base.Res Element.ElementModel Element.ElementSpec Element.ElementProof Element.ElementProps Element.MaterialModel Element.MaterialSpec Element.MaterialProps
  Penalty.PenaltyModel Ortho.OrthoModel Residual.ResidualModel Residual.ResidualSpec Residual.ResidualProof Residual.ResidualProps Residual.CouplingProof Residual.CouplingProps Stab.StabModel Stab.StabProof
  Plasticity.J2Model Plasticity.J2Spec Plasticity.J2Proof Plasticity.J2Props Plasticity.GlobalModel Plasticity.GlobalSpec Plasticity.GlobalProof Plasticity.GlobalProps.
Import ListNotations.
Local Open Scope R_scope.

(** The elastic strain of a cell in a state, and the cells where the stress of the criteria is the isotropic one (C34). *)
Definition elastic_in (th : bool) (d : nat) (X : nat -> nat -> R) (s : pstate) (c : cell plastic) : nat -> R := elastic_of th d X (fst s) (snd s) c.
Definition sound_stress (th : bool) (d : nat) (X : nat -> nat -> R) (s : pstate) (c : cell plastic) : Prop :=
  d = 2%nat \/ (d = 3%nat /\ elastic_in th d X s c 2 = elastic_in th d X s c 3).

Lemma stress_sound th d pen X Z (s : pstate) c v : sound_stress th d X s c -> (v < components d)%nat ->
  state_stress th d pen (c_mat c) (gather_coords X c) (gather (dofs th d) (fst s) c) (snd s (k_cell (c_mat c))) (gather_control Z c) v
  = weight d pen Z c * isotropic_stress d (k_bulk (c_mat c)) (k_shear (c_mat c)) (elastic_in th d X s c) v.
Proof.
  intros H Hv. unfold state_stress. fold (weight d pen Z c). set (w := weight d pen Z c). set (e := elastic_in th d X s c).
  assert (E : forall k, state_strain th d (c_mat c) (gather_coords X c) (gather (dofs th d) (fst s) c) (snd s (k_cell (c_mat c))) k = e k).
  { intros k. unfold e, elastic_in. apply elastic_corner. destruct H as [->|[-> _]]; lia. }
  assert (C : forall K G, cauchy_stress d K G (state_strain th d (c_mat c) (gather_coords X c) (gather (dofs th d) (fst s) c) (snd s (k_cell (c_mat c)))) v = cauchy_stress d K G e v).
  { intros K G. unfold cauchy_stress. destruct d as [|[|[|d]]]; rewrite !E; reflexivity. }
  rewrite C. destruct H as [->|[-> H]].
  - destruct v as [|[|[|[|v]]]]; cbn in Hv; try lia; unfold isotropic_stress, isotropic_component, trace_of; cbn; field.
  - fold e in H. destruct v as [|[|[|[|[|[|v]]]]]]; cbn in Hv; try lia; unfold isotropic_stress, isotropic_component, trace_of; cbn; try rewrite <- H; field.
Qed.
Lemma energy_trapezoid d K G e f : (2 <= d <= 3)%nat ->
  rs (components d) (fun v => 1 / 2 * (isotropic_stress d K G e v + isotropic_stress d K G f v) * (e v - f v)) = strain_energy d K G e - strain_energy d K G f.
Proof.
  intros Hd. unfold strain_energy, isotropic_stress, isotropic_component, trace_of, rs. destruct d as [|[|[|[|d]]]]; try lia; cbn [components]; rsums; cbn; req; field.
Qed.
Definition cell_size (d : nat) (X : nat -> nat -> R) (c : cell plastic) : R := simplex_measure d (fun a i => X (c_node c a) i).
Definition stored (th : bool) (d : nat) (pen : R -> R) (X : nat -> nat -> R) (Z : nat -> R) (cells : list (cell plastic)) (s : pstate) : R :=
  sum_over cells (fun c => cell_size d X c * weight d pen Z c * strain_energy d (k_bulk (c_mat c)) (k_shear (c_mat c)) (elastic_in th d X s c)).
Lemma sum_over_minus {A} (l : list A) f g : sum_over l f - sum_over l g = sum_over l (fun x => f x - g x).
Proof. induction l as [|x l IH]; cbn; [ring|]. rewrite <- IH. ring. Qed.
Lemma elastic_step_stored th d nn pen X Z cells s s' : (2 <= d <= 3)%nat -> mesh_ok d nn X cells ->
  (forall c, In c cells -> sound_stress th d X s c /\ sound_stress th d X s' c) ->
  elastic_work_step th d pen X Z cells s s' = stored th d pen X Z cells s - stored th d pen X Z cells s'.
Proof.
  intros Hd Hm Hs. unfold elastic_work_step, work_step. rewrite total_sum. unfold stored. rewrite sum_over_minus. apply sum_over_ext. intros c Hc.
  destruct (mesh_cell _ _ _ _ _ Hm Hc) as [Hn Hv]. destruct (Hs c Hc) as [S1 S2]. cbv zeta. unfold elastic_work_cell, cell_size.
  change (fun a i => X (c_node c a) i) with (gather_coords X c). rewrite (proj1 (measure_simplex d _ ltac:(lia) Hv)).
  rewrite <- Rmult_minus_distr_l. rewrite <- energy_trapezoid by exact Hd. rewrite Rmult_comm. rewrite Rmult_assoc. f_equal. unfold rs. rewrite <- rsum_scal_l. rewrite nst_same by exact Hd. apply rsum_ext. intros v L.
  unfold average_stress. rewrite !stress_sound by assumption. rewrite !elastic_corner by exact Hd. fold (elastic_in th d X s c) (elastic_in th d X s' c). unfold elastic_in. req. ring.
Qed.

(** ** C130: along any history the elastic work is the stored energy at the end minus that at the start. *)
Theorem C130_stored_partial : forall th d nn pen X Z cells states s0, (2 <= d <= 3)%nat -> mesh_ok d nn X cells ->
  (forall s c, In s (s0 :: states) -> In c cells -> sound_stress th d X s c) ->
  elastic_work th d pen X Z cells s0 states = stored th d pen X Z cells (last states s0) - stored th d pen X Z cells s0.
Proof.
  intros th d nn pen X Z cells states s0 Hd Hm. revert s0. induction states as [|s l IH]; intros s0 Hs; [cbn; ring|].
  change (elastic_work th d pen X Z cells s0 (s :: l)) with (elastic_work_step th d pen X Z cells s s0 + elastic_work th d pen X Z cells s l).
  rewrite IH by (intros; apply Hs; [right; assumption|assumption]).
  rewrite (elastic_step_stored th d nn) by (try assumption; intros c Hc; split; apply Hs; cbn; tauto).
  replace (last (s :: l) s0) with (last l s) by (destruct l as [|y l]; [reflexivity|]; clear; revert s s0 y; induction l as [|z l IH]; intros; [reflexivity|]; cbn [last] in *; apply IH). ring.
Qed.
Print Assumptions C130_stored_partial.
(** The energy is not negative and vanishes with the elastic strain only. *)
Theorem C130_energy_positive : forall d K G e, (2 <= d <= 3)%nat -> 0 < K -> 0 < G ->
  0 <= strain_energy d K G e /\ (strain_energy d K G e = 0 -> forall v, (v < components d)%nat -> e v = 0).
Proof.
  intros d K G e Hd HK HG.
  assert (E : exists a b c s, strain_energy d K G e = 1 / 2 * (K * (trace_of d e * trace_of d e) + 2 * G * (a * a + b * b + c * c) + G * s) /\
     a = dev_of d e 0 /\ b = dev_of d e 1 /\ c = dev_of d e (if Nat.eqb d 2 then 3 else 2) /\ s = (if Nat.eqb d 2 then e 2%nat * e 2%nat else e 3%nat * e 3%nat + e 4%nat * e 4%nat + e 5%nat * e 5%nat)).
  { do 4 eexists. split; [|split; [reflexivity|split; [reflexivity|split; reflexivity]]].
    unfold strain_energy, isotropic_stress, isotropic_component, rs. destruct d as [|[|[|[|d]]]]; try lia; cbn [components Nat.eqb]; rsums; unfold dev_of, trace_of; cbn; req; field. }
  destruct E as (a & b & c & s & E & Ha & Hb & Hc & Hs).
  assert (P0 : 0 <= trace_of d e * trace_of d e) by apply Rle_0_sqr. assert (P1 : 0 <= a * a) by apply Rle_0_sqr. assert (P2 : 0 <= b * b) by apply Rle_0_sqr. assert (P3 : 0 <= c * c) by apply Rle_0_sqr.
  assert (P4 : 0 <= s). { rewrite Hs. pose proof (Rle_0_sqr (e 2%nat)). pose proof (Rle_0_sqr (e 3%nat)). pose proof (Rle_0_sqr (e 4%nat)). pose proof (Rle_0_sqr (e 5%nat)). unfold Rsqr in *. destruct (Nat.eqb d 2); lra. }
  assert (Q0 : 0 <= K * (trace_of d e * trace_of d e)) by (apply Rmult_le_pos; lra). assert (Q1 : 0 <= 2 * G * (a * a + b * b + c * c)) by (apply Rmult_le_pos; lra). assert (Q2 : 0 <= G * s) by (apply Rmult_le_pos; lra).
  split; [lra|]. intros E0. rewrite E in E0.
  assert (Z0 : K * (trace_of d e * trace_of d e) = 0) by lra. assert (Z1 : 2 * G * (a * a + b * b + c * c) = 0) by lra. assert (Z2 : G * s = 0) by lra.
  apply Rmult_integral in Z0, Z1, Z2. destruct Z0 as [Z0|Z0]; [lra|]. destruct Z1 as [Z1|Z1]; [lra|]. destruct Z2 as [Z2|Z2]; [lra|].
  assert (T : trace_of d e = 0) by (apply Rsqr_0_uniq; exact Z0).
  assert (A0 : a = 0) by (apply Rsqr_0_uniq; unfold Rsqr; lra). assert (B0 : b = 0) by (apply Rsqr_0_uniq; unfold Rsqr; lra). assert (C0 : c = 0) by (apply Rsqr_0_uniq; unfold Rsqr; lra).
  rewrite A0 in Ha. rewrite B0 in Hb. rewrite C0 in Hc. rewrite Z2 in Hs. clear -Hd T Ha Hb Hc Hs. unfold dev_of in Ha, Hb, Hc. rewrite T in *.
  pose proof (Rle_0_sqr (e 3%nat)). pose proof (Rle_0_sqr (e 4%nat)). pose proof (Rle_0_sqr (e 5%nat)). unfold Rsqr in *.
  intros v Hv. destruct d as [|[|[|[|d]]]]; try lia; cbn [Nat.eqb components] in *; destruct v as [|[|[|[|[|[|v]]]]]]; try lia; try lra; apply Rsqr_0_uniq; unfold Rsqr; lra.
Qed.
Print Assumptions C130_energy_positive.

(** ** Elastic and plastic work of a step together: the average of the internal forces times the displacement, where the pressures hold. *)
Definition moved (th : bool) (d : nat) (s s' : pstate) : nat -> R := virtual d (dofs th d) (fun k => fst s k - fst s' k).
Lemma moved_displacements th d s s' : only_displacements d (dofs th d) (moved th d s s').
Proof.
  intros n i Hi. unfold moved, virtual. rewrite (Nat.add_comm (n * dofs th d)), Nat.mod_add, (Nat.mod_small i) by lia. destruct (Nat.ltb_spec i d); [lia|reflexivity].
Qed.
Lemma moved_strain th d X s s' (c : cell plastic) v : (1 <= d <= 3)%nat -> strain_of th d X (moved th d s s') c v = strain_of th d X (fst s) c v - strain_of th d X (fst s') c v.
Proof.
  intros Hd. unfold strain_of, strain. destruct (nth_error (voigt_pairs d) v) as [[i j]|] eqn:E; [|ring]. destruct (pairs_lt d v i j Hd E) as [Hi Hj]. pose proof (d_le th d) as Hle.
  assert (G : forall a k, (k < d)%nat -> gather (dofs th d) (moved th d s s') c (a * dofs th d + k)%nat = gather (dofs th d) (fst s) c (a * dofs th d + k)%nat - gather (dofs th d) (fst s') c (a * dofs th d + k)%nat).
  { intros a k Hk. rewrite !gather_at by lia. unfold moved, virtual. rewrite (Nat.add_comm (c_node c a * dofs th d)), Nat.mod_add, (Nat.mod_small k) by lia. destruct (Nat.ltb_spec k d); [reflexivity|lia]. }
  destruct (Nat.eqb i j).
  - rewrite <- rsum_sub. apply rsum_ext. intros a _. rewrite G by exact Hi. req. ring.
  - rewrite !Rplus_0_l. rewrite <- rsum_sub. apply rsum_ext. intros a _. rewrite !G by assumption. req. ring.
Qed.
Theorem C130_total_partial : forall d nn pen X Q Q' Z cells s s', (2 <= d <= 3)%nat -> mesh_ok d nn X cells -> moduli_ok d pen Z cells ->
  (forall c, In c cells -> sound_stress false d X s c /\ sound_stress false d X s' c) ->
  (forall c, In c cells -> pressure_holds false d pen X (fst s) (snd s) Z c /\ pressure_holds false d pen X (fst s') (snd s') Z c) ->
  exists r r', plastic_residual false d pen X (fst s) (snd s) Q Z cells = Ok r /\ plastic_residual false d pen X (fst s') (snd s') Q' Z cells = Ok r' /\
    elastic_work_step false d pen X Z cells s s' + plastic_work_step false d pen X Z cells s s'
    = 1 / 2 * (work (nn * S d) r (moved false d s s') + work (nn * S d) r' (moved false d s s')).
Proof.
  intros d nn pen X Q Q' Z cells s s' Hd Hm Hk Hs Hp.
  destruct (C129_stress false d nn pen X (fst s) (snd s) Q Z cells (moved false d s s') Hd Hm Hk (fun c Hc => proj1 (Hp c Hc)) (moved_displacements false d s s')) as (r & E & W).
  destruct (C129_stress false d nn pen X (fst s') (snd s') Q' Z cells (moved false d s s') Hd Hm Hk (fun c Hc => proj2 (Hp c Hc)) (moved_displacements false d s s')) as (r' & E' & W').
  exists r, r'. split; [exact E|]. split; [exact E'|]. change (nn * S d)%nat with (nn * dofs false d)%nat. rewrite W, W'.
  unfold elastic_work_step, plastic_work_step, work_step. rewrite !total_sum. rewrite <- !sum_over_add, <- sum_over_scal. apply sum_over_ext. intros c Hc.
  destruct (mesh_cell _ _ _ _ _ Hm Hc) as [Hn Hv]. destruct (Hs c Hc) as [S1 S2]. cbv zeta. unfold elastic_work_cell, plastic_work_cell.
  change (fun a i => X (c_node c a) i) with (gather_coords X c). rewrite (proj1 (measure_simplex d _ ltac:(lia) Hv)). rewrite <- Rmult_plus_distr_r, <- rsum_add, Rmult_comm.
  rewrite !(Rmult_assoc (simplex_measure d _)), <- Rmult_plus_distr_l. rewrite (Rmult_comm (1 / 2)), Rmult_assoc. f_equal. rewrite <- Rmult_plus_distr_l. rewrite Rmult_assoc. unfold rs. rewrite <- rsum_add, rsum_scal_r, <- rsum_scal_l. rewrite nst_same by exact Hd.
  set (A := isotropic_stress d (k_bulk (c_mat c)) (k_shear (c_mat c)) (elastic_in false d X s c)). set (B := isotropic_stress d (k_bulk (c_mat c)) (k_shear (c_mat c)) (elastic_in false d X s' c)).
  rewrite (rsum_ext (components d) _ (fun v => weight d pen Z c * ((A v * strain_of false d X (moved false d s s') c v + B v * strain_of false d X (moved false d s s') c v) * (1 / 2)))).
  - destruct d as [|[|[|[|d]]]]; try lia; [|reflexivity]. cbn [components num_voigt]. rsums. rewrite (strain_33 false X (moved false 2 s s') c). fold (elastic_in false 2 X s c) (elastic_in false 2 X s' c). fold A B. req. ring.
  - intros v L. unfold average_stress. rewrite !stress_sound by assumption. fold A B. rewrite !elastic_corner by exact Hd. rewrite moved_strain by lia. unfold elastic_of, elastic_part, expansion_of, plastic_misfit, plastic_of. req.
    destruct (normal_component d v); lra.
Qed.
Print Assumptions C130_total_partial.

(** ** Plastic flow dissipates: no return mapping step without kinematic hardening gives work back, up to the tolerance of the yield test. *)
Lemma contraction_bound d s t : 0 < sqrt (frobenius2 d t) -> - (sqrt (frobenius2 d s) * sqrt (frobenius2 d t)) <= contraction d s t.
Proof.
  intros Hb. set (a := sqrt (frobenius2 d s)). set (b := sqrt (frobenius2 d t)) in *. set (p := contraction d s t).
  assert (Ha : 0 <= a) by apply sqrt_pos. assert (A2 : a * a = frobenius2 d s) by (apply sqrt_sqrt, frob_nonneg). assert (B2 : b * b = frobenius2 d t) by (apply sqrt_sqrt, frob_nonneg).
  assert (Q : forall x, 0 <= a * a + 2 * x * p + x * x * (b * b)).
  { intros x. rewrite A2, B2. replace (frobenius2 d s + 2 * x * p + x * x * frobenius2 d t) with (frobenius2 d (fun v => s v + x * t v)); [apply frob_nonneg|].
    unfold p, frobenius2, contraction. destruct d as [|[|[|d]]]; ring. }
  destruct (Rle_lt_or_eq_dec 0 a Ha) as [Pa|Za].
  - pose proof (Q (a / b)) as H. replace (a * a + 2 * (a / b) * p + a / b * (a / b) * (b * b)) with (2 * (a / b) * (a * b + p)) in H by (field; lra).
    assert (P : 0 < 2 * (a / b)) by (apply Rmult_lt_0_compat; [lra|apply Rdiv_lt_0_compat; lra]).
    destruct (Rle_lt_dec 0 (a * b + p)) as [G|G]; [lra|]. exfalso. pose proof (Rmult_lt_compat_l _ _ _ P G). lra.
  - rewrite <- Za in *. rewrite Rmult_0_l, Ropp_0. destruct (Rle_lt_dec 0 p) as [G|G]; [exact G|]. exfalso.
    pose proof (Q (- p / (b * b))) as H. replace (0 * 0 + 2 * (- p / (b * b)) * p + - p / (b * b) * (- p / (b * b)) * (b * b)) with (- (p * p / (b * b))) in H by (field; lra).
    assert (0 < p * p / (b * b)); [|lra]. apply Rdiv_lt_0_compat; [|apply Rmult_lt_0_compat; lra]. replace (p * p) with ((- p) * (- p)) by ring. apply Rmult_lt_0_compat; lra.
Qed.
Lemma contraction_self d s : contraction d s s = frobenius2 d s. Proof. reflexivity. Qed.
Lemma contraction_ext d s t t' : (forall v, (v < components d)%nat -> t v = t' v) -> contraction d s t = contraction d s t'.
Proof. intros H. unfold contraction. destruct d as [|[|[|d]]]; rewrite !H by (cbn; lia); reflexivity. Qed.
Lemma contraction_ext_l d s s' t : (forall v, (v < components d)%nat -> s v = s' v) -> contraction d s t = contraction d s' t.
Proof. intros H. unfold contraction. destruct d as [|[|[|d]]]; rewrite !H by (cbn; lia); reflexivity. Qed.
Lemma contraction_scal d c s t : contraction d s (fun v => c * t v) = c * contraction d s t.
Proof. unfold contraction. destruct d as [|[|[|d]]]; ring. Qed.
Lemma stress_contraction th d pen X Z (s : pstate) (c : cell plastic) m : (2 <= d <= 3)%nat -> trace_of d m = 0 ->
  (forall v, (v < components d)%nat -> backstress d (snd s (k_cell (c_mat c))) v = 0) ->
  rsum (nst d) (fun v => state_stress th d pen (c_mat c) (gather_coords X c) (gather (dofs th d) (fst s) c) (snd s (k_cell (c_mat c))) (gather_control Z c) v * m v)
  = contraction d (relative_stress d (weight d pen Z c * k_shear (c_mat c)) (strain_of th d X (fst s) c) (snd s (k_cell (c_mat c)))) (tensorial d m).
Proof.
  intros Hd Ht Hb. unfold state_stress. fold (weight d pen Z c). set (w := weight d pen Z c). set (ls := snd s (k_cell (c_mat c))) in *.
  assert (E : forall k, state_strain th d (c_mat c) (gather_coords X c) (gather (dofs th d) (fst s) c) ls k = strain_of th d X (fst s) c k - ls (2 + k)%nat - (if normal_component d k then expansion_of th d (fst s) c else 0)).
  { intros k. unfold ls. rewrite elastic_corner by exact Hd. reflexivity. }
  set (es := state_strain th d (c_mat c) (gather_coords X c) (gather (dofs th d) (fst s) c) ls) in *. set (e := strain_of th d X (fst s) c). fold e in E. set (x := expansion_of th d (fst s) c) in *.
  assert (RS : forall v, (v < components d)%nat -> relative_stress d (w * k_shear (c_mat c)) e ls v = 2 * (w * k_shear (c_mat c)) * dev_of d (fun u => tensorial d e u - plastic_strain d ls u) v).
  { intros v Hv. unfold relative_stress. rewrite Hb by exact Hv. ring. }
  rewrite (contraction_ext_l d _ _ _ RS). clearbody es e x. clear RS Hb.
  destruct d as [|[|[|[|d]]]]; try lia; unfold trace_of in Ht; [replace (m 3%nat) with (- m 0%nat - m 1%nat) by lra|replace (m 2%nat) with (- m 0%nat - m 1%nat) by lra];
    unfold nst; cbn [Nat.eqb]; rsums; unfold cauchy_stress, contraction, dev_of, trace_of, plastic_strain, tensorial; rewrite !E; unfold normal_component; cbn [Nat.eqb Nat.ltb Nat.leb negb Nat.add].
  - replace (m 3%nat) with (- m 0%nat - m 1%nat) by lra. req. field.
  - replace (m 2%nat) with (- m 0%nat - m 1%nat) by lra. req. field.
Qed.
(** The local state of a cell came out of the return mapping (C38) for its strain. *)
Definition returned (th : bool) (d : nat) (X : nat -> nat -> R) (j : cell plastic -> j2) (c : cell plastic) (s s' : pstate) : Prop :=
  forall k, (k < local_size d)%nat -> snd s (k_cell (c_mat c)) k = update_local_state d (j c) (expansion_of th d (fst s) c) (strain_of th d X (fst s) c) (snd s' (k_cell (c_mat c))) k.
(** Constants of the return mapping, without kinematic hardening, that go with those of the criterion. *)
Definition perfect (d : nat) (pen : R -> R) (Z : nat -> R) (j : cell plastic -> j2) (c : cell plastic) : Prop :=
  J2Props.admissible (j c) /\ j_shear (j c) = weight d pen Z c * k_shear (c_mat c) /\ j_kin (j c) = 0.
(** A state the return mapping may start from, with the yield function at most tol. *)
Definition admissible_state (th : bool) (d : nat) (X : nat -> nat -> R) (j : cell plastic -> j2) (tol : R) (c : cell plastic) (s : pstate) : Prop :=
  let ls := snd s (k_cell (c_mat c)) in
  0 <= accumulated ls /\ (forall v, (v < components d)%nat -> backstress d ls v = 0) /\
  yield_function d (j_shear (j c)) (j_iso (j c)) (j_yield (j c)) (strain_of th d X (fst s) c) ls <= tol.
Definition flow_in (s : pstate) (c : cell plastic) : R := accumulated (snd s (k_cell (c_mat c))).

Lemma plastic_ext d ls ls' : (2 <= d <= 3)%nat -> (forall k, (k < local_size d)%nat -> ls k = ls' k) -> forall v, (v < components d)%nat -> plastic_strain d ls v = plastic_strain d ls' v.
Proof.
  intros Hd H v Hv. unfold plastic_strain, tensorial. unfold local_size in H. rewrite nst_same in H by exact Hd.
  destruct d as [|[|[|[|d]]]]; try lia; cbn [components] in *; destruct v as [|[|[|[|[|[|v]]]]]]; try lia; rewrite H by lia; reflexivity.
Qed.
Lemma back_ext d ls ls' : (2 <= d <= 3)%nat -> (forall k, (k < local_size d)%nat -> ls k = ls' k) -> forall v, (v < components d)%nat -> backstress d ls v = backstress d ls' v.
Proof. intros Hd H v Hv. unfold backstress. apply H. unfold local_size. rewrite nst_same by exact Hd. lia. Qed.
Lemma relative_ext d G e ls ls' : (2 <= d <= 3)%nat -> (forall k, (k < local_size d)%nat -> ls k = ls' k) -> forall v, (v < components d)%nat -> relative_stress d G e ls v = relative_stress d G e ls' v.
Proof.
  intros Hd H v Hv. unfold relative_stress. rewrite (back_ext d ls ls' Hd H v Hv). f_equal. f_equal. pose proof (plastic_ext d ls ls' Hd H) as P.
  unfold dev_of, trace_of. destruct d as [|[|[|[|d]]]]; try lia; cbn [components] in *; destruct v as [|[|[|[|[|[|v]]]]]]; try lia; rewrite !P by lia; reflexivity.
Qed.
Lemma yield_ext d G Hi s0 e ls ls' : (2 <= d <= 3)%nat -> (forall k, (k < local_size d)%nat -> ls k = ls' k) -> yield_function d G Hi s0 e ls = yield_function d G Hi s0 e ls'.
Proof.
  intros Hd H. unfold yield_function. rewrite (frob_ext d (relative_stress d G e ls') (relative_stress d G e ls)) by (intros; apply relative_ext; assumption).
  unfold accumulated. rewrite H by (unfold local_size; lia). reflexivity.
Qed.
Lemma back_trace d ls : (2 <= d <= 3)%nat -> (forall v, (v < components d)%nat -> backstress d ls v = 0) -> trace_of d (backstress d ls) = 0.
Proof. intros Hd H. unfold trace_of. destruct d as [|[|[|[|d]]]]; try lia; rewrite !H by (cbn; lia); ring. Qed.
Lemma tensorial_trace d m : (2 <= d <= 3)%nat -> trace_of d (tensorial d m) = trace_of d m.
Proof. intros Hd. destruct d as [|[|[|[|d]]]]; try lia; reflexivity. Qed.
Lemma trace_scal d c t : trace_of d (fun v => c * t v) = c * trace_of d t.
Proof. unfold trace_of. destruct d as [|[|[|d]]]; ring. Qed.

(** One cell: either nothing flows, or the work is at least the hardening minus the tolerance. *)
Lemma flow_cell th d pen X Z j tol c s s' : (2 <= d <= 3)%nat -> perfect d pen Z j c -> admissible_state th d X j tol c s' -> returned th d X j c s s' -> 0 <= tol ->
  let W := rsum (nst d) (fun v => average_stress th d pen (c_mat c) (gather_coords X c) (gather (dofs th d) (fst s) c) (gather (dofs th d) (fst s') c)
                          (snd s (k_cell (c_mat c))) (snd s' (k_cell (c_mat c))) (gather_control Z c) v * plastic_misfit (snd s (k_cell (c_mat c))) (snd s' (k_cell (c_mat c))) v) in
  - (tol / 2) * (flow_in s c - flow_in s' c) <= W /\ flow_in s' c <= flow_in s c /\ admissible_state th d X j (/ 10 ^ 10) c s.
Proof.
  intros Hd (Ha & HG & Hk) (H0 & Hb & Hy) HR Ht W. set (ls := snd s (k_cell (c_mat c))) in *. set (prev := snd s' (k_cell (c_mat c))) in *.
  set (e := strain_of th d X (fst s) c) in *. set (up := update_local_state d (j c) (expansion_of th d (fst s) c) e prev) in *.
  assert (HR' : forall k, (k < local_size d)%nat -> ls k = up k) by exact HR.
  assert (Hd2 : (d = 2 \/ d = 3)%nat) by lia.
  pose proof (C38_return_mapping d (j c) (expansion_of th d (fst s) c) e prev Hd2 Ha H0 (back_trace d prev Hd Hb)) as RM. cbv zeta in RM. fold up in RM.
  assert (AC : accumulated ls = accumulated up) by (unfold accumulated; apply HR'; unfold local_size; lia).
  assert (PS := plastic_ext d ls up Hd HR'). assert (BS := back_ext d ls up Hd HR').
  unfold flow_in. fold ls prev. set (m := plastic_misfit ls prev) in *.
  assert (TM : forall v, (v < components d)%nat -> tensorial d m v = plastic_strain d ls v - plastic_strain d prev v).
  { intros v Hv. unfold m, plastic_misfit, plastic_strain, tensorial. destruct d as [|[|[|[|d]]]]; try lia; cbn [components] in *; destruct v as [|[|[|[|[|[|v]]]]]]; try lia; try reflexivity; field. }
  destruct RM as [(Y & Y' & _ & A & HH)|(Y & Y' & ML & A & NP & HH)].
  - assert (M0 : forall v, (v < components d)%nat -> m v = 0).
    { intros v Hv. assert (T0 : tensorial d m v = 0) by (rewrite TM, PS, (proj1 (HH v Hv)) by exact Hv; ring). revert T0. unfold tensorial.
      destruct d as [|[|[|[|d]]]]; try lia; cbn [components] in *; destruct v as [|[|[|[|[|[|v]]]]]]; try lia; lra. }
    assert (W0 : W = 0).
    { unfold W. apply rsum_0. intros v Hv. fold m. rewrite nst_same in Hv by exact Hd. rewrite M0 by exact Hv. req. ring. }
    rewrite W0, AC, A. split; [lra|]. split; [lra|]. split; [fold ls; rewrite AC, A; exact H0|]. split.
    + intros v Hv. fold ls. rewrite BS, (proj2 (HH v Hv)) by exact Hv. apply Hb. exact Hv.
    + fold ls e. rewrite (yield_ext d _ _ _ _ ls up Hd HR'). rewrite Y'. exact Y.
  - set (r := relative_stress d (j_shear (j c)) e up) in *. set (N := sqrt (frobenius2 d r)) in *. set (g := multiplier up) in *.
    assert (TM2 : forall v, (v < components d)%nat -> tensorial d m v = g * sqrt (3 / 2) / N * r v).
    { intros v Hv. rewrite TM, PS, (proj1 (HH v Hv)) by exact Hv. field. lra. }
    assert (BL : forall v, (v < components d)%nat -> backstress d ls v = 0).
    { intros v Hv. rewrite BS by exact Hv. pose proof (proj2 (HH v Hv)) as B. rewrite Hk, (Hb v Hv) in B. lra. }
    assert (TR : trace_of d m = 0).
    { rewrite <- tensorial_trace by exact Hd. rewrite (trace_ext d (fun v => g * sqrt (3 / 2) / N * r v) (tensorial d m) Hd2 TM2), trace_scal. unfold r.
      rewrite trace_relative by exact Hd2. rewrite (back_trace d up Hd); [ring|]. intros v Hv. rewrite <- BS by exact Hv. apply BL. exact Hv. }
    assert (WV : W = 1 / 2 * (contraction d r (tensorial d m) + contraction d (relative_stress d (j_shear (j c)) (strain_of th d X (fst s') c) prev) (tensorial d m))).
    { unfold W, average_stress. fold m.
      rewrite (rsum_ext (nst d) _ (fun v => 1 / 2 * (state_stress th d pen (c_mat c) (gather_coords X c) (gather (dofs th d) (fst s) c) ls (gather_control Z c) v * m v
        + state_stress th d pen (c_mat c) (gather_coords X c) (gather (dofs th d) (fst s') c) prev (gather_control Z c) v * m v))) by (intros; req; ring).
      rewrite rsum_scal_l, rsum_add. unfold ls, prev. rewrite !stress_contraction by assumption. fold ls prev e. rewrite <- HG.
      rewrite (contraction_ext_l d (relative_stress d (j_shear (j c)) e ls) r) by (intros; apply relative_ext; assumption). reflexivity. }
    set (q := relative_stress d (j_shear (j c)) (strain_of th d X (fst s') c) prev) in *.
    rewrite (contraction_ext d r _ _ TM2), (contraction_ext d q _ _ TM2), !contraction_scal, contraction_self in WV.
    assert (N2 : frobenius2 d r = N * N) by (symmetry; apply sqrt_sqrt, frob_nonneg). rewrite N2 in WV.
    pose proof (contraction_bound d q r NP) as CB. fold N in CB. set (NQ := sqrt (frobenius2 d q)) in *.
    (* yield functions *)
    unfold yield_function in Y'. fold r N in Y'. rewrite A in Y'. unfold yield_function in Hy. fold q NQ in Hy.
    assert (S32 : 0 < sqrt (3 / 2)) by (apply sqrt_lt_R0; lra). destruct Ha as (Ha1 & Ha2 & Ha3 & Ha4).
    set (S := sqrt (3 / 2)) in *. set (a0 := accumulated prev) in *.
    assert (GP : 0 < g) by exact ML.
    assert (C1 : g * S / N * (N * N) = g * (S * N)) by (field; lra).
    assert (C2 : - (g * (S * NQ)) <= g * S / N * contraction d q r).
    { assert (P : 0 < g * S / N) by (apply Rdiv_lt_0_compat; [apply Rmult_lt_0_compat; lra|lra]).
      replace (- (g * (S * NQ))) with (g * S / N * (- (NQ * N))) by (field; lra). apply Rmult_le_compat_l; lra. }
    assert (C3 : g * (S * NQ) <= g * (tol + (j_yield (j c) + j_iso (j c) * a0))) by (apply Rmult_le_compat_l; lra).
    assert (C4 : g * (S * N) = g * (j_yield (j c) + j_iso (j c) * (a0 + g))) by (f_equal; lra).
    assert (C5 : 0 <= j_iso (j c) * g * g) by (apply Rmult_le_pos; [apply Rmult_le_pos; lra|lra]).
    assert (C6 : g * (j_yield (j c) + j_iso (j c) * (a0 + g)) = g * (j_yield (j c) + j_iso (j c) * a0) + j_iso (j c) * g * g) by ring.
    assert (C7 : g * (tol + (j_yield (j c) + j_iso (j c) * a0)) = g * tol + g * (j_yield (j c) + j_iso (j c) * a0)) by ring.
    rewrite C1 in WV. rewrite AC, A. replace (a0 + g - a0) with g by ring.
    split; [|split; [lra|]].
    + rewrite WV. lra.
    + split; [fold ls; rewrite AC, A; lra|]. split; [fold ls; exact BL|]. fold ls e. rewrite (yield_ext d _ _ _ _ ls up Hd HR'). unfold yield_function. fold r N S. rewrite A.
      assert (0 < / 10 ^ 10) by (apply Rinv_0_lt_compat, pow_lt; lra). lra.
Qed.
Fixpoint successive (P : pstate -> pstate -> Prop) (s : pstate) (l : list pstate) : Prop := match l with [] => True | x :: l' => P x s /\ successive P x l' end.
Theorem C130_dissipation : forall th d nn pen X Z cells j states s0, (2 <= d <= 3)%nat -> mesh_ok d nn X cells ->
  (forall c, In c cells -> perfect d pen Z j c /\ admissible_state th d X j (/ 10 ^ 10) c s0) ->
  successive (fun s s' => forall c, In c cells -> returned th d X j c s s') s0 states ->
  - (/ 10 ^ 10 / 2) * sum_over cells (fun c => cell_size d X c * (flow_in (last states s0) c - flow_in s0 c)) <= plastic_work th d pen X Z cells s0 states /\
  (forall c, In c cells -> flow_in s0 c <= flow_in (last states s0) c).
Proof.
  intros th d nn pen X Z cells j states s0 Hd Hm. revert s0. induction states as [|s l IH]; intros s0 H0 HS.
  - cbn. split; [|intros; lra]. rewrite (sum_over_0 cells); [lra|]. intros c _. ring.
  - destruct HS as [HR HS]. assert (tol : 0 <= / 10 ^ 10) by (apply Rlt_le, Rinv_0_lt_compat, pow_lt; lra).
    assert (ST := fun c Hc => flow_cell th d pen X Z j (/ 10 ^ 10) c s s0 Hd (proj1 (H0 c Hc)) (proj2 (H0 c Hc)) (HR c Hc) tol). cbv zeta in ST.
    destruct (IH s) as [I1 I2]; [intros c Hc; split; [apply H0; exact Hc|apply ST; exact Hc]|exact HS|].
    change (plastic_work th d pen X Z cells s0 (s :: l)) with (plastic_work_step th d pen X Z cells s s0 + plastic_work th d pen X Z cells s l).
    replace (last (s :: l) s0) with (last l s) by (destruct l as [|y l']; [reflexivity|]; clear; revert s s0 y; induction l' as [|z l' IH]; intros; [reflexivity|]; cbn [last] in *; apply IH).
    split; [|intros c Hc; pose proof (I2 c Hc); pose proof (proj1 (proj2 (ST c Hc))); lra].
    assert (B : - (/ 10 ^ 10 / 2) * sum_over cells (fun c => cell_size d X c * (flow_in s c - flow_in s0 c)) <= plastic_work_step th d pen X Z cells s s0).
    { unfold plastic_work_step, work_step. rewrite total_sum. rewrite <- sum_over_scal. apply Rminus_le. rewrite sum_over_minus.
      match goal with |- sum_over cells ?f <= 0 => assert (P : 0 <= sum_over cells (fun c => - f c)) end.
      { apply sum_over_nonneg. intros c Hc. cbv beta zeta. destruct (mesh_cell _ _ _ _ _ Hm Hc) as [Hn Hv]. destruct (measure_simplex d (gather_coords X c) ltac:(lia) Hv) as [EM PM].
        unfold plastic_work_cell, cell_size. change (fun a i => X (c_node c a) i) with (gather_coords X c). rewrite <- EM. destruct (ST c Hc) as [ST1 _].
        match goal with |- 0 <= - (_ - ?w * _) => set (w0 := w) in * end. pose proof (Rmult_le_compat_r (cell_measure d (gather_coords X c)) _ _ ltac:(lra) ST1) as H.
        match goal with |- 0 <= ?g => replace g with (w0 * cell_measure d (gather_coords X c) - - (/ 10 ^ 10 / 2) * (flow_in s c - flow_in s0 c) * cell_measure d (gather_coords X c)) by ring end. lra. }
      assert (E : forall f, sum_over cells (fun c : cell plastic => - f c) = - sum_over cells f) by (intros f; clear; induction cells as [|c l IH]; cbn; [ring|rewrite IH; ring]). rewrite E in P. lra. }
    assert (E : sum_over cells (fun c => cell_size d X c * (flow_in (last l s) c - flow_in s0 c)) = sum_over cells (fun c => cell_size d X c * (flow_in (last l s) c - flow_in s c)) + sum_over cells (fun c => cell_size d X c * (flow_in s c - flow_in s0 c))).
    { rewrite <- sum_over_add. apply sum_over_ext. intros. ring. }
    rewrite E. lra.
Qed.
Print Assumptions C130_dissipation.
(** From states on or inside the yield surface the work of a step is not negative. *)
Theorem C130_dissipation_step : forall th d nn pen X Z cells j s s', (2 <= d <= 3)%nat -> mesh_ok d nn X cells ->
  (forall c, In c cells -> perfect d pen Z j c /\ admissible_state th d X j 0 c s' /\ returned th d X j c s s') -> 0 <= plastic_work_step th d pen X Z cells s s'.
Proof.
  intros th d nn pen X Z cells j s s' Hd Hm H. unfold plastic_work_step, work_step. rewrite total_sum. apply sum_over_nonneg. intros c Hc. destruct (H c Hc) as (H1 & H2 & H3).
  destruct (flow_cell th d pen X Z j 0 c s s' Hd H1 H2 H3 ltac:(lra)) as [B _]. cbv zeta. unfold plastic_work_cell. destruct (mesh_cell _ _ _ _ _ Hm Hc) as [Hn Hv].
  destruct (measure_simplex d (gather_coords X c) ltac:(lia) Hv) as [_ PM]. apply Rmult_le_pos; [|lra]. eapply Rle_trans; [|exact B]. lra.
Qed.
Print Assumptions C130_dissipation_step.
(** The hypotheses: a sheet sheared from rest beyond yield. *)
Definition sheared (k : nat) : R := match (k mod 3)%nat with 0%nat => 2 * square_X (k / 3) 1 | _ => 0 end.
Definition hard : j2 := mkJ2 1 1 0 1.
Definition pulled (c : cell plastic) : pstate := (sheared, fun _ => update_local_state 2 hard 0 (strain_of false 2 square_X sheared c) (fun _ => 0)).
Lemma square_weight m : forall c, In c (square m) -> weight 2 (fun z => z) (fun _ => 1) c = 1.
Proof. intros c [<-|[<-|[]]]; unfold weight, cell_density, gather_control; rsums; cbn; field. Qed.
Lemma rest_strain th d X c v : strain_of th d X (fst zero_state) c v = 0.
Proof.
  unfold strain_of, strain. destruct (nth_error (voigt_pairs d) v) as [[i j]|]; [|reflexivity]. unfold gather, zero_state. cbn [fst].
  destruct (Nat.eqb i j); [apply rsum_0; intros; req; ring|]. rewrite (rsum_0 (S d)); [req; ring|intros; req; ring].
Qed.
Lemma rest_admissible th d X j tol c : (2 <= d <= 3)%nat -> 0 <= tol -> 0 < j_yield (j c) -> admissible_state th d X j tol c zero_state.
Proof.
  intros Hd Ht Hy. split; [cbn; lra|]. split; [intros; reflexivity|]. unfold yield_function.
  assert (F : frobenius2 d (relative_stress d (j_shear (j c)) (strain_of th d X (fst zero_state) c) (snd zero_state (k_cell (c_mat c)))) = 0).
  { unfold frobenius2, relative_stress, dev_of, trace_of, plastic_strain, tensorial, backstress. destruct d as [|[|[|[|d]]]]; try lia; rewrite !rest_strain; cbn; field. }
  rewrite F, sqrt_0. cbn. lra.
Qed.
Lemma sheared_strain c : In c (square (sheet 0)) -> forall v, strain_of false 2 square_X sheared c v = if Nat.eqb v 2 then 2 else 0.
Proof.
  intros Hc. assert (HU : forall n i, (i < 3)%nat -> sheared (n * 3 + i)%nat = match i with 0%nat => 2 * square_X n 1 | _ => 0 end).
  { intros n i Hi. unfold sheared. rewrite (Nat.add_comm (n * 3)), Nat.mod_add, (Nat.mod_small i 3), Nat.div_add, (Nat.div_small i 3) by lia. destruct i as [|[|[|i]]]; reflexivity. }
  assert (M : moves 2 4 3 square_X (fun _ => 0) (fun i j => if (Nat.eqb i 0 && Nat.eqb j 1)%bool then 2 else 0) sheared).
  { intros n i Hn Hi. rewrite HU by lia. unfold affine, rs. destruct i as [|[|i]]; try lia; rsums; cbn; ring. }
  destruct (mesh_cell _ _ _ _ _ (square_ok (sheet 0)) Hc) as [Hn Hv]. intros v.
  pose proof (proj1 (C32_strain 2 3 (gather_coords square_X c) _ _ _ ltac:(lia) ltac:(lia) Hv (gather_moves 2 4 3 square_X _ _ sheared c ltac:(lia) Hn M))) as ES.
  destruct v as [|[|[|v]]]; try (unfold strain_of; change (dofs false 2) with 3%nat; rewrite ES by (cbn; lia); cbn; ring).
  unfold strain_of, strain. change (voigt_pairs 2) with [(0, 0); (1, 1); (0, 1)]%nat. destruct v; reflexivity.
Qed.
Lemma hard_admissible : J2Props.admissible hard. Proof. unfold J2Props.admissible; cbn; lra. Qed.
Example C130_reachable : forall c0, In c0 (square (sheet 0)) ->
  (forall c, In c (square (sheet 0)) -> perfect 2 (fun z => z) (fun _ => 1) (fun _ => hard) c /\ admissible_state false 2 square_X (fun _ => hard) 0 c zero_state
     /\ returned false 2 square_X (fun _ => hard) c (pulled c0) zero_state) /\ 0 < flow_in (pulled c0) c0.
Proof.
  intros c0 H0. split.
  - intros c Hc. split; [|split].
    + split; [apply hard_admissible|]. rewrite square_weight with (m := sheet 0) by exact Hc. destruct Hc as [<-|[<-|[]]]; cbn; split; ring.
    + apply rest_admissible; [lia|lra|cbn; lra].
    + intros k Hk. unfold pulled. cbn [fst snd expansion_of]. unfold zero_state. cbn [snd].
      assert (E : strain_of false 2 square_X sheared c0 = strain_of false 2 square_X sheared c) by (apply FunctionalExtensionality.functional_extensionality; intros v; rewrite !sheared_strain by assumption; reflexivity).
      rewrite E. reflexivity.
  - pose proof (C38_return_mapping 2 hard 0 (strain_of false 2 square_X sheared c0) (fun _ => 0) (or_introl eq_refl) hard_admissible (Rle_refl 0) ltac:(unfold trace_of, backstress; lra)) as RM. cbv zeta in RM.
    unfold flow_in, pulled. cbn [snd]. destruct RM as [(Y & _)|(_ & _ & ML & A & _)].
    + exfalso. unfold yield_function in Y.
      assert (F : frobenius2 2 (relative_stress 2 (j_shear hard) (strain_of false 2 square_X sheared c0) (fun _ => 0)) = 2 * 2 * 2).
      { unfold frobenius2, relative_stress, dev_of, trace_of, plastic_strain, tensorial, backstress. rewrite !sheared_strain by exact H0. cbn. field. }
      rewrite F in Y. rewrite <- sqrt_mult in Y by lra. replace (3 / 2 * (2 * 2 * 2)) with 12 in Y by field. cbn [accumulated hard j_yield j_iso] in Y.
      assert (S3 : 3 < sqrt 12) by (rewrite <- (sqrt_square 3) by lra; apply sqrt_lt_1; lra).
      assert (/ 10 ^ 10 < 1) by (rewrite <- Rinv_1; apply Rinv_lt_contravar; [rewrite Rmult_1_l; apply pow_lt; lra|apply Rlt_pow_R1; [lra|lia]]). unfold accumulated in Y. lra.
    + rewrite A. cbn in *. unfold accumulated. lra.
Qed.

(** ** In three dimensions a closed cycle of elastic states can do work, because of the trace of C34. *)
Definition corner_X (n i : nat) : R := if Nat.eqb n (S i) then 1 else 0.
Definition stretched (k : nat) : R := if Nat.eqb k 4 then 1 else 0.
Definition slid (k : nat) : R := if Nat.eqb k 13 then 1 else 0.
Definition still (U : nat -> R) : pstate := (U, fun _ _ => 0).
Lemma corner_ok (m : plastic) : mesh_ok 3 4 corner_X (one m).
Proof.
  intros c [<-|[]]. split; [intros a Ha; cbn; lia|]. unfold simplex_measure, corner_X. cbn. match goal with |- Rabs ?q / _ <> 0 => replace q with 1 by ring end. rewrite Rabs_R1. lra.
Qed.
Lemma corner_strain m U A : moves 3 4 4 corner_X (fun _ => 0) A U -> forall v, (v < 6)%nat ->
  state_strain false 3 m (gather_coords corner_X (mkCell (fun a => a) m)) (gather (dofs false 3) U (mkCell (fun a => a) m)) (fun _ => 0) v = engineering_strain 3 A v.
Proof.
  intros M v Hv. assert (Hc : In (mkCell (fun a => a) m) (one m)) by (left; reflexivity). destruct (mesh_cell _ _ _ _ _ (corner_ok m) Hc) as [Hn HV].
  change (state_strain false 3 (c_mat (mkCell (fun a => a) m)) (gather_coords corner_X (mkCell (fun a => a) m)) (gather (dofs false 3) U (mkCell (fun a => a) m)) ((fun _ _ => 0) (k_cell (c_mat (mkCell (fun a => a) m)))) v = engineering_strain 3 A v).
  rewrite elastic_corner by lia. unfold elastic_of, elastic_part, plastic_of, expansion_of. unfold strain_of.
  change (dofs false 3) with 4%nat. rewrite (proj1 (C32_strain 3 4 (gather_coords corner_X _) _ _ _ ltac:(lia) ltac:(lia) HV (gather_moves 3 4 4 corner_X _ _ U _ ltac:(lia) Hn M)) v Hv). destruct (normal_component 3 v); ring.
Qed.
Definition stress3 (K G : R) (e : nat -> R) (v : nat) : R := cauchy_stress 3 K G e v.
Lemma corner_step U A U' A' : moves 3 4 4 corner_X (fun _ => 0) A U -> moves 3 4 4 corner_X (fun _ => 0) A' U' ->
  elastic_work_step false 3 (fun _ => 1) corner_X (fun _ => 1) (one (sheet 0)) (still U) (still U')
  = rsum 6 (fun v => 1 / 2 * (stress3 2 1 (engineering_strain 3 A) v + stress3 2 1 (engineering_strain 3 A') v) * (engineering_strain 3 A v - engineering_strain 3 A' v))
    * cell_measure 3 (gather_coords corner_X (mkCell (fun a => a) (sheet 0))).
Proof.
  intros M M'. pose proof (corner_strain (sheet 0) _ _ M) as E. pose proof (corner_strain (sheet 0) _ _ M') as E'.
  unfold elastic_work_step, work_step. rewrite total_sum. unfold one. cbn [sum_over]. cbv zeta. rewrite Rplus_0_r. unfold elastic_work_cell, still. cbn [fst snd c_mat].
  f_equal. change (nst 3) with 6%nat. apply rsum_ext. intros v Hv. cbn [k_cell sheet]. fold (sheet 0). rewrite E, E' by exact Hv. f_equal. unfold average_stress. f_equal.
  unfold state_stress. change (k_bulk (sheet 0)) with 2. change (k_shear (sheet 0)) with 1. rewrite !Rmult_1_l.
  set (f := state_strain false 3 (sheet 0) _ (gather (dofs false 3) U _) _) in *. set (f' := state_strain false 3 (sheet 0) _ (gather (dofs false 3) U' _) _) in *. clearbody f f'.
  unfold stress3, cauchy_stress. rewrite !E, !E' by lia. destruct v as [|[|[|[|[|[|v]]]]]]; try lia; reflexivity.
Qed.
Theorem C130_stored_refuted : exists m, 0 < k_bulk m /\ 0 < k_shear m /\
  elastic_work_value false 3 (fun _ => 1) corner_X (fun _ => 1) (one m) [still stretched; still slid; zero_state] <> 0.
Proof.
  exists (sheet 0). split; [cbn; lra|]. split; [cbn; lra|].
  assert (MA : moves 3 4 4 corner_X (fun _ => 0) (fun i j => if (Nat.eqb i 0 && Nat.eqb j 0)%bool then 1 else 0) stretched).
  { intros n i Hn Hi. unfold affine, rs, stretched, corner_X. destruct n as [|[|[|[|n]]]]; try lia; destruct i as [|[|[|i]]]; try lia; rsums; cbn; ring. }
  assert (MB : moves 3 4 4 corner_X (fun _ => 0) (fun i j => if (Nat.eqb i 1 && Nat.eqb j 2)%bool then 1 else 0) slid).
  { intros n i Hn Hi. unfold affine, rs, slid, corner_X. destruct n as [|[|[|[|n]]]]; try lia; destruct i as [|[|[|i]]]; try lia; rsums; cbn; ring. }
  assert (M0 : moves 3 4 4 corner_X (fun _ => 0) (fun i j => 0) (fun _ => 0)).
  { intros n i Hn Hi. unfold affine, rs. rsums. req. ring. }
  destruct (measure_simplex 3 (gather_coords corner_X (mkCell (fun a => a) (sheet 0))) ltac:(lia) (proj2 (mesh_cell _ _ _ _ _ (corner_ok (sheet 0)) (or_introl eq_refl)))) as [_ PM].
  set (V := cell_measure 3 (gather_coords corner_X (mkCell (fun a => a) (sheet 0)))) in *.
  assert (E : elastic_work_value false 3 (fun _ => 1) corner_X (fun _ => 1) (one (sheet 0)) [still stretched; still slid; zero_state] = - (2 / 3) * V).
  { change (elastic_work_step false 3 (fun _ => 1) corner_X (fun _ => 1) (one (sheet 0)) (still stretched) (still (fun _ => 0))
      + (elastic_work_step false 3 (fun _ => 1) corner_X (fun _ => 1) (one (sheet 0)) (still slid) (still stretched)
      + (elastic_work_step false 3 (fun _ => 1) corner_X (fun _ => 1) (one (sheet 0)) (still (fun _ => 0)) (still slid) + 0)) = - (2 / 3) * V).
    rewrite (corner_step _ _ _ _ MA M0), (corner_step _ _ _ _ MB MA), (corner_step _ _ _ _ M0 MB). fold V. clearbody V. rsums. unfold stress3, cauchy_stress. cbn. field. }
  rewrite E. lra.
Qed.
Print Assumptions C130_stored_refuted.

(** ** Thermoplasticity: the history starts from a state of zeros, whatever the reference temperature. *)
Definition body (tref scale : R) : plastic := mkPlastic 2 1 1 1 tref scale 1 0.
Definition warm (k : nat) : R := if Nat.eqb (k mod 4) 2 then 1 else 0.
Lemma plane_sound th X s c : sound_stress th 2 X s c. Proof. left. reflexivity. Qed.
Lemma warm_at n i : (i < 4)%nat -> warm (n * 4 + i)%nat = if Nat.eqb i 2 then 1 else 0.
Proof. intros Hi. unfold warm. rewrite (Nat.add_comm (n * 4)), Nat.mod_add, (Nat.mod_small i 4) by lia. reflexivity. Qed.
Lemma stored_positive pen Z nn X cells s c0 : (forall c, In c cells -> 0 < weight 2 pen Z c /\ 0 < k_bulk (c_mat c) /\ 0 < k_shear (c_mat c)) -> mesh_ok 2 nn X cells ->
  In c0 cells -> elastic_in true 2 X s c0 0 <> 0 -> 0 < stored true 2 pen X Z cells s.
Proof.
  intros H Hm Hc He. unfold stored.
  assert (P : forall c, In c cells -> 0 <= cell_size 2 X c * weight 2 pen Z c * strain_energy 2 (k_bulk (c_mat c)) (k_shear (c_mat c)) (elastic_in true 2 X s c)).
  { intros c Hc'. destruct (H c Hc') as (H1 & H2 & H3). destruct (mesh_cell _ _ _ _ _ Hm Hc') as [_ Hv]. destruct (measure_simplex 2 (gather_coords X c) ltac:(lia) Hv) as [EM PM].
    apply Rmult_le_pos; [apply Rmult_le_pos; [unfold cell_size; change (fun a i => X (c_node c a) i) with (gather_coords X c); lra|lra]|].
    apply C130_energy_positive; [lia|assumption|assumption]. }
  assert (Q : 0 < cell_size 2 X c0 * weight 2 pen Z c0 * strain_energy 2 (k_bulk (c_mat c0)) (k_shear (c_mat c0)) (elastic_in true 2 X s c0)).
  { destruct (H c0 Hc) as (H1 & H2 & H3). destruct (mesh_cell _ _ _ _ _ Hm Hc) as [_ Hv]. destruct (measure_simplex 2 (gather_coords X c0) ltac:(lia) Hv) as [EM PM].
    apply Rmult_lt_0_compat; [apply Rmult_lt_0_compat; [unfold cell_size; change (fun a i => X (c_node c0 a) i) with (gather_coords X c0); lra|lra]|].
    destruct (C130_energy_positive 2 (k_bulk (c_mat c0)) (k_shear (c_mat c0)) (elastic_in true 2 X s c0) ltac:(lia) H2 H3) as [G N].
    destruct (Rle_lt_or_eq_dec _ _ G) as [L|E]; [exact L|]. exfalso. apply He. apply N; [symmetry; exact E|cbn; lia]. }
  clear -P Q Hc. induction cells as [|c l IH]; [contradiction|]. cbn [sum_over]. destruct Hc as [->|Hc].
  - pose proof (sum_over_nonneg l _ (fun x Hx => P x (or_intror Hx))). lra.
  - pose proof (P c (or_introl eq_refl)). pose proof (IH Hc (fun x Hx => P x (or_intror Hx))). lra.
Qed.
Lemma body_positive tref scale : forall c, In c (square (body tref scale)) -> 0 < weight 2 (fun z => z) (fun _ => 1) c /\ 0 < k_bulk (c_mat c) /\ 0 < k_shear (c_mat c).
Proof. intros c Hc. rewrite (square_weight _ c Hc). destruct Hc as [<-|[<-|[]]]; cbn; lra. Qed.
Theorem C130_start_refuted : exists r,
  plastic_residual true 2 (fun z => z) square_X warm (fun _ _ => 0) (fun _ => 0) (fun _ => 1) (square (body 1 1)) = Ok r /\ (forall k, r k = 0) /\
  stored true 2 (fun z => z) square_X (fun _ => 1) (square (body 1 1)) (still warm) = 0 /\
  elastic_work_value true 2 (fun z => z) square_X (fun _ => 1) (square (body 1 1)) [still warm] < 0.
Proof.
  assert (Hm : mesh_ok 2 4 square_X (square (body 1 1))) by apply square_ok.
  assert (M : moves 2 4 4 square_X (fun _ => 0) (fun _ _ => 0) warm).
  { intros n i Hn Hi. rewrite warm_at by lia. unfold affine, rs. destruct i as [|[|i]]; try lia; rsums; cbn; ring. }
  assert (EM : forall c, In c (square (body 1 1)) -> c_mat c = body 1 1) by (intros c [<-|[<-|[]]]; reflexivity).
  destruct (C129_stress_free true 2 4 (fun z => z) square_X warm (fun _ _ => 0) (fun _ => 1) (square (body 1 1)) (fun _ => 0) (fun _ _ => 0) 1) as (r & E & H).
  - lia.
  - exact Hm.
  - intros c Hc. pose proof (square_weight _ c Hc) as W1. unfold weight in W1. rewrite W1, (EM c Hc). cbn. lra.
  - exact M.
  - intros n Hn. cbn [dofs pressure_at]. rewrite warm_at by lia. symmetry. apply affine_const.
  - intros _ n Hn. cbn [dofs]. rewrite warm_at by lia. symmetry. apply affine_const.
  - intros c Hc. rewrite (EM c Hc). split; [unfold trace_of, plastic_strain, tensorial; cbn; field|].
    intros v Hv. unfold elastic_part, full_strain, plastic_of. cbn in Hv. destruct v as [|[|[|[|v]]]]; try lia; cbn; ring.
  - exists r. split; [exact E|]. split; [exact H|].
    assert (EE : forall c v, In c (square (body 1 1)) -> (v < 4)%nat -> elastic_in true 2 square_X (still warm) c v = 0).
    { intros c v Hc Hv. destruct (mesh_cell _ _ _ _ _ Hm Hc) as [Hn HV]. unfold elastic_in, elastic_of, elastic_part, still, plastic_of. cbn [fst snd].
      assert (EX : expansion_of true 2 warm c = 0).
      { unfold expansion_of, corner_mean. rewrite (EM c Hc). unfold rs. rsums. change (dofs true 2) with 4%nat. rewrite !warm_at by lia. cbn. field. }
      rewrite EX. pose proof (proj1 (C32_strain 2 4 (gather_coords square_X c) _ _ _ ltac:(lia) ltac:(lia) HV (gather_moves 2 4 4 square_X _ _ warm c ltac:(lia) Hn M))) as ES.
      destruct v as [|[|[|[|v]]]]; try lia; [| | |rewrite strain_33; cbn; ring]; unfold strain_of; change (dofs true 2) with 4%nat; rewrite ES by (cbn; lia); cbn; ring. }
    assert (ST : stored true 2 (fun z => z) square_X (fun _ => 1) (square (body 1 1)) (still warm) = 0).
    { unfold stored. apply sum_over_0. intros c Hc. unfold strain_energy, isotropic_stress, isotropic_component, trace_of, rs. cbn [components]. rsums. rewrite !EE by (try exact Hc; lia). cbn. req. field. }
    split; [exact ST|]. unfold elastic_work_value. rewrite (C130_stored_partial true 2 4) by (try lia; try exact Hm; intros; apply plane_sound). cbn [last]. rewrite ST.
    assert (P : 0 < stored true 2 (fun z => z) square_X (fun _ => 1) (square (body 1 1)) zero_state); [|lra].
    apply (stored_positive _ _ 4 _ _ _ (mkCell (fun a => match a with 0%nat => 0%nat | 1%nat => 1%nat | _ => 2%nat end) (body 1 1))); [apply body_positive|exact Hm|left; reflexivity|].
    unfold elastic_in, elastic_of, elastic_part. rewrite rest_strain. unfold expansion_of, corner_mean, rs, zero_state. cbn [fst snd plastic_of normal_component Nat.eqb negb c_mat k_alpha k_ts k_tref body]. unfold plastic_of. rsums. cbn. lra.
Qed.
Print Assumptions C130_start_refuted.
(** With the reference temperature zero, or without temperatures, that state carries no energy. *)
Theorem C130_start_partial : forall th d nn pen X Z cells states, (2 <= d <= 3)%nat -> mesh_ok d nn X cells ->
  (forall c, In c cells -> th = true -> k_alpha (c_mat c) * k_tref (c_mat c) = 0) ->
  (forall s c, In s states -> In c cells -> sound_stress th d X s c) ->
  elastic_work_value th d pen X Z cells states = stored th d pen X Z cells (last states zero_state).
Proof.
  intros th d nn pen X Z cells states Hd Hm Ha Hs.
  assert (E0 : forall c v, In c cells -> elastic_in th d X zero_state c v = 0).
  { intros c v Hc. unfold elastic_in, elastic_of, elastic_part. rewrite rest_strain. unfold plastic_of, zero_state. cbn [fst snd].
    assert (EX : expansion_of th d (fun _ => 0) c = 0).
    { unfold expansion_of. destruct th; [|reflexivity]. unfold corner_mean, rs. rewrite (rsum_0 (S d)) by reflexivity. unfold Rdiv. rewrite Rmult_0_l, Rmult_0_r. pose proof (Ha c Hc eq_refl). lra. }
    rewrite EX. destruct (normal_component d v); ring. }
  assert (S1 : forall s c, In s (zero_state :: states) -> In c cells -> sound_stress th d X s c).
  { intros s c [<-|Hi] Hc; [|apply Hs; assumption]. unfold sound_stress. rewrite !E0 by exact Hc. assert (d = 2 \/ d = 3)%nat as [E|E] by lia; [left; exact E|right; split; [exact E|reflexivity]]. }
  unfold elastic_work_value. rewrite (C130_stored_partial th d nn) by assumption.
  assert (S0 : stored th d pen X Z cells zero_state = 0); [|lra].
  unfold stored. apply sum_over_0. intros c Hc. unfold strain_energy, isotropic_stress, rs. rewrite (rsum_0 (components d)); [ring|]. intros v _. rewrite E0 by exact Hc. req. ring.
Qed.
Print Assumptions C130_start_partial.

(** ** The temperature scaling of the criteria is read from another list than that of the residual. *)
Definition own_list : plist := fun k => if String.eqb k "Temperature Scaling" then Some 2 else None.
Definition with_scaled (m : plastic) (models own : plist) (rd : plist -> plist -> R) : plastic := with_scaling m (rd models own).
Theorem C130_scaling_refuted : exists models own r,
  plastic_residual true 2 (fun z => z) square_X flowed yielded (fun _ => 0) (fun _ => 1) (square (with_scaled (sheet 0) models own residual_scaling)) = Ok r /\ (forall k, r k = 0) /\
  stored true 2 (fun z => z) square_X (fun _ => 1) (square (with_scaled (sheet 0) models own residual_scaling)) (flowed, yielded) = 0 /\
  0 < elastic_work_value true 2 (fun z => z) square_X (fun _ => 1) (square (with_scaled (sheet 0) models own criterion_scaling)) [(flowed, yielded)].
Proof.
  exists (fun _ => None), own_list. change (with_scaled (sheet 0) (fun _ => None) own_list residual_scaling) with (sheet 0). change (with_scaled (sheet 0) (fun _ => None) own_list criterion_scaling) with (body 0 2).
  destruct C129_free_reachable as (r & E & H & EX). exists r. split; [exact E|]. split; [exact H|].
  assert (HU : forall n i, (i < 4)%nat -> flowed (n * 4 + i)%nat = match i with 0%nat => 3 * square_X n 0 | 2%nat => 1 | _ => 0 end).
  { intros n i Hi. unfold flowed. rewrite (Nat.add_comm (n * 4)), Nat.mod_add, (Nat.mod_small i 4), Nat.div_add, (Nat.div_small i 4) by lia. destruct i as [|[|[|i]]]; reflexivity. }
  assert (M : moves 2 4 4 square_X (fun _ => 0) (fun i j : nat => if (Nat.eqb i 0 && Nat.eqb j 0)%bool then 3 else 0) flowed).
  { intros n i Hn Hi. rewrite HU by lia. unfold affine, rs. destruct i as [|[|i]]; try lia; rsums; cbn; ring. }
  assert (ES : forall m c v, In c (square m) -> (v < 4)%nat -> strain_of true 2 square_X flowed c v = if Nat.eqb v 0 then 3 else 0).
  { intros m c v Hc Hv. destruct (mesh_cell _ _ _ _ _ (square_ok m) Hc) as [Hn HV].
    pose proof (proj1 (C32_strain 2 4 (gather_coords square_X c) _ _ _ ltac:(lia) ltac:(lia) HV (gather_moves 2 4 4 square_X _ _ flowed c ltac:(lia) Hn M))) as S.
    destruct v as [|[|[|[|v]]]]; try lia; [| | |rewrite strain_33; reflexivity]; unfold strain_of; change (dofs true 2) with 4%nat; rewrite S by (cbn; lia); cbn; ring. }
  split.
  - unfold stored. apply sum_over_0. intros c Hc.
    assert (EE : forall v, (v < 4)%nat -> elastic_in true 2 square_X (flowed, yielded) c v = 0).
    { intros v Hv. unfold elastic_in, elastic_of, elastic_part. cbn [fst snd]. rewrite (proj1 (EX c Hc)), (ES (sheet 0)) by assumption. unfold plastic_of, yielded, normal_component.
      destruct v as [|[|[|[|v]]]]; try lia; cbn; ring. }
    unfold strain_energy, isotropic_stress, isotropic_component, trace_of, rs. cbn [components]. rsums. rewrite !EE by lia. cbn. req. field.
  - rewrite (C130_start_partial true 2 4); [cbn [last]|lia|apply square_ok|intros c [<-|[<-|[]]] _; cbn; ring|intros; apply plane_sound].
    apply (stored_positive _ _ 4 _ _ _ (mkCell (fun a => match a with 0%nat => 0%nat | 1%nat => 1%nat | _ => 2%nat end) (body 0 2))); [apply body_positive|apply square_ok|left; reflexivity|].
    unfold elastic_in, elastic_of, elastic_part. cbn [fst snd]. rewrite (ES (body 0 2)) by (try lia; left; reflexivity). unfold expansion_of, corner_mean, rs. rsums. change (dofs true 2) with 4%nat.
    cbn [c_node]. rewrite !HU by lia. cbn. lra.
Qed.
Print Assumptions C130_scaling_refuted.
(** They agree when the two lists give the same number, or neither gives one. *)
Theorem C130_scaling_partial : forall models own, models "Temperature Scaling"%string = own "Temperature Scaling"%string -> residual_scaling models own = criterion_scaling models own.
Proof. intros models own E. unfold residual_scaling, criterion_scaling, get_or. rewrite E. reflexivity. Qed.
Print Assumptions C130_scaling_partial.

(** ** C131: principal stresses in the output. *)
(** Without temperatures: the eigenvalues of the in-plane part of the isotropic stress, if its shear is not negative (C35). *)
Theorem C131_principal_partial : forall pen X Z U LS (c : cell plastic),
  let s := isotropic_stress 2 (k_bulk (c_mat c)) (k_shear (c_mat c)) (elastic_of false 2 X U LS c) in let w := weight 2 pen Z c in
  0 <= w * s 2%nat ->
  let l := principal_output false pen (c_mat c) (gather_coords X c) (gather 3 U c) (LS (k_cell (c_mat c))) (gather_control Z c) in
  are_eigenvalues2 (w * s 0%nat) (w * s 2%nat) (w * s 1%nat) (fst l) (snd l).
Proof.
  intros pen X Z U LS c s w Hs l. unfold l, principal_output.
  assert (EQ : forall v, (v < 4)%nat -> state_stress false 2 pen (unheated (c_mat c)) (gather_coords X c) (gather 3 U c) (LS (k_cell (c_mat c))) (gather_control Z c) v = w * s v).
  { intros v Hv. exact (stress_sound false 2 pen X Z (U, LS) c v (or_introl eq_refl) Hv). }
  set (t := state_stress false 2 pen (unheated (c_mat c)) (gather_coords X c) (gather 3 U c) (LS (k_cell (c_mat c))) (gather_control Z c)) in *.
  pose proof (C35_partial false t) as P. rewrite EQ in P by lia. specialize (P Hs). unfold shear2 in P. rewrite !EQ in P by lia. exact P.
Qed.
Print Assumptions C131_principal_partial.
Example C131_reachable : forall c, In c (square (sheet 0)) ->
  0 <= weight 2 (fun z => z) (fun _ => 1) c * isotropic_stress 2 2 1 (elastic_of false 2 square_X sheared (fun _ _ => 0) c) 2 /\ isotropic_stress 2 2 1 (elastic_of false 2 square_X sheared (fun _ _ => 0) c) 2 = 2.
Proof.
  intros c Hc. assert (E : isotropic_stress 2 2 1 (elastic_of false 2 square_X sheared (fun _ _ => 0) c) 2 = 2).
  { unfold isotropic_stress, isotropic_component, elastic_of, elastic_part. rewrite (sheared_strain c Hc). unfold plastic_of. cbn. ring. }
  rewrite E, (square_weight _ c Hc). split; lra.
Qed.
(** With temperatures the thermal strain is not taken off: a body free of stress is reported under tension. *)
Theorem C131_heated_refuted : exists r,
  plastic_residual true 2 (fun z => z) square_X flowed yielded (fun _ => 0) (fun _ => 1) (square (sheet 0)) = Ok r /\ (forall k, r k = 0) /\
  forall c, In c (square (sheet 0)) -> (forall v, (v < 4)%nat -> isotropic_stress 2 2 1 (elastic_of true 2 square_X flowed yielded c) v = 0) /\
    principal_output true (fun z => z) (sheet 0) (gather_coords square_X c) (gather 4 flowed c) (yielded 0) (gather_control (fun _ => 1) c) = (6, 6).
Proof.
  destruct C129_free_reachable as (r & E & H & EX). exists r. split; [exact E|]. split; [exact H|]. intros c Hc.
  assert (HU : forall n i, (i < 4)%nat -> flowed (n * 4 + i)%nat = match i with 0%nat => 3 * square_X n 0 | 2%nat => 1 | _ => 0 end).
  { intros n i Hi. unfold flowed. rewrite (Nat.add_comm (n * 4)), Nat.mod_add, (Nat.mod_small i 4), Nat.div_add, (Nat.div_small i 4) by lia. destruct i as [|[|[|i]]]; reflexivity. }
  assert (M : moves 2 4 4 square_X (fun _ => 0) (fun i j : nat => if (Nat.eqb i 0 && Nat.eqb j 0)%bool then 3 else 0) flowed).
  { intros n i Hn Hi. rewrite HU by lia. unfold affine, rs. destruct i as [|[|i]]; try lia; rsums; cbn; ring. }
  destruct (mesh_cell _ _ _ _ _ (square_ok (sheet 0)) Hc) as [Hn HV].
  assert (ES : forall v, (v < 4)%nat -> strain_of true 2 square_X flowed c v = if Nat.eqb v 0 then 3 else 0).
  { intros v Hv. pose proof (proj1 (C32_strain 2 4 (gather_coords square_X c) _ _ _ ltac:(lia) ltac:(lia) HV (gather_moves 2 4 4 square_X _ _ flowed c ltac:(lia) Hn M))) as S.
    destruct v as [|[|[|[|v]]]]; try lia; [| | |rewrite strain_33; reflexivity]; unfold strain_of; change (dofs true 2) with 4%nat; rewrite S by (cbn; lia); cbn; ring. }
  split.
  - intros v Hv.
    assert (EE : forall v, (v < 4)%nat -> elastic_of true 2 square_X flowed yielded c v = 0).
    { intros u Hu. unfold elastic_of, elastic_part. rewrite (proj1 (EX c Hc)), ES by assumption. unfold plastic_of, yielded, normal_component. destruct u as [|[|[|[|u]]]]; try lia; cbn; ring. }
    unfold isotropic_stress, isotropic_component, trace_of. rewrite !EE by lia. destruct (normal_component 2 v); cbn; field.
  - unfold principal_output.
    assert (ST : forall v, (v < 3)%nat -> state_stress true 2 (fun z => z) (unheated (sheet 0)) (gather_coords square_X c) (gather 4 flowed c) (yielded 0) (gather_control (fun _ => 1) c) v = if Nat.eqb v 2 then 0 else 6).
    { intros v Hv. unfold state_stress. pose proof (square_weight _ c Hc) as W1. unfold weight in W1. rewrite W1.
      assert (EE : forall k, (k < 4)%nat -> state_strain true 2 (unheated (sheet 0)) (gather_coords square_X c) (gather 4 flowed c) (yielded 0) k = if Nat.eqb k 2 then 0 else 1).
      { intros k Hk. unfold state_strain, elastic_strain, cell_thermal, J2Model.thermal_strain. fold (strain_of true 2 square_X flowed c). change (strain 2 (dofs true 2) (fun _ => 0) (gather 4 flowed c) (cell_gradient 2 (gather_coords square_X c)) k) with (strain_of true 2 square_X flowed c k).
        rewrite ES by exact Hk. cbn [k_alpha unheated]. destruct k as [|[|[|[|k]]]]; try lia; cbn; ring. }
      unfold cauchy_stress. rewrite !EE by lia. destruct v as [|[|[|v]]]; try lia; rewrite ?EE by lia; cbn; field. }
    set (t := state_stress true 2 (fun z => z) (unheated (sheet 0)) (gather_coords square_X c) (gather 4 flowed c) (yielded 0) (gather_control (fun _ => 1) c)) in *.
    unfold eigenvalues2. cbv zeta. rewrite !ST by lia. cbn [Nat.eqb]. match goal with |- context [Rlt_dec 0 ?b] => destruct (Rlt_dec 0 b) as [L|L] end; [lra|]. f_equal; ring.
Qed.
Print Assumptions C131_heated_refuted.
