(** C38, C39: the J2 return mapping and the invariants of plastic histories. *)
From Coq Require Import Reals List Arith Bool Lia Lra.
From Verif Require Import Base.Field Base.Sums Element.ElementModel Element.MaterialModel Penalty.PenaltyModel
  Plasticity.J2Model Plasticity.J2Spec Plasticity.J2Proof.
Import ListNotations.
Local Open Scope R_scope.

(** Admissible constants of a J2 material. *)
Definition admissible (m : j2) : Prop := 0 < j_shear m /\ 0 <= j_iso m /\ 0 <= j_kin m /\ 0 < j_yield m.

(** C38: whatever the strain, thermal strain, admissible constants and previous state with trace-free backstress and non-negative
    accumulated strain, the state produced by the local update solves every local residual equation exactly. *)
Theorem C38_residual_vanishes :
  forall d m thermal total prev, (d = 2 \/ d = 3)%nat -> admissible m -> 0 <= accumulated prev -> trace_of d (backstress d prev) = 0 ->
  forall k, (k < local_size d)%nat -> local_residual d m thermal total (update_local_state d m thermal total prev) prev k = 0.
Proof.
  intros d m th total prev Hd (HG & Hi & Hk & Hs) Hp Hb k Kk.
  destruct (Rlt_dec (/ 10 ^ 10) (yield_function d (j_shear m) (j_iso m) (j_yield m) total (elastic_step prev))) as [Hf|Hf].
  - apply new_residual; assumption.
  - unfold update_local_state. rewrite yield_value_spec by exact Hd.
    destruct (Rlt_dec _ _) as [C|_]; [contradiction|]. unfold local_residual. cbn [elastic_step].
    destruct (Rlt_dec 0 0) as [C|_]; [lra|]. destruct k as [|[|k]]; cbn [elastic_step]; ring.
Qed.
Print Assumptions C38_residual_vanishes.

(** C38: loading/unloading conditions, flow rule and hardening laws in tensor form.  Write p for the increment of the accumulated
    strain.  Either nothing changes and the yield function is at most the tolerance 1e-10, or the yield function is exactly zero,
    the multiplier is positive and equals p, the plastic strain moves along the normal of the yield surface at the final state by
    sqrt(3/2) p, and the backstress follows Prager's rule with two thirds of the kinematic modulus. *)
Theorem C38_return_mapping :
  forall d m thermal total prev, (d = 2 \/ d = 3)%nat -> admissible m -> 0 <= accumulated prev -> trace_of d (backstress d prev) = 0 ->
  let ls := update_local_state d m thermal total prev in
  let f := yield_function d (j_shear m) (j_iso m) (j_yield m) total in
  let s := relative_stress d (j_shear m) total ls in
  (f prev <= / 10 ^ 10 /\ f ls = f prev /\ multiplier ls = 0 /\ accumulated ls = accumulated prev /\
     (forall v, (v < components d)%nat -> plastic_strain d ls v = plastic_strain d prev v /\ backstress d ls v = backstress d prev v))
  \/
  (/ 10 ^ 10 < f prev /\ f ls = 0 /\ 0 < multiplier ls /\ accumulated ls = accumulated prev + multiplier ls /\ 0 < sqrt (frobenius2 d s) /\
     (forall v, (v < components d)%nat ->
        plastic_strain d ls v - plastic_strain d prev v = multiplier ls * sqrt (3 / 2) * (s v / sqrt (frobenius2 d s)) /\
        backstress d ls v - backstress d prev v = 2 / 3 * j_kin m * (plastic_strain d ls v - plastic_strain d prev v))).
Proof.
  intros d m th total prev Hd (HG & Hi & Hk & Hs) Hp Hb ls f s.
  assert (ET : f (elastic_step prev) = f prev).
  { reflexivity. }
  destruct (Rlt_dec (/ 10 ^ 10) (f (elastic_step prev))) as [Hf|Hf].
  - right. rewrite ET in Hf. split; [exact Hf|]. rewrite <- ET in Hf. unfold f in Hf.
    split; [apply new_yield; assumption|]. unfold multiplier, accumulated.
    unfold ls at 1 2 3. rewrite new_mult, new_acc by assumption.
    split; [apply (dg_pos d m total prev); assumption|]. split; [reflexivity|].
    split.
    { unfold s, ls. rewrite new_norm by assumption. apply (remaining_pos d m total prev); assumption. }
    intros v Hv. assert (PS := new_plastic d m th total prev Hd Hb Hf v Hv).
    assert (BS := new_back d m th total prev Hd Hb Hf v Hv). fold ls in PS, BS.
    assert (DR := new_direction d m th total prev Hd HG Hi Hk Hs Hp Hb Hf v Hv). fold ls in DR.
    assert (M := new_mult d m th total prev Hd Hf). fold ls in M. rewrite M in *. fold s in DR. rewrite DR, PS, BS.
    unfold sqrt32, sqrt23 in *. pose proof s23_eq as S. unfold sqrt32, sqrt23 in S. split; [ring|rewrite S; ring].
  - left. assert (L : ls = elastic_step prev).
    { unfold ls, update_local_state. rewrite yield_value_spec by exact Hd. destruct (Rlt_dec _ _) as [C|_]; [contradiction|reflexivity]. }
    rewrite L. rewrite ET in *. split; [lra|]. split; [reflexivity|]. split; [reflexivity|]. split; [reflexivity|].
    intros v Hv. split; reflexivity.
Qed.
Print Assumptions C38_return_mapping.

(** The equivalent plastic strain increment: sqrt(2/3) times the norm of the plastic strain increment is the multiplier. *)
Theorem C38_equivalent_strain :
  forall d m thermal total prev, (d = 2 \/ d = 3)%nat -> admissible m -> 0 <= accumulated prev -> trace_of d (backstress d prev) = 0 ->
  let ls := update_local_state d m thermal total prev in
  sqrt (2 / 3) * sqrt (frobenius2 d (fun v => plastic_strain d ls v - plastic_strain d prev v)) = accumulated ls - accumulated prev.
Proof.
  intros d m th total prev Hd A Hp Hb ls.
  pose proof (C38_return_mapping d m th total prev Hd A Hp Hb) as X. cbv zeta in X. fold ls in X.
  destruct X as [(_ & _ & _ & H1 & H2)|(_ & _ & H1 & H2 & H3 & H4)].
  - rewrite (frob_scale d 0 (fun _ => 0)) by (intros v Hv; rewrite (proj1 (H2 v Hv)); ring).
    replace (0 * 0 * _) with 0 by ring. rewrite sqrt_0, H1. ring.
  - set (s := relative_stress d (j_shear m) total ls) in *. set (M := multiplier ls) in *.
    rewrite (frob_scale d (M * sqrt (3 / 2) / sqrt (frobenius2 d s)) s) by (intros v Hv; rewrite (proj1 (H4 v Hv)); field; lra).
    rewrite <- (sqrt_sqrt (frobenius2 d s)) at 3 by apply frob_nonneg.
    set (n := sqrt (frobenius2 d s)) in *. pose proof s32_pos as P. pose proof s23_eq as S. pose proof s32_sq as Q. unfold sqrt32, sqrt23 in *.
    replace (M * sqrt (3 / 2) / n * (M * sqrt (3 / 2) / n) * (n * n)) with ((M * sqrt (3 / 2)) * (M * sqrt (3 / 2))) by (field; lra).
    rewrite sqrt_square by (apply Rmult_le_pos; lra). rewrite S, H2.
    replace (2 / 3 * sqrt (3 / 2) * (M * sqrt (3 / 2))) with (2 / 3 * M * (sqrt (3 / 2) * sqrt (3 / 2))) by ring. rewrite Q. field.
Qed.
Print Assumptions C38_equivalent_strain.

(** Thermal strain never influences the plastic update. *)
Theorem C38_thermal_independent :
  forall d m t1 t2 total prev, (d = 2 \/ d = 3)%nat ->
  forall k, (k < local_size d)%nat -> update_local_state d m t1 total prev k = update_local_state d m t2 total prev k.
Proof.
  intros d m t1 t2 total prev Hd k Hk. unfold update_local_state. rewrite !yield_value_spec by exact Hd.
  destruct (Rlt_dec _ _); [|reflexivity]. destruct k as [|[|k]]; [reflexivity..|].
  assert (C : nst d = components d) by (destruct Hd as [-> | ->]; reflexivity). unfold local_size in Hk.
  unfold yield_normal. rewrite !norm_relative by exact Hd. destruct (Nat.ltb_spec (S (S k)) (2 + nst d)); rewrite !eta_relative by (assumption || lia); reflexivity.
Qed.
Print Assumptions C38_thermal_independent.

(** C39: over every history of loads with admissible constants (which may change from step to step), started from a state with
    non-negative accumulated strain and trace-free plastic strain and backstress (such as the zero state), the accumulated strain never decreases, the
    multiplier is non-negative after every step, and plastic strain and backstress stay trace-free. *)
Theorem C39_history :
  forall d, (d = 2 \/ d = 3)%nat -> forall loads ls, Forall (fun l => admissible (fst (fst l))) loads ->
  0 <= accumulated ls -> trace_free d ls ->
  trace_free d (history d loads ls) /\
  (loads <> [] -> 0 <= multiplier (history d loads ls)) /\
  (forall before after, loads = before ++ after -> accumulated ls <= accumulated (history d before ls) <= accumulated (history d loads ls)).
Proof.
  intros d Hd. assert (step : forall l ls, admissible (fst (fst l)) -> 0 <= accumulated ls -> trace_free d ls ->
      trace_free d (apply_load d ls l) /\ 0 <= multiplier (apply_load d ls l) /\ accumulated ls <= accumulated (apply_load d ls l)).
  { intros [[m th] e] ls A Hp (T1 & T2). cbn [fst] in A. unfold apply_load.
    pose proof (C38_return_mapping d m th e ls Hd A Hp T2) as X. cbv zeta in X. set (ls' := update_local_state d m th e ls) in *.
    destruct X as [(_ & _ & H0 & H1 & H2)|(_ & H0f & H0 & H1 & H3 & H4)].
    - split; [|lra]. split; [transitivity (trace_of d (plastic_strain d ls)); [|exact T1]|transitivity (trace_of d (backstress d ls)); [|exact T2]]; apply trace_ext; try exact Hd; intros v Hv; apply (H2 v Hv).
    - split; [|lra].
      assert (TS : trace_of d (fun v => plastic_strain d ls' v - plastic_strain d ls v) = multiplier ls' * sqrt (3 / 2) / sqrt (frobenius2 d (relative_stress d (j_shear m) e ls')) * - trace_of d (backstress d ls')).
      { rewrite <- (trace_relative d (j_shear m) e ls') by exact Hd.
        transitivity (trace_of d (fun v => multiplier ls' * sqrt (3 / 2) * (relative_stress d (j_shear m) e ls' v / sqrt (frobenius2 d (relative_stress d (j_shear m) e ls'))))).
        - apply trace_ext; [exact Hd|]. intros v Hv. apply (H4 v Hv).
        - unfold trace_of. destruct Hd as [-> | ->]; field; lra. }
      assert (TB : trace_of d (backstress d ls') = 2 / 3 * j_kin m * trace_of d (fun v => plastic_strain d ls' v - plastic_strain d ls v)).
      { transitivity (trace_of d (fun v => backstress d ls v + 2 / 3 * j_kin m * (plastic_strain d ls' v - plastic_strain d ls v))).
        - apply trace_ext; [exact Hd|]. intros v Hv. rewrite <- (proj2 (H4 v Hv)). ring.
        - transitivity (trace_of d (backstress d ls) + 2 / 3 * j_kin m * trace_of d (fun v => plastic_strain d ls' v - plastic_strain d ls v)); [|rewrite T2; ring].
          unfold trace_of. destruct Hd as [-> | ->]; ring. }
      set (c := multiplier ls' * sqrt (3 / 2) / sqrt (frobenius2 d (relative_stress d (j_shear m) e ls'))) in *.
      assert (Hc : 0 < c). { unfold c. apply Rdiv_lt_0_compat; [|exact H3]. apply Rmult_lt_0_compat; [exact H0|]. apply s32_pos. }
      assert (Z : trace_of d (fun v => plastic_strain d ls' v - plastic_strain d ls v) = 0).
      { set (t := trace_of d (fun v => plastic_strain d ls' v - plastic_strain d ls v)) in *. rewrite TB in TS.
        destruct A as (_ & _ & A & _). assert (0 <= c * (2 / 3 * j_kin m)) by (apply Rmult_le_pos; lra).
        assert (E : t * (1 + c * (2 / 3 * j_kin m)) = 0) by (replace (t * (1 + c * (2 / 3 * j_kin m))) with (t - c * - (2 / 3 * j_kin m * t)) by ring; rewrite <- TS; ring). apply Rmult_integral in E. destruct E; [assumption|lra]. }
      split.
      + transitivity (trace_of d (plastic_strain d ls) + trace_of d (fun v => plastic_strain d ls' v - plastic_strain d ls v)); [|rewrite Z, T1; ring].
        unfold trace_of. destruct Hd as [-> | ->]; ring.
      + rewrite TB, Z. ring. }
  induction loads as [|l loads IH]; intros ls HA Hp HT.
  - split; [exact HT|]. split; [intros C; now elim C|]. intros b a E. symmetry in E. apply app_eq_nil in E. destruct E as [-> ->]. unfold history. cbn [fold_left]. lra.
  - inversion HA as [|? ? A1 A2]; subst. destruct (step l ls A1 Hp HT) as (S1 & S2 & S3).
    destruct (IH (apply_load d ls l) A2 ltac:(lra) S1) as (I1 & I2 & I3). cbn [history fold_left] in *.
    split; [exact I1|]. split.
    { intros _. destruct loads as [|l2 loads]; [exact S2|]. apply I2. discriminate. }
    intros b a E. destruct b as [|l' b].
    + destruct (I3 [] loads eq_refl) as (J & K). unfold history in *. cbn [fold_left] in *. lra.
    + cbn in E. injection E as <- E. destruct (I3 b a E). unfold history in *. cbn [fold_left]. lra.
Qed.
Print Assumptions C39_history.

(** Concrete case: plane strain, unit constants, shear strain 2 from the zero state; the step yields. *)
Definition ex_m : j2 := mkJ2 1 1 1 1.
Definition ex_e (v : nat) : R := if Nat.eqb v 2 then 2 else 0.
Definition ex_0 (k : nat) : R := 0.
Example C38_example : admissible ex_m /\ 0 <= accumulated ex_0 /\ trace_free 2 ex_0 /\
  / 10 ^ 10 < yield_function 2 1 1 1 ex_e ex_0.
Proof.
  split; [unfold admissible, ex_m; cbn; lra|]. split; [unfold accumulated, ex_0; lra|].
  split; [unfold trace_free, trace_of, plastic_strain, tensorial, backstress, ex_0; split; lra|].
  unfold yield_function, accumulated, ex_0.
  assert (F : frobenius2 2 (relative_stress 2 1 ex_e (fun _ => 0)) = 8).
  { unfold frobenius2, relative_stress, dev_of, trace_of, plastic_strain, tensorial, backstress, ex_e; cbn. field. }
  rewrite F. assert (1 <= sqrt (3 / 2)) by (rewrite <- sqrt_1 at 1; apply sqrt_le_1; lra).
  assert (2 <= sqrt 8) by (replace 2 with (sqrt 4) by (replace 4 with (2 * 2) by ring; apply sqrt_square; lra); apply sqrt_le_1; lra).
  assert (/ 10 ^ 10 < / 1) by (apply Rinv_lt_contravar; lra). rewrite Rinv_1 in *. nra.
Qed.

(** The penalised constants of every cell density in [0,1] are admissible when both ersatz fractions are in (0,1], whatever the
    exponents: the two theorems above apply to every cell. *)
Theorem C39_penalised_constants_admissible :
  forall pe pp m density, admissible m -> 0 < pn_min pe <= 1 -> 0 < pn_min pp <= 1 -> admissible (penalised pe pp m density).
Proof.
  assert (P : forall f x, 0 < pn_min f <= 1 -> 0 < simp f x).
  { intros f x Hf. unfold simp, cpow. assert (0 <= (1 - pn_min f) * (if Rle_dec x 0 then if Req_EM_T (pn_exp f) 0 then 1 else 0 else Rpower x (pn_exp f))).
    { apply Rmult_le_pos; [lra|]. destruct (Rle_dec x 0); [destruct (Req_EM_T _ 0); lra|]. unfold Rpower. apply Rlt_le, exp_pos. }
    lra. }
  intros pe pp m x (H1 & H2 & H3 & H4) He Hp. pose proof (P pe x He). pose proof (P pp x Hp). unfold admissible, penalised; cbn.
  split; [apply Rmult_lt_0_compat; lra|]. split; [apply Rmult_le_pos; lra|]. split; [apply Rmult_le_pos; lra|apply Rmult_lt_0_compat; lra].
Qed.
Print Assumptions C39_penalised_constants_admissible.

(** C38, constants of a cell: the elastic response is scaled by the elasticity penalty; the whole yield limit (initial and isotropic hardening, at every accumulated strain) and Prager's modulus by the plasticity penalty;
    a fully dense cell has the constants of the material. *)
Theorem C38_penalised_constants :
  forall pe pp m density,
  let c := penalised pe pp m density in
  (forall e v, (v < 6)%nat -> deviatoric_stress 3 (j_shear c) e v = simp pe density * deviatoric_stress 3 (j_shear m) e v) /\
  (forall a, j_yield c + j_iso c * a = simp pp density * (j_yield m + j_iso m * a)) /\
  (forall a, j_kin c * a = simp pp density * (j_kin m * a)) /\
  (density = 1 -> c = m).
Proof.
  intros pe pp m z c. unfold c, penalised; cbn [j_shear j_iso j_kin j_yield]. split; [|split; [|split]].
  - intros e v Hv. destruct v as [|[|[|[|[|[|v]]]]]]; try lia; unfold deviatoric_stress; cbn; field.
  - intros a. ring.
  - intros a. ring.
  - intros ->. assert (E : forall f, simp f 1 = 1).
    { intros f. unfold simp, cpow. destruct (Rle_dec 1 0); [lra|]. unfold Rpower. rewrite ln_1, Rmult_0_r, exp_0. ring. }
    rewrite !E, !Rmult_1_l. destruct m; reflexivity.
Qed.
Print Assumptions C38_penalised_constants.
(** C38, thermal strain: for basis values that sum to one, nodes at a common temperature T (stored as T over the temperature scaling) expand by alpha (T - Tref); the strain is affine in the nodal temperatures. *)
Theorem C38_thermal_strain :
  forall nn ndof toff alpha tref scale basis u,
  (forall T, scale <> 0 -> rsum nn basis = 1 -> (forall a, (a < nn)%nat -> u (a * ndof + toff)%nat = T / scale) ->
     thermal_strain nn ndof toff alpha tref scale basis u = alpha * (T - tref)) /\
  (forall w, thermal_strain nn ndof toff alpha tref scale basis (fun k => u k + w k) - thermal_strain nn ndof toff alpha tref scale basis u
     = alpha * scale * rsum nn (fun a => w (a * ndof + toff)%nat * basis a)).
Proof.
  intros nn ndof toff alpha tref scale basis u. unfold thermal_strain. split.
  - intros T Hs H1 Hu. replace (rsum nn (fun a => u (a * ndof + toff)%nat * basis a)) with (T / scale); [field; exact Hs|].
    transitivity (T / scale * rsum nn basis); [rewrite H1; ring|]. pose proof (sum_scal_l (K := R_ring)) as SL. cbn [rmul R_ring rcar] in SL. rewrite <- SL.
    apply (sum_ext (K := R_ring)). intros a Ha. rewrite Hu by exact Ha. reflexivity.
  - intros w. assert (E : rsum nn (fun a => (u (a * ndof + toff)%nat + w (a * ndof + toff)%nat) * basis a) =
       rsum nn (fun a => u (a * ndof + toff)%nat * basis a) + rsum nn (fun a => w (a * ndof + toff)%nat * basis a)).
    { pose proof (sum_add (K := R_ring)) as SA. cbn [radd R_ring rcar] in SA. rewrite <- SA. apply (sum_ext (K := R_ring)). intros a Ha. cbn. ring. }
    rewrite E. ring.
Qed.
Print Assumptions C38_thermal_strain.
Example C38_thermal_case : rsum 4 (fun _ => 1 / 4) = 1 /\ thermal_strain 4 5 4 (1 / 100) 20 10 (fun _ => 1 / 4) (fun _ => 3) = 1 / 10.
Proof. split; unfold thermal_strain; cbn; change (@radd R_ring) with Rplus; change (@r0 R_ring) with 0; field. Qed.
Example C39_example : trace_free 2 (history 2 [(ex_m, 0, ex_e); (ex_m, 1, ex_0); (ex_m, 0, fun v => - ex_e v)] ex_0).
Proof.
  apply C39_history; [now left|repeat constructor; cbn; lra|unfold accumulated, ex_0; lra|].
  unfold trace_free, trace_of, plastic_strain, tensorial, backstress, ex_0; split; lra.
Qed.
