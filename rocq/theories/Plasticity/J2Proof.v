(** Lemmas on the return mapping. *)
From Coq Require Import Reals List Arith Bool Lia Lra.
From Verif Require Import Base.Field Base.Sums Element.ElementModel Element.ElementProof Element.MaterialModel Element.ElementSpec Element.JacobiProof
  Plasticity.J2Model Plasticity.J2Spec.
Import ListNotations.
Local Open Scope R_scope.

Ltac dim23 d H := destruct H as [-> | ->].
Ltac comp v := destruct v as [|[|[|[|[|[|v]]]]]].

Lemma eta_relative d m th total ls v : (d = 2 \/ d = 3)%nat -> (v < components d)%nat ->
  eta d (deviatoric_stress d (j_shear m) (elastic_strain d th total ls)) ls v = relative_stress d (j_shear m) total ls v.
Proof.
  intros H Hv. unfold eta, relative_stress, backstress, elastic_strain, plastic_strain, dev_of, tensorial, trace_of, nst, normal.
  dim23 d H; cbn in Hv; comp v; try lia; cbn; field.
Qed.
Lemma norm_relative d m th total ls : (d = 2 \/ d = 3)%nat ->
  eta_norm d (deviatoric_stress d (j_shear m) (elastic_strain d th total ls)) ls = sqrt (frobenius2 d (relative_stress d (j_shear m) total ls)).
Proof.
  intros H. unfold eta_norm. f_equal.
  transitivity (rsum (nst d) (fun v => shear_weight d v * (relative_stress d (j_shear m) total ls v * relative_stress d (j_shear m) total ls v))).
  - apply rsum_ext. intros v Hv. rewrite !eta_relative; [reflexivity|exact H|]. dim23 d H; exact Hv.
  - set (r := relative_stress d (j_shear m) total ls). clearbody r. dim23 d H; unfold nst, shear_weight, normal; cbn [Nat.eqb]; rsx; cbn; ring.
Qed.
Lemma yield_value_spec d m th total ls : (d = 2 \/ d = 3)%nat ->
  yield_value d m th total ls = yield_function d (j_shear m) (j_iso m) (j_yield m) total ls.
Proof. intros H. unfold yield_value, yield_function. rewrite norm_relative by exact H. reflexivity. Qed.

Lemma frob_nonneg d t : 0 <= frobenius2 d t.
Proof.
  pose proof (fun a : R => Rle_0_sqr a) as S. unfold Rsqr in S. unfold frobenius2.
  pose proof (S (t 0%nat)). pose proof (S (t 1%nat)). pose proof (S (t 2%nat)). pose proof (S (t 3%nat)). pose proof (S (t 4%nat)). pose proof (S (t 5%nat)).
  destruct d as [|[|[|d]]]; lra.
Qed.
Lemma frob_scale d c t t' : (forall v, (v < components d)%nat -> t' v = c * t v) -> frobenius2 d t' = c * c * frobenius2 d t.
Proof. intros H. unfold frobenius2. destruct d as [|[|[|d]]]; cbn in H; rewrite !H by lia; ring. Qed.
Lemma frob_ext d t t' : (forall v, (v < components d)%nat -> t' v = t v) -> frobenius2 d t' = frobenius2 d t.
Proof. intros H. unfold frobenius2. destruct d as [|[|[|d]]]; cbn in H; rewrite !H by lia; reflexivity. Qed.
Lemma trace_ext d t t' : (d = 2 \/ d = 3)%nat -> (forall v, (v < components d)%nat -> t' v = t v) -> trace_of d t' = trace_of d t.
Proof. intros Hd H. unfold trace_of. dim23 d Hd; cbn in H; rewrite !H by lia; reflexivity. Qed.
Lemma trace_relative d G total ls : (d = 2 \/ d = 3)%nat -> trace_of d (relative_stress d G total ls) = - trace_of d (backstress d ls).
Proof. intros H. unfold trace_of, relative_stress, dev_of, trace_of. dim23 d H; field. Qed.

Lemma s32_pos : 0 < sqrt32. Proof. unfold sqrt32. apply sqrt_lt_R0. lra. Qed.
Lemma s32_sq : sqrt32 * sqrt32 = 3 / 2. Proof. unfold sqrt32. apply sqrt_sqrt. lra. Qed.
Lemma s23_eq : sqrt23 = 2 / 3 * sqrt32.
Proof.
  unfold sqrt23. pose proof s32_pos as P. pose proof s32_sq as Q.
  rewrite <- (sqrt_square (2 / 3 * sqrt32)) by lra. f_equal. replace (2 / 3 * sqrt32 * (2 / 3 * sqrt32)) with (4 / 9 * (sqrt32 * sqrt32)) by field. rewrite Q. field.
Qed.

(** The step taken when the trial state is outside the yield surface. *)
Section Step.
  Variables (d : nat) (m : j2) (th : R) (total prev : nat -> R).
  Hypothesis Hd : (d = 2 \/ d = 3)%nat.
  Hypothesis HG : 0 < j_shear m.
  Hypothesis Hi : 0 <= j_iso m.
  Hypothesis Hk : 0 <= j_kin m.
  Hypothesis Hs : 0 < j_yield m.
  Hypothesis Hp : 0 <= prev 0%nat.
  Hypothesis Hb : trace_of d (backstress d prev) = 0.
  Let trial := elastic_step prev.
  Let f := yield_function d (j_shear m) (j_iso m) (j_yield m) total trial.
  Hypothesis Hf : / 10 ^ 10 < f.
  Let rho := relative_stress d (j_shear m) total trial.
  Let N := sqrt (frobenius2 d rho).
  Let dg := f / (3 * j_shear m + j_iso m + j_kin m).
  Let kappa := dg * (2 * j_shear m * sqrt32 + sqrt23 * j_kin m).
  Let ls := update_local_state d m th total prev.

  Lemma trial_back v : backstress d trial v = backstress d prev v. Proof. unfold backstress, trial, elastic_step. destruct Hd as [-> | ->]; reflexivity. Qed.
  Lemma trial_plastic v : plastic_strain d trial v = plastic_strain d prev v.
  Proof. unfold plastic_strain, tensorial, trial, elastic_step. destruct Hd as [-> | ->]; reflexivity. Qed.
  Lemma f_def : f = sqrt32 * N - (j_yield m + j_iso m * prev 0%nat). Proof. reflexivity. Qed.
  Lemma f_pos : 0 < f. Proof. assert (0 < / 10 ^ 10) by (apply Rinv_0_lt_compat; apply pow_lt; lra). lra. Qed.
  Lemma den_pos : 0 < 3 * j_shear m + j_iso m + j_kin m. Proof. lra. Qed.
  Lemma dg_pos : 0 < dg. Proof. apply Rdiv_lt_0_compat; [apply f_pos|apply den_pos]. Qed.
  Lemma dg_eq : dg * (3 * j_shear m + j_iso m + j_kin m) = f. Proof. unfold dg. field. pose proof den_pos. lra. Qed.
  Lemma N_pos : 0 < N.
  Proof.
    assert (H : 0 < sqrt32 * N). { pose proof f_pos as P. rewrite f_def in P. assert (0 <= j_iso m * prev 0%nat) by (apply Rmult_le_pos; lra). lra. }
    pose proof s32_pos. destruct (Rle_lt_dec N 0); [|assumption]. nra.
  Qed.
  Lemma kappa_eq : sqrt32 * kappa = dg * (3 * j_shear m + j_kin m).
  Proof. unfold kappa. rewrite s23_eq. replace (sqrt32 * (dg * (2 * j_shear m * sqrt32 + 2 / 3 * sqrt32 * j_kin m))) with (dg * (2 * j_shear m + 2 / 3 * j_kin m) * (sqrt32 * sqrt32)) by ring. rewrite s32_sq. field. Qed.
  (** sqrt(3/2) (N - kappa) is the hardened yield stress. *)
  Lemma remaining : sqrt32 * (N - kappa) = j_yield m + j_iso m * (prev 0%nat + dg).
  Proof. pose proof kappa_eq. pose proof dg_eq. pose proof f_def. replace (sqrt32 * (N - kappa)) with (sqrt32 * N - sqrt32 * kappa) by ring. lra. Qed.
  Lemma remaining_pos : 0 < N - kappa.
  Proof.
    pose proof remaining as R. pose proof s32_pos. pose proof dg_pos.
    assert (0 <= j_iso m * (prev 0%nat + dg)) by (apply Rmult_le_pos; lra).
    destruct (Rle_lt_dec (N - kappa) 0); [|assumption]. nra.
  Qed.
  Lemma rho_trace : trace_of d rho = 0.
  Proof. unfold rho. rewrite trace_relative by exact Hd. rewrite (trace_ext d (backstress d prev)); [rewrite Hb; ring|exact Hd|]. intros. apply trial_back. Qed.

  Lemma update_is : ls = fun k => match k with
             | 0%nat => prev 0%nat + dg
             | 1%nat => dg
             | _ => if Nat.ltb k (2 + nst d) then prev k + shear_weight d (k - 2) * (dg * sqrt32) * yield_normal d (deviatoric_stress d (j_shear m) (elastic_strain d th total trial)) trial (k - 2)%nat
                    else prev k + dg * sqrt23 * j_kin m * yield_normal d (deviatoric_stress d (j_shear m) (elastic_strain d th total trial)) trial (k - 2 - nst d)%nat
             end.
  Proof.
    unfold ls, update_local_state. fold trial. rewrite yield_value_spec by exact Hd. fold f. destruct (Rlt_dec (/ 10 ^ 10) f) as [_|C]; [reflexivity|contradiction].
  Qed.
  Lemma normal_is v : (v < components d)%nat -> yield_normal d (deviatoric_stress d (j_shear m) (elastic_strain d th total trial)) trial v = rho v / N.
  Proof. intros Hv. unfold yield_normal. rewrite eta_relative, norm_relative by assumption. reflexivity. Qed.
  Lemma new_plastic v : (v < components d)%nat -> plastic_strain d ls v = plastic_strain d prev v + dg * sqrt32 * (rho v / N).
  Proof.
    intros Hv. unfold plastic_strain. rewrite update_is. rewrite <- normal_is by exact Hv.
    unfold tensorial, shear_weight, nst, normal. destruct Hd as [-> | ->]; cbn in Hv; comp v; try lia; cbn [Nat.eqb Nat.ltb Nat.leb Nat.add Nat.sub negb]; field.
  Qed.
  Lemma new_back v : (v < components d)%nat -> backstress d ls v = backstress d prev v + dg * sqrt23 * j_kin m * (rho v / N).
  Proof.
    intros Hv. unfold backstress. rewrite update_is. rewrite <- normal_is by exact Hv.
    unfold nst. destruct Hd as [-> | ->]; cbn in Hv; comp v; try lia; reflexivity.
  Qed.
  Lemma new_relative v : (v < components d)%nat -> relative_stress d (j_shear m) total ls v = (1 - kappa / N) * rho v.
  Proof.
    intros Hv. pose proof rho_trace as T. pose proof N_pos as P.
    assert (E : forall w, (w < components d)%nat -> tensorial d total w - plastic_strain d ls w = tensorial d total w - plastic_strain d trial w - dg * sqrt32 * (rho w / N)).
    { intros w Hw. rewrite new_plastic by exact Hw. rewrite trial_plastic. ring. }
    assert (D : dev_of d (fun w => tensorial d total w - plastic_strain d ls w) v = dev_of d (fun w => tensorial d total w - plastic_strain d trial w) v - dg * sqrt32 * (rho v / N)).
    { assert (TT : trace_of d (fun w => tensorial d total w - plastic_strain d ls w) = trace_of d (fun w => tensorial d total w - plastic_strain d trial w)).
      { rewrite (trace_ext d (fun w => tensorial d total w - plastic_strain d trial w - dg * sqrt32 * (rho w / N)) _ Hd) by exact E.
        transitivity (trace_of d (fun w => tensorial d total w - plastic_strain d trial w) - dg * sqrt32 / N * trace_of d rho).
        - unfold trace_of. destruct Hd as [-> | ->]; field; lra.
        - rewrite T. ring. }
      unfold dev_of. rewrite TT. destruct Hd as [-> | ->]; cbn in Hv; comp v; try lia; rewrite E by (cbn; lia); ring. }
    unfold relative_stress at 1. rewrite D, new_back by exact Hv.
    replace (rho v) with (2 * j_shear m * dev_of d (fun w => tensorial d total w - plastic_strain d trial w) v - backstress d prev v) at 3 by (unfold rho, relative_stress; rewrite trial_back; reflexivity).
    assert (F : rho v = 2 * j_shear m * dev_of d (fun w => tensorial d total w - plastic_strain d trial w) v - backstress d prev v) by (unfold rho, relative_stress; rewrite trial_back; reflexivity).
    rewrite F. unfold kappa. field. lra.
  Qed.
  Lemma new_norm : sqrt (frobenius2 d (relative_stress d (j_shear m) total ls)) = N - kappa.
  Proof.
    pose proof N_pos as P. pose proof remaining_pos as Q.
    rewrite (frob_scale d (1 - kappa / N) rho) by (intros; apply new_relative; assumption).
    rewrite sqrt_mult; [|apply Rle_0_sqr|apply frob_nonneg]. fold N.
    replace (1 - kappa / N) with ((N - kappa) / N) by (field; lra).
    rewrite sqrt_square; [field; lra|]. apply Rlt_le, Rdiv_lt_0_compat; assumption.
  Qed.
  Lemma new_yield : yield_function d (j_shear m) (j_iso m) (j_yield m) total ls = 0.
  Proof.
    unfold yield_function. rewrite new_norm. unfold accumulated. rewrite update_is. pose proof remaining as R. unfold sqrt32 in R. rewrite R. ring.
  Qed.
  Lemma new_direction v : (v < components d)%nat -> relative_stress d (j_shear m) total ls v / sqrt (frobenius2 d (relative_stress d (j_shear m) total ls)) = rho v / N.
  Proof. intros Hv. rewrite new_norm, new_relative by exact Hv. pose proof N_pos. pose proof remaining_pos. field. lra. Qed.
  Lemma new_mult : ls 1%nat = dg. Proof. rewrite update_is. reflexivity. Qed.
  Lemma new_acc : ls 0%nat = prev 0%nat + dg. Proof. rewrite update_is. reflexivity. Qed.
  Lemma new_residual k : (k < local_size d)%nat -> local_residual d m th total ls prev k = 0.
  Proof.
    intros Hk'. unfold local_residual. rewrite new_mult. pose proof dg_pos as P. destruct (Rlt_dec 0 dg) as [_|C]; [|contradiction].
    assert (ND : forall v, (v < components d)%nat -> yield_normal d (deviatoric_stress d (j_shear m) (elastic_strain d th total ls)) ls v = rho v / N).
    { intros v Hv. unfold yield_normal. rewrite eta_relative, norm_relative by assumption. apply new_direction. exact Hv. }
    destruct k as [|[|k]].
    - rewrite new_acc. ring.
    - rewrite yield_value_spec by exact Hd. apply new_yield.
    - assert (E : ls (S (S k)) = if Nat.ltb (S (S k)) (2 + nst d)
        then prev (S (S k)) + shear_weight d (S (S k) - 2) * (dg * sqrt32) * yield_normal d (deviatoric_stress d (j_shear m) (elastic_strain d th total trial)) trial (S (S k) - 2)%nat
        else prev (S (S k)) + dg * sqrt23 * j_kin m * yield_normal d (deviatoric_stress d (j_shear m) (elastic_strain d th total trial)) trial (S (S k) - 2 - nst d)%nat)
        by (rewrite update_is; reflexivity).
      assert (C : nst d = components d) by (destruct Hd as [-> | ->]; reflexivity).
      unfold local_size in Hk'. rewrite E.
      destruct (Nat.ltb_spec (S (S k)) (2 + nst d)); rewrite ND, normal_is by lia; ring.
  Qed.
End Step.
