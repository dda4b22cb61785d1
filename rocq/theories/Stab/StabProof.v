(** Lemmas for the stabilised formulation. *)
From Coq Require Import Reals List Arith Bool Lia Lra.
From Verif Require Import Base.Field Base.Sums Base.Res Element.ElementModel Element.ElementSpec Element.ElementProof Element.ElementProps Element.MaterialModel Element.MaterialSpec
  Penalty.PenaltyModel Ortho.OrthoModel Residual.ResidualModel Residual.ResidualSpec Residual.ResidualProof Residual.CouplingProof Stab.StabModel Stab.StabSpec.
Import ListNotations.
Local Open Scope R_scope.

(** The pressure acts like a stress with equal normal components. *)
Definition hydrostatic (d : nat) (p : R) (v : nat) : R := if Nat.ltb v d then p else 0.
Lemma voigt_diagonal d i j : (1 <= d <= 3)%nat -> (i < d)%nat -> (j < d)%nat -> Nat.ltb (voigt d i j) d = Nat.eqb i j.
Proof. intros Hd Hi Hj. dims d; destruct i as [|[|[|i]]]; try lia; destruct j as [|[|[|j]]]; try lia; reflexivity. Qed.
Lemma pressure_entry d ndof s vol p g out k :
  pressure_divergence d ndof s vol p g out k = out k + rsum d (fun i => rsum (S d) (fun a => if Nat.eqb k (a * ndof + i) then s * vol * p * g a i else 0)).
Proof.
  unfold pressure_divergence.
  rewrite (fold_add d _ (fun i k => rsum (S d) (fun a => if Nat.eqb k (a * ndof + i) then s * vol * p * g a i else 0))); [reflexivity|].
  intros o i k0. rewrite (fold_add (S d) _ (fun a k0 => if Nat.eqb k0 (a * ndof + i) then s * vol * p * g a i else 0)); [reflexivity|].
  intros o' a k1. destruct (Nat.eqb k1 _); ring.
Qed.
Lemma pressure_stress d ndof s vol p g out k : (1 <= d <= 3)%nat ->
  pressure_divergence d ndof s vol p g out k = stress_divergence d ndof 0 s vol (hydrostatic d p) g out k.
Proof.
  intros Hd. rewrite pressure_entry, divergence_entry. f_equal. apply rsum_ext. intros i Hi. apply rsum_ext. intros a Ha. rewrite Nat.add_0_r.
  destruct (Nat.eqb k _); [|reflexivity].
  rewrite (rsum_single d i); [unfold hydrostatic; rewrite voigt_diagonal, Nat.eqb_refl by lia; req; ring|exact Hi|].
  intros j Hj Hne. unfold hydrostatic. rewrite voigt_diagonal by lia. destruct (Nat.eqb_spec i j); [subst; contradiction|req; ring].
Qed.
Lemma cell_work_ext npc ndof r s w : (forall k, r k = s k) -> cell_work npc ndof r w = cell_work npc ndof s w.
Proof. intros H. unfold cell_work. apply rsum_ext. intros a _. apply rsum_ext. intros i _. rewrite H. reflexivity. Qed.
Lemma stress_divergence_out d ndof scale vol s g o o' k : (forall k, o k = o' k) -> stress_divergence d ndof 0 scale vol s g o k = stress_divergence d ndof 0 scale vol s g o' k.
Proof. intros H. rewrite !divergence_entry, H. reflexivity. Qed.
Lemma project_at d ndof off vol q out a : (a < S d)%nat -> (off < ndof)%nat ->
  project_to_node d ndof off vol q out (a * ndof + off)%nat = out (a * ndof + off)%nat + cub_basis d a * q * vol.
Proof.
  intros Ha Ho. rewrite project_entry. f_equal. rewrite (rsum_single (S d) a); [unfold pick; rewrite Nat.eqb_refl; reflexivity|exact Ha|].
  intros j _ Hne. unfold pick. destruct (Nat.eqb_spec (a * ndof + off) (j * ndof + off)) as [E|]; [|reflexivity]. exfalso. apply Hne. nia.
Qed.
Lemma project_other d ndof off vol q out a i : (i < ndof)%nat -> (off < ndof)%nat -> i <> off ->
  project_to_node d ndof off vol q out (a * ndof + i)%nat = out (a * ndof + i)%nat.
Proof.
  intros Hi Ho Hne. rewrite project_entry, rsum_0; [ring|]. intros j _. unfold pick.
  destruct (Nat.eqb_spec (a * ndof + i) (j * ndof + off)) as [E|]; [|reflexivity]. exfalso. assert (a = j) by nia. lia.
Qed.

(** The value of the cell residual once the moduli are numbers. *)
Definition cell_value (d : nat) (pen : R -> R) (m : stabilized) (K mu : R) (x : coords) (u q z : nat -> R) : nat -> R :=
  let g := cell_gradient d x in let vol := cell_measure d x in let e := strain d (S d) (fun _ => 0) u g in
  let p := b_scale m * interpolate d (S d) d u in let w := weigh d pen z in
  project_to_node d (S d) d vol (w (fun _ => volume_flux d (b_scale m) K e p) 0%nat)
    (flux_divergence d (S d) d (-1) vol (w (stabilization (b_scale m) mu vol (scalar_gradient d (S d) d u g) (fun i => interpolate d d i q))) g
       (pressure_divergence d (S d) 1 vol (w (fun _ => p) 0%nat) g
          (stress_divergence d (S d) 0 1 vol (w (dev_stress d (b_stiff m) e)) g (fun _ => 0)))).
Lemma stab_cell_ok d pen m K mu x u q z : moduli d (b_stiff m) = Ok (K, mu) -> stab_cell d pen m x u q z = Ok (cell_value d pen m K mu x u q z).
Proof. intros H. unfold stab_cell. cbv zeta. rewrite H. reflexivity. Qed.

Definition total_stress (d : nat) (m : stabilized) (e : nat -> R) (p : R) (v : nat) : R := dev_stress d (b_stiff m) e v + hydrostatic d p v.
Lemma value_mech d pen m K mu x u q z a i : (1 <= d <= 3)%nat -> (i < d)%nat -> (a < S d)%nat ->
  cell_value d pen m K mu x u q z (a * S d + i)%nat = cell_measure d x * pen (cell_density (S d) z) *
    rsum d (fun j => total_stress d m (strain d (S d) (fun _ => 0) u (cell_gradient d x)) (b_scale m * interpolate d (S d) d u) (voigt d i j) * cell_gradient d x a j).
Proof.
  intros Hd Hi Ha. unfold cell_value. cbv zeta. rewrite project_other, flux_other by lia. rewrite pressure_stress by exact Hd. rewrite !stress_at by lia.
  unfold weigh. set (P := pen _). set (p := b_scale m * _). set (e := strain _ _ _ _ _).
  rewrite (rsum_ext d (fun j => total_stress d m e p (voigt d i j) * _) (fun j => dev_stress d (b_stiff m) e (voigt d i j) * cell_gradient d x a j + hydrostatic d p (voigt d i j) * cell_gradient d x a j))
    by (intros; unfold total_stress; req; ring).
  rewrite rsum_add.
  rewrite (rsum_ext d (fun j => dev_stress d (b_stiff m) e (voigt d i j) * P * _) (fun j => P * (dev_stress d (b_stiff m) e (voigt d i j) * cell_gradient d x a j))) by (intros; req; ring).
  rewrite (rsum_ext d (fun j => hydrostatic d (p * P) (voigt d i j) * _) (fun j => P * (hydrostatic d p (voigt d i j) * cell_gradient d x a j)))
    by (intros; unfold hydrostatic; destruct (Nat.ltb _ d); req; ring).
  rewrite !rsum_scal_l. ring.
Qed.
Lemma value_pressure d pen m K mu x u q z a : (1 <= d <= 3)%nat -> (a < S d)%nat ->
  cell_value d pen m K mu x u q z (a * S d + d)%nat = cell_measure d x * pen (cell_density (S d) z) *
    (cub_basis d a * volume_flux d (b_scale m) K (strain d (S d) (fun _ => 0) u (cell_gradient d x)) (b_scale m * interpolate d (S d) d u)
     - rsum d (fun j => stabilization (b_scale m) mu (cell_measure d x) (scalar_gradient d (S d) d u (cell_gradient d x)) (fun i => interpolate d d i q) j * cell_gradient d x a j)).
Proof.
  intros Hd Ha. unfold cell_value. cbv zeta. rewrite project_at, flux_at_node by lia. rewrite pressure_stress by exact Hd. rewrite !stress_other by lia.
  unfold weigh. set (P := pen _).
  match goal with |- context [rsum d (fun j => ?f j * P * ?h j)] => rewrite (rsum_ext d (fun j => f j * P * h j) (fun j => P * (f j * h j))) by (intros; req; ring) end.
  rewrite rsum_scal_l. ring.
Qed.
Lemma value_work d pen m K mu x u q z w : (1 <= d <= 3)%nat ->
  cell_work (S d) (S d) (cell_value d pen m K mu x u q z) w = cell_measure d x * pen (cell_density (S d) z) *
    (rsum (num_voigt d) (fun v => total_stress d m (strain d (S d) (fun _ => 0) u (cell_gradient d x)) (b_scale m * interpolate d (S d) d u) v * strain d (S d) (fun _ => 0) w (cell_gradient d x) v)
     + volume_flux d (b_scale m) K (strain d (S d) (fun _ => 0) u (cell_gradient d x)) (b_scale m * interpolate d (S d) d u) * interpolate d (S d) d w
     - rsum d (fun j => stabilization (b_scale m) mu (cell_measure d x) (scalar_gradient d (S d) d u (cell_gradient d x)) (fun i => interpolate d d i q) j
                        * scalar_gradient d (S d) d w (cell_gradient d x) j)).
Proof.
  intros Hd. unfold cell_value. cbv zeta. rewrite project_work, flux_work by lia.
  rewrite (cell_work_ext _ _ (pressure_divergence _ _ _ _ _ _ _) _ w (fun k => pressure_stress d (S d) _ _ _ _ _ k Hd)).
  rewrite !stress_work by lia. rewrite cell_work_0. unfold weigh. set (P := pen _). set (p := b_scale m * _). set (e := strain _ _ _ u _). set (ew := strain _ _ _ w _).
  rewrite (rsum_ext (num_voigt d) (fun v => total_stress d m e p v * _) (fun v => dev_stress d (b_stiff m) e v * ew v + hydrostatic d p v * ew v))
    by (intros; unfold total_stress; req; ring).
  rewrite rsum_add.
  rewrite (rsum_ext (num_voigt d) (fun v => dev_stress d (b_stiff m) e v * P * _) (fun v => P * (dev_stress d (b_stiff m) e v * ew v))) by (intros; req; ring).
  rewrite (rsum_ext (num_voigt d) (fun v => hydrostatic d (p * P) v * _) (fun v => P * (hydrostatic d p v * ew v)))
    by (intros; unfold hydrostatic; destruct (Nat.ltb _ d); req; ring).
  match goal with |- context [rsum d (fun j => ?f j * P * ?h j)] => rewrite (rsum_ext d (fun j => f j * P * h j) (fun j => P * (f j * h j))) by (intros; req; ring) end.
  rewrite !rsum_scal_l. ring.
Qed.

(** Isotropic moduli. *)
Lemma full_hooke d lam mu C e i : (1 <= d <= 3)%nat -> isotropic d (num_voigt d) lam mu C -> (i < num_voigt d)%nat -> full_stress d C e i = hooke d lam mu e i.
Proof.
  intros Hd H Hi. unfold full_stress.
  rewrite (rsum_ext _ _ (fun j => e j * hooke d lam mu (fun k => if Nat.eqb k j then 1 else 0) i)) by (intros j Hj; rewrite (H i j Hi Hj); reflexivity).
  unfold hooke, rs. dims d; cbn [num_voigt] in *; destruct i as [|[|[|[|[|[|i]]]]]]; try lia; rsums; cbn; ring.
Qed.
Lemma trace_hooke d lam mu C e : (1 <= d <= 3)%nat -> isotropic d (num_voigt d) lam mu C -> rsum d (full_stress d C e) = (INR d * lam + 2 * mu) * rsum d e.
Proof.
  intros Hd H. rewrite (rsum_ext d _ (fun i => lam * rsum d e + 2 * mu * e i)).
  2: { intros i Hi. rewrite (full_hooke d lam mu C e i Hd H) by (dims d; cbn; lia). unfold hooke. destruct (Nat.ltb_spec i d); [reflexivity|lia]. }
  dims d; rsums; cbn; ring.
Qed.
Lemma moduli_hooke d lam mu C : (2 <= d <= 3)%nat -> isotropic d (num_voigt d) lam mu C -> mu <> 0 -> lam + 2 * mu / INR d <> 0 -> moduli d C = Ok (lam + 2 * mu / INR d, mu).
Proof.
  intros Hd H Hm Hk.
  assert (EB : bulk_modulus d C = lam + 2 * mu / INR d).
  { unfold bulk_modulus. rewrite (rsum_ext d _ (fun j => lam + if Nat.eqb j 0 then 2 * mu else 0)).
    - dims d; try lia; rsums; cbn; field.
    - intros j Hj. rewrite (H 0%nat j) by (dims d; cbn; lia). unfold hooke, rs. dims d; try lia; destruct j as [|[|[|j]]]; try lia; rsums; cbn; ring. }
  assert (ES : rsum (num_voigt d - d) (fun k => C (k + d)%nat (k + d)%nat) = INR (num_voigt d - d) * mu).
  { rewrite (rsum_ext _ _ (fun _ => mu)).
    - dims d; try lia; cbn [num_voigt]; rsums; cbn; ring.
    - intros k Hk'. rewrite (H (k + d)%nat (k + d)%nat) by lia. unfold hooke. destruct (Nat.ltb_spec (k + d) d); [lia|]. rewrite Nat.eqb_refl. req. ring. }
  assert (EN : INR (num_voigt d - d) <> 0) by (apply not_0_INR; dims d; cbn; lia).
  unfold moduli. rewrite ES, EB. unfold quot. destruct (Req_EM_T _ 0); [contradiction|]. cbn [rbind].
  replace (INR (num_voigt d - d) * mu / INR (num_voigt d - d)) with mu by (field; exact EN).
  destruct (Req_EM_T _ 0); [contradiction|]. cbn [rbind]. destruct (Req_EM_T (2 * mu) 0) as [E|]; [lra|]. reflexivity.
Qed.
