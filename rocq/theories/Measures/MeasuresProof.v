(** Lemmas on local measures. *)
From Coq Require Import Reals List Arith Bool Lia Lra FunctionalExtensionality.
From Verif Require Import Base.Field Base.Sums Base.Res Element.ElementModel Element.ElementProof Element.ElementProps Element.MaterialModel Element.ElementSpec Element.MaterialSpec Element.JacobiProof Element.MaterialProps
  Residual.ResidualModel Measures.MeasuresModel Measures.MeasuresSpec.
Import ListNotations.
Local Open Scope R_scope.

Lemma pos_max x : (if Rle_dec 0 x then x else 0) = Rmax x 0.
Proof. destruct (Rle_dec 0 x); [rewrite Rmax_left|rewrite Rmax_right]; lra. Qed.
Lemma pos_add e x mu : (if Rle_dec 0 x then e + x * x * mu else e) = e + mu * (Rmax x 0 * Rmax x 0).
Proof. destruct (Rle_dec 0 x); [rewrite Rmax_left|rewrite Rmax_right]; lra. Qed.
Lemma tensile_tension d lam mu p : tensile_energy d lam mu p = tension d lam mu p.
Proof.
  unfold tensile_energy, tension. set (F := fun _ _ => _).
  assert (E : forall n, fold_left F (seq 0 n) (0, 0) = (mu * rs n (fun i => Rmax (p i) 0 * Rmax (p i) 0), rs n p)).
  { induction n as [|n IH]; [unfold rs; cbn; f_equal; change (0 = mu * 0); ring|].
    rewrite seq_S, fold_left_app, IH. cbn [fold_left plus]. unfold F. rewrite pos_add. unfold rs. cbn [sum]. change (@radd R_ring) with Rplus. f_equal. ring. }
  rewrite E, pos_max. field.
Qed.
Lemma tension_ext d lam mu p q : (forall i, (i < d)%nat -> p i = q i) -> tension d lam mu p = tension d lam mu q.
Proof.
  intros H. unfold tension. unfold rs. rewrite (rsum_ext d p q) by exact H. f_equal. f_equal. apply rsum_ext. intros i Hi. rewrite (H i Hi). reflexivity.
Qed.
Lemma max_split x : Rmax x 0 * Rmax x 0 + Rmax (- x) 0 * Rmax (- x) 0 = x * x.
Proof. unfold Rmax. destruct (Rle_dec x 0), (Rle_dec (- x) 0); nra. Qed.
Lemma max_sq_le x : 0 <= Rmax x 0 * Rmax x 0 <= x * x.
Proof. unfold Rmax. destruct (Rle_dec x 0); nra. Qed.
(** Tension and compression share the energy of the principal strains. *)
Definition principal_energy (d : nat) (lam mu : R) (l : nat -> R) : R := mu * rs d (fun i => l i * l i) + lam / 2 * (rs d l * rs d l).
Lemma tension_split d lam mu l : tension d lam mu l + tension d lam mu (fun i => - l i) = principal_energy d lam mu l.
Proof.
  unfold tension, principal_energy.
  assert (E1 : rs d (fun i => - l i) = - rs d l) by (unfold rs; induction d as [|d IH]; [cbn; ring|cbn [sum]; change (@radd R_ring) with Rplus; rewrite IH; ring]).
  assert (E2 : rs d (fun i => l i * l i) = rs d (fun i => Rmax (l i) 0 * Rmax (l i) 0) + rs d (fun i => Rmax (- l i) 0 * Rmax (- l i) 0)).
  { unfold rs. induction d as [|d IH]; [cbn; ring|]. cbn [sum]. change (@radd R_ring) with Rplus. rewrite IH, <- (max_split (l d)). ring.
    unfold rs. clear. induction d as [|d IH]; [cbn; ring|cbn [sum]; change (@radd R_ring) with Rplus; rewrite IH; ring]. }
  rewrite E1, E2, <- (max_split (rs d l)). ring.
Qed.
Lemma rs_nonneg n f : (forall i, (i < n)%nat -> 0 <= f i) -> 0 <= rs n f.
Proof. unfold rs. induction n as [|n IH]; intros H; [cbn; lra|]. cbn [sum]. change (@radd R_ring) with Rplus. pose proof (IH (fun i Hi => H i ltac:(lia))). pose proof (H n ltac:(lia)). lra. Qed.
Lemma tension_nonneg d lam mu l : 0 <= lam -> 0 <= mu -> 0 <= tension d lam mu l.
Proof.
  intros Hl Hm. unfold tension. pose proof (rs_nonneg d (fun i => Rmax (l i) 0 * Rmax (l i) 0) ltac:(intros; apply max_sq_le)). pose proof (proj1 (max_sq_le (rs d l))).
  pose proof (Rmult_le_pos _ _ Hm H). assert (0 <= lam / 2) by lra. pose proof (Rmult_le_pos _ _ H2 H0). lra.
Qed.
Lemma tension_le d lam mu l : 0 <= lam -> 0 <= mu -> tension d lam mu l <= principal_energy d lam mu l.
Proof. intros Hl Hm. rewrite <- tension_split. pose proof (tension_nonneg d lam mu (fun i => - l i) Hl Hm). lra. Qed.

(** ** Principal values *)
Lemma principal_ext d st t t' : (1 <= d <= 3)%nat -> (forall v, (v < num_voigt d)%nat -> t v = t' v) -> forall i, principal d st t i = principal d st t' i.
Proof.
  intros Hd H i. dims d; cbn in H; unfold principal.
  - apply H. lia.
  - unfold eigenvalues2. rewrite !(H 0%nat), !(H 1%nat), !(H 2%nat) by lia. reflexivity.
  - unfold eigenvalues3. replace (tensor3 st t) with (tensor3 st t'); [reflexivity|].
    apply functional_extensionality; intros a; apply functional_extensionality; intros b. unfold tensor3.
    destruct a as [|[|[|a]]], b as [|[|[|b]]]; rewrite ?(H 0%nat), ?(H 1%nat), ?(H 2%nat), ?(H 3%nat), ?(H 4%nat), ?(H 5%nat) by lia; reflexivity.
Qed.
Lemma pivot_opp T : pivot (fun i j => - T i j) = pivot T.
Proof. unfold pivot. rewrite !Rabs_Ropp. reflexivity. Qed.
Lemma givens_opp T : givens (fun i j => - T i j) = givens T.
Proof.
  unfold givens. rewrite pivot_opp. destruct (pivot T) as [p q]. rewrite Rabs_Ropp.
  destruct (Rlt_dec tiny (Rabs (T p q))) as [H|H]; [|reflexivity].
  assert (N : T p q <> 0). { intros E. rewrite E, Rabs_R0 in H. unfold tiny in H. pose proof (Rinv_0_lt_compat (10 ^ 15) ltac:(apply pow_lt; lra)). lra. }
  replace ((- T q q - - T p p) / (2 * - T p q)) with ((T q q - T p p) / (2 * T p q)) by (field; exact N). reflexivity.
Qed.
Lemma rotate_opp T G : rotate (fun i j => - T i j) G = (fun i j => - rotate T G i j).
Proof.
  apply functional_extensionality; intros i; apply functional_extensionality; intros l. unfold rotate. destruct (Nat.leb i l); rsums; ring.
Qed.
Lemma jacobi_opp n : forall T, jacobi n (fun i j => - T i j) = (fun i j => - jacobi n T i j).
Proof. induction n as [|n IH]; intros T; [reflexivity|]. cbn [jacobi]. rewrite givens_opp, rotate_opp. apply IH. Qed.
Lemma tensor3_opp st t : tensor3 st (fun v => - t v) = (fun i j => - tensor3 st t i j).
Proof.
  apply functional_extensionality; intros a; apply functional_extensionality; intros b. unfold tensor3.
  destruct a as [|[|[|a]]], b as [|[|[|b]]]; try reflexivity; try ring; destruct st; field.
Qed.
Lemma eigenvalues3_opp n st t i : eigenvalues3 n st (fun v => - t v) i = - eigenvalues3 n st t i.
Proof. unfold eigenvalues3. rewrite tensor3_opp, jacobi_opp. reflexivity. Qed.

(** The squares of all entries of a rotated tensor. *)
Definition frob (T : nat -> nat -> R) : R := rs 3 (fun i => rs 3 (fun j => T i j * T i j)).
Lemma frob_similar Q T : orth2 Q -> frob (similar Q T) = frob T.
Proof.
  intros [Q1 Q2]. unfold frob.
  transitivity (rs 3 (fun l => rs 3 (fun i => similar Q T i l * similar Q T i l))); [rsx; ring|].
  transitivity (rs 3 (fun l => rs 3 (fun j => rs 3 (fun k => Q k l * T j k) * rs 3 (fun k => Q k l * T j k)))).
  - apply rsum_ext. intros l _. change (rs 3 (fun i => similar Q T i l * similar Q T i l) = norm2 (fun j => rs 3 (fun k => Q k l * T j k))).
    rewrite <- (norm_rows Q (fun j => rs 3 (fun k => Q k l * T j k)) Q2). apply rsum_ext. intros i _.
    assert (E : similar Q T i l = rs 3 (fun j => Q j i * rs 3 (fun k => Q k l * T j k))) by (unfold similar; rsx; ring). rewrite E. reflexivity.
  - transitivity (rs 3 (fun j => rs 3 (fun l => rs 3 (fun k => Q k l * T j k) * rs 3 (fun k => Q k l * T j k)))); [rsx; ring|].
    apply rsum_ext. intros j _. exact (norm_rows Q (T j) Q2).
Qed.
Lemma jacobi_invariants n T : symm3 T -> rs 3 (fun i => jacobi n T i i * jacobi n T i i) = frob T - 2 * off_mass (jacobi n T) /\ rs 3 (fun i => jacobi n T i i) = rs 3 (fun i => T i i).
Proof.
  intros H. destruct (jacobi_similar n T H) as ((S1 & S2 & S3) & Q & OQ & E). split.
  - rewrite <- (frob_similar Q T OQ).
    assert (F : frob (similar Q T) = frob (jacobi n T)). { unfold frob, rs. apply rsum_ext. intros i Hi. apply rsum_ext. intros l Hl. rewrite E by assumption. reflexivity. }
    rewrite F. unfold frob, off_mass. rsx. rewrite S1, S2, S3. ring.
  - destruct OQ as [Q1 Q2]. transitivity (rs 3 (fun i => similar Q T i i)); [unfold rs; apply rsum_ext; intros i Hi; apply E; assumption|].
    transitivity (rs 3 (fun j => rs 3 (fun k => T j k * rs 3 (fun i => Q j i * Q k i)))); [unfold similar; rsx; ring|].
    unfold rs at 1 4. apply rsum_ext. intros j Hj. unfold rs at 1. rewrite (rsum_single 3 j); [rewrite (Q2 j j Hj Hj), Nat.eqb_refl; req; ring|exact Hj|].
    intros k Hk Hne. rewrite (Q2 j k Hj Hk). destruct (Nat.eqb_spec j k); [congruence|]. req. ring.
Qed.

(** What the rotations leave out of the energy: nothing for a bar, everything for a negative shear in the plane. *)
Definition left_out (d : nat) (e : nat -> R) : R :=
  match d with
  | 1%nat => 0
  | 2%nat => if Rle_dec 0 (e 2%nat) then 0 else e 2%nat / 2 * (e 2%nat / 2)
  | _ => off_mass (jacobi 6 (tensor3 true e))
  end.
Lemma left_out_nonneg d e : 0 <= left_out d e.
Proof. unfold left_out. destruct d as [|[|[|d]]]; try apply off_nonneg; [lra|]. destruct (Rle_dec 0 (e 2%nat)); nra. Qed.
Lemma eigen2_sums a b c l0 l1 : are_eigenvalues2 a b c l0 l1 -> l0 + l1 = a + c /\ l0 * l0 + l1 * l1 = a * a + c * c + 2 * (b * b).
Proof.
  intros H. pose proof (H 0) as H0. pose proof (H 1) as H1. assert (S : l0 + l1 = a + c) by nra. assert (P : l0 * l1 = a * c - b * b) by nra. split; [exact S|].
  transitivity ((l0 + l1) * (l0 + l1) - 2 * (l0 * l1)); [ring|]. rewrite S, P. ring.
Qed.
Lemma principal_stored d lam mu e : (1 <= d <= 3)%nat -> principal_energy d lam mu (principal d true e) = stored d lam mu e - 2 * mu * left_out d e.
Proof.
  intros Hd. unfold principal_energy, stored, left_out. dims d.
  - unfold hooke. rsx. cbn. rsx. field.
  - destruct (Rle_dec 0 (e 2%nat)) as [P|P].
    + destruct (eigen2_sums _ _ _ _ _ (C35_partial true e P)) as [S Q]. unfold shear2 in Q.
      set (l0 := fst (eigenvalues2 true e)) in *. set (l1 := snd (eigenvalues2 true e)) in *.
      assert (E1 : rs 2 (principal 2 true e) = e 0%nat + e 1%nat) by (transitivity (0 + l0 + l1); [reflexivity|lra]).
      assert (E2 : rs 2 (fun i => principal 2 true e i * principal 2 true e i) = e 0%nat * e 0%nat + e 1%nat * e 1%nat + 2 * (e 2%nat / 2 * (e 2%nat / 2))) by (transitivity (0 + l0 * l0 + l1 * l1); [reflexivity|lra]).
      rewrite E1, E2. clear.
      unfold rs. cbn [num_voigt sum]. unfold hooke. cbn [Nat.ltb Nat.leb]. unfold rs. cbn [sum]. change (@radd R_ring) with Rplus. change (@r0 R_ring) with 0. field.
    + assert (N : e 2%nat < 0) by lra. destruct (C35_negative_shear_wrong true e N) as [E _]. 
      assert (E1 : rs 2 (principal 2 true e) = e 0%nat + e 1%nat) by (unfold rs; cbn [sum]; unfold principal; rewrite E; cbn; ring).
      assert (E2 : rs 2 (fun i => principal 2 true e i * principal 2 true e i) = e 0%nat * e 0%nat + e 1%nat * e 1%nat) by (unfold rs; cbn [sum]; unfold principal; rewrite E; cbn; ring).
      rewrite E1, E2. clear.
      unfold rs. cbn [sum num_voigt]. unfold hooke. cbn [Nat.eqb Nat.ltb Nat.leb]. unfold rs. cbn [sum]. change (@radd R_ring) with Rplus. change (@r0 R_ring) with 0. field.
  - destruct (jacobi_invariants 6 (tensor3 true e) (tensor_symm true e)) as [Q S]. 
    change (principal 3 true e) with (fun i => jacobi 6 (tensor3 true e) i i). cbv beta. rewrite Q, S. set (o := off_mass _). clearbody o. clear.
    unfold frob. unfold tensor3, rs. cbn [sum num_voigt]. unfold hooke. cbn [Nat.ltb Nat.leb]. unfold rs. cbn [sum]. change (@radd R_ring) with Rplus. change (@r0 R_ring) with 0. field.
Qed.
Lemma moduli E v : admissible E v -> 0 <= v -> 0 <= lame E v /\ 0 <= shear_mod E v.
Proof.
  intros (H1 & H2 & H3) Hv. unfold lame, shear_mod. split; apply Rmult_le_pos; try nra.
  - apply Rlt_le, Rinv_0_lt_compat. apply Rmult_lt_0_compat; lra.
  - apply Rlt_le, Rinv_0_lt_compat. lra.
Qed.
(** The measure of a cell moved with displacement gradient A. *)
Lemma measure_strain d lam mu x t A u : (1 <= d <= 3)%nat -> simplex_measure d x <> 0 -> affine_displacement d d x t A u ->
  tensile_measure d lam mu x u = tension d lam mu (principal d true (engineering_strain d A)).
Proof.
  intros Hd Hm Hu. unfold tensile_measure. rewrite tensile_tension. apply tension_ext. intros i _. apply principal_ext; [exact Hd|].
  intros v Hv. apply (proj1 (C32_strain d d x t A u Hd (le_n d) Hm Hu) v Hv).
Qed.
Lemma von_mises_ext d s s' : (1 <= d <= 3)%nat -> (forall v, (v < num_voigt d)%nat -> s v = s' v) -> von_mises d s = von_mises d s'.
Proof.
  intros Hd H. dims d; cbn in H; unfold von_mises; rewrite ?(H 0%nat), ?(H 1%nat), ?(H 2%nat), ?(H 3%nat), ?(H 4%nat), ?(H 5%nat) by lia; reflexivity.
Qed.
Lemma von_mises_strain d C x t A u : (1 <= d <= 3)%nat -> simplex_measure d x <> 0 -> affine_displacement d d x t A u ->
  von_mises_measure d C x u = von_mises d (linear_stress (num_voigt d) C (fun _ => 0) (engineering_strain d A)).
Proof.
  intros Hd Hm Hu. unfold von_mises_measure. apply von_mises_ext; [exact Hd|]. intros v _. unfold linear_stress. apply rsum_ext. intros j Hj.
  rewrite (proj1 (C32_strain d d x t A u Hd (le_n d) Hm Hu) j Hj). reflexivity.
Qed.
Lemma engineering_opp d A v : engineering_strain d (fun i j => - A i j) v = - engineering_strain d A v.
Proof. unfold engineering_strain. destruct d as [|[|[|[|d]]]], v as [|[|[|[|[|[|v]]]]]]; ring. Qed.
Lemma engineering_scale d A k v : engineering_strain d (fun i j => k * A i j) v = k * engineering_strain d A v.
Proof. unfold engineering_strain. destruct d as [|[|[|[|d]]]], v as [|[|[|[|[|[|v]]]]]]; ring. Qed.
Lemma engineering_rigid d A v : (1 <= d <= 3)%nat -> antisymmetric d A -> engineering_strain d A v = 0.
Proof.
  intros Hd H. unfold engineering_strain. dims d; destruct v as [|[|[|[|[|[|v]]]]]]; try reflexivity;
    match goal with |- A ?i ?j = 0 => pose proof (H i j ltac:(lia) ltac:(lia)); lra | |- A ?i ?j + _ = 0 => pose proof (H i j ltac:(lia) ltac:(lia)); lra end.
Qed.
