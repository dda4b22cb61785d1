(** C128: local measures. *)
From Coq Require Import Reals List Arith Bool String Lia Lra FunctionalExtensionality.
From Verif Require Import Base.Field Base.Sums Base.Res Element.ElementModel Element.ElementProof Element.ElementProps Element.MaterialModel Element.ElementSpec Element.MaterialSpec Element.JacobiProof Element.MaterialProps
  Penalty.PenaltyModel Residual.ResidualModel Residual.ResidualProof Measures.MeasuresModel Measures.MeasuresSpec Measures.MeasuresProof.
Import ListNotations.
Local Open Scope R_scope.

(** ** The tensile energy is a share of the stored energy. *)
Theorem C128_bounds : forall d E v x t A u, (1 <= d <= 3)%nat -> admissible E v -> 0 <= v -> simplex_measure d x <> 0 -> affine_displacement d d x t A u ->
  0 <= tensile_measure d (lame E v) (shear_mod E v) x u <= stored d (lame E v) (shear_mod E v) (engineering_strain d A).
Proof.
  intros d E v x t A u Hd Ha Hv Hm Hu. rewrite (measure_strain d _ _ x t A u Hd Hm Hu). destruct (moduli E v Ha Hv) as [L M].
  split; [apply tension_nonneg; assumption|]. eapply Rle_trans; [apply tension_le; assumption|]. rewrite principal_stored by exact Hd.
  pose proof (left_out_nonneg d (engineering_strain d A)) as P. pose proof (Rmult_le_pos _ _ M P). lra.
Qed.
Print Assumptions C128_bounds.

(** It is the tensile energy of the principal strains: exactly for a bar and in the plane for a non-negative shear, up to six rotations in space. *)
Theorem C128_principal_partial : forall d lam mu x t A u, (1 <= d <= 3)%nat -> simplex_measure d x <> 0 -> affine_displacement d d x t A u ->
  exists l, tensile_measure d lam mu x u = tension d lam mu l /\
    (d = 1%nat -> l 0%nat = A 0%nat 0%nat) /\
    (d = 2%nat -> 0 <= A 0%nat 1%nat + A 1%nat 0%nat -> are_eigenvalues2 (A 0%nat 0%nat) (small_strain A 0 1) (A 1%nat 1%nat) (l 0%nat) (l 1%nat)) /\
    (d = 3%nat -> exists q, orthonormal q /\ l 0%nat + l 1%nat + l 2%nat = trace3 (small_strain A) /\
       forall i, (i < 3)%nat -> norm2 (residual (small_strain A) q l i) <= Rmax (2 / 3 * (1 / 2) ^ 5 * off_mass (small_strain A)) (3 * (/ 10 ^ 15 * / 10 ^ 15))).
Proof.
  intros d lam mu x t A u Hd Hm Hu. exists (principal d true (engineering_strain d A)). split; [apply (measure_strain d lam mu x t A u Hd Hm Hu)|]. split; [|split].
  - intros ->. reflexivity.
  - intros -> Hs. exact (C35_partial true (engineering_strain 2 A) Hs).
  - intros ->. destruct (C36_jacobi 5 true (engineering_strain 3 A)) as (q & Q & B & T).
    assert (S : forall i j, (i < 3)%nat -> (j < 3)%nat -> voigt_tensor true (engineering_strain 3 A) i j = small_strain A i j).
    { intros i j Hi Hj. unfold voigt_tensor, engineering_strain, small_strain. idx i; idx j; field. }
    exists q. split; [exact Q|]. split.
    + change (principal 3 true (engineering_strain 3 A)) with (eigenvalues3 6 true (engineering_strain 3 A)). rewrite T. unfold trace3. unfold rs. apply rsum_ext. intros i Hi. apply S; exact Hi.
    + intros i Hi. specialize (B i Hi). replace (off_mass (small_strain A)) with (off_mass (voigt_tensor true (engineering_strain 3 A))) by (unfold off_mass; rewrite !S by lia; reflexivity).
      replace (norm2 (residual (small_strain A) q (principal 3 true (engineering_strain 3 A)) i)) with (norm2 (residual (voigt_tensor true (engineering_strain 3 A)) q (eigenvalues3 6 true (engineering_strain 3 A)) i)); [exact B|].
      unfold norm2, rs. apply rsum_ext. intros k Hk. unfold residual. replace (rs 3 (fun j => voigt_tensor true (engineering_strain 3 A) k j * q j i)) with (rs 3 (fun j => small_strain A k j * q j i)); [reflexivity|].
      unfold rs. apply rsum_ext. intros j Hj. rewrite S by assumption. reflexivity.
Qed.
Print Assumptions C128_principal_partial.
(** A triangle for the examples. *)
Definition triangle : coords := fun a i => if Nat.eqb a (S i) then 1 else 0.
Lemma triangle_ok : simplex_measure 2 triangle <> 0.
Proof. unfold simplex_measure. cbn. match goal with |- Rabs ?q / 2 <> 0 => replace q with 1 by ring end. rewrite Rabs_R1. lra. Qed.
Definition displaced (A : nat -> nat -> R) (k : nat) : R := affine 2 0 (A (k mod 2)%nat) triangle (k / 2)%nat.
Lemma displaced_ok A : affine_displacement 2 2 triangle (fun _ => 0) A (displaced A).
Proof.
  intros a i Ha Hi. unfold displaced. rewrite Nat.div_add_l, Nat.div_small, Nat.add_0_r by lia. rewrite Nat.add_comm, Nat.mod_add, Nat.mod_small by lia. reflexivity.
Qed.
Definition sheared (g : R) (i j : nat) : R := match i, j with 0%nat, 1%nat => g | _, _ => 0 end.
(** A negative shear is taken for no shear: the tension it carries is lost. *)
Theorem C128_principal_refuted : ~ (forall lam mu x t A u, simplex_measure 2 x <> 0 -> affine_displacement 2 2 x t A u -> 0 < lam -> 0 < mu ->
  exists l, tensile_measure 2 lam mu x u = tension 2 lam mu l /\ are_eigenvalues2 (A 0%nat 0%nat) (small_strain A 0 1) (A 1%nat 1%nat) (l 0%nat) (l 1%nat)).
Proof.
  intros H. destruct (H 1 1 triangle (fun _ => 0) (sheared (-2)) (displaced (sheared (-2))) triangle_ok (displaced_ok _) ltac:(lra) ltac:(lra)) as (l & E & HL).
  rewrite (measure_strain 2 1 1 _ _ _ _ ltac:(lia) triangle_ok (displaced_ok (sheared (-2)))) in E.
  assert (N : engineering_strain 2 (sheared (-2)) 2 < 0) by (cbn; lra).
  destruct (C35_negative_shear_wrong true _ N) as [EV _].
  assert (Z : tension 2 1 1 (principal 2 true (engineering_strain 2 (sheared (-2)))) = 0).
  { unfold tension, rs. cbn [sum]. unfold principal. rewrite EV. cbn. rewrite !Rplus_0_l, !Rmax_left by lra. ring. }
  rewrite Z in E. destruct (eigen2_sums _ _ _ _ _ HL) as [S Q]. unfold small_strain in Q. cbn in S, Q.
  assert (S0 : rs 2 l = 0) by (unfold rs; cbn; lra).
  assert (P : 0 < tension 2 1 1 l).
  { unfold tension. rewrite S0. rewrite Rmax_left by lra. unfold rs. cbn. unfold Rmax. destruct (Rle_dec (l 0%nat) 0), (Rle_dec (l 1%nat) 0); nra. }
  lra.
Qed.
Print Assumptions C128_principal_refuted.

(** ** Turning the load round: what is not tension becomes tension.  Together they are the stored energy, up to six rotations in space. *)
Theorem C128_reverse_partial : forall d lam mu x t A u, (1 <= d <= 3)%nat -> (d = 2%nat -> A 0%nat 1%nat + A 1%nat 0%nat = 0) -> 0 <= mu ->
  simplex_measure d x <> 0 -> affine_displacement d d x t A u ->
  let both := tensile_measure d lam mu x u + tensile_measure d lam mu x (fun k => - u k) in
  both <= stored d lam mu (engineering_strain d A) /\
  stored d lam mu (engineering_strain d A) - (if Nat.eqb d 3 then 2 * mu * Rmax (2 / 3 * (1 / 2) ^ 5 * off_mass (small_strain A)) (3 * (/ 10 ^ 15 * / 10 ^ 15)) else 0) <= both.
Proof.
  intros d lam mu x t A u Hd H2 M Hm Hu both.
  assert (Hu' : affine_displacement d d x (fun i => - t i) (fun i j => - A i j) (fun k => - u k)).
  { intros a i Ha Hi. rewrite (Hu a i Ha Hi). unfold affine, rs. dims d; rsums; ring. }
  assert (EB : both = stored d lam mu (engineering_strain d A) - 2 * mu * left_out d (engineering_strain d A)).
  { unfold both. rewrite (measure_strain d lam mu x t A u Hd Hm Hu), (measure_strain d lam mu x _ _ _ Hd Hm Hu').
    rewrite <- (principal_stored d lam mu _ Hd), <- tension_split. f_equal. apply tension_ext. intros i Hi.
    rewrite (principal_ext d true (engineering_strain d (fun i j => - A i j)) (fun v => - engineering_strain d A v) Hd) by (intros; apply engineering_opp).
    dims d.
    - reflexivity.
    - assert (Z : engineering_strain 2 A 2 = 0) by (apply H2; reflexivity). unfold principal, eigenvalues2. rewrite Z.
      destruct (Rlt_dec 0 (- 0 / 2)) as [P|_]; [lra|]. destruct (Rlt_dec 0 (0 / 2)) as [P|_]; [lra|]. destruct i as [|[|i]]; [| |lia]; cbn; ring.
    - cbn [principal]. apply eigenvalues3_opp. }
  rewrite EB. pose proof (left_out_nonneg d (engineering_strain d A)) as P. pose proof (Rmult_le_pos _ _ M P) as P2. split; [lra|].
  dims d; cbn [Nat.eqb].
  - unfold left_out. lra.
  - unfold left_out. assert (Z : engineering_strain 2 A 2 = 0) by (apply H2; reflexivity). rewrite Z. destruct (Rle_dec 0 0); lra.
  - assert (O : off_mass (tensor3 true (engineering_strain 3 A)) = off_mass (small_strain A)) by (unfold off_mass, tensor3, small_strain; cbn [engineering_strain]; field).
    pose proof (jacobi_off 5 (tensor3 true (engineering_strain 3 A)) (tensor_symm _ _)) as J. rewrite O in J. unfold left_out. unfold floor_, tiny in J.
    pose proof (Rmult_le_compat_l (2 * mu) _ _ ltac:(lra) J) as J2. unfold Rminus. apply Rplus_le_compat_l, Ropp_le_contravar. exact J2.
Qed.
Print Assumptions C128_reverse_partial.
(** In the plane a shear is counted in one direction only. *)
Theorem C128_reverse_refuted : ~ (forall lam mu x t A u, 0 < lam -> 0 < mu -> simplex_measure 2 x <> 0 -> affine_displacement 2 2 x t A u ->
  tensile_measure 2 lam mu x u + tensile_measure 2 lam mu x (fun k => - u k) = stored 2 lam mu (engineering_strain 2 A)).
Proof.
  intros H. specialize (H 1 1 triangle (fun _ => 0) (sheared 2) (displaced (sheared 2)) ltac:(lra) ltac:(lra) triangle_ok (displaced_ok _)).
  assert (Hu' : affine_displacement 2 2 triangle (fun _ => 0) (fun i j => - sheared 2 i j) (fun k => - displaced (sheared 2) k)).
  { intros a i Ha Hi. rewrite (displaced_ok (sheared 2) a i Ha Hi). unfold affine, rs. rsums. ring. }
  rewrite (measure_strain 2 1 1 _ _ _ _ ltac:(lia) triangle_ok (displaced_ok (sheared 2))), (measure_strain 2 1 1 _ _ _ _ ltac:(lia) triangle_ok Hu') in H.
  assert (N : engineering_strain 2 (fun i j => - sheared 2 i j) 2 < 0) by (cbn; lra). destruct (C35_negative_shear_wrong true _ N) as [EV _].
  assert (Z : tension 2 1 1 (principal 2 true (engineering_strain 2 (fun i j => - sheared 2 i j))) = 0).
  { unfold tension, rs. cbn [sum]. unfold principal. rewrite EV. cbn. rewrite Ropp_0, !Rplus_0_l, !Rmax_left by lra. ring. }
  rewrite Z in H. set (l := principal 2 true (engineering_strain 2 (sheared 2))) in *.
  assert (HL : are_eigenvalues2 0 1 0 (l 0%nat) (l 1%nat)).
  { assert (P : 0 <= engineering_strain 2 (sheared 2) 2) by (cbn; lra). pose proof (C35_partial true _ P) as Q.
    assert (EA : shear2 true (engineering_strain 2 (sheared 2)) = 1) by (unfold shear2; cbn; field). rewrite EA in Q. exact Q. }
  destruct (eigen2_sums _ _ _ _ _ HL) as [S Q].
  assert (S0 : rs 2 l = 0) by (unfold rs; cbn; lra).
  assert (P : tension 2 1 1 l = 1).
  { unfold tension. rewrite S0. rewrite (Rmax_left 0 0) by lra. unfold rs. cbn [sum]. change (@radd R_ring) with Rplus. change (@r0 R_ring) with 0.
    unfold Rmax. destruct (Rle_dec (l 0%nat) 0), (Rle_dec (l 1%nat) 0); nra. }
  rewrite P in H. unfold stored, hooke, rs in H. cbn in H. lra.
Qed.
Print Assumptions C128_reverse_refuted.

(** ** A rigid motion is measured as nothing. *)
Theorem C128_rigid : forall d lam mu C x t A u, (1 <= d <= 3)%nat -> simplex_measure d x <> 0 -> affine_displacement d d x t A u -> antisymmetric d A ->
  tensile_measure d lam mu x u = 0 /\ von_mises_measure d C x u = 0.
Proof.
  intros d lam mu C x t A u Hd Hm Hu HA.
  assert (Z : forall v, engineering_strain d A v = 0) by (intros v; apply engineering_rigid; assumption). split.
  - rewrite (measure_strain d lam mu x t A u Hd Hm Hu).
    rewrite (tension_ext d lam mu _ (fun _ => 0)).
    + unfold tension. assert (E : rs d (fun _ => 0) = 0) by (unfold rs; dims d; rsums; ring). rewrite E. rewrite !Rmax_left by lra.
      assert (E2 : rs d (fun _ => 0 * 0) = 0) by (unfold rs; dims d; rsums; ring). rewrite E2. ring.
    + intros i Hi. rewrite (principal_ext d true _ (fun _ => 0) Hd) by (intros; apply Z). dims d.
      * reflexivity.
      * unfold principal, eigenvalues2. destruct (Rlt_dec 0 (0 / 2)) as [P|_]; [lra|]. destruct (Nat.eqb i 0); cbn; ring.
      * cbn [principal]. assert (OP : eigenvalues3 6 true (fun _ => - 0) i = - eigenvalues3 6 true (fun _ => 0) i) by (apply (eigenvalues3_opp 6 true (fun _ => 0))).
        rewrite Ropp_0 in OP. lra.
  - rewrite (von_mises_strain d C x t A u Hd Hm Hu).
    rewrite (von_mises_ext d _ (fun _ => 0) Hd).
    + unfold von_mises. dims d; [reflexivity| |]; (transitivity (sqrt 0); [f_equal; field|apply sqrt_0]).
    + intros v _. unfold linear_stress. apply rsum_0. intros j _. rewrite Z. req. ring.
Qed.
Print Assumptions C128_rigid.

(** ** The von Mises measure scales with the load, whatever its sign. *)
Theorem C128_von_mises_scale : forall d C x t A u k, (2 <= d <= 3)%nat -> simplex_measure d x <> 0 -> affine_displacement d d x t A u ->
  von_mises_measure d C x (fun i => k * u i) = Rabs k * von_mises_measure d C x u.
Proof.
  intros d C x t A u k Hd Hm Hu.
  assert (Hd' : (1 <= d <= 3)%nat) by lia.
  assert (Hu' : affine_displacement d d x (fun i => k * t i) (fun i j => k * A i j) (fun j => k * u j)).
  { intros a i Ha Hi. rewrite (Hu a i Ha Hi). unfold affine, rs. dims d; rsums; ring. }
  rewrite (von_mises_strain d C x t A u Hd' Hm Hu), (von_mises_strain d C x _ _ _ Hd' Hm Hu').
  rewrite (von_mises_ext d _ (fun v => k * linear_stress (num_voigt d) C (fun _ => 0) (engineering_strain d A) v) Hd').
  - set (s := linear_stress _ _ _ _). clearbody s. rewrite <- sqrt_Rsqr_abs. unfold Rsqr, von_mises. destruct d as [|[|[|[|d]]]]; try lia; rewrite <- sqrt_mult_alt by apply Rle_0_sqr; f_equal; ring.
  - intros v _. unfold linear_stress. rewrite <- rsum_scal_l. apply rsum_ext. intros j _. rewrite engineering_scale. req. ring.
Qed.
Print Assumptions C128_von_mises_scale.

(** ** In space it is the equivalent stress of Hooke's law; in the plane it lacks the stress across the plane, by exactly the amount below. *)
Theorem C128_solid : forall E v x t A u, admissible E v -> simplex_measure 3 x <> 0 -> affine_displacement 3 3 x t A u ->
  let m := von_mises_measure 3 (isotropic_material 3 E v) x u in
  0 <= m /\ m * m = equivalent_squared (hooke 3 (lame E v) (shear_mod E v) (engineering_strain 3 A)).
Proof.
  intros E v x t A u Ha Hm Hu m. unfold m. rewrite (von_mises_strain 3 _ x t A u ltac:(lia) Hm Hu).
  rewrite (von_mises_ext 3 _ (hooke 3 (lame E v) (shear_mod E v) (engineering_strain 3 A)) ltac:(lia)).
  2: { intros w Hw. apply (C33_stiffness 3 E v ltac:(lia) Ha _ (or_introl eq_refl)). exact Hw. }
  set (s := hooke _ _ _ _). clearbody s. split; [apply sqrt_pos|]. unfold von_mises. rewrite sqrt_sqrt.
  - unfold equivalent_squared, contract, deviator, trace3, voigt_tensor. rsx. cbn [Nat.eqb]. field.
  - set (a := s 0%nat - s 1%nat). set (b := s 1%nat - s 2%nat). set (c := s 2%nat - s 0%nat). pose proof (Rle_0_sqr a). pose proof (Rle_0_sqr b). pose proof (Rle_0_sqr c).
    pose proof (Rle_0_sqr (s 3%nat)). pose proof (Rle_0_sqr (s 4%nat)). pose proof (Rle_0_sqr (s 5%nat)). unfold Rsqr in *. lra.
Qed.
Print Assumptions C128_solid.
Theorem C128_plane_partial : forall E v x t A u, admissible E v -> simplex_measure 2 x <> 0 -> affine_displacement 2 2 x t A u ->
  let m := von_mises_measure 2 (isotropic_material 2 E v) x u in
  let s := plane_strain_stress (lame E v) (shear_mod E v) (engineering_strain 2 A) in
  0 <= m /\ m * m = equivalent_squared s + v * (1 - v) * ((s 0%nat + s 1%nat) * (s 0%nat + s 1%nat)).
Proof.
  intros E v x t A u Ha Hm Hu m s. unfold m. rewrite (von_mises_strain 2 _ x t A u ltac:(lia) Hm Hu).
  rewrite (von_mises_ext 2 _ (hooke 2 (lame E v) (shear_mod E v) (engineering_strain 2 A)) ltac:(lia)).
  2: { intros w Hw. apply (C33_stiffness 2 E v ltac:(lia) Ha _ (or_introl eq_refl)). exact Hw. }
  split; [apply sqrt_pos|]. unfold s. set (e := engineering_strain 2 A). clearbody e. clear m s. unfold von_mises. rewrite sqrt_sqrt.
  - unfold equivalent_squared, contract, deviator, trace3, voigt_tensor, plane_strain_stress, hooke. rsx. cbn [Nat.eqb Nat.ltb Nat.leb]. unfold lame, shear_mod.
    destruct (admissible_den E v Ha). field. lra.
  - set (h := hooke _ _ _ _). clearbody h. pose proof (Rle_0_sqr (h 0%nat - h 1%nat)) as Q1. pose proof (Rle_0_sqr (h 0%nat)) as Q2. pose proof (Rle_0_sqr (h 1%nat)) as Q3. pose proof (Rle_0_sqr (h 2%nat)) as Q4. unfold Rsqr in *. lra.
Qed.
Print Assumptions C128_plane_partial.
Theorem C128_plane_refuted : ~ (forall E v x t A u, admissible E v -> simplex_measure 2 x <> 0 -> affine_displacement 2 2 x t A u ->
  let m := von_mises_measure 2 (isotropic_material 2 E v) x u in
  m * m = equivalent_squared (plane_strain_stress (lame E v) (shear_mod E v) (engineering_strain 2 A))).
Proof.
  intros H. set (A := fun i j => if Nat.eqb i j then 1 else 0 : R).
  assert (Ha : admissible 1 (1 / 4)) by (unfold admissible; lra).
  pose proof (H 1 (1 / 4) triangle (fun _ => 0) A (displaced A) Ha triangle_ok (displaced_ok A)) as E. cbv zeta in E.
  destruct (C128_plane_partial 1 (1 / 4) triangle (fun _ => 0) A (displaced A) Ha triangle_ok (displaced_ok A)) as [_ E2]. cbv zeta in E2. rewrite E in E2.
  set (q := equivalent_squared _) in E2. clearbody q. unfold plane_strain_stress, hooke, rs, lame, shear_mod in E2. cbn in E2. lra.
Qed.
Print Assumptions C128_plane_refuted.
(** The reference strain of the material, which the residual takes off the strain, is not taken off here. *)
Theorem C128_reference_refuted : ~ (forall m x u, (forall i j, e_stiff m i j = isotropic_material 2 1 0 i j) -> simplex_measure 2 x <> 0 ->
  von_mises_measure 2 (e_stiff m) x u = von_mises 2 (elastic_stress 2 m None x u)).
Proof.
  intros H. specialize (H (mkElastic (isotropic_material 2 1 0) (fun v => match v with 0%nat => 1 | _ => 0 end)) triangle (displaced (fun _ _ => 0)) (fun _ _ => eq_refl) triangle_ok).
  rewrite (proj2 (C128_rigid 2 1 1 _ _ _ _ _ ltac:(lia) triangle_ok (displaced_ok (fun _ _ => 0)) ltac:(intros i j _ _; ring))) in H.
  unfold elastic_stress, add_forcing in H. cbn [e_stiff e_ref] in H.
  rewrite (von_mises_ext 2 _ (fun v => match v with 0%nat => -1 | _ => 0 end) ltac:(lia)) in H.
  - unfold von_mises in H. replace (-1 * -1 - -1 * 0 + 0 * 0 + 3 * (0 * 0)) with 1 in H by ring. rewrite sqrt_1 in H. lra.
  - intros v Hv. unfold linear_stress. rewrite (rsum_ext _ _ (fun j => (0 - (match j with 0%nat => 1 | _ => 0 end)) * isotropic_material 2 1 0 v j)).
    + cbn in Hv. destruct v as [|[|[|v]]]; try lia; unfold isotropic_material, voigt_pattern; cbn; field.
    + intros j Hj. rewrite (proj1 (C32_strain 2 2 triangle _ _ _ ltac:(lia) (le_n 2) triangle_ok (displaced_ok (fun _ _ => 0))) j Hj).
      rewrite engineering_rigid; [reflexivity|lia|intros a b _ _; ring].
Qed.
Print Assumptions C128_reference_refuted.

(** ** With temperature: the equivalent stress of what is left of the strain after the expansion at the mean temperature of the cell. *)
Theorem C128_thermal : forall d m x t A u, (2 <= d <= 3)%nat -> simplex_measure d x <> 0 -> affine_displacement d (S d) x t A u ->
  let T := nodal_mean d (fun a => u (a * S d + d)%nat) in
  thermal_von_mises_measure d m x u =
    Ok (von_mises d (fun i => rs (num_voigt d) (fun j => m_stiff m T i j * (engineering_strain d A j - (if Nat.ltb j d then m_scale m * m_alpha m T j j * (T - m_tref m) else 0))))).
Proof.
  intros d m x t A u Hd Hm Hu T. assert (Hd' : (1 <= d <= 3)%nat) by lia. unfold thermal_von_mises_measure. cbv zeta.
  assert (ET : interpolate d (S d) d u = T).
  { unfold T, nodal_mean, interpolate, rs. destruct d as [|[|[|[|d]]]]; try lia; unfold PenaltyModel.cub_basis, PenaltyModel.cub_point; rsums; cbn -[Rplus Rmult]; field. }
  rewrite ET.
  destruct (tm_kinetics_ok d m (strain d (S d) (fun _ => 0) u (cell_gradient d x)) (scalar_gradient d (S d) d u (cell_gradient d x)) T Hd) as (s & E & H).
  rewrite E. cbn [rbind fst]. f_equal. apply von_mises_ext; [exact Hd'|]. intros v _. rewrite H. unfold tm_stress, rs. apply rsum_ext. intros j Hj.
  rewrite (proj1 (C32_strain d (S d) x t A u Hd' ltac:(lia) Hm Hu) j Hj). unfold thermal_strain_value. req. ring.
Qed.
Print Assumptions C128_thermal.
(** A cell free to expand along its axes in a uniform temperature carries no equivalent stress, however it is turned. *)
Theorem C128_free_expansion_partial : forall d m x t W u T0, (2 <= d <= 3)%nat -> simplex_measure d x <> 0 -> antisymmetric d W ->
  (forall a, (a <= d)%nat -> u (a * S d + d)%nat = T0) ->
  affine_displacement d (S d) x t (fun i j => W i j + (if Nat.eqb i j then m_scale m * m_alpha m T0 i i * (T0 - m_tref m) else 0)) u ->
  thermal_von_mises_measure d m x u = Ok 0.
Proof.
  intros d m x t W u T0 Hd Hm HW HT Hu. rewrite (C128_thermal d m x t _ u Hd Hm Hu). cbv zeta.
  assert (ET : nodal_mean d (fun a => u (a * S d + d)%nat) = T0).
  { unfold nodal_mean, rs. rewrite (rsum_ext _ _ (fun _ => T0)) by (intros a Ha; apply HT; lia). destruct d as [|[|[|[|d]]]]; try lia; rsums; cbn -[Rplus Rmult]; field. }
  rewrite ET. f_equal. rewrite (von_mises_ext d _ (fun _ => 0)); [|lia|].
  - unfold von_mises. destruct d as [|[|[|[|d]]]]; try lia; (transitivity (sqrt 0); [f_equal; field|apply sqrt_0]).
  - intros v _. unfold rs. apply rsum_0. intros j Hj.
    match goal with |- _ * ?q = _ => assert (Z : q = 0) end; [|rewrite Z; req; ring].
    destruct d as [|[|[|[|d]]]]; try lia; cbn in Hj; destruct j as [|[|[|[|[|[|j]]]]]]; try lia; cbn [engineering_strain Nat.ltb Nat.leb Nat.eqb];
      match goal with |- W ?i ?i + _ - _ = 0 => pose proof (HW i i ltac:(lia) ltac:(lia)); lra | |- W ?i ?j + _ + _ - _ = 0 => pose proof (HW i j ltac:(lia) ltac:(lia)); lra end.
Qed.
Print Assumptions C128_free_expansion_partial.
(** In one dimension the measure reads outside the expansivity. *)
Theorem C128_thermal_bar : forall m x u, thermal_von_mises_measure 1 m x u = UB. Proof. reflexivity. Qed.
Print Assumptions C128_thermal_bar.

(** ** Input: the tensile energy needs an isotropic law with both moduli; its constants are those of that law. *)
Theorem C128_input : forall ms material lam mu,
  (create_tensile ms material = Ok (lam, mu) <->
   exists l laws p E v, ms = Some l /\ l material = Some laws /\ laws "Isotropic Linear Elastic"%string = Some p /\ p "Youngs Modulus"%string = Some E /\ p "Poissons Ratio"%string = Some v /\
     v <> -1 /\ v <> 1 / 2 /\ lam = lame E v /\ mu = shear_mod E v).
Proof.
  intros ms material lam mu. unfold create_tensile, read_moduli. split.
  - destruct ms as [l|]; [|discriminate]. destruct (l material) as [laws|] eqn:EL; [|discriminate]. destruct (laws "Isotropic Linear Elastic"%string) as [p|] eqn:EP; [|discriminate].
    unfold get. destruct (p "Poissons Ratio"%string) as [v|] eqn:Ev; [|discriminate]. cbn [rbind]. destruct (p "Youngs Modulus"%string) as [E|] eqn:EE; [|discriminate]. cbn [rbind].
    destruct (Req_EM_T (1 + v) 0) as [|N1]; [discriminate|]. destruct (Req_EM_T (1 - 2 * v) 0) as [|N2]; [discriminate|]. intros H. injection H as <- <-.
    exists l, laws, p, E, v. repeat (split; [first [reflexivity|assumption|lra]|]). unfold lame_lambda, lame_mu, lame, shear_mod. split; [field; split; assumption|reflexivity].
  - intros (l & laws & p & E & v & -> & EL & EP & EE & Ev & N1 & N2 & -> & ->). rewrite EL, EP. unfold get. rewrite Ev, EE. cbn [rbind].
    destruct (Req_EM_T (1 + v) 0); [lra|]. destruct (Req_EM_T (1 - 2 * v) 0); [lra|]. unfold lame_lambda, lame_mu, lame, shear_mod. f_equal. f_equal. field. split; assumption.
Qed.
Print Assumptions C128_input.
Theorem C128_rejects : forall ms material,
  create_tensile ms material = Throw <->
  ~ (exists l laws p E v, ms = Some l /\ l material = Some laws /\ laws "Isotropic Linear Elastic"%string = Some p /\ p "Youngs Modulus"%string = Some E /\ p "Poissons Ratio"%string = Some v).
Proof.
  intros ms material. unfold create_tensile, read_moduli. split.
  - intros H (l & laws & p & E & v & -> & EL & EP & EE & Ev). rewrite EL, EP in H. unfold get in H. rewrite Ev, EE in H. cbn [rbind] in H.
    destruct (Req_EM_T (1 + v) 0); [discriminate|]. destruct (Req_EM_T (1 - 2 * v) 0); discriminate.
  - intros H. destruct ms as [l|]; [|reflexivity]. destruct (l material) as [laws|] eqn:EL; [|reflexivity]. destruct (laws "Isotropic Linear Elastic"%string) as [p|] eqn:EP; [|reflexivity].
    unfold get. destruct (p "Poissons Ratio"%string) as [v|] eqn:Ev; [|reflexivity]. cbn [rbind]. destruct (p "Youngs Modulus"%string) as [E|] eqn:EE; [|reflexivity].
    exfalso. apply H. exists l, laws, p, E, v. repeat split; assumption.
Qed.
Print Assumptions C128_rejects.
(** The von Mises measure takes the first of four laws the material has; without any of them, or without models, it dereferences a null pointer. *)
Theorem C128_von_mises_law : forall build l material laws,
  l material = Some laws ->
  (forall p, laws "Isotropic Linear Elastic"%string = Some p -> create_von_mises build (Some l) material = build "Isotropic Linear Elastic"%string p) /\
  (forall k p, In k ["Cubic Linear Elastic"; "Custom Linear Elastic"; "Orthotropic Linear Elastic"]%string -> laws k = Some p -> (forall k', k' <> k -> laws k' = None) ->
     create_von_mises build (Some l) material = build k p).
Proof.
  intros build l material laws EL. unfold create_von_mises. rewrite EL. split.
  - intros p EP. rewrite EP. reflexivity.
  - intros k p Hk EP HN. cbn in Hk. destruct Hk as [<- | [<- | [<- | []]]];
      rewrite ?EP; rewrite (HN "Isotropic Linear Elastic"%string) by discriminate; try (rewrite (HN "Cubic Linear Elastic"%string) by discriminate); try (rewrite (HN "Custom Linear Elastic"%string) by discriminate); rewrite ?EP; reflexivity.
Qed.
Print Assumptions C128_von_mises_law.
Theorem C128_von_mises_law_refuted : ~ (forall build ms material, (forall k p, exists C, build k p = Ok C) -> create_von_mises build ms material <> UB).
Proof. intros H. apply (H (fun _ _ => Ok (fun _ _ => 0)) (Some (fun _ => Some (fun _ => None))) "steel"%string); [intros; eexists; reflexivity|reflexivity]. Qed.
Print Assumptions C128_von_mises_law_refuted.

(** The hypotheses are met: a triangle stretched and sheared by a positive angle, of a material with E = 2, v = 1/4, and a tetrahedron turned and heated. *)
Example C128_reachable :
  let A := fun i j => match i, j with 0%nat, 0%nat => 1 / 10 | 0%nat, 1%nat => 1 / 5 | _, _ => 0 end in
  simplex_measure 2 triangle <> 0 /\ affine_displacement 2 2 triangle (fun _ => 0) A (displaced A) /\ 0 <= A 0%nat 1%nat + A 1%nat 0%nat /\ admissible 2 (1 / 4) /\
  create_tensile (Some (fun _ => Some (fun k => if String.eqb k "Isotropic Linear Elastic" then Some (fun n => if String.eqb n "Youngs Modulus" then Some 2 else if String.eqb n "Poissons Ratio" then Some (1 / 4) else None) else None))) "m" =
    Ok (lame 2 (1 / 4), shear_mod 2 (1 / 4)).
Proof.
  cbv zeta. split; [exact triangle_ok|]. split; [apply displaced_ok|]. split; [lra|]. split; [unfold admissible; lra|].
  apply C128_input. do 5 eexists. repeat (split; [reflexivity|]). split; [lra|]. split; [lra|]. split; reflexivity.
Qed.
Example C128_heated : let m := mkTM false (fun i j => if Nat.eqb i j then 7 else 2) (fun _ _ _ => 0) (fun i j => if Nat.eqb i j then 1 / 10 else 0) (fun _ _ _ => 0) (fun i j => if Nat.eqb i j then 3 else 0) (fun _ _ _ => 0) 23 1 in
  let x := fun a i => if Nat.eqb a (S i) then 1 else 0 in let W := fun i j => if Nat.eqb i j then 0 else if Nat.ltb i j then -1 else 1 in
  let G := fun i j => W i j + (if Nat.eqb i j then m_scale m * m_alpha m 43 i i * (43 - m_tref m) else 0) in
  let u := fun k => if Nat.eqb (k mod 4) 3 then 43 else affine 3 0 (G (k mod 4)%nat) x (k / 4)%nat in
  simplex_measure 3 x <> 0 /\ antisymmetric 3 W /\ (forall a, (a <= 3)%nat -> u (a * 4 + 3)%nat = 43) /\ affine_displacement 3 4 x (fun _ => 0) G u.
Proof.
  cbv zeta. split; [|split; [|split]].
  - unfold simplex_measure. cbn. match goal with |- Rabs ?q / 6 <> 0 => replace q with 1 by ring end. rewrite Rabs_R1. lra.
  - intros i j Hi Hj. destruct (Nat.eqb_spec i j) as [->|N]; [rewrite Nat.eqb_refl; ring|]. destruct (Nat.eqb_spec j i); [congruence|].
    destruct (Nat.ltb_spec i j), (Nat.ltb_spec j i); try lia; ring.
  - intros a Ha. rewrite Nat.add_comm, Nat.mod_add by lia. reflexivity.
  - intros a i Ha Hi. rewrite Nat.div_add_l, Nat.div_small, Nat.add_0_r by lia. rewrite Nat.add_comm, Nat.mod_add, Nat.mod_small by lia. destruct (Nat.eqb_spec i 3); [lia|reflexivity].
Qed.
