(** C107-C110: the stabilised formulation. *)
From Coq Require Import Reals List Arith Bool Lia Lra.
From Verif Require Import Base.Field Base.Sums Base.Res Element.ElementModel Element.ElementSpec Element.ElementProof Element.ElementProps Element.MaterialModel Element.MaterialSpec
  Penalty.PenaltyModel Ortho.OrthoModel Residual.ResidualModel Residual.ResidualSpec Residual.ResidualProof Residual.ResidualProps
  Residual.CouplingProof Residual.CouplingProps Stab.StabModel Stab.StabSpec Stab.StabProof.
Import ListNotations.
Local Open Scope R_scope.

(** Every cell has an isotropic material with usable moduli; [lam] and [mu] give them. *)
Definition isotropic_cells (d : nat) (lam mu : cell stabilized -> R) (cells : list (cell stabilized)) : Prop :=
  forall c, In c cells -> isotropic d (num_voigt d) (lam c) (mu c) (b_stiff (c_mat c)) /\ mu c <> 0 /\ lam c + 2 * mu c / INR d <> 0.
Definition cell_strain {M} (d : nat) (X : nat -> nat -> R) (U : nat -> R) (c : cell M) : nat -> R := strain d (S d) (fun _ => 0) (gather (S d) U c) (cell_gradient d (gather_coords X c)).
Definition cell_pressure (d : nat) (U : nat -> R) (c : cell stabilized) : R := b_scale (c_mat c) * (rs (S d) (fun a => pressures d U (c_node c a)) / INR (S d)).
Definition as_elastic (c : cell stabilized) : cell elastic := mkCell (c_node c) (mkElastic (b_stiff (c_mat c)) (fun _ => 0)).

Lemma basis_third d a : (1 <= d <= 3)%nat -> (a < S d)%nat -> cub_basis d a = / INR (S d).
Proof. intros Hd Ha. dims d; unfold cub_basis, cub_point; destruct a as [|[|[|[|a]]]]; try lia; cbn; field. Qed.
Lemma interpolate_mean d ndof off u : (1 <= d <= 3)%nat -> interpolate d ndof off u = rs (S d) (fun a => u (a * ndof + off)%nat) / INR (S d).
Proof.
  intros Hd. unfold interpolate. transitivity (rsum (S d) (fun a => / INR (S d) * u (a * ndof + off)%nat)).
  - apply rsum_ext. intros a Ha. rewrite basis_third by assumption. reflexivity.
  - rewrite rsum_scal_l. unfold rs, Rdiv. req. ring.
Qed.
Lemma cell_pressure_value d U c : (1 <= d <= 3)%nat -> b_scale (c_mat c) * interpolate d (S d) d (gather (S d) U c) = cell_pressure d U c.
Proof.
  intros Hd. unfold cell_pressure. rewrite interpolate_mean by exact Hd. f_equal. f_equal. unfold rs. apply rsum_ext. intros a Ha.
  rewrite gather_at by lia. reflexivity.
Qed.
Lemma strain_displacements {M} d X U (c : cell M) (c' : cell elastic) v : (1 <= d <= 3)%nat -> (forall a, c_node c' a = c_node c a) ->
  strain d d (fun _ => 0) (gather d (displacements d U) c') (cell_gradient d (gather_coords X c)) v = cell_strain d X U c v.
Proof.
  intros Hd En. unfold cell_strain, strain. destruct (nth_error (voigt_pairs d) v) as [[i j]|] eqn:E; [|reflexivity]. destruct (pairs_lt d v i j Hd E) as [Hi Hj].
  assert (G : forall a k, (k < d)%nat -> gather d (displacements d U) c' (a * d + k)%nat = gather (S d) U c (a * S d + k)%nat).
  { intros a k Hk. rewrite !gather_at by lia. rewrite En. unfold displacements. rewrite Nat.div_add_l, Nat.div_small, Nat.add_0_r by lia.
    rewrite (Nat.add_comm (c_node c a * d)), Nat.mod_add, Nat.mod_small by lia. reflexivity. }
  destruct (Nat.eqb i j).
  - apply rsum_ext. intros a Ha. rewrite G by exact Hi. reflexivity.
  - f_equal. apply rsum_ext. intros a Ha. rewrite !G by assumption. reflexivity.
Qed.
Lemma stab_ok d pen X U Q Z cells lam mu : (2 <= d <= 3)%nat -> isotropic_cells d lam mu cells ->
  stab_residual d pen X U Q Z cells = Ok (assemble (S d) (S d)
    (fun c => cell_value d pen (c_mat c) (lam c + 2 * mu c / INR d) (mu c) (gather_coords X c) (gather (S d) U c) (gather d Q c) (gather_control Z c)) cells).
Proof.
  intros Hd Hi. unfold stab_residual. apply assembleR_ok. intros c Hc. apply stab_cell_ok. destruct (Hi c Hc) as (H1 & H2 & H3). apply moduli_hooke; assumption.
Qed.

(** ** C107: where the pressure is the bulk modulus times the volume change, the formulation is that of displacements. *)
(** The pressure gradient seen by the stabilisation is the projected one. *)
Definition projected {M} (d : nat) (scale : M -> R) (X : nat -> nat -> R) (U Q : nat -> R) (c : cell M) : Prop :=
  forall i, (i < d)%nat -> scale (c_mat c) * scalar_gradient d (S d) d (gather (S d) U c) (cell_gradient d (gather_coords X c)) i
                            = rs (S d) (fun a => Q (c_node c a * d + i)%nat) / INR (S d).
Lemma stabilization_zero d X U Q (c : cell stabilized) mu vol i : (1 <= d <= 3)%nat -> (i < d)%nat -> projected d b_scale X U Q c ->
  stabilization (b_scale (c_mat c)) mu vol (scalar_gradient d (S d) d (gather (S d) U c) (cell_gradient d (gather_coords X c))) (fun i => interpolate d d i (gather d Q c)) i = 0.
Proof.
  intros Hd Hi H. unfold stabilization. rewrite (H i Hi). rewrite interpolate_mean by exact Hd.
  assert (E : rs (S d) (fun a => gather d Q c (a * d + i)%nat) = rs (S d) (fun a => Q (c_node c a * d + i)%nat)).
  { unfold rs. apply rsum_ext. intros a _. rewrite gather_at by exact Hi. reflexivity. }
  rewrite E. ring.
Qed.
Theorem C107_displacement_partial : forall pen X U Q Z cells lam mu, isotropic_cells 3 lam mu cells ->
  (forall c, In c cells -> cell_pressure 3 U c = (lam c + 2 / 3 * mu c) * rs 3 (cell_strain 3 X U c)) ->
  exists r, stab_residual 3 pen X U Q Z cells = Ok r /\
    (forall n i, (i < 3)%nat -> r (n * 4 + i)%nat = elastostatic 3 pen None X (displacements 3 U) Z (map as_elastic cells) (n * 3 + i)%nat) /\
    ((forall c, In c cells -> projected 3 b_scale X U Q c) -> forall n, r (n * 4 + 3)%nat = 0).
Proof.
  intros pen X U Q Z cells lam mu Hi Hp. eexists. split; [apply (stab_ok 3 pen X U Q Z cells lam mu); [lia|exact Hi]|]. split.
  - intros n i Hi3. unfold elastostatic.
    rewrite (assemble_rows 4 4 3 as_elastic _ (fun c => elastostatic_cell 3 pen (c_mat c) None (gather_coords X c) (gather 3 (displacements 3 U) c) (gather_control Z c)) cells n i i 1); [ring|lia|lia|reflexivity|].
    intros c a Hc Ha. destruct (Hi c Hc) as (HI & Hm & Hk). rewrite value_mech by lia. unfold elastostatic_cell. rewrite stress_at by lia.
    change (gather_coords X (as_elastic c)) with (gather_coords X c). change (gather_control Z (as_elastic c)) with (gather_control Z c).
    set (P := pen _). set (V := cell_measure _ _). rewrite Rmult_1_l.
    rewrite cell_pressure_value, (Hp c Hc) by lia. fold (cell_strain 3 X U c). unfold weigh. fold P.
    match goal with |- _ = _ + _ * _ * rsum 3 ?f =>
      rewrite (rsum_ext 3 f (fun j => P * (total_stress 3 (c_mat c) (cell_strain 3 X U c) ((lam c + 2 / 3 * mu c) * rs 3 (cell_strain 3 X U c)) (voigt 3 i j) * cell_gradient 3 (gather_coords X c) a j))) end.
    2: { intros j Hj. unfold elastic_stress, add_forcing, linear_stress. cbn [as_elastic c_mat e_stiff e_ref].
         assert (E : rsum (num_voigt 3) (fun k => (strain 3 3 (fun _ => 0) (gather 3 (displacements 3 U) (as_elastic c)) (cell_gradient 3 (gather_coords X c)) k - 0) * b_stiff (c_mat c) (voigt 3 i j) k)
                     = full_stress 3 (b_stiff (c_mat c)) (cell_strain 3 X U c) (voigt 3 i j)).
         { unfold full_stress. apply rsum_ext. intros k Hk'. rewrite strain_displacements by (try lia; reflexivity). req. ring. }
         rewrite E. unfold total_stress, dev_stress, hydrostatic. rewrite (trace_hooke 3 (lam c) (mu c)) by (try lia; exact HI). unfold rs.
         destruct (Nat.ltb (voigt 3 i j) 3); req; cbn [INR]; field. }
    rewrite rsum_scal_l. ring.
  - intros Hq n. rewrite (assemble_row 4 4) by lia. apply sum_over_0. intros c Hc. apply rsum_0. intros a Ha. destruct (Nat.eqb n _); [|reflexivity].
    destruct (Hi c Hc) as (HI & Hm & Hk). rewrite value_pressure by lia. rewrite (rsum_0 3).
    2: { intros j Hj. rewrite stabilization_zero by (try lia; apply Hq; exact Hc). req. ring. }
    rewrite cell_pressure_value, (Hp c Hc) by lia. fold (cell_strain 3 X U c). unfold volume_flux, rs. cbn [INR] in *. req. field. intros E. apply Hk. lra.
Qed.
Print Assumptions C107_displacement_partial.
(** In two dimensions the trace is still divided by three: a uniformly growing sheet. *)
Definition sheet : stabilized := mkStab (fun i j => if Nat.ltb i 2 then (if Nat.ltb j 2 then (if Nat.eqb i j then 3 else 1) else 0) else (if Nat.eqb i j then 1 else 0)) 1.
Lemma sheet_isotropic : isotropic_cells 2 (fun _ => 1) (fun _ => 1) (one sheet).
Proof.
  intros c [<-|[]]. split; [|cbn; lra]. intros i j Hi Hj. cbn in Hi, Hj. unfold hooke, rs.
  destruct i as [|[|[|i]]]; try lia; destruct j as [|[|[|j]]]; try lia; rsums; cbn; ring.
Qed.
Lemma one_strain U v : cell_strain 2 square_X U (mkCell (fun a => a) sheet) v =
  match v with 0%nat => U 3%nat - U 0%nat | 1%nat => U 7%nat - U 1%nat | 2%nat => U 6%nat - U 0%nat + U 4%nat - U 1%nat | _ => 0 end.
Proof.
  unfold cell_strain. change (gather_coords square_X (mkCell (fun a => a) sheet)) with square_X. unfold strain.
  change (voigt_pairs 2) with [(0, 0); (1, 1); (0, 1)]%nat. destruct v as [|[|[|v]]]; cbn [nth_error Nat.eqb].
  4: { destruct v; reflexivity. }
  all: rsums; rewrite !one_gradient by lia; rewrite !one_gather by lia; cbn; ring.
Qed.
Lemma one_mech U Q Z m lam mu r n i : isotropic_cells 2 lam mu (one m) -> stab_residual 2 (fun _ => 1) square_X U Q Z (one m) = Ok r -> (n < 3)%nat -> (i < 2)%nat ->
  r (n * 3 + i)%nat = 1 / 2 * rsum 2 (fun j => total_stress 2 m (cell_strain 2 square_X U (mkCell (fun a => a) m)) (cell_pressure 2 U (mkCell (fun a => a) m)) (voigt 2 i j) * cell_gradient 2 square_X n j).
Proof.
  intros HI E Hn Hi. rewrite (stab_ok 2 (fun _ => 1) square_X U Q Z (one m) lam mu) in E by (try lia; exact HI). injection E as <-.
  rewrite one_row by lia. rewrite value_mech by lia. rewrite cell_pressure_value by lia. change (gather_coords square_X (mkCell (fun a => a) m)) with square_X. rewrite one_measure.
  unfold cell_strain. change (gather_coords square_X (mkCell (fun a => a) m)) with square_X. cbn [c_mat]. rewrite Rmult_1_r. reflexivity.
Qed.
Lemma one_elastic V Z m n i : (forall v, e_ref m v = 0) -> (n < 3)%nat -> (i < 2)%nat ->
  elastostatic 2 (fun _ => 1) None square_X V Z (one m) (n * 2 + i)%nat =
  1 / 2 * rsum 2 (fun j => full_stress 2 (e_stiff m) (strain 2 2 (fun _ => 0) V (cell_gradient 2 square_X)) (voigt 2 i j) * cell_gradient 2 square_X n j).
Proof.
  intros Hr Hn Hi. unfold elastostatic. rewrite one_row by lia. unfold elastostatic_cell. rewrite stress_at by lia.
  change (gather_coords square_X (mkCell (fun a => a) m)) with square_X. rewrite one_measure. rewrite Rplus_0_l, Rmult_1_l. f_equal. apply rsum_ext. intros j Hj. f_equal.
  unfold weigh, elastic_stress, add_forcing, linear_stress, full_stress. rewrite Rmult_1_r. apply rsum_ext. intros k Hk. cbn [c_mat]. rewrite Hr.
  rewrite (strain_ext 2 2 (gather 2 V (mkCell (fun a => a) m)) V) by (try lia; intros; apply one_gather; lia). req. ring.
Qed.
Theorem C107_refuted : exists U r, (forall c, In c (one sheet) -> cell_pressure 2 U c = (1 + 1) * rs 2 (cell_strain 2 square_X U c)) /\
  stab_residual 2 (fun _ => 1) square_X U (fun _ => 0) (fun _ => 1) (one sheet) = Ok r /\
  r 0%nat <> elastostatic 2 (fun _ => 1) None square_X (displacements 2 U) (fun _ => 1) (map as_elastic (one sheet)) 0%nat.
Proof.
  set (U := fun k : nat => if (Nat.eqb k 3 || Nat.eqb k 7)%bool then 1 else if Nat.eqb (k mod 3) 2 then 4 else 0).
  assert (EP : cell_pressure 2 U (mkCell (fun a => a) sheet) = 4) by (unfold cell_pressure, pressures, rs; rsums; cbn; field).
  eexists U, _. split; [|split; [apply (stab_ok 2 _ _ _ _ _ _ (fun _ => 1) (fun _ => 1)); [lia|exact sheet_isotropic]|]].
  - intros c [<-|[]]. rewrite EP. unfold rs. rsums. rewrite !one_strain. unfold U. cbn. ring.
  - pose proof (one_mech U (fun _ => 0) (fun _ => 1) sheet _ _ _ 0 0 sheet_isotropic (stab_ok 2 (fun _ => 1) square_X U (fun _ => 0) (fun _ => 1) (one sheet) (fun _ => 1) (fun _ => 1) ltac:(lia) sheet_isotropic) ltac:(lia) ltac:(lia)) as H.
    cbn [Nat.mul Nat.add] in H. rewrite H. clear H.
    pose proof (one_elastic (displacements 2 U) (fun _ => 1) (mkElastic (b_stiff sheet) (fun _ => 0)) 0 0 (fun _ => eq_refl) ltac:(lia) ltac:(lia)) as H.
    cbn [Nat.mul Nat.add] in H. change (map as_elastic (one sheet)) with (one (mkElastic (b_stiff sheet) (fun _ => 0))). rewrite H. clear H. rewrite EP.
    assert (ES : forall v, strain 2 2 (fun _ => 0) (displacements 2 U) (cell_gradient 2 square_X) v = cell_strain 2 square_X U (mkCell (fun a => a) sheet) v).
    { intros v. rewrite <- (strain_displacements 2 square_X U (mkCell (fun a => a) sheet) (mkCell (fun a => a) (mkElastic (b_stiff sheet) (fun _ => 0))) v) by (try lia; reflexivity).
      apply strain_ext; [lia|lia|]. intros k _. symmetry. apply one_gather. lia. }
    unfold full_stress. cbn [num_voigt e_stiff]. rsums. rewrite !ES. unfold total_stress, dev_stress, full_stress, hydrostatic. cbn [num_voigt]. rsums. rewrite !one_strain, !one_gradient by lia. cbn. lra.
Qed.
Print Assumptions C107_refuted.
(** In one dimension the shear modulus is 0 / 0. *)
Theorem C107_bar : forall pen X U Q Z cells, cells <> [] -> stab_residual 1 pen X U Q Z cells = UB.
Proof.
  intros pen X U Q Z [|c cells] H; [contradiction|]. unfold stab_residual, assembleR. cbn [foldR]. unfold stab_cell. cbv zeta. unfold moduli. cbn [num_voigt Nat.sub INR].
  unfold quot at 1. destruct (Req_EM_T 0 0) as [_|N]; [reflexivity|exfalso; apply N; reflexivity].
Qed.
Print Assumptions C107_bar.
(** The hypotheses in three dimensions: any body growing uniformly, on any mesh. *)
Definition growth_state (X : nat -> nat -> R) (p : R) (k : nat) : R := if Nat.eqb (k mod 4) 3 then p else X (k / 4)%nat (k mod 4)%nat.
Example C107_reachable : forall nn X cells lam mu s, mesh_ok 3 nn X cells -> isotropic_cells 3 (fun _ => lam) (fun _ => mu) cells -> s <> 0 ->
  (forall c, In c cells -> b_scale (c_mat c) = s) ->
  let U := growth_state X (3 * (lam + 2 / 3 * mu) / s) in
  (forall c, In c cells -> cell_pressure 3 U c = (lam + 2 / 3 * mu) * rs 3 (cell_strain 3 X U c)) /\
  (forall c, In c cells -> projected 3 b_scale X U (fun _ => 0) c) /\ (forall c, In c cells -> rs 3 (cell_strain 3 X U c) = 3).
Proof.
  intros nn X cells lam mu s Hm HI Hs Hsc U.
  assert (HU : forall n i, (i < 4)%nat -> U (n * 4 + i)%nat = if Nat.eqb i 3 then 3 * (lam + 2 / 3 * mu) / s else X n i).
  { intros n i Hi. unfold U, growth_state. rewrite (Nat.add_comm (n * 4)), Nat.mod_add, (Nat.mod_small i 4), Nat.div_add, (Nat.div_small i 4) by lia. reflexivity. }
  assert (M : moves 3 nn 4 X (fun _ => 0) (fun i j => if Nat.eqb i j then 1 else 0) U).
  { intros n i Hn Hi. rewrite HU by lia. destruct (Nat.eqb_spec i 3); [lia|]. unfold affine, rs. destruct i as [|[|[|i]]]; try lia; rsums; cbn; ring. }
  assert (T : forall c, In c cells -> rs 3 (cell_strain 3 X U c) = 3).
  { intros c Hc. destruct (mesh_cell _ _ _ _ _ Hm Hc) as [Hn Hv]. unfold cell_strain.
    pose proof (proj1 (C32_strain 3 4 (gather_coords X c) _ _ _ ltac:(lia) ltac:(lia) Hv (gather_moves 3 nn 4 X _ _ U c ltac:(lia) Hn M))) as H.
    unfold rs. rsums. rewrite !H by (cbn; lia). cbn. ring. }
  split; [|split; [|exact T]].
  - intros c Hc. rewrite T by exact Hc. unfold cell_pressure, pressures, rs. rewrite (Hsc c Hc). rsums. rewrite !HU by lia. cbn. field. exact Hs.
  - intros c Hc i Hi. destruct (mesh_cell _ _ _ _ _ Hm Hc) as [Hn Hv].
    rewrite (scalar_gradient_affine 3 4 3 _ (3 * (lam + 2 / 3 * mu) / s) (fun _ => 0) _ ltac:(lia) Hv); [|intros a Ha; rewrite gather_at, HU by lia; symmetry; apply affine_const|exact Hi].
    unfold rs. rewrite rsum_0 by reflexivity. lra.
Qed.

(** ** C108: the stabilised system is reciprocal. *)
Lemma interpolate_zero {M} d off (c : cell M) ndof : interpolate d ndof off (gather ndof (fun _ => 0) c) = 0.
Proof. unfold interpolate. apply rsum_0. intros. unfold gather. req. ring. Qed.
Lemma bilinear d lam mu m e ew p : (2 <= d <= 3)%nat -> isotropic d (num_voigt d) lam mu (b_stiff m) ->
  rsum (num_voigt d) (fun v => total_stress d m e p v * ew v) =
  rsum (num_voigt d) (fun v => hooke d lam mu e v * ew v) - (INR d * lam + 2 * mu) / 3 * rsum d e * rsum d ew + p * rsum d ew.
Proof.
  intros Hd H.
  rewrite (rsum_ext _ (fun v => total_stress d m e p v * ew v)
    (fun v => hooke d lam mu e v * ew v - hydrostatic d ((INR d * lam + 2 * mu) / 3 * rsum d e) v * ew v + hydrostatic d p v * ew v)).
  - rewrite rsum_add, rsum_sub.
    assert (EH : forall q, rsum (num_voigt d) (fun v => hydrostatic d q v * ew v) = q * rsum d ew).
    { intros q. unfold hydrostatic. dims d; try lia; cbn [num_voigt]; rsums; cbn; ring. }
    rewrite !EH. req. ring.
  - intros v Hv. unfold total_stress, dev_stress. rewrite (full_hooke d lam mu) by (try lia; assumption). rewrite (trace_hooke d lam mu) by (try lia; assumption).
    unfold hydrostatic. destruct (Nat.ltb v d); req; lra.
Qed.
Lemma hooke_sym d lam mu e f : (2 <= d <= 3)%nat -> rsum (num_voigt d) (fun v => hooke d lam mu e v * f v) = rsum (num_voigt d) (fun v => hooke d lam mu f v * e v).
Proof. intros Hd. unfold hooke, rs. dims d; try lia; cbn [num_voigt]; rsums; cbn; ring. Qed.
Theorem C108_reciprocal : forall d nn pen X U W Z cells lam mu, (2 <= d <= 3)%nat -> mesh_ok d nn X cells -> isotropic_cells d lam mu cells ->
  exists r r', stab_residual d pen X U (fun _ => 0) Z cells = Ok r /\ stab_residual d pen X W (fun _ => 0) Z cells = Ok r' /\
    work (nn * S d) r W = work (nn * S d) r' U.
Proof.
  intros d nn pen X U W Z cells lam mu Hd Hm HI. eexists. eexists.
  split; [apply (stab_ok d pen X U _ Z cells lam mu Hd HI)|]. split; [apply (stab_ok d pen X W _ Z cells lam mu Hd HI)|].
  rewrite !assemble_work by (apply (mesh_nodes d nn X); exact Hm). apply sum_over_ext. intros c Hc. rewrite !value_work by lia. destruct (HI c Hc) as (H & _ & _).
  f_equal. rewrite !(bilinear d (lam c) (mu c)) by assumption. rewrite (hooke_sym d (lam c) (mu c) (strain d (S d) (fun _ => 0) (gather (S d) U c) _)) by exact Hd.
  match goal with |- _ + _ - rsum d ?f = _ + _ - rsum d ?g => assert (EF : rsum d f = rsum d g) end.
  { apply rsum_ext. intros j Hj. unfold stabilization. rewrite interpolate_zero. req. ring. }
  rewrite EF. unfold volume_flux. unfold Rdiv. ring.
Qed.
Print Assumptions C108_reciprocal.
Example C108_reachable : isotropic_cells 2 (fun _ => 1) (fun _ => 1) (square sheet) /\ mesh_ok 2 4 square_X (square sheet).
Proof. split; [|apply square_ok]. intros c [<-|[<-|[]]]; exact (sheet_isotropic (mkCell (fun a => a) sheet) (or_introl eq_refl)). Qed.
