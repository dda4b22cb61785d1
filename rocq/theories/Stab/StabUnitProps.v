(** What the displacements, pressures and results of stabilised elastostatics become when lengths are measured in another unit. *)
From Coq Require Import Reals List Arith Bool Lia Lra Psatz.
From Verif Require Import Base.Field Base.Sums Base.Res Element.ElementModel Element.ElementSpec Element.ElementProof Element.ElementProps Element.MaterialModel Element.MaterialSpec Penalty.PenaltyModel Residual.ResidualModel.
From Verif Require Import BC.ConstraintsSpec BC.ConstraintsMain Residual.ResidualSpec Residual.ResidualProof Residual.ResidualProps Residual.FrameSpec Residual.FrameProof Residual.CouplingProof Residual.CouplingProps Residual.UnitProps.
From Verif Require Import Stab.StabModel Stab.StabSpec Stab.StabProof Stab.StabProps.
Import ListNotations.
Local Open Scope R_scope.

(** The same displacements in the new unit, the same pressures. *)
Definition same_motion (d nn : nat) (s : R) (U U' : nat -> R) : Prop :=
  forall n, (n < nn)%nat -> (forall i, (i < d)%nat -> U' (n * S d + i)%nat = s * U (n * S d + i)%nat) /\ U' (n * S d + d)%nat = U (n * S d + d)%nat.
(** The same pressure gradients, per new unit of length. *)
Definition same_slope (d nn : nat) (s : R) (Q Q' : nat -> R) : Prop := forall k, (k < nn * d)%nat -> Q' k = Q k / s.

Section cells.
Context (d nn : nat) (s : R) (X X' : nat -> nat -> R) (U U' Q Q' : nat -> R) (cells : list (cell stabilized)).
Hypotheses (Hd : (2 <= d <= 3)%nat) (Hs : 0 < s) (Hm : mesh_ok d nn X cells) (HX : scaled_places d nn s X X') (HU : same_motion d nn s U U') (HQ : same_slope d nn s Q Q').
Lemma u_coords c : In c cells -> forall a i, (a <= d)%nat -> (i < d)%nat -> gather_coords X' c a i = s * gather_coords X c a i.
Proof. intros Hc a i Ha Hi. destruct (mesh_cell _ _ _ _ _ Hm Hc) as [Hn _]. apply HX; [exact (Hn a Ha)|exact Hi]. Qed.
Lemma u_gradient c : In c cells -> forall a k, (a <= d)%nat -> (k < d)%nat -> cell_gradient d (gather_coords X' c) a k = cell_gradient d (gather_coords X c) a k / s.
Proof.
  intros Hc. destruct (mesh_cell _ _ _ _ _ Hm Hc) as [_ Hv]. apply gradient_scaled; [lia|exact Hs|exact (u_coords c Hc)|apply (fun H => det_measure _ _ H Hv); lia].
Qed.
Lemma u_measure c : In c cells -> cell_measure d (gather_coords X' c) = s ^ d * cell_measure d (gather_coords X c).
Proof. intros Hc. unfold cell_measure. rewrite (fun H => volume_scaled d s (gather_coords X c) _ H Hs (u_coords c Hc)) by lia. ring. Qed.
Lemma u_positive c : In c cells -> 0 < cell_measure d (gather_coords X c).
Proof. intros Hc. destruct (mesh_cell _ _ _ _ _ Hm Hc) as [_ Hv]. apply (fun H => measure_simplex d (gather_coords X c) H Hv). lia. Qed.
Lemma u_strain c : In c cells -> forall v, (v < num_voigt d)%nat ->
  strain d (S d) (fun _ => 0) (gather (S d) U' c) (cell_gradient d (gather_coords X' c)) v = strain d (S d) (fun _ => 0) (gather (S d) U c) (cell_gradient d (gather_coords X c)) v.
Proof.
  intros Hc v Hv. destruct (mesh_cell _ _ _ _ _ Hm Hc) as [Hn _]. rewrite <- (Rmult_1_l (strain d (S d) _ (gather (S d) U c) _ v)).
  apply strain_of_gradient; [lia|lia|exact Hv|]. intros a i l Ha Hi Hl. rewrite u_gradient by assumption. rewrite !gather_at by lia.
  rewrite (proj1 (HU _ (Hn a Ha)) i Hi). field. lra.
Qed.
Lemma u_pressure c : In c cells -> interpolate d (S d) d (gather (S d) U' c) = interpolate d (S d) d (gather (S d) U c).
Proof.
  intros Hc. destruct (mesh_cell _ _ _ _ _ Hm Hc) as [Hn _]. apply rsum_ext. intros a Ha. rewrite !gather_at by lia.
  rewrite (proj2 (HU _ (Hn a ltac:(lia)))). reflexivity.
Qed.
Lemma u_slope c i : In c cells -> (i < d)%nat -> interpolate d d i (gather d Q' c) = interpolate d d i (gather d Q c) / s.
Proof.
  intros Hc Hi. destruct (mesh_cell _ _ _ _ _ Hm Hc) as [Hn _]. unfold interpolate.
  rewrite (rsum_ext (S d) _ (fun a => / s * (cub_basis d a * gather d Q c (a * d + i)%nat))).
  - rewrite rsum_scal_l. unfold Rdiv. ring.
  - intros a Ha. rewrite !gather_at by lia. pose proof (Hn a ltac:(lia)). rewrite HQ by nia. req. field. lra.
Qed.
Lemma u_scalar c i : In c cells -> (i < d)%nat ->
  scalar_gradient d (S d) d (gather (S d) U' c) (cell_gradient d (gather_coords X' c)) i = scalar_gradient d (S d) d (gather (S d) U c) (cell_gradient d (gather_coords X c)) i / s.
Proof.
  intros Hc Hi. destruct (mesh_cell _ _ _ _ _ Hm Hc) as [Hn _]. unfold scalar_gradient.
  match goal with |- rsum _ ?f = rsum _ ?g / s => rewrite (rsum_ext (S d) f (fun a => / s * g a)) end.
  - rewrite rsum_scal_l. unfold Rdiv. ring.
  - intros a Ha. rewrite u_gradient by (assumption || lia). rewrite !gather_at by lia. rewrite (proj2 (HU _ (Hn a ltac:(lia)))). req. field. lra.
Qed.
Lemma u_stress c v : In c cells -> total_stress d (c_mat c) (strain d (S d) (fun _ => 0) (gather (S d) U' c) (cell_gradient d (gather_coords X' c))) (b_scale (c_mat c) * interpolate d (S d) d (gather (S d) U' c)) v
  = total_stress d (c_mat c) (strain d (S d) (fun _ => 0) (gather (S d) U c) (cell_gradient d (gather_coords X c))) (b_scale (c_mat c) * interpolate d (S d) d (gather (S d) U c)) v.
Proof.
  intros Hc. rewrite (u_pressure c Hc). unfold total_stress. f_equal. unfold dev_stress.
  assert (F : forall w, full_stress d (b_stiff (c_mat c)) (strain d (S d) (fun _ => 0) (gather (S d) U' c) (cell_gradient d (gather_coords X' c))) w
    = full_stress d (b_stiff (c_mat c)) (strain d (S d) (fun _ => 0) (gather (S d) U c) (cell_gradient d (gather_coords X c))) w).
  { intros w. apply rsum_ext. intros j Hj. rewrite (u_strain c Hc j Hj). reflexivity. }
  rewrite F. destruct (Nat.ltb v d); [|reflexivity]. f_equal. f_equal. apply rsum_ext. intros j _. apply F.
Qed.
Context (pen : R -> R) (Z : nat -> R) (lam mu : cell stabilized -> R).
Let val (X : nat -> nat -> R) (U Q : nat -> R) (c : cell stabilized) : nat -> R :=
  cell_value d pen (c_mat c) (lam c + 2 * mu c / INR d) (mu c) (gather_coords X c) (gather (S d) U c) (gather d Q c) (gather_control Z c).
Lemma u_mech c a i : In c cells -> (a < S d)%nat -> (i < d)%nat -> val X' U' Q' c (a * S d + i)%nat = s ^ (d - 1) * val X U Q c (a * S d + i)%nat.
Proof.
  intros Hc Ha Hi. unfold val. rewrite !value_mech by lia. rewrite (u_measure c Hc).
  match goal with |- _ * _ * rsum d ?f = _ * (_ * _ * rsum d ?g) => rewrite (rsum_ext d f (fun j => / s * g j)) end.
  - rewrite rsum_scal_l. replace (s ^ d) with (s * s ^ (d - 1)) by (replace d with (S (d - 1)) at 2 by lia; reflexivity). field. lra.
  - intros j Hj. rewrite (u_stress c _ Hc), u_gradient by (assumption || lia). req. field. lra.
Qed.
(** The pressure rows: the part of the volume, and the part of the stabilisation, whose length is a power of the cell's measure. *)
Let flow (c : cell stabilized) (j : nat) : R :=
  stabilization (b_scale (c_mat c)) (mu c) (cell_measure d (gather_coords X c)) (scalar_gradient d (S d) d (gather (S d) U c) (cell_gradient d (gather_coords X c))) (fun i => interpolate d d i (gather d Q c)) j.
Lemma u_press c a : In c cells -> (a < S d)%nat -> val X' U' Q' c (a * S d + d)%nat = s ^ d * (val X U Q c (a * S d + d)%nat
  + (1 - Rpower s (INR d * (2 / 3)) / s ^ 2) * (cell_measure d (gather_coords X c) * pen (cell_density (S d) (gather_control Z c)) * rsum d (fun j => flow c j * cell_gradient d (gather_coords X c) a j))).
Proof.
  intros Hc Ha. unfold val, flow. rewrite !value_pressure by lia. rewrite (u_measure c Hc), (u_pressure c Hc).
  assert (V : volume_flux d (b_scale (c_mat c)) (lam c + 2 * mu c / INR d) (strain d (S d) (fun _ => 0) (gather (S d) U' c) (cell_gradient d (gather_coords X' c))) (b_scale (c_mat c) * interpolate d (S d) d (gather (S d) U c))
    = volume_flux d (b_scale (c_mat c)) (lam c + 2 * mu c / INR d) (strain d (S d) (fun _ => 0) (gather (S d) U c) (cell_gradient d (gather_coords X c))) (b_scale (c_mat c) * interpolate d (S d) d (gather (S d) U c))).
  { unfold volume_flux. f_equal. f_equal. apply rsum_ext. intros j Hj. apply (u_strain c Hc). assert (D : d = 2%nat \/ d = 3%nat) by lia. destruct D as [-> | ->]; cbn; lia. }
  rewrite V. pose proof (u_positive c Hc) as Hv. pose proof (pow_lt s d Hs) as Hsd.
  assert (P : Rpower (s ^ d * cell_measure d (gather_coords X c)) (2 / 3) = Rpower s (INR d * (2 / 3)) * Rpower (cell_measure d (gather_coords X c)) (2 / 3)).
  { rewrite <- Rpower_mult_distr by assumption. rewrite <- (Rpower_pow d s) by exact Hs. rewrite Rpower_mult. reflexivity. }
  match goal with |- _ * _ * (_ - rsum d ?f) = _ * (_ * _ * (_ - rsum d ?g) + _) => rewrite (rsum_ext d f (fun j => (Rpower s (INR d * (2 / 3)) / s ^ 2) * g j)) end.
  - rewrite rsum_scal_l. ring.
  - intros j Hj. unfold stabilization. rewrite P, u_scalar, u_slope, u_gradient by (assumption || lia). req. unfold Rdiv. generalize (/ (2 * mu c)). intros r. field. lra.
Qed.
End cells.

(** ** C184 *)
Theorem C184_forces : forall d nn s pen X X' U U' Q Q' Z cells lam mu r r', (2 <= d <= 3)%nat -> 0 < s ->
  mesh_ok d nn X cells -> isotropic_cells d lam mu cells -> scaled_places d nn s X X' -> same_motion d nn s U U' -> same_slope d nn s Q Q' ->
  stab_residual d pen X U Q Z cells = Ok r -> stab_residual d pen X' U' Q' Z cells = Ok r' ->
  forall n i, (i < d)%nat -> r' (n * S d + i)%nat = s ^ (d - 1) * r (n * S d + i)%nat.
Proof.
  intros d nn s pen X X' U U' Q Q' Z cells lam mu r r' Hd Hs Hm Hi HX HU HQ E E' n i Hn.
  rewrite (stab_ok d pen _ _ _ _ _ lam mu Hd Hi) in E. rewrite (stab_ok d pen _ _ _ _ _ lam mu Hd Hi) in E'. injection E as <-. injection E' as <-.
  rewrite <- (map_id cells) at 2. apply (assemble_rows (S d) (S d) (S d) (fun c => c)); [lia|lia|reflexivity|]. intros c a Hc Ha.
  exact (u_mech d nn s X X' U U' Q Q' cells Hd Hs Hm HX HU pen Z lam mu c a i Hc Ha Hn).
Qed.
Theorem C184_solid : forall nn s pen X X' U U' Q Q' Z cells lam mu r r', 0 < s ->
  mesh_ok 3 nn X cells -> isotropic_cells 3 lam mu cells -> scaled_places 3 nn s X X' -> same_motion 3 nn s U U' -> same_slope 3 nn s Q Q' ->
  stab_residual 3 pen X U Q Z cells = Ok r -> stab_residual 3 pen X' U' Q' Z cells = Ok r' ->
  forall n, r' (n * 4 + 3)%nat = s ^ 3 * r (n * 4 + 3)%nat.
Proof.
  intros nn s pen X X' U U' Q Q' Z cells lam mu r r' Hs Hm Hi HX HU HQ E E' n.
  rewrite (stab_ok 3 pen _ _ _ _ _ lam mu ltac:(lia) Hi) in E. rewrite (stab_ok 3 pen _ _ _ _ _ lam mu ltac:(lia) Hi) in E'. injection E as <-. injection E' as <-.
  rewrite <- (map_id cells) at 2. apply (assemble_rows 4 4 4 (fun c => c)); [lia|lia|reflexivity|]. intros c a Hc Ha.
  etransitivity; [exact (u_press 3 nn s X X' U U' Q Q' cells ltac:(lia) Hs Hm HX HU HQ pen Z lam mu c a Hc Ha)|]. f_equal.
  replace (Rpower s (INR 3 * (2 / 3))) with (s ^ 2).
  - match goal with |- ?v + (1 - ?q / ?q) * ?w = _ => replace (1 - q / q) with 0 by (field; lra) end; rewrite Rmult_0_l, Rplus_0_r; reflexivity.
  - rewrite <- Rpower_pow by exact Hs. f_equal. cbn. field.
Qed.
(** In the plane the rows follow where the pressure gradient is the projected one. *)
Theorem C184_sheet_partial : forall nn s pen X X' U U' Q Q' Z cells lam mu r r', 0 < s ->
  mesh_ok 2 nn X cells -> isotropic_cells 2 lam mu cells -> scaled_places 2 nn s X X' -> same_motion 2 nn s U U' -> same_slope 2 nn s Q Q' ->
  (forall c, In c cells -> projected 2 b_scale X U Q c) ->
  stab_residual 2 pen X U Q Z cells = Ok r -> stab_residual 2 pen X' U' Q' Z cells = Ok r' ->
  forall n, r' (n * 3 + 2)%nat = s ^ 2 * r (n * 3 + 2)%nat.
Proof.
  intros nn s pen X X' U U' Q Q' Z cells lam mu r r' Hs Hm Hi HX HU HQ HP E E' n.
  rewrite (stab_ok 2 pen _ _ _ _ _ lam mu ltac:(lia) Hi) in E. rewrite (stab_ok 2 pen _ _ _ _ _ lam mu ltac:(lia) Hi) in E'. injection E as <-. injection E' as <-.
  rewrite <- (map_id cells) at 2. apply (assemble_rows 3 3 3 (fun c => c)); [lia|lia|reflexivity|]. intros c a Hc Ha.
  etransitivity; [exact (u_press 2 nn s X X' U U' Q Q' cells ltac:(lia) Hs Hm HX HU HQ pen Z lam mu c a Hc Ha)|]. f_equal.
  rewrite (rsum_0 2); [rewrite !Rmult_0_r, Rplus_0_r; reflexivity|]. intros j Hj. rewrite stabilization_zero by (try lia; exact (HP c Hc)). apply Rmult_0_l.
Qed.
(** In general they do not: a plate of one cell, pressed at one corner, measured in units eight times smaller. *)
Definition pressed (k : nat) : R := if Nat.eqb k 2 then 1 else 0.
Theorem C184_sheet_refuted : ~ (forall nn s pen X X' U U' Q Q' Z cells lam mu r r', 0 < s ->
  mesh_ok 2 nn X cells -> isotropic_cells 2 lam mu cells -> scaled_places 2 nn s X X' -> same_motion 2 nn s U U' -> same_slope 2 nn s Q Q' ->
  stab_residual 2 pen X U Q Z cells = Ok r -> stab_residual 2 pen X' U' Q' Z cells = Ok r' ->
  forall n, r' (n * 3 + 2)%nat = s ^ 2 * r (n * 3 + 2)%nat).
Proof.
  intros H.
  assert (HX : scaled_places 2 3 8 square_X (fun n i => 8 * square_X n i)) by (intros n i _ _; reflexivity).
  assert (HU : same_motion 2 3 8 pressed pressed).
  { intros n Hn. split; [|reflexivity]. intros i Hi. unfold pressed. destruct (Nat.eqb_spec (n * 3 + i) 2); [lia|ring]. }
  assert (HQ : same_slope 2 3 8 (fun _ => 0) (fun _ => 0)) by (intros k _; field).
  specialize (H 3%nat 8 (fun _ => 1) square_X _ pressed pressed (fun _ => 0) (fun _ => 0) (fun _ => 1) (one sheet) (fun _ => 1) (fun _ => 1) _ _ ltac:(lra) (one_ok sheet) sheet_isotropic HX HU HQ
    (stab_ok 2 _ _ _ _ _ _ _ _ ltac:(lia) sheet_isotropic) (stab_ok 2 _ _ _ _ _ _ _ _ ltac:(lia) sheet_isotropic) 0%nat).
  rewrite !one_row in H by lia.
  pose proof (u_press 2 3 8 square_X _ pressed pressed (fun _ => 0) (fun _ => 0) (one sheet) ltac:(lia) ltac:(lra) (one_ok sheet) HX HU HQ (fun _ => 1) (fun _ => 1) (fun _ => 1) (fun _ => 1)
    (mkCell (fun a => a) sheet) 0%nat (or_introl eq_refl) ltac:(lia)) as G.
  cbv beta in H. change (0 * 3 + 2)%nat with (0 * S 2 + 2)%nat in H. rewrite G in H. clear G.
  apply Rmult_eq_reg_l in H; [|lra].
  match type of H with ?v + ?w = ?v => assert (W : w = 0) by lra end. clear H.
  change (gather_coords square_X (mkCell (fun a => a) sheet)) with square_X in W. rewrite one_measure in W.
  assert (P : Rpower 8 (INR 2 * (2 / 3)) = 16).
  { replace (INR 2 * (2 / 3)) with (/ 3 * 4) by (cbn; field). rewrite <- Rpower_mult. replace (Rpower 8 (/ 3)) with 2.
    - replace 4 with (INR 4) by (cbn; ring). rewrite Rpower_pow by lra. ring.
    - replace 8 with (2 ^ 3) by ring. rewrite <- Rpower_pow by lra. rewrite Rpower_mult. replace (INR 3 * / 3) with 1 by (cbn; field). rewrite Rpower_1; lra. }
  rewrite P in W.
  match type of W with _ * (_ * _ * rsum 2 ?f) = 0 => assert (F : rsum 2 f = Rpower (1 / 2) (2 / 3)) end.
  { rsums. unfold stabilization. rewrite !interpolate_mean by lia. unfold scalar_gradient, rs. rsums. rewrite !one_gradient by lia. rewrite !one_gather by lia. cbn. unfold pressed. cbn. field. }
  rewrite F in W. pose proof (exp_pos (2 / 3 * ln (1 / 2))) as Q0. fold (Rpower (1 / 2) (2 / 3)) in Q0. lra.
Qed.
(** A corner of a block, stretched along one edge. *)
Definition corner (n i : nat) : R := if Nat.eqb n (S i) then 1 else 0.
Definition block : stabilized := mkStab (fun i j => if Nat.ltb i 3 then (if Nat.ltb j 3 then (if Nat.eqb i j then 3 else 1) else 0) else (if Nat.eqb i j then 1 else 0)) 1.
Lemma block_isotropic : isotropic_cells 3 (fun _ => 1) (fun _ => 1) (one block).
Proof.
  intros c [<-|[]]. split; [|cbn; lra]. intros i j Hi Hj. cbn in Hi, Hj. unfold hooke, rs.
  do 6 (destruct i as [|i]; [do 6 (destruct j as [|j]; [rsums; cbn; ring|]); lia|]). lia.
Qed.
Lemma corner_ok : mesh_ok 3 4 corner (one block).
Proof.
  intros c [E|[]]; subst c. split; [intros a Ha; cbn; lia|]. unfold simplex_measure; cbn. unfold corner; cbn.
  match goal with |- Rabs ?q / 6 <> 0 => replace q with 1 by ring end. rewrite Rabs_R1. lra.
Qed.
Definition pulled (s : R) (k : nat) : R := if Nat.eqb k 4 then s else 0.
Example C184_case : exists r r', stab_residual 3 (fun x => x) corner (pulled 1) (fun _ => 0) (fun _ => 1) (one block) = Ok r /\
  stab_residual 3 (fun x => x) (fun n i => 2 * corner n i) (pulled 2) (fun _ => 0) (fun _ => 1) (one block) = Ok r' /\
  r' 3%nat = 8 * r 3%nat /\ r' 0%nat = 4 * r 0%nat /\ r 3%nat <> 0.
Proof.
  assert (HX : scaled_places 3 4 2 corner (fun n i => 2 * corner n i)) by (intros n i _ _; reflexivity).
  assert (HU : same_motion 3 4 2 (pulled 1) (pulled 2)).
  { intros n Hn. unfold pulled. split; [intros i Hi; destruct (Nat.eqb (n * 4 + i) 4); ring|]. destruct (Nat.eqb_spec (n * 4 + 3) 4); [lia|reflexivity]. }
  assert (HQ : same_slope 3 4 2 (fun _ => 0) (fun _ => 0)) by (intros k _; field).
  eexists. eexists. split; [exact (stab_ok 3 _ _ _ _ _ _ _ _ ltac:(lia) block_isotropic)|]. split; [exact (stab_ok 3 _ _ _ _ _ _ _ _ ltac:(lia) block_isotropic)|].
  split; [|split].
  - replace 8 with (2 ^ 3) by ring. exact (C184_solid 4 2 _ _ _ _ _ _ _ _ _ _ _ _ _ ltac:(lra) corner_ok block_isotropic HX HU HQ (stab_ok 3 _ _ _ _ _ _ _ _ ltac:(lia) block_isotropic) (stab_ok 3 _ _ _ _ _ _ _ _ ltac:(lia) block_isotropic) 0%nat).
  - replace 4 with (2 ^ (3 - 1)) by (cbn; ring). exact (C184_forces 3 4 2 _ _ _ _ _ _ _ _ _ _ _ _ _ ltac:(lia) ltac:(lra) corner_ok block_isotropic HX HU HQ (stab_ok 3 _ _ _ _ _ _ _ _ ltac:(lia) block_isotropic) (stab_ok 3 _ _ _ _ _ _ _ _ ltac:(lia) block_isotropic) 0%nat 0%nat ltac:(lia)).
  - pose proof corner_ok as Hm. destruct (mesh_cell _ _ _ _ (mkCell (fun a => a) block) Hm (or_introl eq_refl)) as [Hn Hv].
    assert (M : moves 3 4 4 corner (fun _ => 0) (fun i j => if Nat.eqb i 0 then if Nat.eqb j 0 then 1 else 0 else 0) (pulled 1)).
    { intros n i Hk Hi. unfold affine, pulled, corner. destruct n as [|[|[|[|n]]]]; try lia; destruct i as [|[|[|i]]]; try lia; unfold rs; rsums; cbn; ring. }
    pose proof (proj1 (C32_strain 3 4 _ _ _ _ ltac:(lia) ltac:(lia) Hv (gather_moves 3 4 4 corner _ _ _ (mkCell (fun a => a) block) ltac:(lia) Hn M))) as ES.
    assert (ZP : forall a, gather 4 (pulled 1) (mkCell (fun a => a) block) (a * 4 + 3)%nat = 0).
    { intros a. rewrite gather_at by lia. unfold pulled. cbn [c_node]. destruct (Nat.eqb_spec (a * 4 + 3) 4); [lia|reflexivity]. }
    match goal with |- assemble ?np ?nd ?f ?cs 3%nat <> 0 => pose proof (one_row np nd f block 0%nat 3%nat ltac:(lia) ltac:(lia)) as OR end.
    change (0 * 4 + 3)%nat with 3%nat in OR. rewrite OR. clear OR. cbv beta. pose proof (value_pressure 3 (fun x => x) block (1 + 2 * 1 / INR 3) 1 (gather_coords corner (mkCell (fun a => a) block))
      (gather 4 (pulled 1) (mkCell (fun a => a) block)) (gather 3 (fun _ => 0) (mkCell (fun a => a) block)) (gather_control (fun _ => 1) (mkCell (fun a => a) block)) 0%nat ltac:(lia) ltac:(lia)) as VP.
    cbn [Nat.mul Nat.add] in VP. cbn [c_mat]. rewrite VP. clear VP.
    assert (IZ : interpolate 3 4 3 (gather 4 (pulled 1) (mkCell (fun a => a) block)) = 0) by (apply rsum_0; intros a _; rewrite ZP; req; ring).
    rewrite IZ. match goal with |- context [rsum 3 ?f] => match f with context [stabilization] => assert (SZ : rsum 3 f = 0) end end.
    { apply rsum_0. intros j Hj. unfold stabilization. rewrite interpolate_zero. unfold scalar_gradient. rewrite (rsum_0 4); [req; ring|]. intros a _. rewrite ZP. req. ring. }
    rewrite SZ. unfold volume_flux. rsums. rewrite !ES by (cbn; lia). cbn [engineering_strain Nat.eqb].
    pose proof (proj2 (measure_simplex 3 _ ltac:(lia) Hv)) as Hp. unfold cell_density, gather_control. rsums. rewrite (basis_third 3 0) by lia. cbn [block b_scale]. cbn [INR].
    set (V := cell_measure 3 _) in *. intros E0. assert (V = 0); [|lra]. match type of E0 with V * ?k1 * ?k2 = 0 => assert (K1 : k1 = 1) by field; assert (K2 : k2 = / 4) by field end. rewrite K1, K2 in E0. lra.
Qed.
Print Assumptions C184_forces.
Print Assumptions C184_solid.
Print Assumptions C184_sheet_partial.
Print Assumptions C184_sheet_refuted.
