(** C95-C100: residuals and energies on any mesh. *)
From Coq Require Import Reals List Arith Bool Lia Lra.
From Verif Require Import Base.Field Base.Sums Base.Res Element.ElementModel Element.ElementSpec Element.ElementProof Element.ElementProps
  Penalty.PenaltyModel Residual.ResidualModel Residual.ResidualSpec Residual.ResidualProof.
Import ListNotations.
Local Open Scope R_scope.

(** The cells of every theorem below form a proper mesh. *)
Definition mesh_ok {M} (d nn : nat) (X : nat -> nat -> R) (cells : list (cell M)) : Prop := proper_mesh d nn X (map c_node cells).
Lemma mesh_cell {M} d nn X (cells : list (cell M)) c : mesh_ok d nn X cells -> In c cells ->
  (forall a, (a <= d)%nat -> (c_node c a < nn)%nat) /\ simplex_measure d (gather_coords X c) <> 0.
Proof. intros H Hc. apply (H (c_node c)). apply in_map. exact Hc. Qed.
Lemma mesh_nodes {M} d nn X (cells : list (cell M)) : mesh_ok d nn X cells -> forall c a, In c cells -> (a < S d)%nat -> (c_node c a < nn)%nat.
Proof. intros H c a Hc Ha. apply (proj1 (mesh_cell d nn X cells c H Hc)). lia. Qed.

(** Two triangles sharing an edge, for the examples. *)
Definition square_X (n i : nat) : R := match n, i with 1%nat, 0%nat => 1 | 2%nat, 1%nat => 1 | 3%nat, _ => 1 | _, _ => 0 end.
Definition square {M} (m : M) : list (cell M) :=
  [mkCell (fun a => match a with 0%nat => 0%nat | 1%nat => 1%nat | _ => 2%nat end) m;
   mkCell (fun a => match a with 0%nat => 3%nat | 1%nat => 2%nat | _ => 1%nat end) m].
Example square_ok {M} (m : M) : mesh_ok 2 4 square_X (square m).
Proof.
  intros c [E|[E|[]]]; subst c; (split; [intros [|[|[|a]]] Ha; cbn; lia|]); unfold simplex_measure; cbn;
    match goal with |- Rabs ?q / 2 <> 0 => replace q with 1 by ring end; rewrite Rabs_R1; lra.
Qed.

(** ** C95: a body free to expand in a uniform temperature carries no stress and no heat. *)
Definition expands {M} (s : M -> R) (al : M -> R -> nat -> nat -> R) (tr : M -> R) (T0 : R) (cells : list (cell M)) (growth : nat -> nat -> R) (d : nat) : Prop :=
  forall c i j, In c cells -> (i < d)%nat -> (j < d)%nat -> growth i j = s (c_mat c) * al (c_mat c) T0 i j * (T0 - tr (c_mat c)).
Definition free_expansion (d nn : nat) (X : nat -> nat -> R) (U : nat -> R) (cells : list (cell thermoelastic)) (growth : nat -> nat -> R) : Prop :=
  exists t W T0, antisymmetric d W /\ moves d nn (S d) X t (fun i j => W i j + growth i j) U /\
    scalar_field d nn (S d) d X T0 (fun _ => 0) U /\ expands m_scale m_alpha m_tref T0 cells growth d.

Theorem C95_free_expansion_partial : forall d nn pen X U Z cells growth, (2 <= d <= 3)%nat -> mesh_ok d nn X cells ->
  free_expansion d nn X U cells growth -> (forall i j, (i < d)%nat -> (j < d)%nat -> i <> j -> growth i j = 0) ->
  exists r, thermoelastostatic d pen X U Z cells = Ok r /\ forall k, r k = 0.
Proof.
  intros d nn pen X U Z cells growth Hd Hm (t & W & T0 & HW & HU & HT & HG) Hdiag.
  destruct (tm_ok d pen X U Z cells Hd) as (r & E & Hr). exists r. split; [exact E|]. intros k. rewrite Hr. apply assemble_0. clear k.
  intros c k Hc _. destruct (mesh_cell _ _ _ _ _ Hm Hc) as [Hn Hv].
  assert (Hd' : (1 <= d <= 3)%nat) by lia.
  pose proof (gather_moves d nn (S d) X t _ U c ltac:(lia) Hn HU) as Hu.
  pose proof (gather_scalar d nn (S d) d X T0 _ U c ltac:(lia) Hn HT) as Ht.
  assert (HTi : interpolate d (S d) d (gather (S d) U c) = T0).
  { apply interpolate_const; [exact Hd'|]. intros a Ha. rewrite Ht by exact Ha. apply affine_const. }
  unfold tm_cell_value. cbv zeta. rewrite flux_0, divergence_0; [reflexivity|exact Hd'| |].
  - intros v Hv'. unfold weigh, tm_stress. rewrite rsum_0; [req; ring|]. intros j Hj.
    rewrite (proj1 (C32_strain d (S d) _ t _ _ Hd' ltac:(lia) Hv Hu) j Hj), HTi.
    replace (engineering_strain d (fun i j => W i j + growth i j) j) with (thermal_strain_value d (c_mat c) T0 j); [req; ring|].
    unfold thermal_strain_value. destruct d as [|[|[|[|d]]]]; try lia; cbn in Hj; destruct j as [|[|[|[|[|[|j]]]]]]; try lia; cbn [Nat.ltb Nat.leb engineering_strain];
      rewrite ?(Hdiag 0%nat 1%nat), ?(Hdiag 1%nat 0%nat), ?(Hdiag 0%nat 2%nat), ?(Hdiag 2%nat 0%nat), ?(Hdiag 1%nat 2%nat), ?(Hdiag 2%nat 1%nat) by lia;
      try (rewrite <- (HG c) by (try exact Hc; lia));
      try (match goal with |- _ = W ?i ?i + _ => pose proof (HW i i ltac:(lia) ltac:(lia)); lra end);
      match goal with |- _ = W ?i ?j + _ + _ => pose proof (HW i j ltac:(lia) ltac:(lia)); lra end.
  - intros v Hv'. unfold weigh, tm_flux. rewrite rsum_0; [req; ring|]. intros j Hj.
    rewrite (scalar_gradient_affine d (S d) d _ T0 (fun _ => 0) _ Hd' Hv Ht j Hj). req. ring.
Qed.
Print Assumptions C95_free_expansion_partial.

(** Not so for an expansivity with a shear part: it is dropped.  One unit expansivity a12 on the square. *)
Definition shear_material : thermoelastic :=
  mkTM false (fun i j => if Nat.eqb i j then 1 else 0) (fun _ _ _ => 0) (fun i j => if Nat.eqb i j then 0 else 1) (fun _ _ _ => 0)
    (fun i j => if Nat.eqb i j then 1 else 0) (fun _ _ _ => 0) 0 1.
Definition shear_state (k : nat) : R := if Nat.eqb (k mod 3) 2 then 1 else if Nat.eqb (k mod 3) 0 then square_X (k / 3) 1 else square_X (k / 3) 0.
Theorem C95_refuted : ~ (forall d nn pen X U Z cells growth, (2 <= d <= 3)%nat -> mesh_ok d nn X cells ->
  free_expansion d nn X U cells growth -> exists r, thermoelastostatic d pen X U Z cells = Ok r /\ forall k, r k = 0).
Proof.
  intros H. set (cells := square shear_material).
  assert (HM : moves 2 4 3 square_X (fun _ => 0) (fun i j => 0 + (if Nat.eqb i j then 0 else 1)) shear_state).
  { intros n i Hn Hi. unfold affine, rs. rsums. destruct n as [|[|[|[|n]]]]; try lia; destruct i as [|[|i]]; try lia; unfold shear_state; cbn; ring. }
  destruct (H 2%nat 4%nat (fun _ => 1) square_X shear_state (fun _ => 1) cells (fun i j => if Nat.eqb i j then 0 else 1) ltac:(lia) (square_ok shear_material)) as (r & E & Hr).
  { exists (fun _ => 0), (fun _ _ => 0), 1. split; [intros i j _ _; ring|]. split; [exact HM|]. split.
    - intros n Hn. rewrite affine_const. destruct n as [|[|[|[|n]]]]; try lia; reflexivity.
    - intros c i j [<-|[<-|[]]] Hi Hj; cbn; destruct i as [|[|i]]; try lia; destruct j as [|[|j]]; try lia; cbn; ring. }
  destruct (tm_ok 2 (fun _ => 1) square_X shear_state (fun _ => 1) cells ltac:(lia)) as (r' & E' & Hr').
  rewrite E in E'. injection E' as <-.
  assert (Z0 : work (4 * 3) r shear_state = 0). { unfold work, rs. apply rsum_0. intros k _. rewrite Hr. req. ring. }
  assert (Z1 : work (4 * 3) r shear_state = 4).
  { etransitivity. { unfold work, rs. apply rsum_ext. intros k _. rewrite Hr'. reflexivity. }
    etransitivity. { apply (assemble_work 4 3 3 (fun c => tm_cell_value 2 (fun _ => 1) (c_mat c) (gather_coords square_X c) (gather 3 shear_state c) (gather_control (fun _ => 1) c)) cells shear_state).
      apply (mesh_nodes 2 4 square_X). apply square_ok. }
    rewrite (sum_over_ext cells _ (fun _ => 2)); [cbn; ring|]. intros c Hc.
    destruct (mesh_cell 2 4 square_X cells c (square_ok _) Hc) as [Hn Hv].
    pose proof (gather_moves 2 4 3 square_X _ _ _ c ltac:(lia) Hn HM) as Hu.
    rewrite (tm_work 2 (fun _ => 1)) by lia.
    assert (HM1 : cell_measure 2 (gather_coords square_X c) = 1 / 2).
    { unfold cell_measure, cell_volume. destruct Hc as [E2|[E2|[]]]; subst c; cbn [cell_det]; unfold det2; cbv zeta; unfold gather_coords; cbn;
      match goal with |- Rabs ?q * _ = _ => replace q with 1 by ring end; rewrite Rabs_R1; lra. }
    rewrite HM1.
    rewrite (rsum_0 2). 2: { intros k Hk. unfold tm_flux. rewrite rsum_0; [req; ring|]. intros j Hj.
       rewrite (scalar_gradient_affine 2 3 2 (gather_coords square_X c) 1 (fun _ => 0) _ ltac:(lia) Hv); [req; ring| |exact Hj].
       intros a Ha. rewrite gather_at by lia. rewrite affine_const. pose proof (Hn a Ha) as Hna. destruct (c_node c a) as [|[|[|[|n]]]]; try lia; reflexivity. }
    assert (ES : forall v, (v < 3)%nat -> strain 2 3 (fun _ => 0) (gather 3 shear_state c) (cell_gradient 2 (gather_coords square_X c)) v = if Nat.eqb v 2 then 2 else 0).
    { intros v Hv'. rewrite (proj1 (C32_strain 2 3 _ _ _ _ ltac:(lia) ltac:(lia) Hv Hu) v Hv'). destruct v as [|[|[|v]]]; try lia; cbn; ring. }
    rewrite (rsum_ext _ _ (fun v => if Nat.eqb v 2 then 4 else 0)).
    2: { intros v Hv'. cbn [num_voigt] in Hv'. rewrite (ES v Hv'). unfold tm_stress.
         assert (M1 : c_mat c = shear_material) by (destruct Hc as [E2|[E2|[]]]; subst c; reflexivity). rewrite M1.
         rewrite (rsum_ext _ _ (fun j => (if Nat.eqb j 2 then 2 else 0) * (if Nat.eqb v j then 1 else 0))).
         2: { intros j Hj. cbn [num_voigt] in Hj. rewrite (ES j Hj). unfold thermal_strain_value, m_stiff. cbn [m_nonlinear shear_material m_stiff_const].
              destruct j as [|[|[|j]]]; try lia; cbn; req; ring. }
         cbn [num_voigt]. rsums. destruct v as [|[|[|v]]]; try lia; cbn; ring. }
    cbn [num_voigt]. rsums. cbn. field. }
  lra.
Qed.
Print Assumptions C95_refuted.
(** In one dimension the expansivity is read outside its array: any cell at all. *)
Theorem C95_bar : forall pen X U Z cells, cells <> [] -> thermoelastostatic 1 pen X U Z cells = UB.
Proof.
  intros pen X U Z [|c cells] H; [contradiction|]. unfold thermoelastostatic. apply (assembleR_ub _ _ _ c).
  - reflexivity.
  - intros c' _. exists (fun _ => 0). right. reflexivity.
  - left; reflexivity.
Qed.
Print Assumptions C95_bar.
(** The hypotheses of the first theorem: the square 20 degrees above its reference temperature, rotated and heated. *)
Definition heated : thermoelastic :=
  mkTM false (fun i j => if Nat.eqb i j then 7 else 2) (fun _ _ _ => 0) (fun i j => if Nat.eqb i j then 1 / 10 else 0) (fun _ _ _ => 0)
    (fun i j => if Nat.eqb i j then 3 else 0) (fun _ _ _ => 0) 23 1.
Example C95_reachable : exists U, free_expansion 2 4 square_X U (square heated) (fun i j => if Nat.eqb i j then 2 else 0) /\
  U 4%nat <> 0.
Proof.
  exists (fun k => if Nat.eqb (k mod 3) 2 then 43 else affine 2 0 ((fun i j => (if Nat.eqb i j then 0 else if Nat.ltb i j then -1 else 1) + (if Nat.eqb i j then 2 else 0)) (k mod 3)) square_X (k / 3)).
  split.
  - exists (fun _ => 0), (fun i j => if Nat.eqb i j then 0 else if Nat.ltb i j then -1 else 1), 43. split; [|split; [|split]].
    + intros i j Hi Hj. destruct i as [|[|i]]; try lia; destruct j as [|[|j]]; try lia; cbn; ring.
    + intros n i Hn Hi. destruct n as [|[|[|[|n]]]]; try lia; destruct i as [|[|i]]; try lia; reflexivity.
    + intros n Hn. rewrite affine_const. destruct n as [|[|[|[|n]]]]; try lia; reflexivity.
    + intros c i j [<-|[<-|[]]] Hi Hj; cbn; destruct i as [|[|i]]; try lia; destruct j as [|[|j]]; try lia; cbn; field.
  - unfold affine, rs. rsums. cbn. lra.
Qed.
