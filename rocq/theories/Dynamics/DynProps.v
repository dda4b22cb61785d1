(** C120: the equation of motion of structural dynamics on any mesh.  C122: its material entries and plots. *)
From Coq Require Import Reals List Arith Bool Lia Lra String.
From Verif Require Import Base.Field Base.Sums Base.Res Element.ElementModel Element.ElementSpec Element.ElementProof Element.ElementProps
  Penalty.PenaltyModel Residual.ResidualModel Residual.ResidualSpec Residual.ResidualProof Residual.ResidualProps Residual.ResidualEnergyProps
  Dynamics.DynModel Dynamics.DynSpec Dynamics.DynProof.
Import ListNotations.
Local Open Scope R_scope.

(** ** C120 *)
(** The strain used below is that of the interpolated displacement, and there is one on every cell of a mesh. *)
Lemma gradient_dual d x a b : (1 <= d <= 3)%nat -> simplex_measure d x <> 0 -> (a <= d)%nat -> (b <= d)%nat ->
  rsum d (fun l => cell_gradient d x b l * (x a l - x 0%nat l)) = (if Nat.eqb b a then 1 else 0) - (if Nat.eqb b 0 then 1 else 0).
Proof.
  intros Hd Hm Ha Hb.
  assert (D : cell_det d x <> 0).
  { intros E. apply Hm. rewrite <- (proj1 (proj2 (proj2 (C31_gradients d x Hd Hm)))). unfold cell_volume. rewrite E, Rabs_R0. ring. }
  clear Hm. unfold cell_gradient. unfold cell_det in D.
  dims d; rsums; destruct a as [|[|[|[|a]]]]; try lia; destruct b as [|[|[|[|b]]]]; try lia;
    unfold gradient1, gradient2, gradient3, det1, det2, det3 in *; cbv zeta in *; cbn [Nat.eqb]; req; try (field; exact D).
Qed.
Theorem C120_strain : forall d X U (c : cell dynamic), (1 <= d <= 3)%nat -> simplex_measure d (fun a i => X (c_node c a) i) <> 0 ->
  is_strain d X U (c_node c) (strain_of d X U c) /\
  forall E, is_strain d X U (c_node c) E -> forall v, (v < num_voigt d)%nat -> strain_of d X U c v = E v.
Proof.
  intros d X U c Hd Hm.
  assert (Uniq : forall E, is_strain d X U (c_node c) E -> forall v, (v < num_voigt d)%nat -> strain_of d X U c v = E v).
  { intros E (t & A & HU & HE) v Hv. rewrite HE by exact Hv. unfold strain_of.
    apply (proj1 (C32_strain d d (gather_coords X c) t A (gather d U c) Hd (le_n d) Hm ltac:(intros a i Ha Hi; rewrite gather_at by exact Hi; apply HU; assumption)) v Hv). }
  split; [|exact Uniq].
  set (x := gather_coords X c). change (simplex_measure d x <> 0) in Hm. set (g := cell_gradient d x).
  set (A := fun i k => rs (S d) (fun a => U (c_node c a * d + i)%nat * g a k)).
  assert (G : exists t A', (forall a i, (a <= d)%nat -> (i < d)%nat -> U (c_node c a * d + i)%nat = affine d (t i) (A' i) x a)).
  { exists (fun i => U (c_node c 0 * d + i)%nat - rs d (fun l => A i l * x 0%nat l)), A. intros a i Ha Hi. unfold affine, A, rs.
    set (w := fun a => U (c_node c a * d + i)%nat).
    assert (E : rsum d (fun l => rsum (S d) (fun b => w b * g b l) * x a l) - rsum d (fun l => rsum (S d) (fun b => w b * g b l) * x 0%nat l) = w a - w 0%nat).
    { rewrite <- rsum_sub.
      rewrite (rsum_ext d _ (fun l => rsum (S d) (fun b => w b * (g b l * (x a l - x 0%nat l))))).
      2: { intros l _. replace (rsum (S d) (fun b => w b * g b l) * x a l - rsum (S d) (fun b => w b * g b l) * x 0%nat l)
             with (rsum (S d) (fun b => w b * g b l) * (x a l - x 0%nat l)) by ring.
           rewrite rsum_scal_r. apply rsum_ext. intros. req. ring. }
      rewrite rsum_swap. rewrite (rsum_ext (S d) _ (fun b => w b * (if Nat.eqb b a then 1 else 0) - w b * (if Nat.eqb b 0 then 1 else 0))).
      2: { intros b Hb. rewrite rsum_scal_l. unfold g. rewrite gradient_dual by (assumption || lia). req. ring. }
      rewrite rsum_sub. rewrite (rsum_single (S d) a); [|lia|].
      - rewrite (rsum_single (S d) 0); [|lia|].
        + rewrite !Nat.eqb_refl. req. ring.
        + intros j _ Hj. destruct (Nat.eqb_spec j 0); [contradiction|req; ring].
      - intros j _ Hj. destruct (Nat.eqb_spec j a); [contradiction|req; ring]. }
    unfold w in E. lra. }
  destruct G as (t & A' & HU). exists t, A'. split; [exact HU|]. intros v Hv.
  unfold strain_of. apply (proj1 (C32_strain d d x t A' (gather d U c) Hd (le_n d) Hm ltac:(intros a i Ha Hi; rewrite gather_at by exact Hi; apply HU; assumption)) v Hv).
Qed.
Print Assumptions C120_strain.

(** Virtual work: the nodal forces of the residual do on any displacement W the work of inertia, mass damping, stress and stiffness damping, cell by cell,
    whichever branch the damping switch takes. *)
Theorem C120_virtual_work : forall d nn pen X U V A Z cells W, (1 <= d <= 3)%nat -> mesh_ok d nn X cells ->
  work (nn * d) (elastodynamic d pen X U V A Z cells) W =
  sum_over cells (fun c =>
    let m := c_mat c in let e := strain_of d X in
    mass_of d pen y_rho X Z c * rs d (fun i => (mean_of d A c i + y_ra m * mean_of d V c i) * mean_of d W c i)
    + weight_of d pen X Z c * rs (num_voigt d) (fun i => rs (num_voigt d) (fun j => e_stiff (y_law m) i j * (e U c j - e_ref (y_law m) j + y_rb m * e V c j)) * e W c i)).
Proof.
  intros d nn pen X U V A Z cells W Hd Hm. rewrite (dyn_work d nn) by assumption. apply sum_over_ext. intros c _. cbv zeta. unfold inertia_work, stress_power, rs.
  rewrite (rsum_ext d (fun i => (mean_of d A c i + y_ra (c_mat c) * mean_of d V c i) * mean_of d W c i)
            (fun i => mean_of d A c i * mean_of d W c i + y_ra (c_mat c) * (mean_of d V c i * mean_of d W c i))) by (intros; req; ring).
  rewrite rsum_add, rsum_scal_l.
  replace (rsum (num_voigt d) (fun i => rsum (num_voigt d) (fun j => e_stiff (y_law (c_mat c)) i j * (strain_of d X U c j - e_ref (y_law (c_mat c)) j + y_rb (c_mat c) * strain_of d X V c j)) * strain_of d X W c i))
    with (stiff d (e_stiff (y_law (c_mat c))) (fun j => (strain_of d X U c j - e_ref (y_law (c_mat c)) j) + y_rb (c_mat c) * strain_of d X V c j) (strain_of d X W c)).
  - rewrite stiff_lin_l. ring.
  - unfold stiff, rs. apply rsum_ext. intros i _. f_equal. apply rsum_ext. intros. req. ring.
Qed.
Print Assumptions C120_virtual_work.

Lemma rsum_const n c : rsum n (fun _ => c) = INR n * c.
Proof. induction n as [|n IH]; [symmetry; apply Rmult_0_l|]. rewrite S_INR. change (rsum n (fun _ => c) + c = (INR n + 1) * c). rewrite IH. ring. Qed.
Lemma mean_moves {M} d nn X t A W (c : cell M) i : (1 <= d <= 3)%nat -> (forall a, (a <= d)%nat -> (c_node c a < nn)%nat) -> moves d nn d X t A W -> (i < d)%nat ->
  mean_of d W c i = t i + rs d (fun l => A i l * (rs (S d) (fun a => X (c_node c a) l) / INR (S d))).
Proof.
  intros Hd Hc HW Hi. unfold mean_of, rs.
  rewrite (rsum_ext (S d) (fun a => W (c_node c a * d + i)%nat) (fun a => t i + rsum d (fun l => A i l * X (c_node c a) l))).
  2: { intros a Ha. rewrite (HW (c_node c a) i) by (try apply Hc; lia). reflexivity. }
  rewrite rsum_add.
  pose proof (rsum_const (S d) (t i)) as C1.
  rewrite C1, rsum_swap. unfold Rdiv. rewrite Rmult_plus_distr_r. f_equal.
  - field. apply not_0_INR. lia.
  - rewrite rsum_scal_r. apply rsum_ext. intros l _. rewrite rsum_scal_l. req. ring.
Qed.
(** Balance of momentum and of angular momentum: in any rigid motion t + A x the forces of the residual do the work of the inertia and of the mass damping of
    each cell, as if its mass were at its centre; stress does none. *)
Theorem C120_momentum : forall d nn pen X U V A Z cells t Rot W, (1 <= d <= 3)%nat -> mesh_ok d nn X cells ->
  moves d nn d X t Rot W -> antisymmetric d Rot ->
  work (nn * d) (elastodynamic d pen X U V A Z cells) W =
  sum_over cells (fun c => mass_of d pen y_rho X Z c *
    rs d (fun i => (mean_of d A c i + y_ra (c_mat c) * mean_of d V c i) * (t i + rs d (fun l => Rot i l * (rs (S d) (fun a => X (c_node c a) l) / INR (S d)))))).
Proof.
  intros d nn pen X U V A Z cells t Rot W Hd Hm HW HR. rewrite (C120_virtual_work d nn) by assumption. apply sum_over_ext. intros c Hc. cbv zeta.
  destruct (mesh_cell _ _ _ _ _ Hm Hc) as [Hn Hv]. unfold rs.
  rewrite (rsum_0 (num_voigt d)). 2: { intros v Hv'. unfold strain_of at 3. rewrite (rigid_strain d nn d X t Rot W c v Hd (le_n d) Hn Hv HW HR Hv'). req. ring. }
  rewrite Rmult_0_r, Rplus_0_r. f_equal. apply rsum_ext. intros i Hi. f_equal. apply (mean_moves d nn X t Rot W c i); assumption.
Qed.
Print Assumptions C120_momentum.
(** Without damping coefficients the velocity has no effect. *)
Theorem C120_undamped : forall d nn pen X U V V' A Z cells, (1 <= d <= 3)%nat -> mesh_ok d nn X cells ->
  (forall c, In c cells -> y_ra (c_mat c) = 0 /\ y_rb (c_mat c) = 0) ->
  forall k, (k < nn * d)%nat -> elastodynamic d pen X U V A Z cells k = elastodynamic d pen X U V' A Z cells k.
Proof.
  intros d nn pen X U V V' A Z cells Hd Hm H0 k Hk. rewrite <- !(work_unit (nn * d) _ k Hk), !(dyn_work d nn) by assumption.
  apply sum_over_ext. intros c Hc. destruct (H0 c Hc) as [-> ->]. ring.
Qed.
Print Assumptions C120_undamped.
(** A body without mass damping and without reference strain that moves rigidly with a constant rigid velocity needs no force. *)
Theorem C120_coasting : forall d nn pen X U V A Z cells t Rot t' Rot', (1 <= d <= 3)%nat -> mesh_ok d nn X cells ->
  moves d nn d X t Rot U -> antisymmetric d Rot -> moves d nn d X t' Rot' V -> antisymmetric d Rot' -> (forall k, (k < nn * d)%nat -> A k = 0) ->
  (forall c, In c cells -> y_ra (c_mat c) = 0 /\ forall v, (v < num_voigt d)%nat -> e_ref (y_law (c_mat c)) v = 0) ->
  forall k, (k < nn * d)%nat -> elastodynamic d pen X U V A Z cells k = 0.
Proof.
  intros d nn pen X U V A Z cells t Rot t' Rot' Hd Hm HU HR HV HR' HA H0 k Hk. rewrite <- (work_unit (nn * d) _ k Hk), (C120_virtual_work d nn) by assumption.
  apply sum_over_0. intros c Hc. cbv zeta. destruct (mesh_cell _ _ _ _ _ Hm Hc) as [Hn Hv]. destruct (H0 c Hc) as [-> Href]. unfold rs.
  rewrite !rsum_0; [ring| |].
  - intros v Hv'. rewrite rsum_0; [req; ring|]. intros j Hj. unfold strain_of.
    rewrite (rigid_strain d nn d X t Rot U c j Hd (le_n d) Hn Hv HU HR Hj), (rigid_strain d nn d X t' Rot' V c j Hd (le_n d) Hn Hv HV HR' Hj), Href by exact Hj. req. ring.
  - intros i Hi. rewrite (mean_ext d nn A (fun _ => 0) c i Hn Hi HA). unfold mean_of, rs. rewrite (rsum_0 (S d) (fun _ => 0)) by reflexivity. req. unfold Rdiv. ring.
Qed.
Print Assumptions C120_coasting.
(** The square, free fall with unit acceleration downwards: the vertical forces add up to minus the mass; half the design weight. *)
Definition steel : dynamic := mkDyn (mkElastic (fun i j => if Nat.eqb i j then 3 else 1) (fun _ => 0)) 8 (1 / 10) (1 / 5).
Example C120_instance : moves 2 4 2 square_X (fun i => if Nat.eqb i 1 then 1 else 0) (fun _ _ => 0) (fun k => if Nat.eqb (k mod 2) 1 then 1 else 0) /\
  antisymmetric 2 (fun _ _ => 0) /\
  work (4 * 2) (elastodynamic 2 (fun z => z) square_X (fun _ => 0) (fun _ => 0) (fun k => if Nat.eqb (k mod 2) 1 then -1 else 0) (fun _ => 1 / 2) (square steel))
    (fun k => if Nat.eqb (k mod 2) 1 then 1 else 0) = -4.
Proof.
  assert (HW : moves 2 4 2 square_X (fun i => if Nat.eqb i 1 then 1 else 0) (fun _ _ => 0) (fun k => if Nat.eqb (k mod 2) 1 then 1 else 0)).
  { intros n i Hn Hi. rewrite affine_const. replace ((n * 2 + i) mod 2)%nat with i; [reflexivity|].
    rewrite Nat.add_comm, Nat.mod_add by lia. symmetry. apply Nat.mod_small. exact Hi. }
  split; [exact HW|]. split; [intros i j _ _; lra|].
  rewrite (C120_momentum 2 4 _ _ _ _ _ _ _ _ _ _ ltac:(lia) (square_ok steel) HW) by (intros i j _ _; lra).
  unfold square. cbn [sum_over c_mat]. unfold mass_of, weight_of, mean_of, rs. rsums. cbn -[simplex_measure INR].
  assert (S1 : forall q r : nat, q = 1%nat -> r = 2%nat -> True) by auto. clear S1.
  unfold simplex_measure. cbn. rewrite !Rabs_right by lra. lra.
Qed.

(** ** C122 *)
(** The mass density and the damping coefficients of the input file are those of the material. *)
Definition entries_used (k : law_kind) : Prop := forall law rho a b, dynamic_material k law (Number rho) (Number a) (Number b) = Ok (mkDyn law rho a b).
Theorem C122_entries_partial : entries_used Isotropic /\ entries_used Orthotropic /\ entries_used Custom /\
  (forall k law, dynamic_material k law Absent Absent Absent = Ok (mkDyn law 1 0 0)) /\
  (forall k law rho a b m, dynamic_material k law rho a b = Ok m -> y_law m = law).
Proof.
  repeat split; intros; try reflexivity; destruct k; try reflexivity;
  destruct rho, a, b; cbn in H; try discriminate H; injection H as <-; reflexivity.
Qed.
Print Assumptions C122_entries_partial.
(** A cubic material ignores its mass density: any body of it has density one. *)
Theorem C122_entries_refuted : ~ entries_used Cubic /\ (forall law rho rho' a b, dynamic_material Cubic law rho a b = dynamic_material Cubic law rho' a b).
Proof.
  split; [|intros; destruct a, b; reflexivity]. intros H. specialize (H (mkElastic (fun _ _ => 0) (fun _ => 0)) 2 0 0). cbn in H. injection H as H. lra.
Qed.
Print Assumptions C122_entries_refuted.
(** An entry that is not a floating point number is refused. *)
Definition wrong_type_refused (k : law_kind) : Prop := forall law a b, dynamic_material k law NotNumber a b = Throw.
Theorem C122_wrong_type_partial : wrong_type_refused Orthotropic.
Proof. intros law a b. destruct a, b; reflexivity. Qed.
Theorem C122_wrong_type_refuted : ~ wrong_type_refused Isotropic /\ ~ wrong_type_refused Custom /\ ~ wrong_type_refused Cubic /\
  (forall k law rho b, dynamic_material k law rho NotNumber b = dynamic_material k law rho Absent b).
Proof.
  repeat split; try (intros H; specialize (H (mkElastic (fun _ _ => 0) (fun _ => 0)) Absent Absent); discriminate H).
Qed.
Print Assumptions C122_wrong_type_refuted.
(** A quantity plotted under a name is that quantity: "stress" the stress of the residual, "strain" the strain, "velgrad" the strain rate. *)
Definition plotted (d : nat) (X : nat -> nat -> R) (U V : nat -> R) (stress : nat -> R) (c : cell dynamic) (name : string) : option (nat -> R) :=
  if String.eqb name "stress" then Some stress else if String.eqb name "strain" then Some (strain_of d X U c) else if String.eqb name "velgrad" then Some (strain_of d X V c) else None.
Definition plot_ok (d : nat) (pen : R -> R) (X : nat -> nat -> R) (U V Z : nat -> R) (c : cell dynamic) (wanted : list string) (names : list string) : Prop :=
  let s := fun i => pen (rs (S d) (fun a => Z (c_node c a)) / INR (S d)) *
    rs (num_voigt d) (fun j => e_stiff (y_law (c_mat c)) i j * (strain_of d X U c j - e_ref (y_law (c_mat c)) j + y_rb (c_mat c) * strain_of d X V c j)) in
  forall name f, In name names -> In (name, f) (dyn_plot d pen (c_mat c) (gather_coords X c) (gather d U c) (gather d V c) (gather_control Z c) wanted) ->
    exists g, plotted d X U V s c name = Some g /\ forall v, (v < num_voigt d)%nat -> f v = g v.
Theorem C122_plot_partial : forall d pen X U V Z c wanted, plot_ok d pen X U V Z c wanted ["stress"%string] /\
  (In "stress"%string wanted -> exists f, In ("stress"%string, f) (dyn_plot d pen (c_mat c) (gather_coords X c) (gather d U c) (gather d V c) (gather_control Z c) wanted)).
Proof.
  intros d pen X U V Z c wanted. split.
  - intros name f [<-|[]] Hf. eexists. split; [reflexivity|]. intros v Hv. unfold dyn_plot in Hf.
    assert (E : f = dyn_stress d pen (c_mat c) (gather_coords X c) (gather d U c) (gather d V c) (gather_control Z c)).
    { rewrite !in_app_iff in Hf. destruct Hf as [Hf|[Hf|Hf]].
      - destruct (wants wanted "stress"); [|contradiction]. destruct Hf as [Hf|[]]. congruence.
      - destruct (wants wanted "strain"); [|contradiction]. destruct Hf as [Hf|[]]. congruence.
      - destruct (damped (c_mat c)); [|contradiction]. destruct (wants wanted "velgrad"); [|contradiction]. destruct Hf as [Hf|[]]. congruence. }
    rewrite E, dyn_stress_eq. unfold cell_density, gather_control. change (rs (S d) (fun a => Z (c_node c a))) with (rsum (S d) (fun a => Z (c_node c a))). f_equal.
    unfold rs, strain_of. rewrite <- rsum_scal_l, <- rsum_add. apply rsum_ext. intros. req. ring.
  - intros H. eexists. unfold dyn_plot. apply in_or_app. left.
    replace (wants wanted "stress") with true; [left; reflexivity|]. symmetry. apply existsb_exists. exists "stress"%string. split; [exact H|reflexivity].
Qed.
Print Assumptions C122_plot_partial.
(** "strain" and "velgrad" show the stress: a stretched bar of modulus 3. *)
Theorem C122_plot_refuted : exists U V, ~ plot_ok 1 (fun z => z) bar_X U V (fun _ => 1) (mkCell (fun a => a) steel) ["strain"%string] ["strain"%string] /\
  ~ plot_ok 1 (fun z => z) bar_X U V (fun _ => 1) (mkCell (fun a => a) steel) ["velgrad"%string] ["velgrad"%string].
Proof.
  exists (fun k => match k with 1%nat => 1 | _ => 0 end), (fun _ => 0).
  assert (Dm : damped steel = true). { unfold damped, steel. cbn. destruct (Req_EM_T (1 / 10) 0); [lra|reflexivity]. }
  assert (S3 : dyn_stress 1 (fun z => z) steel (gather_coords bar_X (mkCell (fun a => a) steel)) (gather 1 (fun k => match k with 1%nat => 1 | _ => 0 end) (mkCell (fun a => a) steel))
            (gather 1 (fun _ => 0) (mkCell (fun a => a) steel)) (gather_control (fun _ => 1) (mkCell (fun a => a) steel)) 0%nat = 3).
  { rewrite dyn_stress_eq. unfold cell_density, gather_control, strain, cell_gradient, gradient1, det1, gather_coords, gather, bar_X. cbn [num_voigt]. rsums. cbn. rsums. cbn. field. }
  split; intros H; unfold plot_ok in H; cbv zeta in H; cbn [c_mat] in H; unfold dyn_plot in H; rewrite Dm in H; cbn [wants existsb] in H.
  - specialize (H "strain"%string _ (or_introl eq_refl) (or_introl eq_refl)). destruct H as (g & Hg & H). injection Hg as <-. specialize (H 0%nat ltac:(cbn; lia)).
    rewrite S3 in H. revert H. unfold strain_of, strain, cell_gradient, gradient1, det1, gather_coords, gather, bar_X. cbn. rsums. cbn. intros H.
    assert (3 = 1) by (etransitivity; [exact H|field]). lra.
  - specialize (H "velgrad"%string _ (or_introl eq_refl) (or_introl eq_refl)). destruct H as (g & Hg & H). injection Hg as <-. specialize (H 0%nat ltac:(cbn; lia)).
    rewrite S3 in H. revert H. unfold strain_of, strain, cell_gradient, gradient1, det1, gather_coords, gather, bar_X. cbn. rsums. cbn. intros H.
    assert (3 = 0) by (etransitivity; [exact H|field]). lra.
Qed.
Print Assumptions C122_plot_refuted.
