(** C132-C134: stabilised thermoelastostatics and its material input. *)
From Coq Require Import String Reals List Arith Bool Lia Lra.
From Verif Require Import Base.Field Base.Sums Base.Res Element.ElementModel Element.ElementSpec Element.ElementProof Element.ElementProps Element.MaterialModel Element.MaterialSpec Element.MaterialProps
  Penalty.PenaltyModel Ortho.OrthoModel Residual.ResidualModel Residual.ResidualSpec Residual.ResidualProof Residual.ResidualProps
  Residual.CouplingProof Residual.CouplingProps Stab.StabModel Stab.StabSpec Stab.StabProof Stab.StabProps Stab.HeatModel Stab.HeatSpec Stab.HeatProof.
Import ListNotations.
Local Open Scope R_scope.

(** Isotropic stiffness with usable moduli in every cell. *)
Definition isotropic_solids (d : nat) (lam mu : cell heated -> R) (cells : list (cell heated)) : Prop :=
  forall c, In c cells -> isotropic d (num_voigt d) (lam c) (mu c) (h_stiff (c_mat c)) /\ mu c <> 0 /\ lam c + 2 * mu c / INR d <> 0.
(** The strain, temperature and pressure of a cell, and its stress-free strain at temperature T. *)
Definition strain_in {M} (d : nat) (X : nat -> nat -> R) (U : nat -> R) (c : cell M) : nat -> R :=
  strain d (S (S d)) (fun _ => 0) (gather (S (S d)) U c) (cell_gradient d (gather_coords X c)).
Definition temperature_of (d : nat) (U : nat -> R) (c : cell heated) : R := mean_at d (S (S d)) (S d) (c_node c) U.
Definition pressure_of (d : nat) (U : nat -> R) (c : cell heated) : R := h_ps (c_mat c) * mean_at d (S (S d)) d (c_node c) U.
Definition thermal (m : heated) (T : R) (i : nat) : R := h_ts m * h_alpha m i * (T - h_tref m).
(** The same material for the formulation without pressure. *)
Definition as_thermoelastic (c : cell heated) : cell thermoelastic :=
  let m := c_mat c in
  mkCell (c_node c) (mkTM false (h_stiff m) (fun _ _ _ => 0) (diagonal (h_alpha m)) (fun _ _ _ => 0) (h_cond m) (fun _ _ _ => 0) (h_tref m) (h_ts m)).

Lemma heated_ok d pen X U Q Z cells lam mu : (2 <= d <= 3)%nat -> isotropic_solids d lam mu cells ->
  heated_residual d pen X U Q Z cells = Ok (assemble (S d) (S (S d))
    (fun c => heated_value d pen (c_mat c) (lam c + 2 * mu c / INR d) (mu c) (gather_coords X c) (gather (S (S d)) U c) (gather d Q c) (gather_control Z c)) cells).
Proof.
  intros Hd Hi. unfold heated_residual. apply assembleR_ok. intros c Hc. apply heated_cell_ok. destruct (Hi c Hc) as (H1 & H2 & H3). apply moduli_hooke; assumption.
Qed.
Lemma interpolate_at {M} d ndof off U (c : cell M) : (1 <= d <= 3)%nat -> (off < ndof)%nat -> interpolate d ndof off (gather ndof U c) = mean_at d ndof off (c_node c) U.
Proof.
  intros Hd Ho. rewrite interpolate_mean by exact Hd. unfold mean_at. f_equal. unfold rs. apply rsum_ext. intros a Ha. rewrite gather_at by exact Ho. reflexivity.
Qed.
Lemma without_at d U n i : (i < S d)%nat -> without_pressure d U (n * S d + i)%nat = U (n * S (S d) + (if Nat.ltb i d then i else S d))%nat.
Proof.
  intros Hi. unfold without_pressure. cbv zeta. rewrite Nat.div_add_l, Nat.div_small, Nat.add_0_r by lia.
  rewrite (Nat.add_comm (n * S d)), Nat.mod_add, Nat.mod_small by lia. reflexivity.
Qed.
Lemma strain_without {M N} d X U (c : cell M) (c' : cell N) v : (1 <= d <= 3)%nat -> (forall a, c_node c' a = c_node c a) ->
  strain d (S d) (fun _ => 0) (gather (S d) (without_pressure d U) c') (cell_gradient d (gather_coords X c)) v = strain_in d X U c v.
Proof.
  intros Hd En. unfold strain_in, strain. destruct (nth_error (voigt_pairs d) v) as [[i j]|] eqn:E; [|reflexivity]. destruct (pairs_lt d v i j Hd E) as [Hi Hj].
  assert (G : forall a k, (k < d)%nat -> gather (S d) (without_pressure d U) c' (a * S d + k)%nat = gather (S (S d)) U c (a * S (S d) + k)%nat).
  { intros a k Hk. rewrite !gather_at by lia. rewrite En. rewrite without_at by lia. destruct (Nat.ltb_spec k d); [reflexivity|lia]. }
  destruct (Nat.eqb i j).
  - apply rsum_ext. intros a Ha. rewrite G by exact Hi. reflexivity.
  - f_equal. apply rsum_ext. intros a Ha. rewrite !G by assumption. reflexivity.
Qed.
Lemma temperature_without {M N} d U (c : cell M) (c' : cell N) a : (forall a, c_node c' a = c_node c a) ->
  gather (S d) (without_pressure d U) c' (a * S d + d)%nat = gather (S (S d)) U c (a * S (S d) + S d)%nat.
Proof. intros En. rewrite !gather_at by lia. rewrite En, without_at by lia. rewrite Nat.ltb_irrefl. reflexivity. Qed.
Lemma gradient_without {M N} d g U (c : cell M) (c' : cell N) k : (forall a, c_node c' a = c_node c a) ->
  scalar_gradient d (S d) d (gather (S d) (without_pressure d U) c') g k = scalar_gradient d (S (S d)) (S d) (gather (S (S d)) U c) g k.
Proof. intros En. unfold scalar_gradient. apply rsum_ext. intros a Ha. rewrite (temperature_without d U c c') by exact En. reflexivity. Qed.
Lemma interpolate_without {M N} d U (c : cell M) (c' : cell N) : (forall a, c_node c' a = c_node c a) ->
  interpolate d (S d) d (gather (S d) (without_pressure d U) c') = interpolate d (S (S d)) (S d) (gather (S (S d)) U c).
Proof. intros En. unfold interpolate. apply rsum_ext. intros a Ha. rewrite (temperature_without d U c c') by exact En. reflexivity. Qed.
(** The thermal strain of the formulation without pressure. *)
Lemma thermal_strain_const d (c : cell heated) T : (2 <= d <= 3)%nat -> exists ts, ResidualModel.thermal_strain d (c_mat (as_thermoelastic c)) T = Ok ts /\ forall v, (v < num_voigt d)%nat -> ts v = expansion d (c_mat c) T v.
Proof.
  intros Hd. assert (H : d = 2%nat \/ d = 3%nat) by lia. destruct H as [-> | -> ]; eexists; (split; [reflexivity|]); intros v Hv; cbn in Hv; unfold expansion;
    destruct v as [|[|[|[|[|[|v]]]]]]; try lia; cbn; unfold diagonal; cbn; try ring; try reflexivity.
Qed.
Definition tm_value (d : nat) (pen : R -> R) (m : heated) (x : coords) (g : coords) (e tg : nat -> R) (T : R) (z : nat -> R) : nat -> R :=
  flux_divergence d (S d) d 1 (cell_measure d x) (weigh d pen z (heat_flow d m tg)) g
    (stress_divergence d (S d) 0 1 (cell_measure d x) (weigh d pen z (full_stress d (h_stiff m) (fun v => e v - expansion d m T v))) g (fun _ => 0)).
Lemma flux_entries d ndof off scale vol q q' g o o' k : (forall i, (i < d)%nat -> q i = q' i) -> (forall k, o k = o' k) ->
  flux_divergence d ndof off scale vol q g o k = flux_divergence d ndof off scale vol q' g o' k.
Proof. intros Hq Ho. rewrite !flux_entry, Ho. f_equal. apply rsum_ext. intros a Ha. destruct (Nat.eqb k _); [|reflexivity]. f_equal. apply rsum_ext. intros j Hj. rewrite Hq by exact Hj. reflexivity. Qed.
Lemma voigt_lt d i j : (1 <= d <= 3)%nat -> (i < d)%nat -> (j < d)%nat -> (voigt d i j < num_voigt d)%nat.
Proof. intros Hd Hi Hj. dims d; destruct i as [|[|[|i]]]; try lia; destruct j as [|[|[|j]]]; try lia; cbn; lia. Qed.
Lemma stress_entries d ndof scale vol s s' g o k : (1 <= d <= 3)%nat -> (forall v, (v < num_voigt d)%nat -> s v = s' v) ->
  stress_divergence d ndof 0 scale vol s g o k = stress_divergence d ndof 0 scale vol s' g o k.
Proof.
  intros Hd Hs. rewrite !divergence_entry. f_equal. apply rsum_ext. intros i Hi. apply rsum_ext. intros a Ha. destruct (Nat.eqb k _); [|reflexivity].
  f_equal. apply rsum_ext. intros j Hj. rewrite Hs by (apply voigt_lt; assumption). reflexivity.
Qed.
Lemma tm_ok d pen X U Z cells : (2 <= d <= 3)%nat -> exists t, thermoelastostatic d pen X (without_pressure d U) Z (map as_thermoelastic cells) = Ok t /\
  forall k, t k = assemble (S d) (S d) (fun c => tm_value d pen (c_mat c) (gather_coords X c) (cell_gradient d (gather_coords X c)) (strain_in d X U c)
     (scalar_gradient d (S (S d)) (S d) (gather (S (S d)) U c) (cell_gradient d (gather_coords X c))) (interpolate d (S (S d)) (S d) (gather (S (S d)) U c)) (gather_control Z c)) cells k.
Proof.
  intros Hd. unfold thermoelastostatic, assembleR, assemble.
  set (F := fun (o : nat -> R) (c : cell heated) => scatter (S d) (S d) c (tm_value d pen (c_mat c) (gather_coords X c) (cell_gradient d (gather_coords X c)) (strain_in d X U c)
     (scalar_gradient d (S (S d)) (S d) (gather (S (S d)) U c) (cell_gradient d (gather_coords X c))) (interpolate d (S (S d)) (S d) (gather (S (S d)) U c)) (gather_control Z c)) o).
  enough (G : forall o o', (forall k, o k = o' k) -> exists t, foldR (fun (c : cell thermoelastic) (o : nat -> R) => let! r := tm_cell d pen (c_mat c) (gather_coords X c) (gather (S d) (without_pressure d U) c) (gather_control Z c) in Ok (scatter (S d) (S d) c r o))
     (map as_thermoelastic cells) o = Ok t /\ forall k, t k = fold_left F cells o' k) by (apply G; reflexivity).
  induction cells as [|c l IH]; intros o o' Ho; cbn [map foldR fold_left].
  - exists o. split; [reflexivity|exact Ho].
  - unfold tm_cell at 1. cbv zeta. unfold tm_kinetics.
    rewrite (interpolate_without d U c (as_thermoelastic c)) by reflexivity.
    destruct (thermal_strain_const d c (interpolate d (S (S d)) (S d) (gather (S (S d)) U c)) Hd) as (ts & Et & Hts). rewrite Et. cbn [rbind fst snd].
    apply IH. intros k. unfold F. rewrite !scatter_entry. rewrite Ho. f_equal. apply rsum_ext. intros a Ha. apply rsum_ext. intros i Hi. unfold pick.
    change (c_node (as_thermoelastic c) a) with (c_node c a). destruct (Nat.eqb k _); [|reflexivity]. unfold tm_value. apply flux_entries.
    + intros j Hj. unfold weigh. f_equal. unfold heat_flow. apply rsum_ext. intros j' Hj'. rewrite (gradient_without d _ U c (as_thermoelastic c)) by reflexivity. reflexivity.
    + intros k'. apply stress_entries; [lia|]. intros v Hv. unfold weigh. f_equal. unfold full_stress. apply rsum_ext. intros j Hj.
      rewrite (strain_without d X U c (as_thermoelastic c)) by (try lia; reflexivity). rewrite Hts by exact Hj. reflexivity.
Qed.
Lemma tm_value_mech d pen m x g e tg T z a i : (i < d)%nat -> (a < S d)%nat ->
  tm_value d pen m x g e tg T z (a * S d + i)%nat = cell_measure d x * pen (cell_density (S d) z) * rsum d (fun j => full_stress d (h_stiff m) (fun v => e v - expansion d m T v) (voigt d i j) * g a j).
Proof. intros Hi Ha. unfold tm_value. rewrite mech_row by assumption. rewrite (weigh_sum_at _ _ _ _ _ _ (fun j => voigt d i j)). ring. Qed.
Lemma tm_value_heat d pen m x g e tg T z a : (a < S d)%nat ->
  tm_value d pen m x g e tg T z (a * S d + d)%nat = cell_measure d x * pen (cell_density (S d) z) * rsum d (fun j => heat_flow d m tg j * g a j).
Proof. intros Ha. unfold tm_value. rewrite scalar_row by assumption. rewrite weigh_sum. ring. Qed.

(** ** C132: the same solution as without the pressure. *)
(** The pressure is the bulk modulus times the volume change less the thermal one. *)
Definition pressure_law (d : nat) (K : R) (X : nat -> nat -> R) (U : nat -> R) (c : cell heated) : Prop :=
  pressure_of d U c = K * (rs d (strain_in d X U c) - rs d (thermal (c_mat c) (temperature_of d U c))).
Definition smooth (d : nat) (X : nat -> nat -> R) (U Q : nat -> R) (c : cell heated) : Prop :=
  forall i, (i < d)%nat -> h_ps (c_mat c) * scalar_gradient d (S (S d)) d (gather (S (S d)) U c) (cell_gradient d (gather_coords X c)) i = mean_at d d i (c_node c) Q.
Lemma expansion_thermal d m T : rsum d (expansion d m T) = rs d (thermal m T).
Proof. unfold rs. apply rsum_ext. intros i Hi. unfold expansion, thermal. destruct (Nat.ltb_spec i d); [reflexivity|lia]. Qed.
Lemma cell_pressure_of d U c : (1 <= d <= 3)%nat -> interpolate d (S (S d)) d (gather (S (S d)) U c) * h_ps (c_mat c) = pressure_of d U c.
Proof. intros Hd. rewrite interpolate_at by lia. unfold pressure_of. ring. Qed.
Theorem C132_temperature : forall d pen X U Q Z cells lam mu, (2 <= d <= 3)%nat -> isotropic_solids d lam mu cells ->
  exists r t, heated_residual d pen X U Q Z cells = Ok r /\ thermoelastostatic d pen X (without_pressure d U) Z (map as_thermoelastic cells) = Ok t /\
    forall n, r (n * S (S d) + S d)%nat = t (n * S d + d)%nat.
Proof.
  intros d pen X U Q Z cells lam mu Hd HI. destruct (tm_ok d pen X U Z cells Hd) as (t & Et & Ht). eexists. exists t. split; [apply (heated_ok d pen X U Q Z cells lam mu Hd HI)|]. split; [exact Et|].
  intros n. rewrite Ht. rewrite !assemble_row by lia. apply sum_over_ext. intros c Hc. apply rsum_ext. intros a Ha. destruct (Nat.eqb n _); [|reflexivity].
  rewrite heated_temp, tm_value_heat by lia. reflexivity.
Qed.
Print Assumptions C132_temperature.
Theorem C132_solid_partial : forall pen X U Q Z cells lam mu, isotropic_solids 3 lam mu cells ->
  (forall c, In c cells -> pressure_law 3 (lam c + 2 / 3 * mu c) X U c) ->
  exists r t, heated_residual 3 pen X U Q Z cells = Ok r /\ thermoelastostatic 3 pen X (without_pressure 3 U) Z (map as_thermoelastic cells) = Ok t /\
    (forall n i, (i < 3)%nat -> r (n * 5 + i)%nat = t (n * 4 + i)%nat) /\
    ((forall c, In c cells -> smooth 3 X U Q c) -> forall n, r (n * 5 + 3)%nat = 0).
Proof.
  intros pen X U Q Z cells lam mu HI HP. destruct (tm_ok 3 pen X U Z cells ltac:(lia)) as (t & Et & Ht). eexists. exists t.
  split; [apply (heated_ok 3 pen X U Q Z cells lam mu); [lia|exact HI]|]. split; [exact Et|]. split.
  - intros n i Hi. rewrite Ht. rewrite (assemble_row 4 5), (assemble_row 4 4) by lia. apply sum_over_ext. intros c Hc. apply rsum_ext. intros a Ha. destruct (Nat.eqb n _); [|reflexivity].
    pose proof (heated_mech 3 pen (c_mat c) (lam c + 2 * mu c / INR 3) (mu c) (gather_coords X c) (gather 5 U c) (gather 3 Q c) (gather_control Z c) a i ltac:(lia) Hi Ha) as HM.
    change (S (S 3)) with 5%nat in HM. etransitivity; [exact HM|]. rewrite tm_value_mech by assumption. f_equal. apply rsum_ext. intros j Hj. f_equal.
    destruct (HI c Hc) as (HC & _ & _). unfold heated_stress. cbv zeta. change (S (S 3)) with 5%nat. rewrite cell_pressure_of by lia. rewrite (HP c Hc).
    fold (strain_in 3 X U c). rewrite interpolate_at by lia. fold (temperature_of 3 U c). set (e := fun v => _ - _). unfold dev_stress, hydrostatic.
    rewrite (trace_hooke 3 (lam c) (mu c)) by (try lia; exact HC). rewrite <- expansion_thermal. unfold rs. rewrite <- rsum_sub. fold e.
    destruct (Nat.ltb _ 3); req; cbn [INR]; field.
  - intros HS n. rewrite (assemble_row 4 5) by lia. apply sum_over_0. intros c Hc. apply rsum_0. intros a Ha. destruct (Nat.eqb n _); [|reflexivity].
    pose proof (heated_press 3 pen (c_mat c) (lam c + 2 * mu c / INR 3) (mu c) (gather_coords X c) (gather 5 U c) (gather 3 Q c) (gather_control Z c) a ltac:(lia) Ha) as HM.
    change (S (S 3)) with 5%nat in HM. etransitivity; [exact HM|]. rewrite (rsum_0 3).
    2: { intros j Hj. unfold heated_stab, stabilization. change (S (S 3)) with 5%nat. rewrite (HS c Hc j Hj : h_ps (c_mat c) * scalar_gradient 3 5 3 (gather 5 U c) (cell_gradient 3 (gather_coords X c)) j = _).
         rewrite interpolate_at by lia. req. ring. }
    unfold heated_flux, heated_volume. change (S (S 3)) with 5%nat. rewrite cell_pressure_of by lia. rewrite (HP c Hc). rewrite (interpolate_at 3 5 4) by lia. rewrite expansion_thermal.
    unfold strain_in, temperature_of, rs. change (S (S 3)) with 5%nat. destruct (HI c Hc) as (_ & _ & HK). cbn [INR] in *. req. field. intros E. apply HK. lra.
Qed.
Print Assumptions C132_solid_partial.
(** In two dimensions the trace is divided by three: a sheet held fixed and heated. *)
Definition hot_sheet : heated := mkHeated (b_stiff sheet) (fun _ => 1) (diagonal (fun _ => 1)) 0 1 1.
Lemma hot_sheet_isotropic : isotropic_solids 2 (fun _ => 1) (fun _ => 1) (one hot_sheet).
Proof. intros c [<-|[]]. exact (sheet_isotropic (mkCell (fun a => a) sheet) (or_introl eq_refl)). Qed.
Definition held_hot (k : nat) : R := match (k mod 4)%nat with 2%nat => -4 | 3%nat => 1 | _ => 0 end.
Lemma held_strain v : strain_in 2 square_X held_hot (mkCell (fun a => a) hot_sheet) v = 0.
Proof.
  unfold strain_in, strain. change (voigt_pairs 2) with [(0, 0); (1, 1); (0, 1)]%nat. destruct v as [|[|[|v]]]; cbn [nth_error Nat.eqb].
  4: { destruct v; reflexivity. }
  all: rsums; rewrite !gather_at by lia; cbn; ring.
Qed.
Theorem C132_refuted : exists r t, pressure_law 2 (1 + 1) square_X held_hot (mkCell (fun a => a) hot_sheet) /\
  heated_residual 2 (fun _ => 1) square_X held_hot (fun _ => 0) (fun _ => 1) (one hot_sheet) = Ok r /\
  thermoelastostatic 2 (fun _ => 1) square_X (without_pressure 2 held_hot) (fun _ => 1) (map as_thermoelastic (one hot_sheet)) = Ok t /\
  r 0%nat = 4 / 3 * t 0%nat /\ t 0%nat <> 0.
Proof.
  destruct (tm_ok 2 (fun _ => 1) square_X held_hot (fun _ => 1) (one hot_sheet) ltac:(lia)) as (t & Et & Ht). eexists. exists t.
  assert (EP : pressure_of 2 held_hot (mkCell (fun a => a) hot_sheet) = -4) by (unfold pressure_of, mean_at, rs; rsums; cbn; field).
  assert (ET : temperature_of 2 held_hot (mkCell (fun a => a) hot_sheet) = 1) by (unfold temperature_of, mean_at, rs; rsums; cbn; field).
  split; [|split; [apply (heated_ok 2 _ _ _ _ _ _ (fun _ => 1) (fun _ => 1)); [lia|exact hot_sheet_isotropic]|split; [exact Et|]]].
  - unfold pressure_law. rewrite EP, ET. unfold rs. rsums. rewrite !held_strain. unfold thermal. cbn. ring.
  - rewrite Ht.
    set (V := fun c : cell heated => heated_value _ _ _ _ _ _ _ _ _). set (W := fun c : cell heated => tm_value _ _ _ _ _ _ _ _ _).
    pose proof (one_row 3 4 V hot_sheet 0 0 ltac:(lia) ltac:(lia)) as HR.
    pose proof (one_row 3 3 W hot_sheet 0 0 ltac:(lia) ltac:(lia)) as HT.
    cbn [Nat.mul Nat.add] in HR, HT. rewrite HR, HT. clear HR HT. unfold V, W. clear V W.
    pose proof (heated_mech 2 (fun _ => 1) hot_sheet (1 + 2 * 1 / INR 2) 1 square_X (gather 4 held_hot (mkCell (fun a => a) hot_sheet)) (gather 2 (fun _ => 0) (mkCell (fun a => a) hot_sheet))
      (gather_control (fun _ => 1) (mkCell (fun a => a) hot_sheet)) 0 0 ltac:(lia) ltac:(lia) ltac:(lia)) as HM. cbn [Nat.mul Nat.add] in HM.
    change (c_mat (mkCell (fun a : nat => a) hot_sheet)) with hot_sheet. change (gather_coords square_X (mkCell (fun a => a) hot_sheet)) with square_X. rewrite HM. clear HM.
    pose proof (tm_value_mech 2 (fun _ => 1) hot_sheet square_X (cell_gradient 2 square_X) (strain_in 2 square_X held_hot (mkCell (fun a => a) hot_sheet))
      (scalar_gradient 2 4 3 (gather 4 held_hot (mkCell (fun a => a) hot_sheet)) (cell_gradient 2 square_X)) (interpolate 2 4 3 (gather 4 held_hot (mkCell (fun a => a) hot_sheet)))
      (gather_control (fun _ => 1) (mkCell (fun a => a) hot_sheet)) 0 0 ltac:(lia) ltac:(lia)) as HM. cbn [Nat.mul Nat.add] in HM. rewrite HM. clear HM.
    rewrite one_measure. unfold heated_stress. cbv zeta.
    change (interpolate 2 4 2 (gather 4 held_hot (mkCell (fun a => a) hot_sheet)) * h_ps hot_sheet) with (interpolate 2 4 2 (gather 4 held_hot (mkCell (fun a => a) hot_sheet)) * h_ps (c_mat (mkCell (fun a => a) hot_sheet))).
    rewrite (cell_pressure_of 2) by lia. rewrite EP. rewrite interpolate_at by lia. fold (temperature_of 2 held_hot (mkCell (fun a => a) hot_sheet)). rewrite ET.
    change (strain 2 4 (fun _ => 0) (gather 4 held_hot (mkCell (fun a => a) hot_sheet)) (cell_gradient 2 square_X)) with (strain_in 2 square_X held_hot (mkCell (fun a => a) hot_sheet)).
    unfold dev_stress, full_stress, hydrostatic, expansion. cbn [num_voigt]. rsums. rewrite !held_strain, !one_gradient by lia. cbn. split; lra.
Qed.
Print Assumptions C132_refuted.
(** The hypotheses in three dimensions: any body growing uniformly more than its temperature explains, on any mesh. *)
Definition grown_state (X : nat -> nat -> R) (s p T : R) (k : nat) : R :=
  match (k mod 5)%nat with 3%nat => p | 4%nat => T | i => s * X (k / 5)%nat i end.
Example C132_reachable : forall nn X cells lam mu a s T0 g, mesh_ok 3 nn X cells -> isotropic_solids 3 (fun _ => lam) (fun _ => mu) cells -> s <> 0 ->
  (forall c, In c cells -> h_ps (c_mat c) = s /\ h_ts (c_mat c) = 1 /\ h_tref (c_mat c) = 0 /\ forall i, h_alpha (c_mat c) i = a) ->
  let U := grown_state X g ((lam + 2 / 3 * mu) * (3 * g - 3 * (a * T0)) / s) T0 in
  (forall c, In c cells -> pressure_law 3 (lam + 2 / 3 * mu) X U c) /\ (forall c, In c cells -> smooth 3 X U (fun _ => 0) c) /\
  (forall c, In c cells -> rs 3 (strain_in 3 X U c) = 3 * g).
Proof.
  intros nn X cells lam mu a s T0 g Hm HI Hs Hc0 U. set (P := (lam + 2 / 3 * mu) * (3 * g - 3 * (a * T0)) / s) in U.
  assert (HU : forall n i, (i < 5)%nat -> U (n * 5 + i)%nat = match i with 3%nat => P | 4%nat => T0 | i => g * X n i end).
  { intros n i Hi. unfold U, grown_state. rewrite (Nat.add_comm (n * 5)), Nat.mod_add, (Nat.mod_small i 5), Nat.div_add, (Nat.div_small i 5) by lia. destruct i as [|[|[|[|[|i]]]]]; reflexivity. }
  assert (M : moves 3 nn 5 X (fun _ => 0) (fun i j => if Nat.eqb i j then g else 0) U).
  { intros n i Hn Hi. rewrite HU by lia. unfold affine, rs. destruct i as [|[|[|i]]]; try lia; rsums; cbn; ring. }
  assert (T : forall c, In c cells -> rs 3 (strain_in 3 X U c) = 3 * g).
  { intros c Hc. destruct (mesh_cell _ _ _ _ _ Hm Hc) as [Hn Hv]. unfold strain_in.
    pose proof (proj1 (C32_strain 3 5 (gather_coords X c) _ _ _ ltac:(lia) ltac:(lia) Hv (gather_moves 3 nn 5 X _ _ U c ltac:(lia) Hn M))) as H.
    unfold rs. rsums. rewrite !H by (cbn; lia). cbn. ring. }
  split; [|split; [|exact T]].
  - intros c Hc. destruct (Hc0 c Hc) as (H1 & H2 & H3 & H4). unfold pressure_law. rewrite T by exact Hc. unfold pressure_of, temperature_of, thermal, mean_at, rs. rewrite H1, H2, H3. rsums.
    rewrite !HU by lia. rewrite !H4. unfold P. cbn. field. exact Hs.
  - intros c Hc i Hi. destruct (mesh_cell _ _ _ _ _ Hm Hc) as [Hn Hv]. change (S (S 3)) with 5%nat.
    rewrite (scalar_gradient_affine 3 5 3 _ P (fun _ => 0) _ ltac:(lia) Hv); [|intros b Hb; rewrite gather_at, HU by lia; symmetry; apply affine_const|exact Hi].
    unfold mean_at, rs. rewrite rsum_0 by reflexivity. lra.
Qed.

(** ** C133: balance, heat conduction and free expansion. *)
(** Rigid virtual displacements do no work: the nodal forces and their moments cancel, whatever the state. *)
Theorem C133_balanced : forall d nn pen X U Q Z cells lam mu t A W, (2 <= d <= 3)%nat -> mesh_ok d nn X cells -> isotropic_solids d lam mu cells ->
  antisymmetric d A -> moves d nn (S (S d)) X t A W -> (forall n i, (d <= i < S (S d))%nat -> W (n * S (S d) + i)%nat = 0) ->
  exists r, heated_residual d pen X U Q Z cells = Ok r /\ work (nn * S (S d)) r W = 0.
Proof.
  intros d nn pen X U Q Z cells lam mu t A W Hd Hm HI HA HW HO. eexists. split; [apply (heated_ok d pen X U Q Z cells lam mu Hd HI)|].
  rewrite assemble_work by (apply (mesh_nodes d nn X); exact Hm). apply sum_over_0. intros c Hc. destruct (mesh_cell _ _ _ _ _ Hm Hc) as [Hn Hv].
  rewrite heated_work by lia. assert (Hd' : (1 <= d <= 3)%nat) by lia.
  pose proof (gather_moves d nn (S (S d)) X t A W c ltac:(lia) Hn HW) as Hw.
  assert (Z0 : forall off, (d <= off < S (S d))%nat -> forall a, (a <= d)%nat -> gather (S (S d)) W c (a * S (S d) + off)%nat = affine d 0 (fun _ => 0) (gather_coords X c) a).
  { intros off Ho a Ha. rewrite gather_at by lia. rewrite HO by exact Ho. symmetry. apply affine_const. }
  rewrite (rsum_0 (num_voigt d)).
  2: { intros v Hv'. rewrite (proj1 (C32_strain d (S (S d)) _ t A _ Hd' ltac:(lia) Hv Hw) v Hv').
       assert (EE : engineering_strain d A v = 0).
       { clear -Hd HA Hv'. dims d; try lia; cbn in Hv'; destruct v as [|[|[|[|[|[|v]]]]]]; try lia; cbn;
           try (match goal with |- A ?i ?i = 0 => pose proof (HA i i ltac:(lia) ltac:(lia)); lra end);
           match goal with |- A ?i ?j + _ = 0 => pose proof (HA i j ltac:(lia) ltac:(lia)); lra end. }
       rewrite EE. req. ring. }
  rewrite (rsum_0 d (fun k => heated_flow _ _ _ _ _ * _)).
  2: { intros k Hk. rewrite (scalar_gradient_affine d (S (S d)) (S d) _ 0 (fun _ => 0) _ Hd' Hv (Z0 (S d) ltac:(lia)) k Hk). req. ring. }
  rewrite (rsum_0 d (fun k => heated_stab _ _ _ _ _ _ _ * _)).
  2: { intros k Hk. rewrite (scalar_gradient_affine d (S (S d)) d _ 0 (fun _ => 0) _ Hd' Hv (Z0 d ltac:(lia)) k Hk). req. ring. }
  rewrite (interpolate_const d (S (S d)) d _ 0 Hd'); [ring|].
  intros a Ha. rewrite Z0 by lia. apply affine_const.
Qed.
Print Assumptions C133_balanced.

Example C133_balanced_reachable : let W := fun k : nat => match (k mod 4)%nat with 0%nat => - square_X (k / 4) 1 | 1%nat => square_X (k / 4) 0%nat | _ => 0 end in
  let A := fun i j : nat => match i, j with 0%nat, 1%nat => -1 | 1%nat, 0%nat => 1 | _, _ => 0 end in
  antisymmetric 2 A /\ moves 2 4 4 square_X (fun _ => 0) A W /\ (forall n i, (2 <= i < 4)%nat -> W (n * 4 + i)%nat = 0) /\
  mesh_ok 2 4 square_X (square hot_sheet) /\ isotropic_solids 2 (fun _ => 1) (fun _ => 1) (square hot_sheet).
Proof.
  intros W A.
  assert (HW : forall n i, (i < 4)%nat -> W (n * 4 + i)%nat = match i with 0%nat => - square_X n 1 | 1%nat => square_X n 0%nat | _ => 0 end).
  { intros n i Hi. unfold W. rewrite (Nat.add_comm (n * 4)), Nat.mod_add, (Nat.mod_small i 4), Nat.div_add, (Nat.div_small i 4) by lia. destruct i as [|[|[|[|i]]]]; reflexivity. }
  split; [|split; [|split; [|split]]].
  - intros i j Hi Hj. destruct i as [|[|i]]; try lia; destruct j as [|[|j]]; try lia; cbn; ring.
  - intros n i Hn Hi. rewrite HW by lia. unfold affine, rs. destruct i as [|[|i]]; try lia; rsums; cbn; ring.
  - intros n i Hi. rewrite HW by lia. destruct i as [|[|i]]; try lia; reflexivity.
  - apply square_ok.
  - intros c [<-|[<-|[]]]; exact (hot_sheet_isotropic (mkCell (fun a => a) hot_sheet) (or_introl eq_refl)).
Qed.

(** The heat equation: only the temperatures enter it, and the virtual power is that of the conductivity. *)
Definition gradient_in (d off : nat) (X : nat -> nat -> R) (U : nat -> R) (c : cell heated) : nat -> R :=
  scalar_gradient d (S (S d)) off (gather (S (S d)) U c) (cell_gradient d (gather_coords X c)).
Theorem C133_heat : forall d nn pen X U Q Z cells lam mu W, (2 <= d <= 3)%nat -> mesh_ok d nn X cells -> isotropic_solids d lam mu cells -> only_at (S d) (S (S d)) W ->
  exists r, heated_residual d pen X U Q Z cells = Ok r /\
    work (nn * S (S d)) r W = sum_over cells (fun c => simplex_measure d (fun a i => X (c_node c a) i) * pen (cell_density (S d) (fun a => Z (c_node c a))) *
      (h_ts (c_mat c) * h_ts (c_mat c) * rs d (fun i => gradient_in d (S d) X W c i * rs d (fun j => h_cond (c_mat c) i j * gradient_in d (S d) X U c j)))).
Proof.
  intros d nn pen X U Q Z cells lam mu W Hd Hm HI HO. eexists. split; [apply (heated_ok d pen X U Q Z cells lam mu Hd HI)|].
  rewrite assemble_work by (apply (mesh_nodes d nn X); exact Hm). apply sum_over_ext. intros c Hc. destruct (mesh_cell _ _ _ _ _ Hm Hc) as [Hn Hv].
  assert (Hd' : (1 <= d <= 3)%nat) by lia. rewrite heated_work by lia. change (fun a i => X (c_node c a) i) with (gather_coords X c). rewrite (proj1 (measure_simplex d _ Hd' Hv)).
  assert (Z0 : forall off, (off < S d)%nat -> forall a, gather (S (S d)) W c (a * S (S d) + off)%nat = 0).
  { intros off Ho a. rewrite gather_at by lia. apply HO; lia. }
  f_equal.
  rewrite (rsum_0 (num_voigt d)).
  2: { intros v Hv'. rewrite (strain_disp d (S (S d)) _ (fun _ => 0)) by (first [lia | intros; apply Z0; lia]). unfold strain. destruct (nth_error _ v) as [[i j]|]; [|req; ring].
       destruct (Nat.eqb i j); (rewrite (rsum_0 (S d)); [req; ring|intros; req; ring]). }
  rewrite (rsum_0 d (fun k => heated_stab _ _ _ _ _ _ _ * _)).
  2: { intros k Hk. unfold scalar_gradient. rewrite (rsum_0 (S d)); [req; ring|]. intros a Ha. rewrite Z0 by lia. req. ring. }
  rewrite (interpolate_const d (S (S d)) d _ 0 Hd') by (intros; apply Z0; lia).
  unfold rs. rewrite <- rsum_scal_l. rewrite Rmult_0_r, Rplus_0_r, Rminus_0_r, Rplus_0_l.
  apply rsum_ext. intros i Hi. unfold heated_flow, heat_flow. fold (gradient_in d (S d) X U c). fold (gradient_in d (S d) X W c).
  rewrite (rsum_ext d (fun j => _ * _ * gradient_in d (S d) X U c j * _) (fun j => h_ts (c_mat c) * h_ts (c_mat c) * (h_cond (c_mat c) i j * gradient_in d (S d) X U c j))) by (intros; req; ring).
  rewrite rsum_scal_l. req. ring.
Qed.
Print Assumptions C133_heat.
(** So no heat is created, and heat flows from hot to cold. *)
Corollary C133_conserved : forall d nn pen X U Q Z cells lam mu W T, (2 <= d <= 3)%nat -> mesh_ok d nn X cells -> isotropic_solids d lam mu cells -> only_at (S d) (S (S d)) W ->
  (forall n, (n < nn)%nat -> W (n * S (S d) + S d)%nat = T) ->
  exists r, heated_residual d pen X U Q Z cells = Ok r /\ work (nn * S (S d)) r W = 0.
Proof.
  intros d nn pen X U Q Z cells lam mu W T Hd Hm HI HO HT. destruct (C133_heat d nn pen X U Q Z cells lam mu W Hd Hm HI HO) as (r & Er & Hr). exists r. split; [exact Er|].
  rewrite Hr. apply sum_over_0. intros c Hc. destruct (mesh_cell _ _ _ _ _ Hm Hc) as [Hn Hv]. unfold rs. rewrite (rsum_0 d); [ring|]. intros i Hi. unfold gradient_in.
  rewrite (scalar_gradient_affine d (S (S d)) (S d) _ T (fun _ => 0) _ ltac:(lia) Hv); [req; ring| |exact Hi].
  intros a Ha. rewrite gather_at by lia. rewrite HT by (apply Hn; lia). symmetry. apply affine_const.
Qed.
Print Assumptions C133_conserved.
Definition temperatures_of (d : nat) (U : nat -> R) (k : nat) : R := if Nat.eqb (k mod S (S d)) (S d) then U k else 0.
Corollary C133_dissipates : forall d nn pen X U Q Z cells lam mu, (2 <= d <= 3)%nat -> mesh_ok d nn X cells -> isotropic_solids d lam mu cells ->
  (forall c, In c cells -> nonnegative_form d (h_cond (c_mat c)) /\ 0 <= simplex_measure d (fun a i => X (c_node c a) i)) -> (forall z, 0 <= pen z) ->
  exists r, heated_residual d pen X U Q Z cells = Ok r /\ 0 <= work (nn * S (S d)) r (temperatures_of d U).
Proof.
  intros d nn pen X U Q Z cells lam mu Hd Hm HI HC Hp.
  assert (TA : forall n i, (i < S (S d))%nat -> temperatures_of d U (n * S (S d) + i)%nat = if Nat.eqb i (S d) then U (n * S (S d) + i)%nat else 0).
  { intros n i Hi. unfold temperatures_of. rewrite (Nat.add_comm (n * S (S d)) i), Nat.mod_add, (Nat.mod_small i) by lia. reflexivity. }
  destruct (C133_heat d nn pen X U Q Z cells lam mu (temperatures_of d U) Hd Hm HI) as (r & Er & Hr).
  { intros n i Hi Hne. rewrite TA by exact Hi. destruct (Nat.eqb_spec i (S d)); [contradiction|reflexivity]. }
  exists r. split; [exact Er|]. rewrite Hr. apply sum_over_nonneg. intros c Hc. destruct (HC c Hc) as [HF HM].
  assert (EG : forall i, gradient_in d (S d) X (temperatures_of d U) c i = gradient_in d (S d) X U c i).
  { intros i. unfold gradient_in, scalar_gradient. apply rsum_ext. intros a Ha. rewrite !gather_at by lia. rewrite TA, Nat.eqb_refl by lia. reflexivity. }
  apply Rmult_le_pos; [apply Rmult_le_pos; [exact HM|apply Hp]|]. apply Rmult_le_pos; [apply Rle_0_sqr|].
  unfold rs at 1. rewrite (rsum_ext d _ (fun i => gradient_in d (S d) X U c i * rs d (fun j => h_cond (c_mat c) i j * gradient_in d (S d) X U c j))) by (intros; rewrite EG; reflexivity). apply HF.
Qed.
Print Assumptions C133_dissipates.
Example C133_heat_reachable : only_at 3 4 (temperatures_of 2 held_hot) /\ temperatures_of 2 held_hot 3 <> 0 /\ nonnegative_form 2 (h_cond hot_sheet).
Proof.
  split; [|split].
  - intros n i Hi Hne. unfold temperatures_of. rewrite (Nat.add_comm (n * 4) i), Nat.mod_add, (Nat.mod_small i) by lia. destruct (Nat.eqb_spec i 3); [contradiction|reflexivity].
  - unfold temperatures_of, held_hot. cbn. lra.
  - intros e. unfold rs. rsums. unfold h_cond, hot_sheet, diagonal. cbn. pose proof (Rle_0_sqr (e 0%nat)). pose proof (Rle_0_sqr (e 1%nat)). unfold Rsqr in *. lra.
Qed.

(** A body free to move takes its thermal strain without stress: uniform temperature, no pressure. *)
Theorem C133_expansion : forall d nn pen X U Z cells lam mu t A T0, (2 <= d <= 3)%nat -> mesh_ok d nn X cells -> isotropic_solids d lam mu cells ->
  moves d nn (S (S d)) X t A U -> scalar_field d nn (S (S d)) d X 0 (fun _ => 0) U -> scalar_field d nn (S (S d)) (S d) X T0 (fun _ => 0) U ->
  (forall c i j, In c cells -> (i < d)%nat -> (j < d)%nat -> A i j + A j i = if Nat.eqb i j then 2 * thermal (c_mat c) T0 i else 0) ->
  exists r, heated_residual d pen X U (fun _ => 0) Z cells = Ok r /\ forall k, r k = 0.
Proof.
  intros d nn pen X U Z cells lam mu t A T0 Hd Hm HI HU HP HT HA. eexists. split; [apply (heated_ok d pen X U _ Z cells lam mu Hd HI)|].
  intros k. apply assemble_0. clear k. intros c k Hc Hk. destruct (mesh_cell _ _ _ _ _ Hm Hc) as [Hn Hv]. assert (Hd' : (1 <= d <= 3)%nat) by lia.
  set (u := gather (S (S d)) U c). set (x := gather_coords X c).
  pose proof (gather_moves d nn (S (S d)) X t A U c ltac:(lia) Hn HU) as Hu.
  pose proof (gather_scalar d nn (S (S d)) d X 0 _ U c ltac:(lia) Hn HP) as Hp.
  pose proof (gather_scalar d nn (S (S d)) (S d) X T0 _ U c ltac:(lia) Hn HT) as Ht. fold u in Hu, Hp, Ht. fold x in Hu, Hp, Ht, Hv.
  assert (ET : interpolate d (S (S d)) (S d) u = T0) by (apply interpolate_const; [lia|]; intros a Ha; rewrite Ht by exact Ha; apply affine_const).
  assert (EP : interpolate d (S (S d)) d u = 0) by (apply interpolate_const; [lia|]; intros a Ha; rewrite Hp by exact Ha; apply affine_const).
  assert (EG : forall v, (v < num_voigt d)%nat -> strain d (S (S d)) (fun _ => 0) u (cell_gradient d x) v = expansion d (c_mat c) T0 v).
  { intros v Hv'. rewrite (proj1 (C32_strain d (S (S d)) _ t A _ Hd' ltac:(lia) Hv Hu) v Hv'). unfold expansion. fold (thermal (c_mat c) T0 v).
    pose proof (fun i j => HA c i j Hc) as HA'. clear -Hd HA' Hv'.
    dims d; try lia; cbn in Hv'; destruct v as [|[|[|[|[|[|v]]]]]]; try lia; cbn [Nat.ltb Nat.leb engineering_strain];
      try (match goal with |- A ?i ?i = _ => pose proof (HA' i i ltac:(lia) ltac:(lia)) as H; cbn [Nat.eqb] in H; lra end);
      match goal with |- A ?i ?j + _ = 0 => pose proof (HA' i j ltac:(lia) ltac:(lia)) as H; cbn [Nat.eqb] in H; lra end. }
  assert (ES : forall v, heated_stress d (c_mat c) x u v = 0).
  { intros v. unfold heated_stress. cbv zeta. rewrite ET, EP. unfold dev_stress.
    assert (EF : forall i, full_stress d (h_stiff (c_mat c)) (fun v0 => strain d (S (S d)) (fun _ => 0) u (cell_gradient d x) v0 - expansion d (c_mat c) T0 v0) i = 0).
    { intros i. unfold full_stress. apply rsum_0. intros j Hj. rewrite EG by exact Hj. req. ring. }
    rewrite EF. rewrite (rsum_0 d) by (intros; apply EF). unfold hydrostatic. destruct (Nat.ltb v d); req; lra. }
  assert (EV : forall K, heated_flux d (c_mat c) K x u = 0).
  { intros K. unfold heated_flux, heated_volume. rewrite ET, EP. rewrite (rsum_ext d _ (expansion d (c_mat c) T0)) by (intros; apply EG; dims d; cbn; lia). unfold Rdiv. ring. }
  assert (EB : forall K i, (i < d)%nat -> heated_stab d (c_mat c) K x u (gather d (fun _ => 0) c) i = 0).
  { intros K i Hi. unfold heated_stab, stabilization. rewrite (scalar_gradient_affine d (S (S d)) d _ 0 (fun _ => 0) _ Hd' Hv Hp i Hi). rewrite interpolate_zero. req. ring. }
  assert (EH : forall i, heated_flow d (c_mat c) x u i = 0).
  { intros i. unfold heated_flow, heat_flow. apply rsum_0. intros j Hj. rewrite (scalar_gradient_affine d (S (S d)) (S d) _ T0 (fun _ => 0) _ Hd' Hv Ht j Hj). req. ring. }
  assert (EK : (k = (k / S (S d)) * S (S d) + k mod S (S d))%nat) by (rewrite Nat.mul_comm; apply Nat.div_mod; lia).
  assert (HK : (k / S (S d) < S d)%nat) by (apply Nat.div_lt_upper_bound; lia). pose proof (Nat.mod_upper_bound k (S (S d)) ltac:(lia)) as HB.
  set (a := (k / S (S d))%nat) in *. set (i := (k mod S (S d))%nat) in *. rewrite EK.
  assert (CI : (i < d \/ i = d \/ i = S d)%nat) by lia. destruct CI as [Hi|[Hi|Hi]].
  - rewrite heated_mech by lia. rewrite (rsum_0 d); [ring|]. intros. rewrite ES. req. ring.
  - rewrite Hi. rewrite heated_press by lia. rewrite EV, (rsum_0 d); [ring|]. intros j Hj. rewrite EB by exact Hj. req. ring.
  - rewrite Hi. rewrite heated_temp by lia. rewrite (rsum_0 d); [ring|]. intros. rewrite EH. req. ring.
Qed.
Print Assumptions C133_expansion.
Example C133_expansion_reachable : let U := fun k : nat => match (k mod 4)%nat with 2%nat => 0 | 3%nat => 5 | i => 5 * square_X (k / 4) i end in
  let A := fun i j : nat => if Nat.eqb i j then 5 else 0 in
  moves 2 4 4 square_X (fun _ => 0) A U /\ scalar_field 2 4 4 2 square_X 0 (fun _ => 0) U /\ scalar_field 2 4 4 3 square_X 5 (fun _ => 0) U /\
  (forall c i j, In c (square hot_sheet) -> (i < 2)%nat -> (j < 2)%nat -> A i j + A j i = if Nat.eqb i j then 2 * thermal (c_mat c) 5 i else 0).
Proof.
  intros U A.
  assert (HU : forall n i, (i < 4)%nat -> U (n * 4 + i)%nat = match i with 2%nat => 0 | 3%nat => 5 | i => 5 * square_X n i end).
  { intros n i Hi. unfold U. rewrite (Nat.add_comm (n * 4)), Nat.mod_add, (Nat.mod_small i 4), Nat.div_add, (Nat.div_small i 4) by lia. destruct i as [|[|[|[|i]]]]; reflexivity. }
  split; [|split; [|split]].
  - intros n i Hn Hi. rewrite HU by lia. unfold affine, rs. destruct i as [|[|i]]; try lia; rsums; cbn; ring.
  - intros n Hn. rewrite HU by lia. symmetry. apply affine_const.
  - intros n Hn. rewrite HU by lia. symmetry. apply affine_const.
  - intros c i j [<-|[<-|[]]] Hi Hj; destruct i as [|[|i]]; try lia; destruct j as [|[|j]]; try lia; cbn; unfold thermal; cbn; ring.
Qed.
(** At fixed temperatures the system is reciprocal: the change of the forces due to V, on W, is the change due to W, on V. *)
Lemma strain_plus d ndof u v g k : (1 <= d <= 3)%nat -> (k < num_voigt d)%nat -> strain d ndof (fun _ => 0) (fun j => u j + v j) g k = strain d ndof (fun _ => 0) u g k + strain d ndof (fun _ => 0) v g k.
Proof.
  intros Hd Hk. pose proof (strain_lin d ndof u v 1 g k Hk Hd) as H. rewrite Rmult_1_l in H. rewrite <- H. unfold strain. destruct (nth_error _ k) as [[i j]|]; [|reflexivity].
  destruct (Nat.eqb i j); [|f_equal]; apply rsum_ext; intros; req; ring.
Qed.
Lemma interpolate_plus d ndof off u v : interpolate d ndof off (fun j => u j + v j) = interpolate d ndof off u + interpolate d ndof off v.
Proof. unfold interpolate. rewrite <- rsum_add. apply rsum_ext. intros. req. ring. Qed.
Lemma gradient_plus d ndof off u v g k : scalar_gradient d ndof off (fun j => u j + v j) g k = scalar_gradient d ndof off u g k + scalar_gradient d ndof off v g k.
Proof. unfold scalar_gradient. rewrite <- rsum_add. apply rsum_ext. intros. req. ring. Qed.
Lemma full_plus d C e f i : full_stress d C (fun v => e v + f v) i = full_stress d C e i + full_stress d C f i.
Proof. unfold full_stress. rewrite <- rsum_add. apply rsum_ext. intros. req. ring. Qed.
Lemma full_ext d C e f i : (forall v, (v < num_voigt d)%nat -> e v = f v) -> full_stress d C e i = full_stress d C f i.
Proof. intros H. unfold full_stress. apply rsum_ext. intros j Hj. rewrite H by exact Hj. reflexivity. Qed.
Theorem C133_reciprocal : forall d nn pen X U V W Z cells lam mu, (2 <= d <= 3)%nat -> mesh_ok d nn X cells -> isotropic_solids d lam mu cells ->
  (forall n, V (n * S (S d) + S d)%nat = 0 /\ W (n * S (S d) + S d)%nat = 0) ->
  exists r rV rW, heated_residual d pen X U (fun _ => 0) Z cells = Ok r /\
    heated_residual d pen X (fun k => U k + V k) (fun _ => 0) Z cells = Ok rV /\ heated_residual d pen X (fun k => U k + W k) (fun _ => 0) Z cells = Ok rW /\
    work (nn * S (S d)) (fun k => rV k - r k) W = work (nn * S (S d)) (fun k => rW k - r k) V.
Proof.
  intros d nn pen X U V W Z cells lam mu Hd Hm HI H0. do 3 eexists.
  split; [apply (heated_ok d pen X U _ Z cells lam mu Hd HI)|]. split; [apply (heated_ok d pen X _ _ Z cells lam mu Hd HI)|]. split; [apply (heated_ok d pen X _ _ Z cells lam mu Hd HI)|].
  assert (WS : forall n r r' Y, work n (fun k => r k - r' k) Y = work n r Y - work n r' Y).
  { intros n r r' Y. unfold work, rs. rewrite <- rsum_sub. apply rsum_ext. intros. req. ring. }
  rewrite !WS. rewrite !assemble_work by (apply (mesh_nodes d nn X); exact Hm).
  assert (SUB : forall f g : cell heated -> R, sum_over cells f - sum_over cells g = sum_over cells (fun c => f c - g c)).
  { intros f g. clear. induction cells as [|c l IH]; cbn; [ring|]. rewrite <- IH. ring. }
  rewrite !SUB. apply sum_over_ext. intros c Hc. assert (Hd' : (1 <= d <= 3)%nat) by lia. destruct (HI c Hc) as (HC & _ & _).
  set (n := S (S d)) in *. set (K := lam c + 2 * mu c / INR d). set (m := c_mat c). set (x := gather_coords X c). set (g := cell_gradient d x).
  assert (D : forall Y Y', (forall n0, Y (n0 * n + S d)%nat = 0) -> (forall n0, Y' (n0 * n + S d)%nat = 0) ->
     cell_work (S d) n (heated_value d pen m K (mu c) x (gather n (fun k => U k + Y k) c) (gather d (fun _ => 0) c) (gather_control Z c)) (gather n Y' c)
     - cell_work (S d) n (heated_value d pen m K (mu c) x (gather n U c) (gather d (fun _ => 0) c) (gather_control Z c)) (gather n Y' c)
     = cell_measure d x * pen (cell_density (S d) (gather_control Z c)) *
       (rsum (num_voigt d) (fun v => total_stress d (mkStab (h_stiff m) 1) (strain d n (fun _ => 0) (gather n Y c) g) (interpolate d n d (gather n Y c) * h_ps m) v * strain d n (fun _ => 0) (gather n Y' c) g v)
        - h_ps m * (Rpower (cell_measure d x) (2 / 3) / (2 * mu c)) * h_ps m * rsum d (fun k => scalar_gradient d n d (gather n Y c) g k * scalar_gradient d n d (gather n Y' c) g k)
        + h_ps m * (rsum d (strain d n (fun _ => 0) (gather n Y c) g) - interpolate d n d (gather n Y c) * h_ps m / K) * interpolate d n d (gather n Y' c))).
  { intros Y Y' HY HY'. rewrite !heated_work by exact Hd'. fold n g. rewrite <- Rmult_minus_distr_l. f_equal.
    change (gather n (fun k => U k + Y k) c) with (fun k => gather n U c k + gather n Y c k). set (u := gather n U c). set (y := gather n Y c). set (y' := gather n Y' c).
    assert (TY : interpolate d n (S d) y = 0) by (apply interpolate_const; [exact Hd'|]; intros a Ha; unfold y; rewrite gather_at by (unfold n; lia); apply HY).
    assert (GY : forall k, scalar_gradient d n (S d) y' g k = 0).
    { intros k. unfold scalar_gradient. apply rsum_0. intros a Ha. unfold y'. rewrite gather_at by (unfold n; lia). rewrite HY'. req. ring. }
    rewrite (rsum_0 d (fun k => heated_flow _ _ _ (fun k => u k + y k) _ * _)) by (intros; rewrite GY; req; ring).
    rewrite (rsum_0 d (fun k => heated_flow _ _ _ u _ * _)) by (intros; rewrite GY; req; ring).
    assert (ES : forall v, (v < num_voigt d)%nat -> heated_stress d m x (fun k => u k + y k) v - heated_stress d m x u v
       = total_stress d (mkStab (h_stiff m) 1) (strain d n (fun _ => 0) y g) (interpolate d n d y * h_ps m) v).
    { intros v Hv. unfold heated_stress, total_stress. cbv zeta. fold n g. rewrite !interpolate_plus, TY, Rplus_0_r. cbn [b_stiff].
      assert (EF : forall i, full_stress d (h_stiff m) (fun v0 => strain d n (fun _ => 0) (fun k => u k + y k) g v0 - expansion d m (interpolate d n (S d) u) v0) i
        = full_stress d (h_stiff m) (fun v0 => strain d n (fun _ => 0) u g v0 - expansion d m (interpolate d n (S d) u) v0) i + full_stress d (h_stiff m) (strain d n (fun _ => 0) y g) i).
      { intros i. rewrite <- full_plus. apply full_ext. intros v0 Hv0. rewrite strain_plus by assumption. req. ring. }
      unfold dev_stress. rewrite EF. rewrite (rsum_ext d _ (fun i => full_stress d (h_stiff m) (fun v0 => strain d n (fun _ => 0) u g v0 - expansion d m (interpolate d n (S d) u) v0) i + full_stress d (h_stiff m) (strain d n (fun _ => 0) y g) i)) by (intros; apply EF).
      rewrite rsum_add. unfold hydrostatic. destruct (Nat.ltb v d); req; lra. }
    rewrite (rsum_ext (num_voigt d) (fun v => total_stress _ _ _ _ v * _) (fun v => heated_stress d m x (fun k => u k + y k) v * strain d n (fun _ => 0) y' g v - heated_stress d m x u v * strain d n (fun _ => 0) y' g v))
      by (intros v Hv; rewrite <- ES by exact Hv; req; ring).
    rewrite rsum_sub.
    assert (EB : forall u0, rsum d (fun k => heated_stab d m (mu c) x u0 (gather d (fun _ => 0) c) k * scalar_gradient d n d y' g k)
       = h_ps m * (Rpower (cell_measure d x) (2 / 3) / (2 * mu c)) * h_ps m * rsum d (fun k => scalar_gradient d n d u0 g k * scalar_gradient d n d y' g k)).
    { intros u0. rewrite <- rsum_scal_l. apply rsum_ext. intros k Hk. unfold heated_stab, stabilization. rewrite interpolate_zero. fold n g. req. ring. }
    rewrite !EB. rewrite (rsum_ext d (fun k => scalar_gradient d n d (fun k0 => u k0 + y k0) g k * _) (fun k => scalar_gradient d n d u g k * scalar_gradient d n d y' g k + scalar_gradient d n d y g k * scalar_gradient d n d y' g k))
      by (intros; rewrite gradient_plus; req; ring). rewrite rsum_add.
    unfold heated_flux, heated_volume. fold n g. rewrite !interpolate_plus, TY, (Rplus_0_r (interpolate d n (S d) u)).
    rewrite (rsum_ext d (strain d n (fun _ => 0) (fun j => u j + y j) g) (fun i => strain d n (fun _ => 0) u g i + strain d n (fun _ => 0) y g i)) by (intros; apply strain_plus; [exact Hd'|dims d; cbn; lia]).
    rewrite rsum_add. unfold Rdiv. req. ring. }
  fold m x. rewrite (D V W), (D W V) by (intros; apply H0). f_equal.
  rewrite !(bilinear d (lam c) (mu c)) by (try assumption; exact HC). rewrite (hooke_sym d (lam c) (mu c) (strain d n (fun _ => 0) (gather n V c) g)) by exact Hd.
  rewrite (rsum_ext d (fun k => scalar_gradient d n d (gather n V c) g k * _) (fun k => scalar_gradient d n d (gather n W c) g k * scalar_gradient d n d (gather n V c) g k)) by (intros; req; ring).
  unfold Rdiv. ring.
Qed.
Print Assumptions C133_reciprocal.
Example C133_reciprocal_reachable : let V := fun k : nat => match k with 4%nat => 1 | _ => 0 end in let W := fun k : nat => match k with 5%nat => 1 | 6%nat => 2 | _ => 0 end in
  (forall n, V (n * 4 + 3)%nat = 0 /\ W (n * 4 + 3)%nat = 0) /\ V 4%nat <> 0 /\ W 6%nat <> 0.
Proof. intros V W. split; [|cbn; split; lra]. intros [|[|n]]; [split; reflexivity|split; reflexivity|]. replace (S (S n) * 4 + 3)%nat with (8 + (n * 4 + 3))%nat by lia. split; reflexivity. Qed.
(** In one dimension the shear modulus is 0 / 0. *)
Theorem C133_bar : forall pen X U Q Z cells, cells <> [] -> heated_residual 1 pen X U Q Z cells = UB.
Proof.
  intros pen X U Q Z [|c cells] H; [contradiction|]. unfold heated_residual, assembleR. cbn [foldR]. unfold heated_cell. cbv zeta. unfold moduli. cbn [num_voigt Nat.sub INR].
  unfold quot at 1. destruct (Req_EM_T 0 0) as [_|N]; [reflexivity|exfalso; apply N; reflexivity].
Qed.
Print Assumptions C133_bar.

(** ** C134: the material entries. *)
Lemma material_isotropic d E v : (1 <= d <= 3)%nat -> admissible E v -> isotropic d (num_voigt d) (lame E v) (shear_mod E v) (isotropic_material d E v).
Proof.
  intros Hd Ha i j Hi Hj. pose proof (MaterialProps.admissible_den E v Ha). unfold isotropic_material, voigt_pattern, hooke, rs, lame, shear_mod.
  dims d; cbn in Hi, Hj; destruct i as [|[|[|[|[|[|i]]]]]]; try lia; destruct j as [|[|[|[|[|[|j]]]]]]; try lia; rsums; cbn; field; lra.
Qed.
Theorem C134_isotropic : forall d p E v a k t, (2 <= d <= 3)%nat -> admissible E v ->
  p "Reference Temperature"%string = Some t -> p "Youngs Modulus"%string = Some E -> p "Poissons Ratio"%string = Some v ->
  p "Thermal Expansion Coefficient"%string = Some a -> p "Thermal Conductivity Coefficient"%string = Some k ->
  exists m, thermo_isotropic d p = Ok m /\ isotropic d (num_voigt d) (lame E v) (shear_mod E v) (h_stiff m) /\ moduli d (h_stiff m) = Ok (lame E v + 2 * shear_mod E v / INR d, shear_mod E v) /\
    h_tref m = t /\ (forall i, (i < d)%nat -> h_alpha m i = a) /\ (forall i j, (i < d)%nat -> (j < d)%nat -> h_cond m i j = if Nat.eqb i j then k else 0) /\
    h_ts m = match p "Temperature Scaling"%string with Some s => s | None => 1 end /\ h_ps m = match p "Pressure Scaling"%string with Some s => s | None => 1 end.
Proof.
  intros d p E v a k t Hd Ha Et EE Ev Ea Ek. unfold thermo_isotropic, get. rewrite Et, EE, Ev, Ea, Ek. cbn [rbind]. eexists. split; [reflexivity|]. cbn [h_stiff h_tref h_alpha h_cond h_ts h_ps].
  pose proof (material_isotropic d E v ltac:(lia) Ha) as HC. split; [exact HC|]. split.
  - pose proof (MaterialProps.admissible_den E v Ha) as [P1 P2]. assert (M : 0 < shear_mod E v) by (unfold shear_mod; apply Rdiv_lt_0_compat; unfold admissible in Ha; lra).
    apply moduli_hooke; [exact Hd|exact HC|lra|].
    assert (B : 0 < 3 * lame E v + 2 * shear_mod E v).
    { replace (3 * lame E v + 2 * shear_mod E v) with (E / (1 - 2 * v)) by (unfold lame, shear_mod; field; lra). apply Rdiv_lt_0_compat; unfold admissible in Ha; lra. }
    dims d; try lia; cbn [INR]; lra.
  - repeat split.
Qed.
Print Assumptions C134_isotropic.
(** Directional expansion and conductivity; every one of the 2 d + 3 entries is required. *)
Definition direction (k : string) (i : nat) : string := nth i (match k with "a"%string => ["a11"; "a22"; "a33"]%string | _ => ["k11"; "k22"; "k33"]%string end) ""%string.
Theorem C134_cubic : forall d p m, (1 <= d <= 3)%nat -> thermo_cubic d p = Ok m ->
  exists E v, p "Youngs Modulus"%string = Some E /\ p "Poissons Ratio"%string = Some v /\ p "Reference Temperature"%string = Some (h_tref m) /\
    (admissible E v -> isotropic d (num_voigt d) (lame E v) (shear_mod E v) (h_stiff m)) /\
    (forall i, (i < d)%nat -> p (direction "a" i) = Some (h_alpha m i)) /\
    (forall i j, (i < d)%nat -> (j < d)%nat -> if Nat.eqb i j then p (direction "k" i) = Some (h_cond m i j) else h_cond m i j = 0).
Proof.
  intros d p m Hd. unfold thermo_cubic, get.
  destruct (p "Reference Temperature"%string) as [t|]; [|discriminate]. destruct (p "Poissons Ratio"%string) as [v|]; [|discriminate]. destruct (p "Youngs Modulus"%string) as [E|]; [|discriminate]. cbn [rbind].
  dims d; cbn [firstn mapR];
    repeat match goal with |- context [match p ?k with _ => _ end] => destruct (p k) eqn:?; cbn [rbind mapR]; [|discriminate] end;
    intros [= <-]; cbn [h_tref h_stiff h_alpha h_cond]; exists E, v;
    (do 3 (split; [reflexivity|])); (split; [intros Ha; apply material_isotropic; [lia|exact Ha]|]); (split;
    [intros [|[|[|i]]] Hi; try lia; cbn; assumption|intros [|[|[|i]]] [|[|[|j]]] Hi Hj; try lia; cbn; try assumption; try reflexivity]).
Qed.
Print Assumptions C134_cubic.
Theorem C134_required : forall d p, (1 <= d <= 3)%nat ->
  (thermo_isotropic d p = Throw <-> exists k, In k ["Reference Temperature"; "Youngs Modulus"; "Poissons Ratio"; "Thermal Expansion Coefficient"; "Thermal Conductivity Coefficient"]%string /\ p k = None) /\
  (thermo_cubic d p = Throw <-> exists k, In k (["Reference Temperature"; "Youngs Modulus"; "Poissons Ratio"] ++ map (direction "a") (seq 0 d) ++ map (direction "k") (seq 0 d))%list%string /\ p k = None).
Proof.
  intros d p Hd. split.
  - unfold thermo_isotropic, get. split.
    + destruct (p "Reference Temperature"%string) eqn:E1; cbn [rbind]; [|intros _; eexists; split; [left; reflexivity|exact E1]].
      destruct (p "Poissons Ratio"%string) eqn:E2; cbn [rbind]; [|intros _; eexists; split; [right; right; left; reflexivity|exact E2]].
      destruct (p "Youngs Modulus"%string) eqn:E3; cbn [rbind]; [|intros _; eexists; split; [right; left; reflexivity|exact E3]].
      destruct (p "Thermal Expansion Coefficient"%string) eqn:E4; cbn [rbind]; [|intros _; eexists; split; [right; right; right; left; reflexivity|exact E4]].
      destruct (p "Thermal Conductivity Coefficient"%string) eqn:E5; cbn [rbind]; [discriminate|intros _; eexists; split; [right; right; right; right; left; reflexivity|exact E5]].
    + intros (k & Hk & E). cbn in Hk. repeat (destruct Hk as [<-|Hk]; [rewrite E; repeat (match goal with |- context [p ?k] => destruct (p k); cbn [rbind] end); reflexivity|]). contradiction.
  - unfold thermo_cubic, get. split.
    + intros H. destruct (p "Reference Temperature"%string) eqn:E1; cbn [rbind] in H; [|eexists; split; [left; reflexivity|exact E1]].
      destruct (p "Poissons Ratio"%string) eqn:E2; cbn [rbind] in H; [|eexists; split; [right; right; left; reflexivity|exact E2]].
      destruct (p "Youngs Modulus"%string) eqn:E3; cbn [rbind] in H; [|eexists; split; [right; left; reflexivity|exact E3]].
      assert (IN : forall k, In k (map (direction "a") (seq 0 d) ++ map (direction "k") (seq 0 d))%list -> p k = None -> exists k, In k (["Reference Temperature"; "Youngs Modulus"; "Poissons Ratio"] ++ map (direction "a") (seq 0 d) ++ map (direction "k") (seq 0 d))%list%string /\ p k = None).
      { intros k Hk E. exists k. split; [right; right; right; exact Hk|exact E]. }
      dims d; cbn [firstn mapR] in H;
        repeat match type of H with context [match p ?k with _ => _ end] => destruct (p k) eqn:?; cbn [rbind mapR] in H; [|apply (IN k); [cbn; tauto|assumption]] end; discriminate.
    + intros (k & Hk & E). dims d; cbn in Hk; repeat (destruct Hk as [<-|Hk]; [cbn [firstn mapR]; rewrite E; repeat (match goal with |- context [p ?k] => destruct (p k); cbn [rbind mapR] end); reflexivity|]); contradiction.
Qed.
Print Assumptions C134_required.
Example C134_reachable : let p := fun k : string => if String.eqb k "Youngs Modulus" then Some 1 else if String.eqb k "Poissons Ratio" then Some (1 / 4) else
    if String.eqb k "Temperature Scaling" then None else if String.eqb k "Pressure Scaling" then Some 7 else Some 3 in
  admissible 1 (1 / 4) /\ (exists m, thermo_isotropic 3 p = Ok m /\ h_ps m = 7 /\ h_ts m = 1) /\ (exists m, thermo_cubic 2 p = Ok m).
Proof. intros p. split; [unfold admissible; lra|]. split; [eexists; split; [reflexivity|split; reflexivity]|eexists; reflexivity]. Qed.
