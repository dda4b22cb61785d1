(** C101-C105: units, entered materials, the thermal strain option, prescribed heat flux and the electric scaling. *)
From Coq Require Import String Reals List Arith Bool Lia Lra.
From Verif Require Import Base.Field Base.Sums Base.Res Element.ElementModel Element.ElementSpec Element.ElementProof Element.ElementProps
  Element.MaterialModel Element.MaterialSpec Penalty.PenaltyModel Residual.ResidualModel Residual.ResidualSpec Residual.ResidualProof Residual.ResidualProps
  Residual.CouplingModel Residual.CouplingSpec Residual.CouplingProof.
Import ListNotations.
Local Open Scope R_scope.

(** ** C101: 'Temperature Scaling' is a change of unit of the temperature unknown. *)
(** The same material for the temperature s T: no scaling, its reference temperature s times the entered one, and its laws read at T / s. *)
Definition in_unit (s : R) (m : thermoelastic) : thermoelastic :=
  mkTM (m_nonlinear m) (m_stiff_const m) (fun T => m_stiff_fun m (T / s)) (m_alpha_const m) (fun T => m_alpha_fun m (T / s))
       (m_cond_const m) (fun T => m_cond_fun m (T / s)) (s * m_tref m) 1.
Theorem C101_unit_partial : forall d pen X U Z cells s, (2 <= d <= 3)%nat -> s <> 0 -> (forall c, In c cells -> m_scale (c_mat c) = s) ->
  exists r r', thermoelastostatic d pen X U Z cells = Ok r /\
    thermoelastostatic d pen X (rescaled (S d) d s U) Z (map (fun c => mkCell (c_node c) (in_unit s (c_mat c))) cells) = Ok r' /\
    forall n, (forall i, (i < d)%nat -> r (n * S d + i)%nat = r' (n * S d + i)%nat) /\ r (n * S d + d)%nat = s * r' (n * S d + d)%nat.
Proof.
  intros d pen X U Z cells s Hd Hs Hc.
  destruct (tm_ok d pen X U Z cells Hd) as (r & E & H).
  destruct (tm_ok d pen X (rescaled (S d) d s U) Z (map (fun c => mkCell (c_node c) (in_unit s (c_mat c))) cells) Hd) as (r' & E' & H').
  exists r, r'. split; [exact E|]. split; [exact E'|]. intros n.
  assert (Q : forall c, In c cells -> s * interpolate d (S d) d (gather (S d) U c) / s = interpolate d (S d) d (gather (S d) U c)) by (intros; field; exact Hs).
  split; [intros i Hi; rewrite <- (Rmult_1_l (r' _))|]; rewrite H, H';
    apply (assemble_rows (S d) (S d) (S d) (fun c => mkCell (c_node c) (in_unit s (c_mat c)))); try lia; try reflexivity; intros c a Hin Ha;
    unfold tm_cell_value; cbv zeta; cbn [c_mat].
  - rewrite !mech_row by assumption. rewrite Rmult_1_l. f_equal. apply rsum_ext. intros j Hj. f_equal. unfold weigh. f_equal. unfold tm_stress. apply rsum_ext.
    intros k Hk.
    change (gather (S d) (rescaled (S d) d s U) {| c_node := c_node c; c_mat := in_unit s (c_mat c) |}) with (gather (S d) (rescaled (S d) d s U) c).
    change (gather_coords X {| c_node := c_node c; c_mat := in_unit s (c_mat c) |}) with (gather_coords X c).
    rewrite strain_rescaled by lia. rewrite interpolate_rescaled.
    assert (ES : m_stiff (in_unit s (c_mat c)) (s * interpolate d (S d) d (gather (S d) U c)) = m_stiff (c_mat c) (interpolate d (S d) d (gather (S d) U c))).
    { unfold m_stiff, in_unit. cbn [m_nonlinear m_stiff_const m_stiff_fun]. destruct (m_nonlinear (c_mat c)); [rewrite (Q c Hin)|]; reflexivity. }
    assert (EA : m_alpha (in_unit s (c_mat c)) (s * interpolate d (S d) d (gather (S d) U c)) = m_alpha (c_mat c) (interpolate d (S d) d (gather (S d) U c))).
    { unfold m_alpha, in_unit. cbn [m_nonlinear m_alpha_const m_alpha_fun]. destruct (m_nonlinear (c_mat c)); [rewrite (Q c Hin)|]; reflexivity. }
    rewrite ES. f_equal. f_equal. unfold thermal_strain_value. rewrite EA, (Hc c Hin). cbn [in_unit m_scale m_tref]. destruct (Nat.ltb k d); ring.
  - rewrite !scalar_row by assumption. rewrite <- !rsum_scal_l. apply rsum_ext. intros j Hj. unfold weigh.
    change (gather (S d) (rescaled (S d) d s U) {| c_node := c_node c; c_mat := in_unit s (c_mat c) |}) with (gather (S d) (rescaled (S d) d s U) c).
    change (gather_coords X {| c_node := c_node c; c_mat := in_unit s (c_mat c) |}) with (gather_coords X c).
    change (gather_control Z {| c_node := c_node c; c_mat := in_unit s (c_mat c) |}) with (gather_control Z c).
    rewrite interpolate_rescaled.
    assert (EK : m_cond (in_unit s (c_mat c)) (s * interpolate d (S d) d (gather (S d) U c)) = m_cond (c_mat c) (interpolate d (S d) d (gather (S d) U c))).
    { unfold m_cond, in_unit. cbn [m_nonlinear m_cond_const m_cond_fun]. destruct (m_nonlinear (c_mat c)); [rewrite (Q c Hin)|]; reflexivity. }
    unfold tm_flux. rewrite EK, (Hc c Hin). cbn [in_unit m_scale].
    match goal with |- cell_measure d ?x * (?A * ?p * ?g) = s * (_ * (?B * _ * _)) => assert (EQ : A = s * B) end.
    { rewrite <- rsum_scal_l. apply rsum_ext. intros k Hk. rewrite gradient_rescaled. req. ring. }
    rewrite EQ. req. ring.
Qed.
Print Assumptions C101_unit_partial.
(** One triangle with corners (0,0), (1,0), (0,1). *)
Definition one {M} (m : M) : list (cell M) := [mkCell (fun a => a) m].
Example one_ok {M} (m : M) : mesh_ok 2 3 square_X (one m).
Proof.
  intros c [E|[]]; subst c. split; [intros a Ha; cbn; lia|]. unfold simplex_measure; cbn.
  match goal with |- Rabs ?q / 2 <> 0 => replace q with 1 by ring end. rewrite Rabs_R1. lra.
Qed.
Lemma one_gradient a j : (a < 3)%nat -> (j < 2)%nat -> cell_gradient 2 square_X a j = match a with 0%nat => -1 | _ => if Nat.eqb (a - 1) j then 1 else 0 end.
Proof.
  intros Ha Hj. destruct (C31_gradients 2 square_X ltac:(lia) (proj2 (one_ok tt (fun a => a) (or_introl eq_refl)))) as [H _].
  pose proof (H 1 (fun _ => -1)) as H0. pose proof (H 0 (fun i => if Nat.eqb i 0 then 1 else 0)) as H1. pose proof (H 0 (fun i => if Nat.eqb i 1 then 1 else 0)) as H2.
  specialize (H0 j Hj). specialize (H1 j Hj). specialize (H2 j Hj). unfold affine, rs in H0, H1, H2.
  cbn -[cell_gradient] in H0, H1, H2. destruct a as [|[|[|a]]]; try lia; destruct j as [|[|j]]; try lia; cbn -[cell_gradient] in *; lra.
Qed.
Lemma one_measure : cell_measure 2 square_X = 1 / 2.
Proof.
  rewrite (proj1 (measure_simplex 2 square_X ltac:(lia) (proj2 (one_ok tt (fun a => a) (or_introl eq_refl))))). unfold simplex_measure; cbn.
  match goal with |- Rabs ?q / 2 = _ => replace q with 1 by ring end. rewrite Rabs_R1. lra.
Qed.
Lemma one_gather {M} nd U (m : M) k : (0 < nd)%nat -> gather nd U (mkCell (fun a => a) m) k = U k.
Proof. intros Hn. unfold gather. cbn. f_equal. rewrite Nat.mul_comm. symmetry. apply Nat.div_mod. lia. Qed.
Lemma one_row {M} npc nd (r : cell M -> nat -> R) m n i : (n < npc)%nat -> (i < nd)%nat ->
  assemble npc nd r (one m) (n * nd + i)%nat = r (mkCell (fun a => a) m) (n * nd + i)%nat.
Proof.
  intros Hn Hi. rewrite assemble_row by exact Hi. cbn [one sum_over c_node]. rewrite (rsum_single npc n); [rewrite Nat.eqb_refl; ring|exact Hn|].
  intros j _ Hne. destruct (Nat.eqb_spec n j); [congruence|reflexivity].
Qed.
(** The reference temperature, and laws, entered in the unit of the scaled temperature. *)
Definition entered_unit (m : thermoelastic) : thermoelastic :=
  mkTM (m_nonlinear m) (m_stiff_const m) (m_stiff_fun m) (m_alpha_const m) (m_alpha_fun m) (m_cond_const m) (m_cond_fun m) (m_tref m) 1.
Lemma one_tm pen U Z m r n i : thermoelastostatic 2 pen square_X U Z (one m) = Ok r -> (n < 3)%nat -> (i < 2)%nat ->
  r (n * 3 + i)%nat = 1 / 2 * rsum 2 (fun j => tm_stress 2 m (strain 2 3 (fun _ => 0) U (cell_gradient 2 square_X)) (interpolate 2 3 2 U) (voigt 2 i j)
                                             * pen (cell_density 3 Z) * cell_gradient 2 square_X n j).
Proof.
  intros E Hn Hi. destruct (tm_ok 2 pen square_X U Z (one m) ltac:(lia)) as (r' & E' & H). rewrite E in E'. injection E' as <-. rewrite H.
  rewrite one_row by lia. unfold tm_cell_value. cbv zeta. rewrite mech_row by lia. cbn [c_mat].
  change (gather_coords square_X {| c_node := fun a => a; c_mat := m |}) with square_X.
  change (gather_control Z {| c_node := fun a => a; c_mat := m |}) with Z. rewrite one_measure. reflexivity.
Qed.
(** At the temperature unknown 23/2 with scaling 2 the body is at its reference temperature 23, yet it is stressed. *)
Theorem C101_refuted : exists m U r r', m_scale m = 2 /\ m_nonlinear m = false /\
  thermoelastostatic 2 (fun _ => 1) square_X U (fun _ => 1) (one m) = Ok r /\
  thermoelastostatic 2 (fun _ => 1) square_X (rescaled 3 2 2 U) (fun _ => 1) (one (entered_unit m)) = Ok r' /\ r' 0%nat = 0 /\ r 0%nat <> 0.
Proof.
  set (m := mkTM false (fun i j => if Nat.eqb i j then 7 else 0) (fun _ _ _ => 0) (fun i j => if Nat.eqb i j then 1 else 0) (fun _ _ _ => 0)
              (fun i j => 0) (fun _ _ _ => 0) 23 2).
  set (U := fun k : nat => if Nat.eqb (k mod 3) 2 then 23 / 2 else 0).
  destruct (tm_ok 2 (fun _ => 1) square_X U (fun _ => 1) (one m) ltac:(lia)) as (r & E & _).
  destruct (tm_ok 2 (fun _ => 1) square_X (rescaled 3 2 2 U) (fun _ => 1) (one (entered_unit m)) ltac:(lia)) as (r' & E' & _).
  exists m, U, r, r'. split; [reflexivity|]. split; [reflexivity|]. split; [exact E|]. split; [exact E'|].
  pose proof (one_tm _ _ _ _ _ 0 0 E ltac:(lia) ltac:(lia)) as H. pose proof (one_tm _ _ _ _ _ 0 0 E' ltac:(lia) ltac:(lia)) as H'.
  cbn [Nat.mul Nat.add] in H, H'. rewrite H, H'.
  assert (S0 : forall V, (forall a i, (a <= 2)%nat -> (i < 2)%nat -> V (a * 3 + i)%nat = 0) -> forall v, strain 2 3 (fun _ => 0) V (cell_gradient 2 square_X) v = 0).
  { intros V HV v. rewrite (strain_disp 2 3 V (fun _ => 0)) by (try lia; exact HV). unfold strain. destruct (nth_error _ v) as [[i j]|]; [|reflexivity].
    destruct (Nat.eqb i j); [apply rsum_0; intros; req; ring|]. rewrite rsum_0; [ring|]. intros; req; ring. }
  assert (EU : interpolate 2 3 2 U = 23 / 2).
  { apply interpolate_const; [lia|]. intros [|[|[|a]]] Ha; try lia; reflexivity. }
  assert (EV : interpolate 2 3 2 (rescaled 3 2 2 U) = 23).
  { apply interpolate_const; [lia|]. intros [|[|[|a]]] Ha; try lia; unfold rescaled, U; cbn; field. }
  unfold tm_stress. rewrite EU, EV.
  split.
  - rewrite rsum_0; [ring|]. intros j Hj. rewrite rsum_0; [req; ring|]. intros k Hk. rewrite S0.
    2: { intros [|[|[|a]]] [|[|i]] Ha Hi; try lia; reflexivity. }
    unfold thermal_strain_value. cbn [entered_unit m m_scale m_tref]. destruct (Nat.ltb k 2); req; ring.
  - rewrite (rsum_ext 2 _ (fun j => rsum 3 (fun k => (0 - thermal_strain_value 2 m (23 / 2) k) * m_stiff m (23 / 2) (voigt 2 0 j) k) * 1 * -1)).
    + unfold thermal_strain_value, m_stiff, m_alpha, m. rsums. cbn. lra.
    + intros j Hj. rewrite one_gradient by lia. f_equal. f_equal. apply rsum_ext. intros k Hk. rewrite S0; [reflexivity|].
      intros [|[|[|a]]] [|[|i]] Ha Hi; try lia; reflexivity.
Qed.
Print Assumptions C101_refuted.
(** The hypotheses of the first theorem: a scaled nonlinear material on the square. *)
Definition scaled_law : thermoelastic :=
  mkTM true (fun _ _ => 0) (fun T i j => if Nat.eqb i j then 7 + T else 2) (fun _ _ => 0) (fun T i j => if Nat.eqb i j then T / 10 else 0)
    (fun _ _ => 0) (fun T i j => if Nat.eqb i j then 3 + T * T else 0) 23 2.
Example C101_reachable : exists r r', thermoelastostatic 2 (fun z => z) square_X (fun k => INR k) (fun _ => 1) (square scaled_law) = Ok r /\
    thermoelastostatic 2 (fun z => z) square_X (rescaled 3 2 2 (fun k => INR k)) (fun _ => 1) (map (fun c => mkCell (c_node c) (in_unit 2 (c_mat c))) (square scaled_law)) = Ok r' /\
    forall n, (forall i, (i < 2)%nat -> r (n * 3 + i)%nat = r' (n * 3 + i)%nat) /\ r (n * 3 + 2)%nat = 2 * r' (n * 3 + 2)%nat.
Proof. apply C101_unit_partial; [lia|lra|]. intros c [<-|[<-|[]]]; reflexivity. Qed.

(** ** C102: the stiffness, expansivity and conductivity used are the ones entered. *)
(** Youngs modulus as entered: a number, or c0 + c1 T + c2 T^2. *)
Definition young_at (y : entry) (T : R) : option R :=
  match y with
  | Num E => Some E
  | Sub p => match p "c0"%string with Some c0 => Some (polynomial c0 (get_or p "c1"%string 0) (get_or p "c2"%string 0) T) | None => None end
  end.
(** A list is used exactly when the material is declared temperature dependent. *)
Definition declared (i : tm_input) (y : entry) : Prop := match y with Num _ => dependent i = false | Sub _ => dependent i = true end.
Lemma ok_bind {A B} (o : res A) (f : A -> res B) b : rbind o f = Ok b -> exists a, o = Ok a /\ f a = Ok b.
Proof. destruct o; cbn; intros H; try discriminate. eexists. split; [reflexivity|exact H]. Qed.
Lemma read_ok d i m : read_thermoelastic d i = Ok m -> exists s c a k, i_stiff i = Some s /\ parse_stiffness d (dependent i) s = Ok c /\
  parse_tensor d (dependent i) (i_expansivity i) = Ok a /\ parse_tensor d (dependent i) (i_conductivity i) = Ok k /\
  m = mkTM (dependent i) (fst c) (snd c) (fst a) (snd a) (fst k) (snd k) (match i_tref i with Some r => r | None => 23 end) (match i_scale i with Some r => r | None => 1 end).
Proof.
  unfold read_thermoelastic. destruct (i_stiff i) as [s|]; [|discriminate]. intros H. cbv zeta in H.
  apply ok_bind in H as (c & Ec & H). apply ok_bind in H as (a & Ea & H). apply ok_bind in H as (k & Ek & H). injection H as <-.
  exists s, c, a, k. repeat split; assumption.
Qed.
Lemma pattern_hooke d E v i j : (2 <= d <= 3)%nat -> (i < num_voigt d)%nat -> (j < num_voigt d)%nat -> (1 + v) * (1 - 2 * v) <> 0 ->
  isotropic_constant d E v i j = hooke_entry d E v i j.
Proof.
  intros Hd Hi Hj Hv. assert (1 + v <> 0) by (intros E0; apply Hv; rewrite E0; ring). assert (1 - 2 * v <> 0) by (intros E0; apply Hv; rewrite E0; ring).
  assert (ER : rs d (fun k => if Nat.eqb k j then 1 else 0) = if Nat.ltb j d then 1 else 0).
  { unfold rs. destruct (Nat.ltb_spec j d) as [L|L].
    - rewrite (rsum_single d j); [rewrite Nat.eqb_refl; reflexivity|exact L|]. intros k _ Hk. destruct (Nat.eqb_spec k j); [contradiction|reflexivity].
    - apply rsum_0. intros k Hk. destruct (Nat.eqb_spec k j); [lia|reflexivity]. }
  unfold isotropic_constant, hooke_entry, hooke, voigt_pattern, lame, shear_mod. rewrite ER.
  destruct (Nat.ltb_spec i d), (Nat.ltb_spec j d), (Nat.eqb_spec i j); try lia; cbn [andb]; field; repeat split; assumption.
Qed.
Theorem C102_isotropic_partial : forall d i s y v m T a b E, (2 <= d <= 3)%nat ->
  i_stiff i = Some s -> s_young s = Some y -> s_numbers s "Poissons Ratio"%string = Some v -> (1 + v) * (1 - 2 * v) <> 0 -> declared i y -> young_at y T = Some E ->
  read_thermoelastic d i = Ok m -> (a < num_voigt d)%nat -> (b < num_voigt d)%nat -> m_stiff m T a b = hooke_entry d E v a b.
Proof.
  intros d i s y v m T a b E Hd Es Ey Ev Hv Hdec HE H Ha Hb. destruct (read_ok d i m H) as (s' & c & al & k & Es' & Ec & _ & _ & ->).
  rewrite Es in Es'. injection Es' as <-. unfold parse_stiffness in Ec. rewrite Ey in Ec. unfold m_stiff. cbn [m_nonlinear m_stiff_const m_stiff_fun].
  destruct y as [r|p]; cbn [declared] in Hdec; rewrite Hdec.
  - cbn in HE. injection HE as <-. apply ok_bind in Ec as (v' & Ev' & Ec). unfold get in Ev'. rewrite Ev in Ev'. injection Ev' as <-. injection Ec as <-. cbn [fst].
    apply pattern_hooke; assumption.
  - apply ok_bind in Ec as (f & Ef & Ec). injection Ec as <-. cbn [snd]. unfold read_functor in Ef.
    apply ok_bind in Ef as (v' & Ev' & Ef). unfold get in Ev'. rewrite Ev in Ev'. injection Ev' as <-. apply ok_bind in Ef as (E0 & EE & Ef). injection Ef as <-.
    cbn [young_at] in HE. destruct (p "c0"%string) as [c0|] eqn:Ep; [|discriminate]. injection HE as <-.
    assert (c0 = E0) by (unfold get in EE; destruct d as [|[|[|[|d]]]]; try lia; rewrite Ep in EE; injection EE as <-; reflexivity). subst E0.
    rewrite <- pattern_hooke by assumption. unfold isotropic_constant, isotropic_functor, functor_at, voigt_pattern, polynomial.
    destruct d as [|[|[|[|d]]]]; try lia; cbv zeta; destruct (_ && _)%bool; destruct (Nat.eqb a b); ring.
Qed.
Print Assumptions C102_isotropic_partial.
(** The other way round the material is accepted and has no stiffness at all. *)
Theorem C102_mismatch : forall d i s y m T a b, i_stiff i = Some s -> s_young s = Some y -> ~ declared i y -> read_thermoelastic d i = Ok m -> m_stiff m T a b = 0.
Proof.
  intros d i s y m T a b Es Ey Hdec H. destruct (read_ok d i m H) as (s' & c & al & k & Es' & Ec & _ & _ & ->).
  rewrite Es in Es'. injection Es' as <-. unfold parse_stiffness in Ec. rewrite Ey in Ec. unfold m_stiff. cbn [m_nonlinear m_stiff_const m_stiff_fun].
  destruct y as [r|p]; cbn [declared] in Hdec; destruct (dependent i); try (exfalso; apply Hdec; reflexivity);
    apply ok_bind in Ec as (f & Ef & Ec); injection Ec as <-; reflexivity.
Qed.
Print Assumptions C102_mismatch.
Definition entered_steel (flag : option bool) (young : entry) : tm_input :=
  mkInput flag (Some (mkStiff (Some young) (fun k => if String.eqb k "Poissons Ratio" then Some (1 / 4) else None) None))
    (Some (Num (1 / 100))) (Some (Num 50)) None None.
Theorem C102_refuted : exists m m', read_thermoelastic 3 (entered_steel (Some true) (Num 200)) = Ok m /\
  read_thermoelastic 3 (entered_steel None (Sub (fun k => if String.eqb k "c0" then Some 200 else None))) = Ok m' /\
  forall T a b, m_stiff m T a b = 0 /\ m_stiff m' T a b = 0.
Proof.
  eexists. eexists. split; [reflexivity|]. split; [reflexivity|]. intros T a b. split; reflexivity.
Qed.
Print Assumptions C102_refuted.
(** Stiffness entries written directly in 'Elastic Stiffness' are refused: they are looked for in a second list of that name inside it. *)
Theorem C102_direct : forall d i s, i_stiff i = Some s -> s_young s = None -> s_nested s = None -> read_thermoelastic d i = Throw.
Proof. intros d i s E1 E2 E3. unfold read_thermoelastic. rewrite E1. unfold parse_stiffness. rewrite E2, E3. reflexivity. Qed.
Print Assumptions C102_direct.
Theorem C102_nested : forall d i s p m T a b, i_stiff i = Some s -> s_young s = None -> s_nested s = Some p -> read_thermoelastic d i = Ok m ->
  if dependent i then exists f, rank4_functor d p = Ok f /\ m_stiff m T a b = f T a b else exists c, rank4_constant d p = Ok c /\ m_stiff m T a b = c a b.
Proof.
  intros d i s p m T a b Es Ey En H. destruct (read_ok d i m H) as (s' & c & al & k & Es' & Ec & _ & _ & ->).
  rewrite Es in Es'. injection Es' as <-. unfold parse_stiffness in Ec. rewrite Ey, En in Ec. unfold m_stiff. cbn [m_nonlinear m_stiff_const m_stiff_fun].
  destruct (dependent i); apply ok_bind in Ec as (f & Ef & Ec); injection Ec as <-; exists f; split; (exact Ef || reflexivity).
Qed.
Print Assumptions C102_nested.
(** Expansivity and conductivity: a number is an isotropic constant; a list is read entry by entry, as constants c_ij or, in a temperature
    dependent material, as c0_ij + c1_ij T + c2_ij T^2; missing diagonal entries are the 11 entry, other missing ones are zero. *)
Definition tensor_entered (d : nat) (dep : bool) (e : entry) (T : R) (i j : nat) (r : R) : Prop :=
  match e with
  | Num c => r = if Nat.eqb i j then c else 0
  | Sub p =>
    if dep then exists f0, p (key "0" 0 0) = Some f0 /\
      r = polynomial (entered_tensor p "0" f0 i j) (entered_tensor p "1" (get_or p (key "1" 0 0) 0) i j) (entered_tensor p "2" (get_or p (key "2" 0 0) 0) i j) T
    else exists f, p (key "" 0 0) = Some f /\ r = entered_tensor p "" f i j
  end.
Lemma parse_tensor_entered d n e t T i j : (1 <= d <= 3)%nat -> (i < d)%nat -> (j < d)%nat -> parse_tensor d n (Some e) = Ok t ->
  tensor_entered d n e T i j (if n then snd t T i j else fst t i j).
Proof.
  intros Hd Hi Hj H. unfold parse_tensor in H. destruct e as [r|p], n; cbn [tensor_entered].
  - injection H as <-. cbn [snd]. unfold functor_at, diagonal, zero2. destruct (Nat.eqb i j); ring.
  - injection H as <-. reflexivity.
  - apply ok_bind in H as (f & Ef & H). injection H as <-. cbn [snd]. unfold tensor_functor in Ef. apply ok_bind in Ef as (a0 & E0 & Ef). injection Ef as <-.
    unfold get in E0. change (key "0" 0 0) with "c011"%string. destruct (p "c011"%string) as [f0|] eqn:Ep; [|discriminate]. injection E0 as <-.
    exists f0. split; [reflexivity|]. unfold functor_at, polynomial, entered_tensor, get_or, sym_entry, key.
    destruct d as [|[|[|[|d]]]]; try lia; destruct i as [|[|[|i]]]; try lia; destruct j as [|[|[|j]]]; try lia; cbn; rewrite ?Ep;
      repeat match goal with |- context [p ?s] => destruct (p s) end; ring.
  - apply ok_bind in H as (c & Ec & H). injection H as <-. cbn [fst]. unfold tensor_constant in Ec. apply ok_bind in Ec as (a0 & E0 & Ec). injection Ec as <-.
    unfold get in E0. change (key "" 0 0) with "c11"%string. destruct (p "c11"%string) as [f0|] eqn:Ep; [|discriminate]. injection E0 as <-.
    exists f0. split; [reflexivity|]. unfold entered_tensor, get_or, sym_entry, key.
    destruct d as [|[|[|[|d]]]]; try lia; destruct i as [|[|[|i]]]; try lia; destruct j as [|[|[|j]]]; try lia; cbn; rewrite ?Ep; reflexivity.
Qed.
Theorem C102_tensors : forall d i m T a b, (1 <= d <= 3)%nat -> (a < d)%nat -> (b < d)%nat -> read_thermoelastic d i = Ok m ->
  (exists ea ek, i_expansivity i = Some ea /\ i_conductivity i = Some ek /\
    tensor_entered d (dependent i) ea T a b (m_alpha m T a b) /\ tensor_entered d (dependent i) ek T a b (m_cond m T a b)) /\
  m_tref m = match i_tref i with Some r => r | None => 23 end /\ m_scale m = match i_scale i with Some r => r | None => 1 end.
Proof.
  intros d i m T a b Hd Ha Hb H. destruct (read_ok d i m H) as (s' & c & al & k & _ & _ & Eal & Ek & ->). split; [|split; reflexivity].
  destruct (i_expansivity i) as [ea|]; [|discriminate]. destruct (i_conductivity i) as [ek|]; [|discriminate]. exists ea, ek. split; [reflexivity|]. split; [reflexivity|].
  unfold m_alpha, m_cond. cbn [m_nonlinear m_alpha_const m_alpha_fun m_cond_const m_cond_fun].
  pose proof (parse_tensor_entered d (dependent i) ea al T a b Hd Ha Hb Eal) as H1. pose proof (parse_tensor_entered d (dependent i) ek k T a b Hd Ha Hb Ek) as H2.
  destruct (dependent i); split; assumption.
Qed.
Print Assumptions C102_tensors.
(** Hypotheses met: the same steel declared the right way, with a conductivity list. *)
Example C102_reachable : exists m, read_thermoelastic 3 (entered_steel (Some true) (Sub (fun k => if String.eqb k "c0" then Some 200 else if String.eqb k "c1" then Some (-1) else None))) = Ok m /\
  m_stiff m 10 3%nat 3%nat = 76.
Proof. eexists. split; [reflexivity|]. cbn. unfold functor_at, voigt_pattern. cbn. field. Qed.

(** ** C103: with 'Include Thermal Strain' false the energy criterion leaves the thermal strain out. *)
(** The option has no effect on any problem. *)
Theorem C103_ignored : forall d pen X U Z conn inc inc' m p,
  energy_criterion d pen X U Z conn (mkEnergyInput inc m p) = energy_criterion d pen X U Z conn (mkEnergyInput inc' m p).
Proof. reflexivity. Qed.
Print Assumptions C103_ignored.
Definition no_expansion (i : tm_input) : tm_input := mkInput (i_dependent i) (i_stiff i) (Some (Num 0)) (i_conductivity i) (i_tref i) (i_scale i).
(** One triangle stretched by one in the first direction, one degree above its reference temperature: the value is not that of the
    material without expansion. *)
Theorem C103_refuted : exists U w w',
  energy_criterion 2 (fun _ => 1) square_X U (fun _ => 1) [fun a => a] (mkEnergyInput (Some false) (entered_steel None (Num 200)) (fun _ => None)) = Ok w /\
  energy_criterion 2 (fun _ => 1) square_X U (fun _ => 1) [fun a => a] (mkEnergyInput None (no_expansion (entered_steel None (Num 200))) (fun _ => None)) = Ok w' /\
  w <> w'.
Proof.
  set (U := fun k : nat => if Nat.eqb k 3 then 1 else if Nat.eqb (k mod 3) 2 then 24 else 0).
  assert (EI : interpolate 2 3 2 U = 24) by (apply interpolate_const; [lia|]; intros [|[|[|a]]] Ha; try lia; reflexivity).
  assert (ES : forall v, (v < 3)%nat -> strain 2 3 (fun _ => 0) U (cell_gradient 2 square_X) v = if Nat.eqb v 0 then 1 else 0).
  { intros v Hv. unfold strain, voigt_pairs. destruct v as [|[|[|v]]]; try lia; cbn -[cell_gradient rsum]; rsums; cbn -[cell_gradient]; rewrite ?one_gradient by lia; cbn; ring. }
  assert (EG : forall k, (k < 2)%nat -> scalar_gradient 2 3 2 U (cell_gradient 2 square_X) k = 0).
  { intros k Hk. unfold scalar_gradient. rsums. cbn -[cell_gradient]. rewrite ?one_gradient by lia. destruct k as [|[|k]]; try lia; cbn; ring. }
  assert (V : forall m, exists w, tm_energy 2 (fun _ => 1) square_X U (fun _ => 1) [mkCell (fun a => a) m] = Ok w /\ w = 1 / 2 * tm_stress 2 m (fun v => if Nat.eqb v 0 then 1 else 0) 24 0).
  { intros m. unfold tm_energy.
    assert (EC : tm_energy_cell 2 (fun _ => 1) m square_X U (fun _ => 1) = Ok (1 / 2 * tm_stress 2 m (fun v => if Nat.eqb v 0 then 1 else 0) 24 0)).
    { unfold tm_energy_cell. cbv zeta.
      destruct (tm_kinetics_ok 2 m (strain 2 3 (fun _ => 0) U (cell_gradient 2 square_X)) (scalar_gradient 2 3 2 U (cell_gradient 2 square_X)) (interpolate 2 3 2 U) ltac:(lia)) as (s & E & H).
      rewrite E. cbn [rbind fst snd]. f_equal. unfold scalar_product, weigh. rewrite one_measure.
      rewrite (rsum_0 2) by (intros k Hk; rewrite EG by lia; req; ring).
      rewrite (rsum_single (num_voigt 2) 0); [|cbv; lia|].
      2: { intros v Hv Hne. rewrite ES by (cbv in Hv; lia). destruct (Nat.eqb_spec v 0); [contradiction|req; ring]. }
      rewrite ES by lia. rewrite H, EI. cbn [Nat.eqb].
      replace (tm_stress 2 m (strain 2 3 (fun _ => 0) U (cell_gradient 2 square_X)) 24 0) with (tm_stress 2 m (fun v => if Nat.eqb v 0 then 1 else 0) 24 0); [field|].
      unfold tm_stress. apply rsum_ext. intros j Hj. rewrite ES by (cbv in Hj; lia). reflexivity. }
    eexists. split; [|reflexivity]. unfold totalR. cbn [foldR c_mat].
    change (gather_coords square_X {| c_node := fun a => a; c_mat := m |}) with square_X.
    assert (EU : forall u, tm_energy_cell 2 (fun _ => 1) m square_X u (gather_control (fun _ => 1) {| c_node := fun a => a; c_mat := m |}) = tm_energy_cell 2 (fun _ => 1) m square_X u (fun _ => 1)) by reflexivity.
    rewrite EU.
    assert (EV : tm_energy_cell 2 (fun _ => 1) m square_X (gather 3 U {| c_node := fun a => a; c_mat := m |}) (fun _ => 1) = tm_energy_cell 2 (fun _ => 1) m square_X U (fun _ => 1)) by reflexivity.
    rewrite EV, EC. cbn [rbind]. f_equal. ring. }
  unfold energy_criterion, energy_material. cbn [g_material]. 
  destruct (read_thermoelastic 2 (entered_steel None (Num 200))) as [m| |] eqn:Em; try discriminate.
  destruct (read_thermoelastic 2 (no_expansion (entered_steel None (Num 200)))) as [m'| |] eqn:Em'; try discriminate.
  destruct (V m) as (w & Ew & Hw). destruct (V m') as (w' & Ew' & Hw'). exists U, w, w'. cbn [map rbind]. split; [exact Ew|]. split; [exact Ew'|].
  rewrite Hw, Hw'. injection Em as <-. injection Em' as <-. unfold tm_stress, thermal_strain_value, m_stiff, m_alpha. cbn [m_nonlinear m_stiff_const m_alpha_const m_scale m_tref fst snd].
  unfold num_voigt. rsums. unfold isotropic_constant, voigt_pattern, diagonal. cbn. lra.
Qed.
Print Assumptions C103_refuted.

(** ** C104: heat conduction is the same in a thermal and in a thermomechanical problem. *)
Definition thermal_part (m : thermoelastic) : thermal := mkThermal (m_nonlinear m) (m_cond_const m) (m_cond_fun m) 0 (fun _ => 0) 0 (fun _ => 0).
Definition temperatures (d : nat) (U : nat -> R) (n : nat) : R := U (n * S d + d)%nat.
(** The heat row of node n with prescribed flux F is the row of the thermal problem with the prescribed flux reversed. *)
Theorem C104_opposite : forall d pen X U Z P F cells, (2 <= d <= 3)%nat -> (forall c, In c cells -> m_scale (c_mat c) = 1) ->
  exists r, thermoelastostatic_full d pen X U Z P F cells = Ok r /\
    forall n, r (n * S d + d)%nat =
      thermostatic_full d pen X (temperatures d U) Z (fun k => - F k) (map (fun c => mkCell (c_node c) (thermal_part (c_mat c))) cells) n.
Proof.
  intros d pen X U Z P F cells Hd Hs. destruct (tm_ok d pen X U Z cells Hd) as (r & E & H). unfold thermoelastostatic_full. rewrite E. cbn [rbind].
  eexists. split; [reflexivity|]. intros n. cbv beta.
  rewrite (Nat.add_comm (n * S d)), Nat.mod_add, Nat.div_add by lia. rewrite Nat.mod_small, Nat.div_small by lia. rewrite Nat.add_0_l, Nat.ltb_irrefl.
  unfold thermostatic_full. rewrite (Nat.add_comm d), H. f_equal; [|ring]. unfold thermostatic.
  replace (assemble (S d) 1 _ (map _ cells) n) with (assemble (S d) 1 (fun c => thermostatic_cell d pen (c_mat c) (gather_coords X c) (gather 1 (temperatures d U) c) (gather_control Z c))
     (map (fun c => mkCell (c_node c) (thermal_part (c_mat c))) cells) (n * 1 + 0)%nat) by (f_equal; lia).
  rewrite <- (Rmult_1_l (assemble (S d) 1 _ _ _)).
  apply (assemble_rows (S d) (S d) 1 (fun c => mkCell (c_node c) (thermal_part (c_mat c)))); try lia; try reflexivity. intros c a Hc Ha.
  unfold tm_cell_value, thermostatic_cell. cbv zeta. cbn [c_mat]. rewrite scalar_row by exact Ha. rewrite flux_at_node by lia. rewrite Rplus_0_l, Rmult_1_l.
  change (gather_coords X {| c_node := c_node c; c_mat := thermal_part (c_mat c) |}) with (gather_coords X c).
  change (gather_control Z {| c_node := c_node c; c_mat := thermal_part (c_mat c) |}) with (gather_control Z c).
  change (gather 1 (temperatures d U) {| c_node := c_node c; c_mat := thermal_part (c_mat c) |}) with (gather 1 (temperatures d U) c).
  assert (G : forall b, gather 1 (temperatures d U) c (b * 1 + 0) = gather (S d) U c (b * S d + d)).
  { intros b. rewrite !gather_at by lia. unfold temperatures. f_equal. lia. }
  assert (EI : interpolate d 1 0 (gather 1 (temperatures d U) c) = interpolate d (S d) d (gather (S d) U c)).
  { unfold interpolate. apply rsum_ext. intros b _. rewrite G. reflexivity. }
  assert (EG : forall k, scalar_gradient d 1 0 (gather 1 (temperatures d U) c) (cell_gradient d (gather_coords X c)) k = scalar_gradient d (S d) d (gather (S d) U c) (cell_gradient d (gather_coords X c)) k).
  { intros k. unfold scalar_gradient. apply rsum_ext. intros b _. rewrite G. reflexivity. }
  rewrite <- !rsum_scal_l. apply rsum_ext. intros j Hj. unfold weigh.
  match goal with |- _ * (?A * ?p * ?g) = -1 * _ * (?B * _ * _) => assert (EQ : A = - B) end.
  { unfold tm_flux, flux_at, thermal_flux. rewrite EI. rewrite Ropp_minus_distr, Rminus_0_r. apply rsum_ext. intros k Hk. rewrite (Hs c Hc), EG. unfold m_cond, thermal_part.
    cbn [t_nonlinear t_cond_fun t_cond_const]. destruct (m_nonlinear (c_mat c)); req; ring. }
  rewrite EQ. req. ring.
Qed.
Print Assumptions C104_opposite.
(** Without prescribed flux the rows are the same. *)
Theorem C104_conduction_partial : forall d pen X U Z P cells, (2 <= d <= 3)%nat -> (forall c, In c cells -> m_scale (c_mat c) = 1) ->
  exists r, thermoelastostatic_full d pen X U Z P (fun _ => 0) cells = Ok r /\
    forall n, r (n * S d + d)%nat =
      thermostatic_full d pen X (temperatures d U) Z (fun _ => 0) (map (fun c => mkCell (c_node c) (thermal_part (c_mat c))) cells) n.
Proof.
  intros d pen X U Z P cells Hd Hs. destruct (C104_opposite d pen X U Z P (fun _ => 0) cells Hd Hs) as (r & E & H). exists r. split; [exact E|].
  intros n. rewrite H. unfold thermostatic_full. rewrite Ropp_0. reflexivity.
Qed.
Print Assumptions C104_conduction_partial.
Theorem C104_refuted : exists U F r, thermoelastostatic_full 2 (fun z => z) square_X U (fun _ => 1) (fun _ => 0) F (square heated) = Ok r /\
  r 2%nat <> thermostatic_full 2 (fun z => z) square_X (temperatures 2 U) (fun _ => 1) F (map (fun c => mkCell (c_node c) (thermal_part (c_mat c))) (square heated)) 0.
Proof.
  destruct (C104_opposite 2 (fun z => z) square_X (fun k => INR k) (fun _ => 1) (fun _ => 0) (fun _ => 1) (square heated) ltac:(lia)) as (r & E & H).
  { intros c [<-|[<-|[]]]; reflexivity. }
  exists (fun k => INR k), (fun _ => 1), r. split; [exact E|]. specialize (H 0%nat). cbn [Nat.mul Nat.add] in H. rewrite H. unfold thermostatic_full. lra.
Qed.
Print Assumptions C104_refuted.

(** ** C105: 'Alpha' of an electroelastic material is a change of unit of the potential. *)
Definition unit_alpha (m : electroelastic) : electroelastic := mkEM (p_stiff m) (p_piezo m) (p_perm m) 1.
Theorem C105_unit : forall d pen X U Z cells s, (1 <= d <= 3)%nat -> (forall c, In c cells -> p_alpha (c_mat c) = s) ->
  let r := electroelastostatic d pen X U Z cells in
  let r' := electroelastostatic d pen X (rescaled (S d) d s U) Z (map (fun c => mkCell (c_node c) (unit_alpha (c_mat c))) cells) in
  forall n, (forall i, (i < d)%nat -> r (n * S d + i)%nat = r' (n * S d + i)%nat) /\ r (n * S d + d)%nat = s * r' (n * S d + d)%nat.
Proof.
  intros d pen X U Z cells s Hd Hc. cbv zeta. intros n. unfold electroelastostatic.
  assert (EF : forall (c : cell electroelastic) k, em_field d (gather (S d) (rescaled (S d) d s U) c) (cell_gradient d (gather_coords X c)) k =
                        s * em_field d (gather (S d) U c) (cell_gradient d (gather_coords X c)) k).
  { intros c k. rewrite !em_field_gradient, gradient_rescaled. ring. }
  split; [intros i Hi; match goal with |- _ = ?q => rewrite <- (Rmult_1_l q) end|];
    apply (assemble_rows (S d) (S d) (S d) (fun c => mkCell (c_node c) (unit_alpha (c_mat c)))); try lia; try reflexivity; intros c a Hin Ha;
    unfold em_cell; cbv zeta; cbn [c_mat];
    change (gather (S d) (rescaled (S d) d s U) {| c_node := c_node c; c_mat := unit_alpha (c_mat c) |}) with (gather (S d) (rescaled (S d) d s U) c);
    change (gather_coords X {| c_node := c_node c; c_mat := unit_alpha (c_mat c) |}) with (gather_coords X c);
    change (gather_control Z {| c_node := c_node c; c_mat := unit_alpha (c_mat c) |}) with (gather_control Z c).
  - rewrite !mech_row by assumption. rewrite Rmult_1_l. f_equal. apply rsum_ext. intros j Hj. f_equal. unfold weigh. f_equal. unfold em_stress.
    cbn [unit_alpha p_stiff p_piezo p_alpha]. rewrite (Hc c Hin). f_equal.
    + apply rsum_ext. intros k Hk. rewrite strain_rescaled by lia. reflexivity.
    + apply rsum_ext. intros k Hk. rewrite EF. req. ring.
  - rewrite !scalar_row by assumption. rewrite <- !rsum_scal_l. apply rsum_ext. intros j Hj. unfold weigh.
    match goal with |- _ * (?A * ?p * ?g) = s * (_ * (?B * _ * _)) => assert (EQ : A = s * B) end.
    { unfold em_displacement. cbn [unit_alpha p_perm p_piezo p_alpha]. rewrite (Hc c Hin), Rmult_plus_distr_l. f_equal; rewrite <- rsum_scal_l; apply rsum_ext; intros k Hk.
      - rewrite EF. req. ring.
      - rewrite strain_rescaled by lia. req. ring. }
    rewrite EQ. req. ring.
Qed.
Print Assumptions C105_unit.
(** What is entered is what is used, in three dimensions. *)
Theorem C105_entered_partial : forall p m, read_electroelastic 3 p = Ok m -> p_alpha m = match p "Alpha"%string with Some a => a | None => 1 end.
Proof.
  intros p m H. unfold read_electroelastic in H. repeat (apply ok_bind in H as (? & _ & H)). injection H as <-. reflexivity.
Qed.
Print Assumptions C105_entered_partial.
(** Where the entered constants act.  The material is polarised along the last axis; the strain is given as a tensor.  'e33' couples the field along
    the axis with the strain along it, 'e31' with the strains across it, 'e15' a field across the axis with the shear between it and the axis;
    'p33' and 'p11' are the permittivities along and across the axis. *)
Definition strain_entry (d : nat) (e : nat -> nat -> R) (v : nat) : R :=
  match nth_error (voigt_pairs d) v with Some (i, j) => if Nat.eqb i j then e i i else e i j + e j i | None => 0 end.
Definition polarised (d : nat) (e15 e31 e33 : R) (e : nat -> nat -> R) (i : nat) : R :=
  if Nat.eqb i (d - 1) then e31 * rs (d - 1) (fun j => e j j) + e33 * e (d - 1)%nat (d - 1)%nat else e15 * (e i (d - 1)%nat + e (d - 1)%nat i).
Theorem C105_tensors : forall d p m, (1 <= d <= 3)%nat -> read_electroelastic d p = Ok m ->
  exists e15 e31 e33 p11 p33, p "e33"%string = Some e33 /\ p "p33"%string = Some p33 /\
    ((2 <= d)%nat -> p "e15"%string = Some e15 /\ p "e31"%string = Some e31 /\ p "p11"%string = Some p11) /\
    (forall e ef i, (i < d)%nat -> em_displacement d m (strain_entry d e) ef i =
       p_alpha m * polarised d e15 e31 e33 e i + p_alpha m * p_alpha m * (if Nat.eqb i (d - 1) then p33 else p11) * ef i).
Proof.
  intros d p m Hd H. unfold read_electroelastic in H. repeat (apply ok_bind in H as (? & ? & H)).
  assert (G : forall k w, get p k = Ok w -> p k = Some w). { intros k w E. unfold get in E. destruct (p k); [injection E as <-; reflexivity|discriminate]. }
  destruct d as [|[|[|[|d]]]]; try lia; repeat (apply ok_bind in H as (? & ?%G & H)); injection H as <-.
  - eexists 0, 0, _, 0, _. do 2 (split; [eassumption|]). split; [lia|]. intros e ef i Hi. destruct i as [|i]; [|lia]. unfold em_displacement, polarised, rs.
    cbn [p_perm p_piezo p_alpha]. rsums. cbn. ring.
  - do 5 eexists. do 2 (split; [eassumption|]). split; [intros _; repeat split; eassumption|]. intros e ef i Hi. unfold em_displacement, polarised, rs.
    destruct i as [|[|i]]; [| |lia]; cbn [p_perm p_piezo p_alpha]; rsums; cbn; ring.
  - do 5 eexists. do 2 (split; [eassumption|]). split; [intros _; repeat split; eassumption|]. intros e ef i Hi. unfold em_displacement, polarised, rs.
    destruct i as [|[|[|i]]]; [| | |lia]; cbn [p_perm p_piezo p_alpha]; rsums; cbn; ring.
Qed.
Print Assumptions C105_tensors.
(** In one and two dimensions it is ignored. *)
Theorem C105_ignored : forall d p m, (1 <= d <= 2)%nat -> read_electroelastic d p = Ok m -> p_alpha m = 1.
Proof.
  intros d p m Hd H. unfold read_electroelastic in H. destruct d as [|[|[|d]]]; try lia; repeat (apply ok_bind in H as (? & _ & H)); injection H as <-;
    cbn [p_alpha]; unfold em_alpha; destruct (p _); reflexivity.
Qed.
Print Assumptions C105_ignored.
Definition ceramic (alpha : R) : plist := fun k => if String.eqb k "Alpha" then Some alpha else if String.eqb k "Poissons Ratio" then Some (1 / 4) else Some 2.
Theorem C105_refuted : exists m, read_electroelastic 2 (ceramic 5) = Ok m /\ ceramic 5 "Alpha"%string = Some 5 /\ p_alpha m = 1.
Proof. eexists. split; [reflexivity|]. split; reflexivity. Qed.
Print Assumptions C105_refuted.
(** Hypotheses of the theorems on the change of unit: met by a material read in three dimensions. *)
Example C105_reachable : exists m, read_electroelastic 3 (ceramic 5) = Ok m /\ p_alpha m = 5 /\ p_piezo m 0%nat 4%nat = 2 /\ p_perm m 2%nat 2%nat = 2 /\
  forall c, In c (square m) -> p_alpha (c_mat c) = 5.
Proof. eexists. split; [reflexivity|]. do 3 (split; [reflexivity|]). intros c [<-|[<-|[]]]; reflexivity. Qed.
