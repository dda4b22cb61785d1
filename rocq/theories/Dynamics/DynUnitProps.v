(** C186: the motion of a body does not depend on the units of length, force and time. *)
From Coq Require Import Reals List Arith Bool Lia Lra Permutation.
From Verif Require Import Base.Field Base.Sums Base.Res BC.ConstraintsSpec BC.ConstraintsMain Element.ElementModel Element.ElementSpec Element.ElementProof Element.ElementProps
  Penalty.PenaltyModel Residual.Kernel Residual.ResidualModel Residual.ResidualSpec Residual.ResidualProof Residual.ResidualProps Residual.ResidualEnergyProps
  Residual.SupportSpec Residual.SupportProof Residual.SupportProps Residual.PotentialProps Residual.SolveSpec Residual.SolveProof Residual.Gauss
  Residual.FrameSpec Residual.FrameProof Residual.FrameProps Residual.NumberProps Residual.UnitProps Residual.FollowProps
  Problem.DenseBC Problem.EllipticProof Problem.HyperbolicModel Problem.HyperbolicSpec Problem.HyperbolicProof Problem.HyperbolicProps
  Dynamics.DynModel Dynamics.DynSpec Dynamics.DynProof Dynamics.DynProps Dynamics.DynEnergyProps Dynamics.DynStepProps Dynamics.DynFollowProps.
Import ListNotations.
Local Open Scope R_scope.

(** ** Specification *)
(** Moduli k times larger, densities r times larger, mass damping tau times smaller and stiffness damping tau times larger. *)
Definition similar_dynamic (d : nat) (k r tau : R) (m m' : dynamic) : Prop :=
  stiffer d k (y_law m) (y_law m') /\ y_rho m' = r * y_rho m /\ tau * y_ra m' = y_ra m /\ y_rb m' = tau * y_rb m.
(** The same entries are held at every time, at values s times larger at times tau times later. *)
Definition held_scaled (n : nat) (s : R) (bc bc' : list nat * list R) : Prop :=
  (forall i, (i < n)%nat -> (In i (fst bc) <-> In i (fst bc'))) /\
  exists V V', takes (fst bc) (snd bc) V /\ takes (fst bc') (snd bc') V' /\ scaled_values n s V V'.
(** The same Newmark parameters and number of steps, steps tau times longer, initial displacements s times, velocities s / tau times and accelerations s / tau^2 times larger. *)
Definition stepped_slower {Y Y'} (n : nat) (s tau : R) (p : hproblem R_field Y) (p' : hproblem R_field Y') : Prop :=
  hq_gamma p' = hq_gamma p /\ hq_beta p' = hq_beta p /\ hq_dt p' = (tau * hq_dt p)%R /\ hq_steps p' = hq_steps p /\
  scaled_values n s (hq_init_u p) (hq_init_u p') /\ scaled_values n (s / tau) (hq_init_v p) (hq_init_v p') /\ scaled_values n (s / (tau * tau)) (hq_init_a p) (hq_init_a p').

Lemma times_scaled (tau dt : R) k : times (K := R_field) k (tau * dt)%R = (tau * times (K := R_field) k dt)%R.
Proof.
  induction k as [|k IH]; cbn [times]; [exact (eq_sym (Rmult_0_r tau))|]. rewrite IH. exact (eq_sym (Rmult_plus_distr_l tau (times (K := R_field) k dt) dt)).
Qed.
Section Body.
Variables (d nn : nat) (pen : R -> R) (s k r tau : R) (X X' : nat -> nat -> R) (Z : nat -> R) (cells cells' : list (cell dynamic)).
Hypotheses (Hs : 0 < s) (Hk : 0 < k) (Ht : 0 < tau) (Hr : r * (s * s) = k * (tau * tau)).
Hypotheses (HX : scaled_places d nn s X X') (HC : moved_cells (similar_dynamic d k r tau) cells cells').
Lemma ratio : r = k * (tau * tau) / (s * s).
Proof. rewrite <- Hr. field. lra. Qed.
Lemma positive_scaled n C C' : (forall i j, (i < n)%nat -> (j < n)%nat -> C' i j = k * C i j) -> positive_form n C -> positive_form n C'.
Proof.
  intros E H e He. specialize (H e He). unfold rs in *. rewrite (rsum_ext n _ (fun i => k * (e i * rsum n (fun j => C i j * e j)))).
  - rewrite rsum_scal_l. apply Rmult_lt_0_compat; assumption.
  - intros i Hi. rewrite (rsum_ext n (fun j => C' i j * e j) (fun j => k * (C i j * e j))) by (intros j Hj; rewrite (E i j Hi Hj); req; ring). rewrite rsum_scal_l. req. ring.
Qed.
Lemma moved_in_nodes {M} (P : M -> M -> Prop) (cs cs' : list (cell M)) c' : moved_cells P cs cs' -> In c' cs' -> exists c, In c cs /\ c_node c' = c_node c /\ P (c_mat c) (c_mat c').
Proof.
  intros F Hc. induction F as [|x z l l' [E0 E] F IH]; [contradiction|]. destruct Hc as [->|Hc]; [exists x; split; [left; reflexivity|split; assumption]|].
  destruct (IH Hc) as (c & H1 & H2). exists c. split; [right; exact H1|exact H2].
Qed.
Lemma moved_in_back {M} (P : M -> M -> Prop) (cs cs' : list (cell M)) c : moved_cells P cs cs' -> In c cs -> exists c', In c' cs' /\ c_node c' = c_node c /\ P (c_mat c) (c_mat c').
Proof.
  intros F Hc. induction F as [|x z l l' [E0 E] F IH]; [contradiction|]. destruct Hc as [->|Hc]; [exists z; split; [left; reflexivity|split; assumption]|].
  destruct (IH Hc) as (c' & H1 & H2). exists c'. split; [right; exact H1|exact H2].
Qed.
Lemma body_scaled : moving_body d nn pen X Z cells -> moving_body d nn pen X' Z cells'.
Proof.
  intros [Hd Hm Ho Hc]. split; [exact Hd|exact (mesh_scaled d nn s X X' cells cells' Hd Hs Hm HX (moved_nodes _ _ _ HC))|rewrite (moved_nodes _ _ _ HC); exact Ho|].
  intros c' I. destruct (moved_in_nodes _ _ _ c' HC I) as (c & Ic & En & (T1 & _) & E1 & E2 & E3). destruct (Hc c Ic) as (H1 & H2 & H3 & H4 & H5 & H6).
  rewrite components_voigt in T1 by exact Hd. split; [|split; [|split; [|split; [|split]]]].
  - intros i j Hi Hj. rewrite !T1 by assumption. rewrite (H1 i j Hi Hj). reflexivity.
  - exact (positive_scaled _ _ _ T1 H2).
  - rewrite E1, ratio. apply Rmult_lt_0_compat; [|exact H3]. apply Rdiv_lt_0_compat; repeat apply Rmult_lt_0_compat; assumption.
  - apply (Rmult_le_reg_l tau); [exact Ht|]. rewrite E2, Rmult_0_r. exact H4.
  - rewrite E3. apply Rmult_le_pos; [lra|exact H5].
  - unfold solid in *. rewrite En. exact H6.
Qed.
Lemma affine_scaled t A n : (n < nn)%nat -> affine d t A X' n = affine d t (fun l => s * A l) X n.
Proof. intros Hn. unfold affine, rs. f_equal. apply rsum_ext. intros l Hl. rewrite (HX n l Hn Hl). req. ring. Qed.
Lemma steady_scaled held held' : mesh_ok d nn X cells -> (forall i, (i < nn * d)%nat -> held i = true -> held' i = true) -> steady d nn X cells held -> steady d nn X' cells' held'.
Proof.
  intros Hm HH St t A HA Hh Hc n i Hn Hi. rewrite affine_scaled by exact Hn. apply (St t (fun i l => s * A i l)); try assumption.
  - intros a b Ha Hb. rewrite (HA a b Ha Hb). req. ring.
  - intros m j Hmn Hj E. rewrite <- affine_scaled by exact Hmn. apply Hh; [exact Hmn|exact Hj|]. apply HH; [nia|exact E].
  - intros c j Ic Hj. destruct (moved_in_back _ _ _ c HC Ic) as (c' & Ic' & En & _). rewrite <- (Hc c' j Ic' Hj). f_equal. unfold rs. apply rsum_ext. intros l Hl.
    destruct (mesh_cell _ _ _ _ _ Hm Ic) as [Hnd _]. unfold centre, rs. rewrite En. rewrite (rsum_ext (S d) (fun a => X' (c_node c a) l) (fun a => s * X (c_node c a) l)) by (intros a Ha; apply HX; [apply Hnd; lia|exact Hl]).
    rewrite rsum_scal_l. unfold Rdiv. req. ring.
Qed.
Lemma damping_slow V j : (1 <= d <= 3)%nat -> mesh_ok d nn X cells -> (j < nn * d)%nat ->
  elastostatic d pen None X (fun i => V i / tau) Z (damping_cells cells) j = elastostatic d pen None X V Z (damping_cells cells) j / tau.
Proof.
  intros Hd Hm Hj. assert (M2 : mesh_ok d nn X (damping_cells cells)) by (apply mapped_mesh; [reflexivity|exact Hm]).
  rewrite !(static_entry d nn) by assumption. unfold Rdiv at 2. rewrite Rmult_comm, <- sum_over_scal. apply sum_over_ext. intros c Hc.
  unfold damping_cells in Hc. apply in_map_iff in Hc. destruct Hc as (c0 & <- & Ic). cbn [c_mat e_ref e_stiff].
  match goal with |- _ * rsum _ ?f = _ * (_ * rsum _ ?h) => rewrite (rsum_ext _ f (fun v => / tau * h v)) end; [rewrite rsum_scal_l; req; ring|]. intros v Hv.
  match goal with |- rsum _ ?f * _ = _ * (rsum _ ?h * _) => rewrite (rsum_ext _ f (fun w => / tau * h w)) end; [rewrite rsum_scal_l; req; ring|]. intros w Hw.
  match goal with |- (strain_of _ _ _ ?c _ - _) * _ = _ => pose proof (strain_of_lin d X (fun _ => 0) V (/ tau) c w Hd Hw) as E; pose proof (strain_of_lin d X (fun _ => 0) (fun _ => 0) 1 c w Hd Hw) as E0 end.
  assert (EV : strain_of d X (fun i => V i / tau) (mkCell (c_node c0) (mkElastic (fun i j0 => y_rb (c_mat c0) * e_stiff (y_law (c_mat c0)) i j0) (fun _ => 0))) w = strain_of d X (fun j0 => 0 + / tau * V j0) (mkCell (c_node c0) (mkElastic (fun i j0 => y_rb (c_mat c0) * e_stiff (y_law (c_mat c0)) i j0) (fun _ => 0))) w).
  { apply (strain_of_ext d nn); [exact Hd| |intros q _; unfold Rdiv; req; ring]. intros a Ha. destruct (mesh_cell _ _ _ _ _ Hm Ic) as [Hnd _]. exact (Hnd a Ha). }
  rewrite EV, E.
  assert (EZ : strain_of d X (fun _ => 0) (mkCell (c_node c0) (mkElastic (fun i j0 => y_rb (c_mat c0) * e_stiff (y_law (c_mat c0)) i j0) (fun _ => 0))) w = 0).
  { rewrite (strain_of_ext d nn X _ (fun _ => 0)) in E0; [lra|exact Hd| |intros q _; req; ring]. intros a Ha. destruct (mesh_cell _ _ _ _ _ Hm Ic) as [Hnd _]. exact (Hnd a Ha). }
  rewrite EZ. req. ring.
Qed.
Lemma mean_scaled {M N} q A A' (c : cell M) (c' : cell N) i : c_node c' = c_node c -> (forall a, (a <= d)%nat -> (c_node c a < nn)%nat) -> scaled_values (nn * d) q A A' -> (i < d)%nat ->
  mean_of d A' c' i = q * mean_of d A c i.
Proof.
  intros En Hn HA Hi. unfold mean_of, rs. rewrite En. rewrite (rsum_ext (S d) (fun a => A' (c_node c a * d + i)%nat) (fun a => q * A (c_node c a * d + i)%nat)).
  - rewrite rsum_scal_l. unfold Rdiv. req. ring.
  - intros a Ha. apply HA. specialize (Hn a ltac:(lia)). nia.
Qed.
Lemma forces_scaled U U' V V' A A' : moving_body d nn pen X Z cells -> scaled_values (nn * d) s U U' -> scaled_values (nn * d) (s / tau) V V' -> scaled_values (nn * d) (s / (tau * tau)) A A' ->
  scaled_values (nn * d) (k * s ^ (d - 1)) (elastodynamic d pen X U V A Z cells) (elastodynamic d pen X' U' V' A' Z cells').
Proof.
  intros B HU HV HA j Hj. pose proof (body_scaled B) as B'. pose proof (mo_dim _ _ _ _ _ _ B) as Hd. pose proof (mo_mesh _ _ _ _ _ _ B) as Hm. pose proof (mo_mesh _ _ _ _ _ _ B') as Hm'.
  assert (M1 : mesh_ok d nn X (stiffness_cells cells)) by (apply mapped_mesh; [reflexivity|exact Hm]).
  assert (M2 : mesh_ok d nn X (damping_cells cells)) by (apply mapped_mesh; [reflexivity|exact Hm]).
  assert (C1 : moved_cells (stiffer d k) (stiffness_cells cells) (stiffness_cells cells')) by (apply (moved_map (similar_dynamic d k r tau) _ y_law); [exact HC|intros m m' H; apply H]).
  assert (C2 : moved_cells (stiffer d (k * tau)) (damping_cells cells) (damping_cells cells')).
  { apply (moved_map (similar_dynamic d k r tau) _ (fun m => mkElastic (fun i j => y_rb m * e_stiff (y_law m) i j) (fun _ => 0))); [exact HC|].
    intros m m' ((T & _) & _ & _ & E). split; cbn [e_stiff e_ref]; [|reflexivity]. intros v w Hv Hw. rewrite E, (T v w Hv Hw). req. ring. }
  assert (HV2 : scaled_values (nn * d) s (fun i => V i / tau) V') by (intros i Hi; rewrite (HV i Hi); field; lra).
  destruct (C161_elastic d nn pen s k X X' U U' Z _ _ Hd Hs M1 HX HU C1) as (_ & S1 & _). destruct (C161_elastic d nn pen s (k * tau) X X' _ V' Z _ _ Hd Hs M2 HX HV2 C2) as (_ & S2 & _).
  pose proof (Nat.div_mod j d ltac:(lia)) as Ej. pose proof (Nat.mod_upper_bound j d ltac:(lia)) as Hi. assert (Hn : (j / d < nn)%nat) by (apply Nat.div_lt_upper_bound; lia).
  set (n := (j / d)%nat) in *. set (i := (j mod d)%nat) in *. assert (Ej' : j = (n * d + i)%nat) by lia. rewrite Ej' in *. clear Ej Ej'.
  rewrite (C174_parts d nn pen X' U' V' A' Z cells' n i Hd Hm' Hn Hi), (C174_parts d nn pen X U V A Z cells n i Hd Hm Hn Hi), (S1 _ Hj), (S2 _ Hj), (damping_slow V _ Hd Hm Hj).
  assert (I : inertia d pen X' Z cells' A' V' n i = k * s ^ (d - 1) * inertia d pen X Z cells A V n i).
  { unfold inertia. apply (scaled_cells _ _ _ _ _ _ HC). intros c c' Hc [En (_ & E1 & E2 & _)]. destruct (mesh_cell _ _ _ _ _ Hm Hc) as [Hnd Hv]. rewrite En. unfold rs. rewrite <- rsum_scal_l. apply rsum_ext. intros a Ha.
    destruct (Nat.eqb (c_node c a) n); [|req; ring]. unfold share, mass_of. rewrite E1, (mean_scaled _ A A' c c' i En Hnd HA Hi), (mean_scaled _ V V' c c' i En Hnd HV Hi).
    assert (W : weight_of d pen X' Z c' = s ^ d * weight_of d pen X Z c).
    { rewrite <- (weight_eq d pen X Z c Hd Hv). assert (Hc' : simplex_measure d (gather_coords X' c') <> 0).
      { unfold mesh_ok in Hm'. rewrite (moved_nodes _ _ _ HC) in Hm'. destruct (Hm' (c_node c) (in_map c_node _ _ Hc)) as [_ Hw]. unfold gather_coords. rewrite En. exact Hw. }
      rewrite <- (weight_eq d pen X' Z c' Hd Hc'). unfold gather_control, cell_measure. rewrite En.
      rewrite (volume_scaled d s (gather_coords X c) (gather_coords X' c') Hd Hs) by (intros b l Hb Hl; unfold gather_coords; rewrite En; apply HX; [apply Hnd; exact Hb|exact Hl]). req. ring. }
    rewrite W, ratio, <- E2. replace (s ^ d) with (s * s ^ (d - 1)) by (destruct d as [|dd]; [lia|cbn [Nat.sub pow]; rewrite Nat.sub_0_r; reflexivity]). req. field. split; [apply not_0_INR; lia|lra]. }
  rewrite I. req. field. lra.
Qed.
End Body.
Lemma back_u (U2 u v a a2 u' v' a' s tau h b : R) : 0 < s -> 0 < tau ->
  U2 = u' + tau * h * v' + tau * h * (tau * h) / (1 + 1) * ((1 - (1 + 1) * b) * a' + (1 + 1) * b * a2) -> u' = s * u -> v' = s / tau * v -> a' = s / (tau * tau) * a ->
  U2 / s = u + h * v + h * h / (1 + 1) * ((1 - (1 + 1) * b) * a + (1 + 1) * b * (tau * tau / s * a2)).
Proof. intros Hs Ht -> -> -> ->. field. lra. Qed.
Lemma back_v (V2 v a a2 v' a' s tau h g : R) : 0 < s -> 0 < tau -> V2 = v' + tau * h * ((1 - g) * a' + g * a2) -> v' = s / tau * v -> a' = s / (tau * tau) * a ->
  tau / s * V2 = v + h * ((1 - g) * a + g * (tau * tau / s * a2)).
Proof. intros Hs Ht -> -> ->. field. lra. Qed.
Lemma undo_u (x y s : R) : 0 < s -> x / s = y -> x = s * y. Proof. intros Hs <-. field. lra. Qed.
Lemma undo_t (t tau : R) : 0 < tau -> tau * (t / tau) = t. Proof. intros Ht. field. lra. Qed.
Lemma undo_w (x s : R) : 0 < s -> s * x / s = x. Proof. intros Hs. field. lra. Qed.
Lemma undo_v (x y s tau : R) : 0 < s -> 0 < tau -> tau / s * x = y -> x = s / tau * y. Proof. intros Hs Ht <-. field. lra. Qed.
Lemma undo_a (x y s tau : R) : 0 < s -> 0 < tau -> tau * tau / s * x = y -> x = s / (tau * tau) * y. Proof. intros Hs Ht <-. field. lra. Qed.

(** ** C186: a body s times as large, with moduli k times, densities r times larger, damped alike, in steps tau times as long, moves in the same way when r s^2 = k tau^2:
    displacements are s times, velocities s / tau times and accelerations s / tau^2 times those of the first. *)
Theorem C186 : forall (Y Y' : Type) (p : hproblem R_field Y) (y : Y) (p' : hproblem R_field Y') (y' : Y') (stored stored' : hhistory R_field) d nn pen s k r tau X X' Z cells cells' F F',
  moving_body d nn pen X Z cells -> 0 < s -> 0 < k -> 0 < tau -> r * (s * s) = k * (tau * tau) ->
  scaled_places d nn s X X' -> moved_cells (similar_dynamic d k r tau) cells cells' -> (forall t, steady d nn X cells (listed (fst (hq_bcs p t)))) ->
  poses_motion p y (nn * d) (fun U V A => elastodynamic d pen X U V A Z cells) F -> poses_motion p' y' (nn * d) (fun U V A => elastodynamic d pen X' U V A Z cells') F' ->
  stepped_slower (nn * d) s tau p p' -> (forall t, held_scaled (nn * d) s (hq_bcs p t) (hq_bcs p' (tau * t)%R)) -> (forall t, scaled_values (nn * d) (k * s ^ (d - 1)) (F t) (F' (tau * t))) ->
  forall j, (j < hq_steps p)%nat ->
  scaled_values (nn * d) s (hu (hsolution p y stored j)) (hu (hsolution p' y' stored' j)) /\
  scaled_values (nn * d) (s / tau) (hv (hsolution p y stored j)) (hv (hsolution p' y' stored' j)) /\
  scaled_values (nn * d) (s / (tau * tau)) (ha (hsolution p y stored j)) (ha (hsolution p' y' stored' j)).
Proof.
  intros Y Y' p y p' y' stored stored' d nn pen s k r tau X X' Z cells cells' F F' B Hs Hk Ht Hr HX HC St P P' (Eg & Eb & Et & Es & I1 & I2 & I3) HB HF j.
  pose proof (body_scaled d nn pen s k r tau X X' Z cells cells' Hs Hk Ht Hr HX HC B) as B'. pose proof (mo_mesh _ _ _ _ _ _ B) as Hm.
  assert (Hq : 0 < k * s ^ (d - 1)) by (apply Rmult_lt_0_compat; [exact Hk|apply pow_lt; exact Hs]).
  induction j as [|j IH]; intros Hj; [rewrite !hsolution_init; split; [exact I1|split; [exact I2|exact I3]]|].
  specialize (IH ltac:(lia)). destruct IH as (R1 & R2 & R3).
  pose proof (proj2 (C170_steps Y p y stored d nn pen X Z cells F B P St (S j) ltac:(lia))) as Un.
  assert (St' : forall t, steady d nn X' cells' (listed (fst (hq_bcs p' t)))).
  { intros t. apply (steady_scaled d nn s k r tau X X' cells cells' HX HC (listed (fst (hq_bcs p (t / tau)))) _ Hm); [|apply St].
    intros i Hi E. apply listed_in in E. apply listed_in. destruct (HB (t / tau)) as [Hin _]. apply (Hin i Hi) in E. rewrite (undo_t t tau Ht) in E. exact E. }
  pose proof (proj1 (C170_steps Y' p' y' stored' d nn pen X' Z cells' F' B' P' St' (S j) ltac:(lia))) as Ex. cbv zeta in Un, Ex.
  rewrite Eg, Eb, Et in Ex. rewrite times_scaled in Ex. replace (S j - 1)%nat with j in * by lia.
  set (t := times (K := R_field) (S j) (hq_dt p)) in *. set (prev := hsolution p y stored j) in *. set (prev' := hsolution p' y' stored' j) in *. set (cur' := hsolution p' y' stored' (S j)) in *.
  destruct Ex as (NW & T1 & T2). destruct (HB t) as (Hin & V & V' & HV & HV' & RV). destruct (pm_conditions _ _ _ _ _ P' (tau * t)%R) as (L' & _ & _). destruct (pm_conditions _ _ _ _ _ P t) as (_ & _ & Lt).
  set (cur := mkH (K := R_field) (fun i => hu cur' i / s) (fun i => tau / s * hv cur' i) (fun i => tau * tau / s * ha cur' i)).
  assert (Stp : motion_step (nn * d) (fun U V A => elastodynamic d pen X U V A Z cells) (F t) (hq_bcs p t) (hq_gamma p) (hq_beta p) (hq_dt p) prev cur).
  { split; [|split].
    - rewrite newmark_real in NW |- *. intros i Hi. destruct (NW i Hi) as [N1 N2]. split.
      + exact (back_u _ _ _ _ _ _ _ _ s tau _ _ Hs Ht N1 (R1 i Hi) (R2 i Hi) (R3 i Hi)).
      + exact (back_v _ _ _ _ _ _ s tau _ _ Hs Ht N2 (R2 i Hi) (R3 i Hi)).
    - intros i w I. pose proof (in_combine_l _ _ _ _ I) as Il. pose proof (Lt i Il) as Hi. rewrite <- (HV i w I).
      pose proof (takes_listed _ _ _ _ i L' T1 HV' (proj1 (Hin i Hi) Il)) as E. pose proof (eq_trans E (RV i Hi)) as E2. exact (eq_trans (f_equal (fun q => q / s) E2) (undo_w _ s Hs)).
    - intros i Hi Hn. assert (Hn' : ~ In i (fst (hq_bcs p' (tau * t)%R))) by (intros C; apply Hn; apply (Hin i Hi); exact C).
      pose proof (forces_scaled d nn pen s k r tau X X' Z cells cells' Hs Hk Ht Hr HX HC (hu cur) (hu cur') (hv cur) (hv cur') (ha cur) (ha cur') B
        (fun l _ => undo_u _ _ s Hs eq_refl) (fun l _ => undo_v _ _ s tau Hs Ht eq_refl) (fun l _ => undo_a _ _ s tau Hs Ht eq_refl) i Hi) as E.
      pose proof (eq_trans (eq_sym E) (eq_trans (T2 i Hi Hn') (HF t i Hi))) as E2. exact (Rmult_eq_reg_l _ _ _ E2 (Rgt_not_eq _ _ Hq)). }
  pose proof (Un _ Stp) as E. split; [|split]; intros i Hi; destruct (E i Hi) as (E1 & E2 & E3).
  - exact (undo_u _ _ s Hs E1).
  - exact (undo_v _ _ s tau Hs Ht E2).
  - exact (undo_a _ _ s tau Hs Ht E3).
Qed.
Print Assumptions C186.
(** The square of C170, twice as large, of a material four times as stiff and nine times as dense, in steps three times as long. *)
Definition heavy : dynamic := mkDyn (mkElastic (fun i j => 4 * e_stiff (y_law steel) i j) (fun _ => 0)) (9 * 8) (1 / 30) (3 / 5).
Definition large_X (n i : nat) : R := 2 * square_X n i.
Definition slowed {Y} (tau : R) (p : hproblem R_field Y) : hproblem R_field Y :=
  mkHProblem (K := R_field) (Z := Y) (hq_n p) (hq_steps p) (hq_bcs p) (hq_solve p) (hq_gamma p) (hq_beta p) (tau * hq_dt p)%R (hq_init_u p) (hq_init_v p) (hq_init_a p) (hq_pde p).
Lemma slowed_poses {Y} (p : hproblem R_field Y) y n val F tau : 0 < tau -> poses_motion p y n val F -> poses_motion (slowed tau p) y n val F.
Proof. intros Ht [A1 A2 A3 A4 A5 A6 A7 A8 A9 A10]. split; try assumption. exact (Rmult_lt_0_compat _ _ Ht A10). Qed.
Example C186_case :
  let p := body_problem 2 4 square_X (square steel) gust ([0; 1; 3]%nat, [0; 0; 0]) zero roll in
  let p' := slowed 3 (body_problem 2 4 large_X (square heavy) (fun t k => 8 / 3 * gust t k) ([0; 1; 3]%nat, [0; 0; 0]) zero (fun k => 2 / 3 * roll k)) in
  moving_body 2 4 (fun z => z) square_X (fun _ => 1) (square steel) /\ 9 * (2 * 2) = 4 * (3 * 3) /\
  scaled_places 2 4 2 square_X large_X /\ moved_cells (similar_dynamic 2 4 9 3) (square steel) (square heavy) /\ (forall t, steady 2 4 square_X (square steel) (listed (fst (hq_bcs p t)))) /\
  poses_motion p tt (4 * 2) (fun U V A => elastodynamic 2 (fun z => z) square_X U V A (fun _ => 1) (square steel)) gust /\
  poses_motion p' tt (4 * 2) (fun U V A => elastodynamic 2 (fun z => z) large_X U V A (fun _ => 1) (square heavy)) (fun t k => 8 / 3 * gust t k) /\
  stepped_slower (4 * 2) 2 3 p p' /\ (forall t, held_scaled (4 * 2) 2 (hq_bcs p t) (hq_bcs p' (3 * t)%R)) /\ (forall t, scaled_values (4 * 2) (4 * 2 ^ (2 - 1)) (gust t) (fun k => 8 / 3 * gust (3 * t) k)) /\ hq_steps p = 5%nat.
Proof.
  cbv zeta. destruct C170_case as (B & _ & S & _).
  assert (HX : scaled_places 2 4 2 square_X large_X) by (intros n i _ _; reflexivity).
  assert (MC : moved_cells (similar_dynamic 2 4 9 3) (square steel) (square heavy)).
  { assert (H : similar_dynamic 2 4 9 3 steel heavy) by (split; [split; intros; reflexivity|]; unfold steel, heavy; cbn; split; [lra|split; lra]). constructor; [split; [reflexivity|exact H]|]. constructor; [split; [reflexivity|exact H]|]. constructor. }
  assert (CO : conditions (4 * 2) [0; 1; 3]%nat [0; 0; 0]) by (split; [reflexivity|]; split; [repeat constructor; cbn; lia|]; intros k [<-|[<-|[<-|[]]]]; lia).
  split; [exact B|]. split; [ring|]. split; [exact HX|]. split; [exact MC|]. split; [intros t; exact S|]. split; [apply body_poses; [lia|apply square_ok|exact CO]|].
  split; [apply slowed_poses; [lra|]; apply body_poses; [lia|exact (mesh_scaled 2 4 2 square_X large_X _ _ ltac:(lia) ltac:(lra) (square_ok steel) HX (moved_nodes _ _ _ MC))|exact CO]|].
  split; [repeat (split; [reflexivity|]); split; [|split]; intros i _; cbn; req; try ring; reflexivity|].
  split.
  - intros t. split; [intros i _; reflexivity|]. exists (fun _ => 0), (fun _ => 0). split; [|split]; [| |intros i _; ring]; intros k v; cbn [hq_bcs body_problem slowed fst snd combine]; intros I; repeat (destruct I as [I|I]; [injection I as _ E; exact E|]); contradiction.
  - split; [|reflexivity]. intros t k _. unfold gust. destruct (Nat.eqb k 7); cbn; field.
Qed.
