(** C174, C175: the forces of a moving body, and that its motion follows the numbering and the frame. *)
From Coq Require Import Reals List Arith Bool Lia Lra Permutation FinFun.
From Verif Require Import Base.Field Base.Sums Base.Res BC.ConstraintsSpec BC.ConstraintsMain Element.MaterialModel Element.MaterialSpec Element.MaterialProps Element.ElementModel Element.ElementSpec Element.ElementProof Element.ElementProps
  Penalty.PenaltyModel Residual.Kernel Residual.ResidualModel Residual.ResidualSpec Residual.ResidualProof Residual.ResidualProps Residual.ResidualEnergyProps
  Residual.SupportSpec Residual.SupportProof Residual.SupportProps Residual.PotentialProps Residual.SolveSpec Residual.SolveProof Residual.Gauss
  Residual.FrameSpec Residual.FrameProof Residual.FrameProps Residual.NumberProps Residual.FollowProps
  Problem.DenseBC Problem.EllipticProof Problem.HyperbolicModel Problem.HyperbolicSpec Problem.HyperbolicProof Problem.HyperbolicProps
  Dynamics.DynModel Dynamics.DynSpec Dynamics.DynProof Dynamics.DynProps Dynamics.DynEnergyProps Dynamics.DynStepProps.
Import ListNotations.
Local Open Scope R_scope.

(** ** Specification *)
(** The elastic bodies whose static forces are the stiffness and the damping forces. *)
Definition stiffness_cells (cells : list (cell dynamic)) : list (cell elastic) := map (fun c => mkCell (c_node c) (y_law (c_mat c))) cells.
Definition damping_cells (cells : list (cell dynamic)) : list (cell elastic) :=
  map (fun c => mkCell (c_node c) (mkElastic (fun i j => y_rb (c_mat c) * e_stiff (y_law (c_mat c)) i j) (fun _ => 0))) cells.
(** Mass times mean acceleration, and mass damping times mean velocity, of a cell, shared equally by its corners. *)
Definition share (d : nat) (pen : R -> R) (X : nat -> nat -> R) (Z A V : nat -> R) (c : cell dynamic) (i : nat) : R :=
  mass_of d pen y_rho X Z c / INR (S d) * (mean_of d A c i + y_ra (c_mat c) * mean_of d V c i).
Definition inertia (d : nat) (pen : R -> R) (X : nat -> nat -> R) (Z : nat -> R) (cells : list (cell dynamic)) (A V : nat -> R) (n i : nat) : R :=
  sum_over cells (fun c => rs (S d) (fun a => if Nat.eqb (c_node c a) n then share d pen X Z A V c i else 0)).

Lemma sum_over_map {A B} (f : A -> B) (h : B -> R) l : sum_over (map f l) h = sum_over l (fun x => h (f x)).
Proof. induction l as [|x l IH]; [reflexivity|]. cbn. rewrite IH. reflexivity. Qed.
Lemma mapped_mesh {M N} d nn X (f : cell M -> cell N) cells : (forall c, c_node (f c) = c_node c) -> mesh_ok d nn X cells -> mesh_ok d nn X (map f cells).
Proof. intros H Hm. unfold mesh_ok. rewrite map_map. rewrite (map_ext _ c_node) by exact H. exact Hm. Qed.
Lemma static_entry d nn pen X U Z (cells : list (cell elastic)) k : (1 <= d <= 3)%nat -> mesh_ok d nn X cells -> (k < nn * d)%nat ->
  elastostatic d pen None X U Z cells k = sum_over cells (fun c => weight_of d pen X Z c *
    rsum (num_voigt d) (fun v => rsum (num_voigt d) (fun j => (strain_of d X U c j - e_ref (c_mat c) j) * e_stiff (c_mat c) v j) * strain_of d X (unit k) c v)).
Proof.
  intros Hd Hm Hk. rewrite <- (PotentialProps.work_unit (nn * d) _ k Hk). unfold elastostatic. rewrite assemble_work by exact (mesh_nodes d nn X cells Hm). apply sum_over_ext. intros c Hc.
  destruct (mesh_cell _ _ _ _ _ Hm Hc) as [_ Hv]. rewrite elastic_work by exact Hd. rewrite (weight_eq d pen X Z c Hd Hv). reflexivity.
Qed.
(** ** C174: the residual of a moving body is inertia plus the static forces of its displacements plus the damping forces of its velocities. *)
Theorem C174_parts : forall d nn pen X U V A Z cells n i, (1 <= d <= 3)%nat -> mesh_ok d nn X cells -> (n < nn)%nat -> (i < d)%nat ->
  elastodynamic d pen X U V A Z cells (n * d + i)%nat = inertia d pen X Z cells A V n i
    + elastostatic d pen None X U Z (stiffness_cells cells) (n * d + i)%nat + elastostatic d pen None X V Z (damping_cells cells) (n * d + i)%nat.
Proof.
  intros d nn pen X U V A Z cells n i Hd Hm Hn Hi. assert (Hk : (n * d + i < nn * d)%nat) by nia.
  assert (M1 : mesh_ok d nn X (stiffness_cells cells)) by (apply mapped_mesh; [reflexivity|exact Hm]).
  assert (M2 : mesh_ok d nn X (damping_cells cells)) by (apply mapped_mesh; [reflexivity|exact Hm]).
  rewrite (static_entry d nn pen X U Z _ _ Hd M1 Hk), (static_entry d nn pen X V Z _ _ Hd M2 Hk). unfold stiffness_cells, damping_cells. rewrite !sum_over_map.
  rewrite <- (PotentialProps.work_unit (nn * d) _ (n * d + i)%nat Hk), (dyn_work d nn) by assumption. unfold inertia. rewrite <- !sum_over_add. apply sum_over_ext. intros c Hc. cbn [c_mat].
  assert (MU : forall j, (j < d)%nat -> mean_of d (unit (n * d + i)) c j = delta i j * (rs (S d) (fun a => if Nat.eqb (c_node c a) n then 1 else 0) / INR (S d))).
  { intros j Hj. unfold mean_of. transitivity (delta i j * rs (S d) (fun a => if Nat.eqb (c_node c a) n then 1 else 0) / INR (S d)); [|unfold Rdiv; ring].
    f_equal. unfold rs. rewrite <- rsum_scal_l. apply rsum_ext. intros a _. unfold unit, delta.
    destruct (Nat.eqb_spec (c_node c a * d + j) (n * d + i)) as [E|E], (Nat.eqb_spec i j) as [E1|E1], (Nat.eqb_spec (c_node c a) n) as [E2|E2]; try (req; ring); exfalso; nia. }
  assert (IW : forall B, inertia_work d pen X Z c B (unit (n * d + i)) = mass_of d pen y_rho X Z c * (mean_of d B c i * (rs (S d) (fun a => if Nat.eqb (c_node c a) n then 1 else 0) / INR (S d)))).
  { intros B. unfold inertia_work. f_equal. unfold rs at 1.
    rewrite (rsum_ext d _ (fun j => delta i j * (mean_of d B c j * (rs (S d) (fun a => if Nat.eqb (c_node c a) n then 1 else 0) / INR (S d))))) by (intros j Hj; rewrite MU by exact Hj; req; ring).
    apply (rsum_delta d i (fun j => mean_of d B c j * (rs (S d) (fun a => if Nat.eqb (c_node c a) n then 1 else 0) / INR (S d))) Hi). }
  rewrite !IW.
  assert (SH : rs (S d) (fun a => if Nat.eqb (c_node c a) n then share d pen X Z A V c i else 0) = share d pen X Z A V c i * rs (S d) (fun a => if Nat.eqb (c_node c a) n then 1 else 0)).
  { unfold rs. rewrite <- rsum_scal_l. apply rsum_ext. intros a _. destruct (Nat.eqb _ n); req; ring. }
  rewrite SH. unfold share, stress_power, stiff, rs, Rdiv.
  change (strain_of d X U (mkCell (c_node c) (y_law (c_mat c)))) with (strain_of d X U c).
  change (strain_of d X (unit (n * d + i)) (mkCell (c_node c) (y_law (c_mat c)))) with (strain_of d X (unit (n * d + i)) c).
  change (weight_of d pen X Z (mkCell (c_node c) (y_law (c_mat c)))) with (weight_of d pen X Z c).
  match goal with |- context [weight_of d pen X Z (mkCell (c_node c) ?m)] =>
    change (weight_of d pen X Z (mkCell (c_node c) m)) with (weight_of d pen X Z c);
    change (strain_of d X V (mkCell (c_node c) m)) with (strain_of d X V c); change (strain_of d X (unit (n * d + i)) (mkCell (c_node c) m)) with (strain_of d X (unit (n * d + i)) c) end.
  cbn [e_stiff e_ref].
  rewrite (rsum_ext (num_voigt d) (fun v => rsum (num_voigt d) (fun j => (strain_of d X V c j - 0) * (y_rb (c_mat c) * e_stiff (y_law (c_mat c)) v j)) * strain_of d X (unit (n * d + i)) c v)
    (fun v => y_rb (c_mat c) * (rsum (num_voigt d) (fun j => strain_of d X V c j * e_stiff (y_law (c_mat c)) v j) * strain_of d X (unit (n * d + i)) c v))).
  2: { intros v _. rewrite (rsum_ext _ (fun j => (strain_of d X V c j - 0) * (y_rb (c_mat c) * e_stiff (y_law (c_mat c)) v j)) (fun j => y_rb (c_mat c) * (strain_of d X V c j * e_stiff (y_law (c_mat c)) v j))) by (intros; req; ring).
       rewrite rsum_scal_l. req. ring. }
  rewrite rsum_scal_l. req. ring.
Qed.
Print Assumptions C174_parts.
(** At rest it is the static residual. *)
Theorem C174_static : forall d nn pen X U Z cells n i, (1 <= d <= 3)%nat -> mesh_ok d nn X cells -> (n < nn)%nat -> (i < d)%nat ->
  elastodynamic d pen X U (fun _ => 0) (fun _ => 0) Z cells (n * d + i)%nat = elastostatic d pen None X U Z (stiffness_cells cells) (n * d + i)%nat.
Proof.
  intros d nn pen X U Z cells n i Hd Hm Hn Hi. rewrite (C174_parts d nn) by assumption.
  assert (Z1 : inertia d pen X Z cells (fun _ => 0) (fun _ => 0) n i = 0).
  { unfold inertia. apply sum_over_0. intros c _. unfold rs. apply rsum_0. intros a _. destruct (Nat.eqb _ n); [|reflexivity]. unfold share, mean_of, rs. rewrite rsum_0 by reflexivity. unfold Rdiv. req. ring. }
  assert (M2 : mesh_ok d nn X (damping_cells cells)) by (apply mapped_mesh; [reflexivity|exact Hm]).
  assert (Z2 : elastostatic d pen None X (fun _ => 0) Z (damping_cells cells) (n * d + i)%nat = 0).
  { refine (proj1 (C96_rest d nn pen X Z Hd) (damping_cells cells) (fun _ => 0) (fun _ _ => 0) (fun _ => 0) M2 _ _ _ _).
    - intros m j _ _. unfold affine, rs. rewrite rsum_0; [ring|]. intros. req. ring.
    - intros a b _ _. ring.
    - intros c v Hc _. unfold damping_cells in Hc. apply in_map_iff in Hc. destruct Hc as (c1 & <- & _). reflexivity. }
  rewrite Z1, Z2. ring.
Qed.
Print Assumptions C174_static.

(** ** C175: the forces follow the frame *)
(** The same mass and damping, the elastic law turned by Q. *)
Definition turned_dynamic (d : nat) (Q : nat -> nat -> R) (m m' : dynamic) : Prop :=
  y_rho m' = y_rho m /\ y_ra m' = y_ra m /\ y_rb m' = y_rb m /\ turned_law d Q (e_stiff (y_law m)) (e_ref (y_law m)) (e_stiff (y_law m')) (e_ref (y_law m')).
Lemma turned_stiffness d Q b C ref C' ref' : (1 <= d <= 3)%nat -> turned_law d Q C ref C' ref' -> turned_law d Q (fun i j => b * C i j) (fun _ => 0) (fun i j => b * C' i j) (fun _ => 0).
Proof.
  intros Hd H e e' He i j Hi Hj.
  assert (L : forall D r (f : nat -> R) v, law d (fun i j => b * D i j) (fun _ => 0) f v = b * (law d D r f v - law d D r (fun _ => 0) v)).
  { intros D r f v. unfold law, rs. rewrite <- rsum_sub, <- rsum_scal_l. apply rsum_ext. intros. req. ring. }
  assert (Z0 : forall k l, as_strain d (fun _ => 0) k l = 0) by (intros; unfold as_strain; destruct (Nat.eqb k l); [reflexivity|unfold Rdiv; ring]).
  pose proof (H e e' He i j Hi Hj) as E1.
  pose proof (H (fun _ => 0) (fun _ => 0)) as E2. specialize (E2 ltac:(intros k l _ _; rewrite Z0; unfold turn_tensor, rs; symmetry; apply rsum_0; intros x _; apply rsum_0; intros y _; rewrite Z0; req; ring) i j Hi Hj).
  unfold as_stress in *. rewrite (L C' ref'), E1, E2. unfold turn_tensor, rs. rewrite <- rsum_sub, <- rsum_scal_l. apply rsum_ext. intros k _.
  rewrite <- rsum_sub, <- rsum_scal_l. apply rsum_ext. intros l _. rewrite (L C ref). req. ring.
Qed.
Lemma moved_map {M N} (P : M -> M -> Prop) (P' : N -> N -> Prop) (f : M -> N) (cells cells' : list (cell M)) : moved_cells P cells cells' -> (forall m m', P m m' -> P' (f m) (f m')) ->
  moved_cells P' (map (fun c => mkCell (c_node c) (f (c_mat c))) cells) (map (fun c => mkCell (c_node c) (f (c_mat c))) cells').
Proof. intros F H. induction F as [|x z l l' [E1 E2] F IH]; cbn [map]; constructor; [split; [exact E1|apply H; exact E2]|exact IH]. Qed.
Lemma mean_carried {M N} d nn Q A A' (c : cell M) (c' : cell N) i : c_node c' = c_node c -> (forall a, (a <= d)%nat -> (c_node c a < nn)%nat) -> carried d nn d Q A A' -> (i < d)%nat ->
  mean_of d A' c' i = turn d Q (mean_of d A c) i.
Proof.
  intros EN Hn HA Hi. unfold mean_of, turn. rewrite EN. unfold rs, Rdiv.
  rewrite (rsum_ext (S d) _ (fun a => rsum d (fun j => Q i j * A (c_node c a * d + j)%nat))).
  2: { intros a Ha. apply HA; [apply Hn; lia|exact Hi]. }
  rewrite rsum_swap. rewrite (Rmult_comm _ (/ INR (S d))), <- rsum_scal_l. apply rsum_ext. intros j _. rewrite rsum_scal_l. req. ring.
Qed.
Theorem C175_frame : forall d nn pen t Q X X' U U' V V' A A' Z cells cells', (1 <= d <= 3)%nat -> orthogonal d Q -> mesh_ok d nn X cells -> placed d nn t Q X X' ->
  moved_cells (turned_dynamic d Q) cells cells' -> carried d nn d Q U U' -> carried d nn d Q V V' -> carried d nn d Q A A' ->
  mesh_ok d nn X' cells' /\ carried d nn d Q (elastodynamic d pen X U V A Z cells) (elastodynamic d pen X' U' V' A' Z cells').
Proof.
  intros d nn pen t Q X X' U U' V V' A A' Z cells cells' Hd HQ Hm HP HC HU HV HA.
  pose proof (moved_mesh d nn t Q X X' _ cells cells' Hd HQ Hm HP HC) as Hm'. split; [exact Hm'|]. intros n i Hn Hi.
  assert (M1 : mesh_ok d nn X (stiffness_cells cells)) by (apply mapped_mesh; [reflexivity|exact Hm]).
  assert (M2 : mesh_ok d nn X (damping_cells cells)) by (apply mapped_mesh; [reflexivity|exact Hm]).
  assert (C1 : moved_cells (fun m m' => turned_law d Q (e_stiff m) (e_ref m) (e_stiff m') (e_ref m')) (stiffness_cells cells) (stiffness_cells cells')).
  { apply (moved_map (turned_dynamic d Q) _ y_law); [exact HC|]. intros m m' H. apply H. }
  assert (C2 : moved_cells (fun m m' => turned_law d Q (e_stiff m) (e_ref m) (e_stiff m') (e_ref m')) (damping_cells cells) (damping_cells cells')).
  { apply (moved_map (turned_dynamic d Q) _ (fun m => mkElastic (fun i j => y_rb m * e_stiff (y_law m) i j) (fun _ => 0))); [exact HC|]. intros m m' (_ & _ & E & H). cbn [e_stiff e_ref]. rewrite E.
    apply (turned_stiffness d Q (y_rb m) _ _ _ _ Hd H). }
  destruct (C159_elastic d nn pen t Q X X' U U' Z _ _ Hd HQ M1 HP HU C1) as (_ & S1 & _). destruct (C159_elastic d nn pen t Q X X' V V' Z _ _ Hd HQ M2 HP HV C2) as (_ & S2 & _).
  rewrite (C174_parts d nn pen X' U' V' A' Z cells' n i Hd Hm' Hn Hi), (S1 n i Hn Hi), (S2 n i Hn Hi).
  rewrite (turn_ext d Q (fun j => elastodynamic d pen X U V A Z cells (n * d + j)%nat) (fun j => inertia d pen X Z cells A V n j
    + elastostatic d pen None X U Z (stiffness_cells cells) (n * d + j)%nat + elastostatic d pen None X V Z (damping_cells cells) (n * d + j)%nat)) by (intros j Hj; apply (C174_parts d nn); assumption).
  assert (I : inertia d pen X' Z cells' A' V' n i = turn d Q (inertia d pen X Z cells A V n) i).
  { unfold inertia, turn. unfold rs at 2. rewrite (rsum_ext d _ (fun j => sum_over cells (fun c => Q i j * rs (S d) (fun a => if Nat.eqb (c_node c a) n then share d pen X Z A V c j else 0)))) by (intros j _; symmetry; apply sum_over_scal).
    rewrite sum_over_swap. apply (sum_over_pairs _ _ _ _ _ HC). intros c c' Hc [EN (E1 & E2 & _)]. destruct (mesh_cell _ _ _ _ _ Hm Hc) as [Hk Hv].
    assert (W : weight_of d pen X' Z c' = weight_of d pen X Z c).
    { destruct c' as [nd m']. cbn [c_node] in EN. subst nd. pose proof (mesh_placed _ _ _ _ _ _ _ _ Hm HP Hc) as Px.
      rewrite <- (weight_eq d pen X Z c Hd Hv). rewrite <- (measure_of_volume d _ _ (volume_turned d Q t _ _ Hd HQ Px)).
      symmetry. etransitivity; [|apply (weight_eq d pen X' Z c Hd)]; [reflexivity|]. apply det_measure_iff; [exact Hd|].
      apply (det_of_volume d (gather_coords X c)); [exact (volume_turned d Q t _ _ Hd HQ Px)|apply det_measure; assumption]. }
    assert (SH : share d pen X' Z A' V' c' i = rsum d (fun j => Q i j * share d pen X Z A V c j)).
    { unfold share, mass_of. rewrite W, E1, E2, (mean_carried d nn Q A A' c c' i EN Hk HA Hi), (mean_carried d nn Q V V' c c' i EN Hk HV Hi). unfold turn, rs.
      rewrite <- (rsum_scal_l d (y_ra (c_mat c))), <- rsum_add, <- rsum_scal_l. apply rsum_ext. intros. req. ring. }
    rewrite EN, SH. unfold rs. cbv beta.
    transitivity (rsum d (fun j => rsum (S d) (fun a => if Nat.eqb (c_node c a) n then Q i j * share d pen X Z A V c j else 0))).
    - rewrite rsum_swap. apply rsum_ext. intros a _. destruct (Nat.eqb _ n); [reflexivity|]. symmetry. apply rsum_0. reflexivity.
    - apply rsum_ext. intros j _. rewrite <- rsum_scal_l. apply rsum_ext. intros a _. destruct (Nat.eqb _ n); [reflexivity|req; ring]. }
  rewrite I. unfold turn, rs. rewrite <- !rsum_add. apply rsum_ext. intros j _. req. ring.
Qed.
Print Assumptions C175_frame.

(** The same displacements prescribed at the renumbered nodes; on the turned body, at the same nodes in all directions with turned values. *)
Definition held_renumbered (d nn : nat) (q : nat -> nat) (bc bc' : list nat * list R) : Prop :=
  (forall n i, (n < nn)%nat -> (i < d)%nat -> (In (n * d + i)%nat (fst bc) <-> In (q n * d + i)%nat (fst bc'))) /\
  exists V V', takes (fst bc) (snd bc) V /\ takes (fst bc') (snd bc') V' /\ same_values nn d q V V'.
Definition held_turned (d nn : nat) (Q : nat -> nat -> R) (bc bc' : list nat * list R) : Prop :=
  (forall n i j, (n < nn)%nat -> (i < d)%nat -> (j < d)%nat -> (In (n * d + i)%nat (fst bc) <-> In (n * d + j)%nat (fst bc'))) /\
  exists V V', takes (fst bc) (snd bc) V /\ takes (fst bc') (snd bc') V' /\ carried d nn d Q V V'.
(** Two problems stepped alike from related initial states. *)
Definition stepped_alike {Y Y'} (rel : (nat -> R) -> (nat -> R) -> Prop) (p : hproblem R_field Y) (p' : hproblem R_field Y') : Prop :=
  hq_gamma p' = hq_gamma p /\ hq_beta p' = hq_beta p /\ hq_dt p' = hq_dt p /\ hq_steps p' = hq_steps p /\
  rel (hq_init_u p) (hq_init_u p') /\ rel (hq_init_v p) (hq_init_v p') /\ rel (hq_init_a p) (hq_init_a p').

(** ** C175: the forces follow the numbering *)
Lemma renumbered_map {M N} d q (f : M -> N) (cells cells' : list (cell M)) : renumbered d q cells cells' ->
  renumbered d q (map (fun c => mkCell (c_node c) (f (c_mat c))) cells) (map (fun c => mkCell (c_node c) (f (c_mat c))) cells').
Proof.
  intros (mid & HP & F). exists (map (fun c => mkCell (c_node c) (f (c_mat c))) mid). split; [apply Permutation_map; exact HP|].
  clear HP. induction F as [|x z l l' (E1 & H) F IH]; cbn [map]; constructor; [split; [cbn [c_mat]; rewrite E1; reflexivity|exact H]|exact IH].
Qed.
Lemma renumbered_pairs {M} d q (cells cells' : list (cell M)) : renumbered d q cells cells' ->
  (forall c, In c cells -> exists c' s s', In c' cells' /\ c_mat c' = c_mat c /\ corner_bijection d s s' /\ forall a, (a <= d)%nat -> c_node c' a = q (c_node c (s a))) /\
  (forall c', In c' cells' -> exists c s s', In c cells /\ c_mat c' = c_mat c /\ corner_bijection d s s' /\ forall a, (a <= d)%nat -> c_node c' a = q (c_node c (s a))).
Proof.
  intros (mid & HP & F). split.
  - intros c Hc. apply (Permutation_in _ HP) in Hc. clear HP. induction F as [|x z l l' (E1 & s & s' & H1 & H2) F IH]; [contradiction|]. destruct Hc as [->|Hc].
    + exists z, s, s'. split; [left; reflexivity|]. split; [exact E1|]. split; assumption.
    + destruct (IH Hc) as (c' & t & t' & I & G). exists c', t, t'. split; [right; exact I|exact G].
  - intros c' Hc'. assert (G : exists c s s', In c mid /\ c_mat c' = c_mat c /\ corner_bijection d s s' /\ forall a, (a <= d)%nat -> c_node c' a = q (c_node c (s a))).
    { clear HP. induction F as [|x z l l' (E1 & s & s' & H1 & H2) F IH]; [contradiction|]. destruct Hc' as [->|Hc'].
      + exists x, s, s'. split; [left; reflexivity|]. split; [exact E1|]. split; assumption.
      + destruct (IH Hc') as (c & t & t' & I & G). exists c, t, t'. split; [right; exact I|exact G]. }
    destruct G as (c & s & s' & I & G). exists c, s, s'. split; [apply (Permutation_in _ (Permutation_sym HP)); exact I|exact G].
Qed.
Section Numbering.
Variables (d nn : nat) (q : nat -> nat) (X X' : nat -> nat -> R) (Z Z' : nat -> R) (cells cells' : list (cell dynamic)) (pen : R -> R).
Hypothesis Hd : (1 <= d <= 3)%nat.
Hypothesis Hm : mesh_ok d nn X cells.
Hypothesis HN : renumbered_problem d nn q X X' Z Z' cells cells'.
Let Hq : node_bijection nn q := proj1 HN.
Let HX : same_places nn d q X X' := proj1 (proj2 HN).
Let HZ : same_values nn 1 q Z Z' := proj1 (proj2 (proj2 HN)).
Let HC : renumbered d q cells cells' := proj2 (proj2 (proj2 HN)).
Lemma numbered_mesh : mesh_ok d nn X' cells'.
Proof. exact (renumbered_mesh d nn q X X' cells cells' Hd Hq Hm HX HC). Qed.
Lemma numbered_mean A A' (c c' : cell dynamic) s s' i : In c cells -> corner_bijection d s s' -> (forall a, (a <= d)%nat -> c_node c' a = q (c_node c (s a))) -> same_values nn d q A A' -> (i < d)%nat ->
  mean_of d A' c' i = mean_of d A c i.
Proof.
  intros Hc Hs Hn HA Hi. destruct (mesh_cell _ _ _ _ _ Hm Hc) as [Hk _]. unfold mean_of. f_equal. unfold rs. apply (sum_corners d s s' (fun a => A (c_node c a * d + i)%nat)); [exact Hs|].
  intros a Ha. rewrite Hn by exact Ha. apply HA; [apply Hk; apply Hs; exact Ha|exact Hi].
Qed.
Lemma numbered_centre (c c' : cell dynamic) s s' i : In c cells -> corner_bijection d s s' -> (forall a, (a <= d)%nat -> c_node c' a = q (c_node c (s a))) -> (i < d)%nat -> centre d X' c' i = centre d X c i.
Proof.
  intros Hc Hs Hn Hi. destruct (mesh_cell _ _ _ _ _ Hm Hc) as [Hk _]. unfold centre. f_equal. unfold rs. apply (sum_corners d s s' (fun a => X (c_node c a) i)); [exact Hs|].
  intros a Ha. rewrite Hn by exact Ha. apply HX; [apply Hk; apply Hs; exact Ha|exact Hi].
Qed.
Lemma numbered_weight (c c' : cell dynamic) s s' : In c cells -> In c' cells' -> corner_bijection d s s' -> (forall a, (a <= d)%nat -> c_node c' a = q (c_node c (s a))) ->
  weight_of d pen X' Z' c' = weight_of d pen X Z c.
Proof.
  intros Hc Hc' Hs Hn. destruct (mesh_cell _ _ _ _ _ Hm Hc) as [_ Hv]. destruct (mesh_cell _ _ _ _ _ numbered_mesh Hc') as [_ Hv'].
  destruct (renumbered_cell d nn q X X' Z Z' cells Hd Hm HX HZ c c' s s' Hc Hs Hn) as (A1 & A2 & _).
  rewrite <- (weight_eq d pen X Z c Hd Hv), <- (weight_eq d pen X' Z' c' Hd Hv').
  rewrite (measure_of_volume d (gather_coords X c) (gather_coords X' c') (volume_corners d s s' _ _ Hd Hs A1)), (density_corners d s s' (gather_control Z c) (gather_control Z' c') Hs A2). reflexivity.
Qed.
Lemma numbered_solid (c c' : cell dynamic) s s' : In c cells -> corner_bijection d s s' -> (forall a, (a <= d)%nat -> c_node c' a = q (c_node c (s a))) -> solid d pen Z c -> solid d pen Z' c'.
Proof.
  intros Hc Hs Hn. destruct (renumbered_cell d nn q X X' Z Z' cells Hd Hm HX HZ c c' s s' Hc Hs Hn) as (_ & A2 & _). unfold solid.
  assert (E : rs (S d) (fun a => Z' (c_node c' a)) = rs (S d) (fun a => Z (c_node c a))) by (unfold rs; apply (sum_corners d s s' (fun a => Z (c_node c a))); [exact Hs|exact A2]).
  rewrite E. trivial.
Qed.
Lemma numbered_forces U U' V V' A A' : same_values nn d q U U' -> same_values nn d q V V' -> same_values nn d q A A' ->
  same_values nn d q (elastodynamic d pen X U V A Z cells) (elastodynamic d pen X' U' V' A' Z' cells').
Proof.
  intros HU HV HA n i Hn Hi. destruct Hq as [Bq Iq].
  assert (M1 : mesh_ok d nn X (stiffness_cells cells)) by (apply mapped_mesh; [reflexivity|exact Hm]).
  assert (M2 : mesh_ok d nn X (damping_cells cells)) by (apply mapped_mesh; [reflexivity|exact Hm]).
  assert (R1 : renumbered_problem d nn q X X' Z Z' (stiffness_cells cells) (stiffness_cells cells')).
  { split; [exact Hq|]. split; [exact HX|]. split; [exact HZ|]. apply (renumbered_map d q y_law). exact HC. }
  assert (R2 : renumbered_problem d nn q X X' Z Z' (damping_cells cells) (damping_cells cells')).
  { split; [exact Hq|]. split; [exact HX|]. split; [exact HZ|]. apply (renumbered_map d q (fun m => mkElastic (fun i j => y_rb m * e_stiff (y_law m) i j) (fun _ => 0))). exact HC. }
  destruct (C160_elastic d nn pen None q X X' U U' Z Z' _ _ Hd M1 R1 HU) as (_ & S1 & _). destruct (C160_elastic d nn pen None q X X' V V' Z Z' _ _ Hd M2 R2 HV) as (_ & S2 & _).
  rewrite (C174_parts d nn pen X' U' V' A' Z' cells' (q n) i Hd numbered_mesh (Bq n Hn) Hi), (C174_parts d nn pen X U V A Z cells n i Hd Hm Hn Hi), (S1 n i Hn Hi), (S2 n i Hn Hi).
  f_equal. f_equal. unfold inertia. pose proof HC as (mid & HP & F). rewrite (sum_over_permuted cells mid _ HP).
  assert (FI : Forall2 (fun c c' => In c cells /\ In c' cells' /\ c_mat c' = c_mat c /\ exists s s', corner_bijection d s s' /\ forall a, (a <= d)%nat -> c_node c' a = q (c_node c (s a))) mid cells').
  { assert (G : forall l l', Forall2 (fun c c' : cell dynamic => c_mat c' = c_mat c /\ exists s s', corner_bijection d s s' /\ forall a, (a <= d)%nat -> c_node c' a = q (c_node c (s a))) l l' ->
      (forall c, In c l -> In c cells) -> (forall c, In c l' -> In c cells') ->
      Forall2 (fun c c' => In c cells /\ In c' cells' /\ c_mat c' = c_mat c /\ exists s s', corner_bijection d s s' /\ forall a, (a <= d)%nat -> c_node c' a = q (c_node c (s a))) l l').
    { intros l l' G. induction G as [|x z l l' H G IH]; intros I1 I2; constructor.
      - split; [apply I1; left; reflexivity|]. split; [apply I2; left; reflexivity|exact H].
      - apply IH; intros c I; [apply I1|apply I2]; right; exact I. }
    apply (G mid cells' F); [|trivial]. intros c I. apply (Permutation_in _ (Permutation_sym HP)). exact I. }
  apply (sum_over_pairs _ _ _ _ _ FI). intros c c' _ (Hc & Hc' & EM & s & s' & Hs & Hnd). destruct (mesh_cell _ _ _ _ _ Hm Hc) as [Hk _].
  assert (SH : share d pen X' Z' A' V' c' i = share d pen X Z A V c i).
  { unfold share, mass_of. rewrite EM, (numbered_weight c c' s s' Hc Hc' Hs Hnd), (numbered_mean A A' c c' s s' i Hc Hs Hnd HA Hi), (numbered_mean V V' c c' s s' i Hc Hs Hnd HV Hi). reflexivity. }
  rewrite SH. unfold rs. apply (sum_corners d s s' (fun a => if Nat.eqb (c_node c a) n then share d pen X Z A V c i else 0)); [exact Hs|].
  intros a Ha. rewrite Hnd by exact Ha. destruct (Nat.eqb_spec (q (c_node c (s a))) (q n)) as [E|E], (Nat.eqb_spec (c_node c (s a)) n) as [E1|E1]; try reflexivity; exfalso.
  - apply E1. apply Iq; [apply Hk; apply Hs; exact Ha|exact Hn|exact E].
  - apply E. rewrite E1. reflexivity.
Qed.
(** Pieces and steadiness carry over. *)
Lemma numbered_piece : one_piece d nn (map c_node cells) -> one_piece d nn (map c_node cells').
Proof.
  intros [(f0 & I0 & J) N]. destruct (renumbered_pairs d q cells cells' HC) as [To From]. destruct Hq as [Bq Iq]. split.
  - apply in_map_iff in I0. destruct I0 as (c0 & <- & I0). destruct (To c0 I0) as (c0' & s0 & s0' & I0' & _ & Hs0 & N0).
    exists (c_node c0'). split; [apply in_map; exact I0'|].
    assert (G : forall f, joined d (map c_node cells) (c_node c0) f -> forall c' s s', In c' cells' -> corner_bijection d s s' -> (forall a, (a <= d)%nat -> c_node c' a = q (f (s a))) ->
      joined d (map c_node cells') (c_node c0') (c_node c')).
    { intros f Jf. induction Jf as [|f g Jf IH Ig Sh]; intros c' s s' Ic' Hs Nc'.
      - apply (joined_next d _ _ (c_node c0')); [apply joined_start|apply in_map; exact Ic'|]. exists 0%nat. split; [lia|]. intros a Ha _. exists (s0' (s a)).
        pose proof (proj1 (Hs a Ha)) as B. destruct (Hs0 (s a) B) as (_ & B' & _ & E). split; [exact B'|]. rewrite Nc' by exact Ha. rewrite N0 by exact B'. rewrite E. reflexivity.
      - assert (If : In f (map c_node cells)) by (clear -Jf I0; destruct Jf; [apply in_map; exact I0|assumption]).
        apply in_map_iff in If. destruct If as (c1 & <- & I1). destruct (To c1 I1) as (c1' & s1 & s1' & I1' & _ & Hs1 & N1).
        apply (joined_next d _ _ (c_node c1')); [exact (IH c1' s1 s1' I1' Hs1 N1)|apply in_map; exact Ic'|].
        destruct Sh as (b & Hb & Sh). destruct (Hs b Hb) as (_ & Bb & _ & Eb). exists (s' b). split; [exact Bb|]. intros a Ha Na.
        destruct (Hs a Ha) as (Ba & _ & Ea & _). assert (Nb : s a <> b) by (intros E; apply Na; rewrite <- E; symmetry; exact Ea).
        destruct (Sh (s a) Ba Nb) as (a' & Ha' & E). destruct (Hs1 a' Ha') as (_ & B' & _ & E'). exists (s1' a'). split; [exact B'|]. rewrite Nc' by exact Ha. rewrite N1 by exact B'. rewrite E', E. reflexivity. }
    intros f' If'. apply in_map_iff in If'. destruct If' as (c' & <- & Ic'). destruct (From c' Ic') as (c & s & s' & Ic & _ & Hs & Nc). apply (G (c_node c) (J _ (in_map c_node _ _ Ic)) c' s s'); assumption.
  - intros n' Hn'. assert (S : exists b, (b < nn)%nat /\ q b = n').
    { apply (proj1 (bInjective_bSurjective (f := q) (n := nn) Bq)); [|exact Hn']. intros x z Hx Hz E. apply Iq; assumption. }
    destruct S as (n & Hn & <-). destruct (N n Hn) as (f & a & If & Ha & E). apply in_map_iff in If. destruct If as (c & <- & Ic).
    destruct (To c Ic) as (c' & s & s' & Ic' & _ & Hs & Nc). destruct (Hs a Ha) as (_ & B & _ & Es). exists (c_node c'), (s' a). split; [apply in_map; exact Ic'|]. split; [exact B|]. rewrite Nc by exact B. rewrite Es, E. reflexivity.
Qed.
Lemma numbered_body : moving_body d nn pen X Z cells -> moving_body d nn pen X' Z' cells'.
Proof.
  intros B. split; [exact Hd|exact numbered_mesh|apply numbered_piece; apply B|]. intros c' Ic'.
  destruct (proj2 (renumbered_pairs d q cells cells' HC) c' Ic') as (c & s & s' & Ic & EM & Hs & Nc). destruct (mo_cells _ _ _ _ _ _ B c Ic) as (H1 & H2 & H3 & H4 & H5 & H6).
  rewrite EM. repeat (split; [assumption|]). exact (numbered_solid c c' s s' Ic Hs Nc H6).
Qed.
Lemma numbered_steady dofs dofs' : (forall n i, (n < nn)%nat -> (i < d)%nat -> (In (n * d + i)%nat dofs <-> In (q n * d + i)%nat dofs')) ->
  steady d nn X cells (listed dofs) -> steady d nn X' cells' (listed dofs').
Proof.
  intros Hin HS t A HA Hh Hc n' i Hn' Hi. destruct Hq as [Bq Iq].
  assert (AF : forall n i, (n < nn)%nat -> affine d (t i) (A i) X' (q n) = affine d (t i) (A i) X n).
  { intros n j Hn. unfold affine. f_equal. unfold rs. apply rsum_ext. intros l Hl. rewrite (HX n l Hn Hl). reflexivity. }
  assert (S : exists b, (b < nn)%nat /\ q b = n').
  { apply (proj1 (bInjective_bSurjective (f := q) (n := nn) Bq)); [|exact Hn']. intros x z Hx Hz E. apply Iq; assumption. }
  destruct S as (n & Hn & <-). rewrite AF by exact Hn. apply HS; try assumption.
  - intros m j Hm' Hj Hl. rewrite <- AF by exact Hm'. apply Hh; [apply Bq; exact Hm'|exact Hj|]. apply listed_in. apply (Hin m j Hm' Hj). apply listed_in. exact Hl.
  - intros c j Ic Hj. destruct (proj1 (renumbered_pairs d q cells cells' HC) c Ic) as (c' & s & s' & Ic' & _ & Hs & Nc). rewrite <- (Hc c' j Ic' Hj). f_equal. unfold rs. apply rsum_ext. intros l Hl.
    rewrite (numbered_centre c c' s s' l Ic Hs Nc Hl). reflexivity.
Qed.
End Numbering.
Theorem C175_numbering : forall d nn pen q X X' U U' V V' A A' Z Z' cells cells', (1 <= d <= 3)%nat -> mesh_ok d nn X cells ->
  renumbered_problem d nn q X X' Z Z' cells cells' -> same_values nn d q U U' -> same_values nn d q V V' -> same_values nn d q A A' ->
  mesh_ok d nn X' cells' /\ same_values nn d q (elastodynamic d pen X U V A Z cells) (elastodynamic d pen X' U' V' A' Z' cells').
Proof.
  intros d nn pen q X X' U U' V V' A A' Z Z' cells cells' Hd Hm HN HU HV HA. split; [exact (numbered_mesh d nn q X X' Z Z' cells cells' Hd Hm HN)|].
  exact (numbered_forces d nn q X X' Z Z' cells cells' pen Hd Hm HN U U' V V' A A' HU HV HA).
Qed.
Print Assumptions C175_numbering.

(** ** C176: the motion follows *)
Lemma newmark_real n (g b h : R) (p s : hstate R_field) : newmark (K := R_field) n g b h p s = (forall i, (i < n)%nat ->
  @eq R (hu s i) (hu p i + h * hv p i + h * h / (1 + 1) * ((1 - (1 + 1) * b) * ha p i + (1 + 1) * b * ha s i)) /\ @eq R (hv s i) (hv p i + h * ((1 - g) * ha p i + g * ha s i))).
Proof. reflexivity. Qed.
Section Motion.
Variables (n : nat) (rel : (nat -> R) -> (nat -> R) -> Prop) (val val' : (nat -> R) -> (nat -> R) -> (nat -> R) -> nat -> R).
Hypothesis Hlin : forall x z U U' V V', rel U U' -> rel V V' -> rel (fun k => x * U k + z * V k) (fun k => x * U' k + z * V' k).
Hypothesis Hval : forall U U' V V' A A', rel U U' -> rel V V' -> rel A A' -> rel (val U V A) (val' U' V' A').
Lemma motion_follows {Y Y'} (p : hproblem R_field Y) (p' : hproblem R_field Y') y y' F F' stored stored' : poses_motion p y n val F -> poses_motion p' y' n val' F' -> stepped_alike rel p p' ->
  (forall t, corresponds n rel rel (fst (hq_bcs p t)) (fst (hq_bcs p' t))) ->
  (forall t, exists V V', takes (fst (hq_bcs p t)) (snd (hq_bcs p t)) V /\ takes (fst (hq_bcs p' t)) (snd (hq_bcs p' t)) V' /\ rel V V') -> (forall t, rel (F t) (F' t)) ->
  (forall k, (1 <= k < hq_steps p)%nat -> forall cur, motion_step n val (F (times (K := R_field) k (hq_dt p))) (hq_bcs p (times (K := R_field) k (hq_dt p))) (hq_gamma p) (hq_beta p) (hq_dt p) (hsolution p y stored (k - 1)%nat) cur ->
    forall i, (i < n)%nat -> hu cur i = hu (hsolution p y stored k) i /\ hv cur i = hv (hsolution p y stored k) i /\ ha cur i = ha (hsolution p y stored k) i) ->
  (forall k, (1 <= k < hq_steps p')%nat -> motion_step n val' (F' (times (K := R_field) k (hq_dt p'))) (hq_bcs p' (times (K := R_field) k (hq_dt p'))) (hq_gamma p') (hq_beta p') (hq_dt p') (hsolution p' y' stored' (k - 1)%nat) (hsolution p' y' stored' k)) ->
  forall k, (k < hq_steps p)%nat -> rel (hu (hsolution p y stored k)) (hu (hsolution p' y' stored' k)) /\ rel (hv (hsolution p y stored k)) (hv (hsolution p' y' stored' k)) /\
    rel (ha (hsolution p y stored k)) (ha (hsolution p' y' stored' k)).
Proof.
  intros P P' (Eg & Eb & Et & Es & I1 & I2 & I3) HC HB HF Un Ex k. induction k as [|k IH]; intros Hk; [rewrite !hsolution_init; repeat split; assumption|].
  specialize (IH ltac:(lia)). destruct IH as (R1 & R2 & R3). specialize (Un (S k) ltac:(lia)). specialize (Ex (S k) ltac:(lia)). replace (S k - 1)%nat with k in * by lia.
  rewrite Eg, Eb, Et in Ex. set (t := times (K := R_field) (S k) (hq_dt p)) in *. set (prev := hsolution p y stored k) in *. set (prev' := hsolution p' y' stored' k) in *. set (cur' := hsolution p' y' stored' (S k)) in *.
  pose proof (HC t) as C. destruct (HB t) as (V & V' & HV & HV' & RV). destruct (pm_conditions _ _ _ _ _ P' t) as (L' & _ & _). destruct (pm_conditions _ _ _ _ _ P t) as (_ & _ & Lt).
  assert (Inj : forall U W U' W', rel U U' -> rel W W' -> (forall k, (k < n)%nat -> U' k = W' k) -> forall k, (k < n)%nat -> U k = W k).
  { intros U W U' W' HU HW E j Hj. destruct (in_dec Nat.eq_dec j (fst (hq_bcs p t))) as [I|I].
    - apply (co_held _ _ _ _ _ C U W U' W' HU HW); [|exact Hj|exact I]. intros l Hl _. apply E. exact Hl.
    - apply (co_free _ _ _ _ _ C U W U' W' HU HW); [|exact Hj|exact I]. intros l Hl _. apply E. exact Hl. }
  destruct (co_back _ _ _ _ _ C (hu cur')) as (U & RU). destruct (co_back _ _ _ _ _ C (hv cur')) as (W & RW). destruct (co_back _ _ _ _ _ C (ha cur')) as (A & RA).
  destruct Ex as (NW & T1 & T2).
  assert (St : motion_step n val (F t) (hq_bcs p t) (hq_gamma p) (hq_beta p) (hq_dt p) prev (mkH (K := R_field) U W A)).
  { split; [|split].
    - set (g := hq_gamma p : R) in *. set (b := hq_beta p : R) in *. set (h := hq_dt p : R) in *.
      pose proof (Hlin 1 1 _ _ _ _ R1 (Hlin h (h * h / 2) _ _ _ _ R2 (Hlin (1 - 2 * b) (2 * b) _ _ _ _ R3 RA))) as LU. pose proof (Hlin 1 h _ _ _ _ R2 (Hlin (1 - g) g _ _ _ _ R3 RA)) as LV.
      rewrite newmark_real in NW |- *. intros i Hi. cbn [hu hv ha]. split.
      + rewrite (Inj _ _ _ _ RU LU) with (k := i); [field| |exact Hi]. intros j Hj. rewrite (proj1 (NW j Hj)). field.
      + rewrite (Inj _ _ _ _ RW LV) with (k := i); [ring| |exact Hi]. intros j Hj. rewrite (proj2 (NW j Hj)). ring.
    - intros j w I. cbn [hu]. pose proof (in_combine_l _ _ _ _ I) as Hin.
      rewrite (co_held _ _ _ _ _ C U V _ V' RU RV) with (k := j); [apply HV; exact I| |apply Lt; exact Hin|exact Hin]. intros l Hl Hl'. exact (takes_listed _ _ _ _ l L' T1 HV' Hl').
    - intros j Hj Hn. cbn [hu hv ha]. apply (co_free _ _ _ _ _ C _ _ _ _ (Hval _ _ _ _ _ _ RU RW RA) (HF t)); [|exact Hj|exact Hn]. intros l Hl Hnl. apply T2; assumption. }
  pose proof (Un _ St) as E. cbn [hu hv ha] in E. split; [|split].
  - apply (co_ext _ _ _ _ _ C U); [exact RU|]. intros j Hj. symmetry. apply (E j Hj).
  - apply (co_ext _ _ _ _ _ C W); [exact RW|]. intros j Hj. symmetry. apply (E j Hj).
  - apply (co_ext _ _ _ _ _ C A); [exact RA|]. intros j Hj. symmetry. apply (E j Hj).
Qed.
End Motion.
(** Renumbering nodes, corners and cells renumbers the whole motion: displacements, velocities and accelerations of every step. *)
Theorem C176_numbering : forall (Y Y' : Type) (p : hproblem R_field Y) (y : Y) (p' : hproblem R_field Y') (y' : Y') (stored stored' : hhistory R_field) d nn pen q X X' Z Z' cells cells' F F',
  moving_body d nn pen X Z cells -> renumbered_problem d nn q X X' Z Z' cells cells' -> (forall t, steady d nn X cells (listed (fst (hq_bcs p t)))) ->
  poses_motion p y (nn * d) (fun U V A => elastodynamic d pen X U V A Z cells) F -> poses_motion p' y' (nn * d) (fun U V A => elastodynamic d pen X' U V A Z' cells') F' ->
  stepped_alike (same_values nn d q) p p' -> (forall t, held_renumbered d nn q (hq_bcs p t) (hq_bcs p' t)) -> (forall t, same_values nn d q (F t) (F' t)) ->
  forall k, (k < hq_steps p)%nat ->
  same_values nn d q (hu (hsolution p y stored k)) (hu (hsolution p' y' stored' k)) /\ same_values nn d q (hv (hsolution p y stored k)) (hv (hsolution p' y' stored' k)) /\
  same_values nn d q (ha (hsolution p y stored k)) (ha (hsolution p' y' stored' k)).
Proof.
  intros Y Y' p y p' y' stored stored' d nn pen q X X' Z Z' cells cells' F F' B HN HS P P' HA HB HF. pose proof (mo_dim _ _ _ _ _ _ B) as Hd. pose proof (mo_mesh _ _ _ _ _ _ B) as Hm. pose proof (proj1 HN) as Hq.
  refine (motion_follows (nn * d) (same_values nn d q) (fun U V A => elastodynamic d pen X U V A Z cells) (fun U V A => elastodynamic d pen X' U V A Z' cells') _ _ p p' y y' F F' stored stored' P P' HA _ _ HF _ _).
  - intros x z U U' V V' HU HV n i Hn Hi. cbn beta. rewrite (HU n i Hn Hi), (HV n i Hn Hi). reflexivity.
  - intros U U' V V' A A' HU HV HA'. exact (numbered_forces d nn q X X' Z Z' cells cells' pen Hd Hm HN U U' V V' A A' HU HV HA').
  - intros t. apply numbering_corresponds; [exact Hq|apply HB].
  - intros t. apply HB.
  - intros k Hk cur. exact (proj2 (C170_steps Y p y stored d nn pen X Z cells F B P HS k Hk) cur).
  - intros k Hk. refine (proj1 (C170_steps Y' p' y' stored' d nn pen X' Z' cells' F' _ P' _ k Hk)).
    + exact (numbered_body d nn q X X' Z Z' cells cells' pen Hd Hm HN B).
    + intros t. exact (numbered_steady d nn q X X' Z Z' cells cells' Hm HN _ _ (proj1 (HB t)) (HS t)).
Qed.
Print Assumptions C176_numbering.
(** Moving the body, its loads and its initial motion as a whole turns the whole motion. *)
Theorem C176_frame : forall (Y Y' : Type) (p : hproblem R_field Y) (y : Y) (p' : hproblem R_field Y') (y' : Y') (stored stored' : hhistory R_field) d nn pen t Q X X' Z cells cells' F F',
  moving_body d nn pen X Z cells -> moving_body d nn pen X' Z cells' -> orthogonal d Q -> placed d nn t Q X X' -> moved_cells (turned_dynamic d Q) cells cells' ->
  (forall t, steady d nn X cells (listed (fst (hq_bcs p t)))) -> (forall t, steady d nn X' cells' (listed (fst (hq_bcs p' t)))) ->
  poses_motion p y (nn * d) (fun U V A => elastodynamic d pen X U V A Z cells) F -> poses_motion p' y' (nn * d) (fun U V A => elastodynamic d pen X' U V A Z cells') F' ->
  stepped_alike (carried d nn d Q) p p' -> (forall t, held_turned d nn Q (hq_bcs p t) (hq_bcs p' t)) -> (forall t, carried d nn d Q (F t) (F' t)) ->
  forall k, (k < hq_steps p)%nat ->
  carried d nn d Q (hu (hsolution p y stored k)) (hu (hsolution p' y' stored' k)) /\ carried d nn d Q (hv (hsolution p y stored k)) (hv (hsolution p' y' stored' k)) /\
  carried d nn d Q (ha (hsolution p y stored k)) (ha (hsolution p' y' stored' k)).
Proof.
  intros Y Y' p y p' y' stored stored' d nn pen t Q X X' Z cells cells' F F' B B' HQ HP HC HS HS' P P' HA HB HF. pose proof (mo_dim _ _ _ _ _ _ B) as Hd. pose proof (mo_mesh _ _ _ _ _ _ B) as Hm.
  refine (motion_follows (nn * d) (carried d nn d Q) (fun U V A => elastodynamic d pen X U V A Z cells) (fun U V A => elastodynamic d pen X' U V A Z cells') _ _ p p' y y' F F' stored stored' P P' HA _ _ HF _ _).
  - intros x z U U' V V' HU HV n i Hn Hi. cbn beta. rewrite (HU n i Hn Hi), (HV n i Hn Hi). unfold turn, rs. rewrite <- !rsum_scal_l, <- rsum_add. apply rsum_ext. intros. req. ring.
  - intros U U' V V' A A' HU HV HA'. exact (proj2 (C175_frame d nn pen t Q X X' U U' V V' A A' Z cells cells' Hd HQ Hm HP HC HU HV HA')).
  - intros s. apply turning_corresponds; [exact HQ|apply HB].
  - intros s. apply HB.
  - intros k Hk cur. exact (proj2 (C170_steps Y p y stored d nn pen X Z cells F B P HS k Hk) cur).
  - intros k Hk. exact (proj1 (C170_steps Y' p' y' stored' d nn pen X' Z cells' F' B' P' HS' k Hk)).
Qed.
Print Assumptions C176_frame.

(** ** Examples *)
(** The square with its nodes shifted by one, held at three entries, pulled by a load that changes in time. *)
Definition gust_shifted (t : R) (k : nat) : R := if Nat.eqb k 1 then t else 0.
Definition roll (k : nat) : R := INR k.
Definition roll_shifted (k : nat) : R := INR ((k + 6) mod 8).
Example C176_case :
  let p := body_problem 2 4 square_X (square steel) gust ([0; 1; 3]%nat, [0; 0; 0]) zero roll in
  let p' := body_problem 2 4 shifted_X (shifted_square steel) gust_shifted ([5; 2; 3]%nat, [0; 0; 0]) zero roll_shifted in
  renumbered_problem 2 4 shift4 square_X shifted_X (fun _ => 1) (fun _ => 1) (square steel) (shifted_square steel) /\
  poses_motion p tt (4 * 2) (fun U V A => elastodynamic 2 (fun z => z) square_X U V A (fun _ => 1) (square steel)) gust /\
  poses_motion p' tt (4 * 2) (fun U V A => elastodynamic 2 (fun z => z) shifted_X U V A (fun _ => 1) (shifted_square steel)) gust_shifted /\
  stepped_alike (same_values 4 2 shift4) p p' /\ (forall t, held_renumbered 2 4 shift4 (hq_bcs p t) (hq_bcs p' t)) /\ (forall t, same_values 4 2 shift4 (gust t) (gust_shifted t)) /\ hq_steps p = 5%nat.
Proof.
  cbv zeta. pose proof (proj2 (C160_case steel)) as HN. split; [exact HN|]. split.
  { apply body_poses; [lia|apply square_ok|]. split; [reflexivity|]. split; [repeat constructor; cbn; lia|]. intros k [<-|[<-|[<-|[]]]]; lia. }
  split.
  { apply body_poses; [lia|exact (numbered_mesh 2 4 shift4 square_X shifted_X _ _ _ _ ltac:(lia) (square_ok steel) HN)|]. split; [reflexivity|]. split; [repeat constructor; cbn; lia|]. intros k [<-|[<-|[<-|[]]]]; lia. }
  split.
  { repeat split. intros [|[|[|[|n]]]] [|[|i]] Hn Hi; try lia; reflexivity. }
  split; [|split; [|reflexivity]].
  - intros t. split.
    + intros [|[|[|[|n]]]] [|[|i]] Hn Hi; try lia; cbn; lia.
    + exists (fun _ => 0), (fun _ => 0). split; [|split]; [| |intros n i _ _; reflexivity]; intros k v; cbn [hq_bcs body_problem fst snd combine]; intros I; repeat (destruct I as [I|I]; [injection I as _ E; exact E|]); contradiction.
  - intros t [|[|[|[|n]]]] [|[|i]] Hn Hi; try lia; reflexivity.
Qed.
(** The same square of an isotropic material, free, thrown with some initial velocity, and turned by the angle whose cosine is 3/5. *)
Definition aluminium : dynamic := mkDyn (mkElastic (isotropic_material 2 200 (3 / 10)) (fun _ => 0)) 3 (1 / 10) (1 / 5).
Example C176_frame_case :
  let p := body_problem 2 4 square_X (square aluminium) (fun _ => zero) ([], []) zero bent in
  let p' := body_problem 2 4 turned_square (square aluminium) (fun _ => zero) ([], []) zero bent_turned in
  moving_body 2 4 (fun z => z) square_X (fun _ => 1) (square aluminium) /\ moving_body 2 4 (fun z => z) turned_square (fun _ => 1) (square aluminium) /\
  orthogonal 2 turn34 /\ placed 2 4 (fun i => if Nat.eqb i 0 then 7 else -2) turn34 square_X turned_square /\ moved_cells (turned_dynamic 2 turn34) (square aluminium) (square aluminium) /\
  steady 2 4 square_X (square aluminium) (listed []) /\ steady 2 4 turned_square (square aluminium) (listed []) /\
  poses_motion p tt (4 * 2) (fun U V A => elastodynamic 2 (fun z => z) square_X U V A (fun _ => 1) (square aluminium)) (fun _ => zero) /\
  poses_motion p' tt (4 * 2) (fun U V A => elastodynamic 2 (fun z => z) turned_square U V A (fun _ => 1) (square aluminium)) (fun _ => zero) /\
  stepped_alike (carried 2 4 2 turn34) p p' /\ (forall t, held_turned 2 4 turn34 (hq_bcs p t) (hq_bcs p' t)) /\ carried 2 4 2 turn34 zero zero /\ bent_turned 6 = 3 / 5.
Proof.
  cbv zeta. destruct C159_case as (HQ & _ & HP & HB & EB & _).
  assert (TL : turned_dynamic 2 turn34 aluminium aluminium).
  { split; [reflexivity|]. split; [reflexivity|]. split; [reflexivity|]. apply isotropic_turned; [lia|exact HQ|apply code_isotropic; lia|]. exists 0. intros v _. destruct (Nat.ltb v 2); reflexivity. }
  assert (MC : moved_cells (turned_dynamic 2 turn34) (square aluminium) (square aluminium)) by (apply same_cells; intros c [<-|[<-|[]]]; exact TL).
  assert (HM : mesh_ok 2 4 turned_square (square aluminium)) by exact (moved_mesh 2 4 _ turn34 square_X turned_square _ _ _ ltac:(lia) HQ (square_ok aluminium) HP MC).
  assert (BO : forall X, mesh_ok 2 4 X (square aluminium) -> moving_body 2 4 (fun z => z) X (fun _ => 1) (square aluminium)).
  { intros X HX. split; [lia|exact HX|apply square_one_piece|]. intros c Hc. assert (Em : c_mat c = aluminium) by (destruct Hc as [<-|[<-|[]]]; reflexivity). rewrite Em. cbn [aluminium y_law e_stiff y_rho y_ra y_rb].
    split; [intros [|[|[|i]]] [|[|[|j]]] Hi Hj; cbn in Hi, Hj; try lia; reflexivity|]. split; [apply C162_isotropic; [lia|unfold admissible; lra]|]. split; [lra|]. split; [lra|]. split; [lra|]. unfold solid, rs. rsums. cbn. lra. }
  assert (ZC : carried 2 4 2 turn34 zero zero) by (intros n i _ _; unfold turn, rs; rsums; req; ring).
  split; [apply BO; apply square_ok|]. split; [apply BO; exact HM|]. split; [exact HQ|]. split; [exact HP|]. split; [exact MC|].
  split; [apply (C170_free _ 2 4); [lia|apply square_spread]|]. split.
  { apply (C170_free _ 2 4); [lia|]. unfold spread, square. eexists _, _, 1%nat. split; [left; reflexivity|]. split; [right; left; reflexivity|]. split; [lia|]. unfold centre, turned_square, turn, rs. rsums. cbn. lra. }
  split; [apply body_poses; [lia|apply square_ok|]; split; [reflexivity|]; split; [constructor|intros k []]|]. split; [apply body_poses; [lia|exact HM|]; split; [reflexivity|]; split; [constructor|intros k []]|].
  split; [repeat (split; [reflexivity|]); split; [exact ZC|]; split; [exact HB|exact ZC]|]. split; [|split; [exact ZC|exact EB]].
  intros t. split; [intros n i j _ _ _; cbn; tauto|]. exists zero, zero. split; [intros k v []|]. split; [intros k v []|exact ZC].
Qed.
