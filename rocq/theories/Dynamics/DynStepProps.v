(** C170: the time steps of a moving body. *)
From Coq Require Import Reals List Arith Bool Lia Lra.
From Verif Require Import Base.Field Base.Sums Base.Res BC.ConstraintsSpec BC.ConstraintsMain Element.ElementModel Element.ElementSpec Element.ElementProof Element.ElementProps
  Penalty.PenaltyModel Residual.Kernel Residual.ResidualModel Residual.ResidualSpec Residual.ResidualProof Residual.ResidualProps Residual.ResidualEnergyProps
  Residual.SupportSpec Residual.SupportProof Residual.SupportProps Residual.PotentialProps Residual.SolveSpec Residual.SolveProof Residual.Gauss
  Problem.DenseBC Problem.EllipticProof Problem.HyperbolicModel Problem.HyperbolicSpec Problem.HyperbolicProof Problem.HyperbolicProps
  Dynamics.DynModel Dynamics.DynSpec Dynamics.DynProof Dynamics.DynProps Dynamics.DynEnergyProps.
Import ListNotations.
Local Open Scope R_scope.

Ltac real_goal := match goal with |- @eq _ ?l ?r => change (@eq R l r) end.
(** Coordinate i of the centre of a cell. *)
Definition centre {M} (d : nat) (X : nat -> nat -> R) (c : cell M) (i : nat) : R := rs (S d) (fun a => X (c_node c a) i) / INR (S d).
(** An elastic body in one piece with mass in every cell; damping takes energy. *)
Record moving_body (d nn : nat) (pen : R -> R) (X : nat -> nat -> R) (Z : nat -> R) (cells : list (cell dynamic)) : Prop := {
  mo_dim : (1 <= d <= 3)%nat;
  mo_mesh : mesh_ok d nn X cells;
  mo_piece : one_piece d nn (map c_node cells);
  mo_cells : forall c, In c cells -> ResidualSpec.symmetric (num_voigt d) (e_stiff (y_law (c_mat c))) /\ positive_form (num_voigt d) (e_stiff (y_law (c_mat c))) /\
     0 < y_rho (c_mat c) /\ 0 <= y_ra (c_mat c) /\ 0 <= y_rb (c_mat c) /\ solid d pen Z c }.
(** No rigid motion but rest keeps the held entries and the centres of all cells where they are. *)
Definition steady {M} (d nn : nat) (X : nat -> nat -> R) (cells : list (cell M)) (held : nat -> bool) : Prop :=
  forall t A, antisymmetric d A ->
  (forall n i, (n < nn)%nat -> (i < d)%nat -> held (n * d + i)%nat = true -> affine d (t i) (A i) X n = 0) ->
  (forall c i, In c cells -> (i < d)%nat -> t i + rs d (fun l => A i l * centre d X c l) = 0) ->
  forall n i, (n < nn)%nat -> (i < d)%nat -> affine d (t i) (A i) X n = 0.
(** A dynamic problem posed on the body with the loads F of each time: residual, derivatives, solver, prescribed displacements, Newmark parameters. *)
Record poses_motion {Y} (p : hproblem R_field Y) (y : Y) (n : nat) (val : (nat -> R) -> (nat -> R) -> (nat -> R) -> nat -> R) (F : R -> nat -> R) : Prop := {
  pm_size : hq_n p = n;
  pm_value : forall s t k, (k < n)%nat -> hp_value (hq_pde p) s y t k = val (hu s) (hv s) (ha s) k - F t k;
  pm_u : forall V A t, partial_derivatives n (fun U => hp_value (hq_pde p) (mkH (K := R_field) U V A) y t) (fun U => hp_gradient_u (hq_pde p) (mkH (K := R_field) U V A) y t);
  pm_v : forall U A t, partial_derivatives n (fun V => hp_value (hq_pde p) (mkH (K := R_field) U V A) y t) (fun V => hp_gradient_v (hq_pde p) (mkH (K := R_field) U V A) y t);
  pm_a : forall U V t, partial_derivatives n (fun A => hp_value (hq_pde p) (mkH (K := R_field) U V A) y t) (fun A => hp_gradient_a (hq_pde p) (mkH (K := R_field) U V A) y t);
  pm_solver : solver_ok (K := R_ring) n (hq_solve p);
  pm_conditions : forall t, conditions n (fst (hq_bcs p t)) (snd (hq_bcs p t));
  pm_gamma : 0 <= hq_gamma p;
  pm_beta : 0 < hq_beta p;
  pm_dt : 0 < hq_dt p }.
(** One time step: Newmark's formulas, the prescribed displacements, and the equation of motion at all other entries. *)
Definition motion_step (n : nat) (val : (nat -> R) -> (nat -> R) -> (nat -> R) -> nat -> R) (F : nat -> R) (bc : list nat * list R) (gamma beta dt : R) (prev cur : hstate R_field) : Prop :=
  newmark (K := R_field) n gamma beta dt prev cur /\
  (forall k w, In (k, w) (combine (fst bc) (snd bc)) -> hu cur k = w) /\
  (forall k, (k < n)%nat -> ~ In k (fst bc) -> val (hu cur) (hv cur) (ha cur) k = F k).

Section Body.
Variables (d nn : nat) (pen : R -> R) (X : nat -> nat -> R) (Z : nat -> R) (cells : list (cell dynamic)).
Hypothesis B : moving_body d nn pen X Z cells.
Let Hd := mo_dim _ _ _ _ _ _ B.
Let Hm := mo_mesh _ _ _ _ _ _ B.
Let val := fun U V A => elastodynamic d pen X U V A Z cells.
Lemma weight_pos c : In c cells -> 0 < weight_of d pen X Z c.
Proof.
  intros Hc. destruct (mesh_cell _ _ _ _ _ Hm Hc) as [_ Hv]. rewrite <- (weight_eq d pen X Z c Hd Hv). apply solid_weight; [exact Hd|exact Hv|apply (mo_cells _ _ _ _ _ _ B c Hc)].
Qed.
Lemma stiff_flip C e : stiff d C e e = rs (num_voigt d) (fun i => e i * rs (num_voigt d) (fun j => C i j * e j)).
Proof. unfold stiff. apply form_flip. Qed.
(** Displacements that differ by D, velocities by c1 D and accelerations by c2 D. *)
Lemma states_agree held U V A U' V' A' c1 c2 : 0 <= c1 -> 0 < c2 -> steady d nn X cells held ->
  (forall k, (k < nn * d)%nat -> V k - V' k = c1 * (U k - U' k) /\ A k - A' k = c2 * (U k - U' k)) ->
  same_conditions (nn * d) held U U' (val U V A) (val U' V' A') -> forall k, (k < nn * d)%nat -> U k = U' k.
Proof.
  intros H1 H2 Hst HD Hs. set (D := fun k => U k + -1 * U' k).
  assert (W0 : sum_over cells (fun c => (c2 + y_ra (c_mat c) * c1) * inertia_work d pen X Z c D D + (1 + y_rb (c_mat c) * c1) * stress_power d pen X Z c (strain_of d X D c) (strain_of d X D c)) = 0).
  { transitivity (work (nn * d) (fun k => val U V A k - val U' V' A' k) D).
    2: { unfold work, rs. apply rsum_0. intros k Hk. specialize (Hs k Hk). unfold D. destruct (held k); rewrite Hs; req; ring. }
    rewrite work_sub. unfold val. rewrite !(dyn_work d nn) by assumption. rewrite <- sum_over_sub. apply sum_over_ext. intros c Hc. destruct (mesh_cell _ _ _ _ _ Hm Hc) as [Hn _].
    assert (I : forall Y Y' k, (forall j, (j < nn * d)%nat -> Y j - Y' j = k * (U j - U' j)) -> inertia_work d pen X Z c Y D - inertia_work d pen X Z c Y' D = k * inertia_work d pen X Z c D D).
    { intros Y Y' k HY. unfold inertia_work, rs. rewrite <- Rmult_minus_distr_l, <- rsum_sub.
      transitivity (mass_of d pen y_rho X Z c * (k * rsum d (fun i => mean_of d D c i * mean_of d D c i))); [|ring]. f_equal. rewrite <- rsum_scal_l. apply rsum_ext. intros i Hi.
      rewrite (mean_ext d nn Y (fun j => Y' j + k * D j) c i Hn Hi) by (intros j Hj; unfold D; specialize (HY j Hj); lra). rewrite mean_lin. req. ring. }
    assert (E : forall Y Y' k v, (v < num_voigt d)%nat -> (forall j, (j < nn * d)%nat -> Y j - Y' j = k * (U j - U' j)) -> strain_of d X Y c v = strain_of d X Y' c v + k * strain_of d X D c v).
    { intros Y Y' k v Hv HY. rewrite <- strain_of_lin by assumption. apply (strain_of_ext d nn); try assumption. intros j Hj. unfold D. specialize (HY j Hj). lra. }
    assert (S1 : stress_power d pen X Z c (fun j => strain_of d X U c j - e_ref (y_law (c_mat c)) j) (strain_of d X D c) - stress_power d pen X Z c (fun j => strain_of d X U' c j - e_ref (y_law (c_mat c)) j) (strain_of d X D c)
        = stress_power d pen X Z c (strain_of d X D c) (strain_of d X D c)).
    { unfold stress_power. rewrite (stiff_ext d _ (fun j => strain_of d X U c j - e_ref (y_law (c_mat c)) j) (strain_of d X D c) (fun j => (strain_of d X U' c j - e_ref (y_law (c_mat c)) j) + 1 * strain_of d X D c j) (strain_of d X D c)); [|intros v Hv|reflexivity].
      - rewrite stiff_lin_l. ring.
      - rewrite (E U U' 1 v Hv) by (intros; ring). ring. }
    assert (S2 : stress_power d pen X Z c (strain_of d X V c) (strain_of d X D c) - stress_power d pen X Z c (strain_of d X V' c) (strain_of d X D c) = c1 * stress_power d pen X Z c (strain_of d X D c) (strain_of d X D c)).
    { unfold stress_power. rewrite (stiff_ext d _ (strain_of d X V c) (strain_of d X D c) (fun j => strain_of d X V' c j + c1 * strain_of d X D c j) (strain_of d X D c)); [|intros v Hv|reflexivity].
      - rewrite stiff_lin_l. ring.
      - apply E; [exact Hv|]. intros j Hj. apply (HD j Hj). }
    pose proof (I A A' c2 (fun j Hj => proj2 (HD j Hj))) as IA. pose proof (I V V' c1 (fun j Hj => proj1 (HD j Hj))) as IV.
    transitivity ((inertia_work d pen X Z c A D - inertia_work d pen X Z c A' D) + y_ra (c_mat c) * (inertia_work d pen X Z c V D - inertia_work d pen X Z c V' D)
      + (stress_power d pen X Z c (fun j => strain_of d X U c j - e_ref (y_law (c_mat c)) j) (strain_of d X D c) - stress_power d pen X Z c (fun j => strain_of d X U' c j - e_ref (y_law (c_mat c)) j) (strain_of d X D c))
      + y_rb (c_mat c) * (stress_power d pen X Z c (strain_of d X V c) (strain_of d X D c) - stress_power d pen X Z c (strain_of d X V' c) (strain_of d X D c))); [|ring].
    rewrite IA, IV, S1, S2. ring. }
  assert (NI : forall c, In c cells -> 0 <= (c2 + y_ra (c_mat c) * c1) * inertia_work d pen X Z c D D).
  { intros c Hc. destruct (mo_cells _ _ _ _ _ _ B c Hc) as (_ & _ & Hr & Ha & _ & _). pose proof (weight_pos c Hc). pose proof (squares_nonneg d (fun i => mean_of d D c i)).
    assert (0 <= y_ra (c_mat c) * c1) by (apply Rmult_le_pos; assumption).
    apply Rmult_le_pos; [lra|]. unfold inertia_work, mass_of. apply Rmult_le_pos; [apply Rmult_le_pos; lra|assumption]. }
  assert (NS : forall c, In c cells -> 0 <= (1 + y_rb (c_mat c) * c1) * stress_power d pen X Z c (strain_of d X D c) (strain_of d X D c)).
  { intros c Hc. destruct (mo_cells _ _ _ _ _ _ B c Hc) as (_ & HP & _ & _ & Hb & _). pose proof (weight_pos c Hc).
    assert (0 <= y_rb (c_mat c) * c1) by (apply Rmult_le_pos; assumption).
    apply Rmult_le_pos; [lra|]. unfold stress_power. rewrite stiff_flip. apply Rmult_le_pos; [lra|apply positive_nonneg; exact HP]. }
  assert (Z0 : forall c, In c cells -> (c2 + y_ra (c_mat c) * c1) * inertia_work d pen X Z c D D = 0 /\ (1 + y_rb (c_mat c) * c1) * stress_power d pen X Z c (strain_of d X D c) (strain_of d X D c) = 0).
  { intros c Hc. pose proof (sum_over_zero cells _ (fun c Hc => Rplus_le_le_0_compat _ _ (NI c Hc) (NS c Hc)) W0 c Hc) as E. pose proof (NI c Hc). pose proof (NS c Hc). lra. }
  assert (G : forall c v, In c cells -> (v < num_voigt d)%nat -> strain d d (fun _ => 0) (gather d D c) (cell_gradient d (gather_coords X c)) v = 0).
  { intros c v Hc. revert v. destruct (Z0 c Hc) as [_ E]. destruct (mo_cells _ _ _ _ _ _ B c Hc) as (_ & HP & _ & _ & Hb & _). apply (positive_zero _ _ _ HP).
    assert (0 <= y_rb (c_mat c) * c1) by (apply Rmult_le_pos; assumption). apply (weight_zero (1 + y_rb (c_mat c) * c1)) in E; [|lra].
    unfold stress_power in E. apply (weight_zero _ _ (weight_pos c Hc)) in E. rewrite stiff_flip in E. exact E. }
  assert (C0 : forall c i, In c cells -> (i < d)%nat -> mean_of d D c i = 0).
  { intros c i Hc Hi. destruct (Z0 c Hc) as [E _]. destruct (mo_cells _ _ _ _ _ _ B c Hc) as (_ & _ & Hr & Ha & _ & _).
    assert (0 <= y_ra (c_mat c) * c1) by (apply Rmult_le_pos; assumption). apply (weight_zero (c2 + y_ra (c_mat c) * c1)) in E; [|lra].
    unfold inertia_work, mass_of in E. apply (weight_zero _ _ (Rmult_lt_0_compat _ _ (weight_pos c Hc) Hr)) in E.
    unfold rs in E. rewrite (rsum_point d i) in E by exact Hi.
    assert (0 <= rsum d (fun k => if Nat.eqb k i then 0 else mean_of d D c k * mean_of d D c k)).
    { clear. generalize d at 1 as m. induction m as [|m IH]; [apply Rle_refl|]. 
      change (0 <= rsum m (fun k => if Nat.eqb k i then 0 else mean_of d D c k * mean_of d D c k) + (if Nat.eqb m i then 0 else mean_of d D c m * mean_of d D c m)). destruct (Nat.eqb m i); [lra|]. pose proof (Rle_0_sqr (mean_of d D c m)) as Q. unfold Rsqr in Q. lra. }
    pose proof (Rle_0_sqr (mean_of d D c i)) as Q. unfold Rsqr in Q. assert (E' : mean_of d D c i * mean_of d D c i = 0) by lra. apply Rmult_integral in E'. destruct E'; assumption. }
  destruct (rigid_body d nn d X cells D Hd (le_n d) Hm (mo_piece _ _ _ _ _ _ B) G) as (t & A0 & HA & HM).
  intros k Hk. pose proof (Nat.div_mod k d ltac:(lia)) as DM. pose proof (Nat.mod_upper_bound k d ltac:(lia)) as MU.
  assert (Hn : (k / d < nn)%nat) by (apply Nat.div_lt_upper_bound; lia).
  assert (E : D (k / d * d + k mod d)%nat = 0).
  { rewrite HM by assumption. apply (Hst t A0 HA); try assumption.
    - intros n i Hn' Hi Hh. rewrite <- HM by assumption. unfold D. pose proof (Hs (n * d + i)%nat ltac:(nia)) as E. rewrite Hh in E. lra.
    - intros c i Hc Hi. destruct (mesh_cell _ _ _ _ _ Hm Hc) as [Hcn _]. rewrite <- (C0 c i Hc Hi). unfold mean_of, centre, rs.
      assert (NZ : INR (S d) <> 0) by (apply not_0_INR; lia).
      rewrite (rsum_ext (S d) (fun a => D (c_node c a * d + i)%nat) (fun a => t i + rsum d (fun l => A0 i l * X (c_node c a) l))) by (intros a Ha; rewrite HM by (try apply Hcn; lia); reflexivity).
      rewrite rsum_add, rsum_const, rsum_swap. 
      rewrite (rsum_ext d (fun l => rsum (S d) (fun a => A0 i l * X (c_node c a) l)) (fun l => A0 i l * rsum (S d) (fun a => X (c_node c a) l))) by (intros; rewrite rsum_scal_l; reflexivity).
      rewrite (rsum_ext d (fun l => A0 i l * (rsum (S d) (fun a => X (c_node c a) l) / INR (S d))) (fun l => / INR (S d) * (A0 i l * rsum (S d) (fun a => X (c_node c a) l)))) by (intros; unfold Rdiv; req; ring).
      rewrite rsum_scal_l. field. exact NZ. }
  replace (k / d * d + k mod d)%nat with k in E by lia. unfold D in E. lra.
Qed.
Section Steps.
Variables (Y : Type) (p : hproblem R_field Y) (y : Y) (F : R -> nat -> R).
Hypothesis P : poses_motion p y (nn * d) val F.
Let g := hq_gamma p.
Let b := hq_beta p.
Let dt := hq_dt p.
Let M := mass_entry d pen X Z cells.
Let C := damping_entry d pen X Z cells.
Let K := stiffness_entry d pen X Z cells.
Let r := resting_force d pen X Z cells.
Lemma value_entries s t i : (i < nn * d)%nat -> hp_value (hq_pde p) s y t i =
  rsum (nn * d) (fun j => M i j * ha s j) + rsum (nn * d) (fun j => C i j * hv s j) + rsum (nn * d) (fun j => K i j * hu s j) - (F t i + r i).
Proof. intros Hi. rewrite (pm_value _ _ _ _ _ P s t i Hi). unfold val. rewrite (dyn_linear d nn pen X Z cells Hd Hm) by exact Hi. unfold M, C, K, r. real_goal. ring. Qed.
Lemma sum_nothing (f : nat -> R) : rsum (nn * d) (fun j => f j * 0) = 0.
Proof. apply rsum_0. intros. req. ring. Qed.
Lemma motion_linear : linear_hpde (K := R_field) (nn * d) (hq_pde p) y K C M (fun t i => F t i + r i).
Proof.
  intros [U V A] t. split; [|split; [|split]].
  - intros i Hi. exact (value_entries (mkH (K := R_field) U V A) t i Hi).
  - intros i j Hi Hj. refine (derivative_entry (nn * d) (fun U => hp_value (hq_pde p) (mkH (K := R_field) U V A) y t) K _ _ (pm_u _ _ _ _ _ P V A t) U i j Hi Hj).
    intros W k Hk. rewrite !value_entries by exact Hk. cbn [hu hv ha]. rewrite sum_nothing. real_goal. ring.
  - intros i j Hi Hj. refine (derivative_entry (nn * d) (fun V => hp_value (hq_pde p) (mkH (K := R_field) U V A) y t) C _ _ (pm_v _ _ _ _ _ P U A t) V i j Hi Hj).
    intros W k Hk. rewrite !value_entries by exact Hk. cbn [hu hv ha]. rewrite sum_nothing. real_goal. ring.
  - intros i j Hi Hj. refine (derivative_entry (nn * d) (fun A => hp_value (hq_pde p) (mkH (K := R_field) U V A) y t) M _ _ (pm_a _ _ _ _ _ P U V t) A i j Hi Hj).
    intros W k Hk. rewrite !value_entries by exact Hk. cbn [hu hv ha]. rewrite sum_nothing. real_goal. ring.
Qed.
Lemma motion_nonsingular dofs : (forall k, In k dofs -> (k < nn * d)%nat) -> steady d nn X cells (listed dofs) ->
  nonsingular (K := R_ring) (nn * d) (bc_matrix (K := R_ring) dofs (fun i j => K i j + g / (b * dt) * C i j + 1 / (b * dt * dt) * M i j)).
Proof.
  intros Hdf Hst. pose proof (pm_gamma _ _ _ _ _ P) as Pg. pose proof (pm_beta _ _ _ _ _ P) as Pb. pose proof (pm_dt _ _ _ _ _ P) as Pt. fold g in Pg. fold b in Pb. fold dt in Pt.
  set (c1 := g / (b * dt)). set (c2 := 1 / (b * dt * dt)).
  assert (H1 : 0 <= c1) by (unfold c1, Rdiv; apply Rmult_le_pos; [exact Pg|left; apply Rinv_0_lt_compat; apply Rmult_lt_0_compat; assumption]).
  assert (H2 : 0 < c2) by (unfold c2, Rdiv; rewrite Rmult_1_l; apply Rinv_0_lt_compat; repeat apply Rmult_lt_0_compat; assumption).
  apply (one_equilibrium_nonsingular (nn * d) (fun U k => val U (fun j => c1 * U j) (fun j => c2 * U j) k)).
  - intros U i Hi. unfold val. rewrite !(dyn_linear d nn pen X Z cells Hd Hm) by exact Hi. fold M C K r.
    rewrite (rsum_ext (nn * d) (fun j => (K i j + c1 * C i j + c2 * M i j) * U j) (fun j => K i j * U j + (c1 * (C i j * U j) + c2 * (M i j * U j)))) by (intros; req; ring).
    rewrite (rsum_ext (nn * d) (fun j => M i j * (c2 * U j)) (fun j => c2 * (M i j * U j))), (rsum_ext (nn * d) (fun j => C i j * (c1 * U j)) (fun j => c1 * (C i j * U j))) by (intros; req; ring).
    rewrite (rsum_ext (nn * d) (fun j => M i j * (c2 * 0)) (fun j => M i j * 0)), (rsum_ext (nn * d) (fun j => C i j * (c1 * 0)) (fun j => C i j * 0)) by (intros; req; ring).
    rewrite !rsum_add, !rsum_scal_l, !sum_nothing. ring.
  - exact Hdf.
  - intros U U' HS. apply (states_agree (listed dofs) U (fun j => c1 * U j) (fun j => c2 * U j) U' (fun j => c1 * U' j) (fun j => c2 * U' j) c1 c2 H1 H2 Hst); [|exact HS].
    intros k Hk. split; ring.
Qed.
Lemma motion_steps stored : (forall t, steady d nn X cells (listed (fst (hq_bcs p t)))) -> forall k, (1 <= k < hq_steps p)%nat ->
  motion_step (nn * d) val (F (times (K := R_field) k dt)) (hq_bcs p (times (K := R_field) k dt)) g b dt (hsolution p y stored (k - 1)%nat) (hsolution p y stored k) /\
  forall cur, motion_step (nn * d) val (F (times (K := R_field) k dt)) (hq_bcs p (times (K := R_field) k dt)) g b dt (hsolution p y stored (k - 1)%nat) cur ->
    forall i, (i < nn * d)%nat -> hu cur i = hu (hsolution p y stored k) i /\ hv cur i = hv (hsolution p y stored k) i /\ ha cur i = ha (hsolution p y stored k) i.
Proof.
  intros Hst k Hk. pose proof (pm_gamma _ _ _ _ _ P) as Pg. pose proof (pm_beta _ _ _ _ _ P) as Pb. pose proof (pm_dt _ _ _ _ _ P) as Pt. pose proof (pm_size _ _ _ _ _ P) as En. 
  assert (Nb : hq_beta p <> (0 : R)) by lra. assert (Nt : hq_dt p <> (0 : R)) by lra.
  assert (HS : symmetric_laws d cells) by (intros c Hc; apply (mo_cells _ _ _ _ _ _ B c Hc)).
  assert (ST : motion_step (nn * d) val (F (times (K := R_field) k dt)) (hq_bcs p (times (K := R_field) k dt)) g b dt (hsolution p y stored (k - 1)%nat) (hsolution p y stored k)).
  { pose proof (C20_newmark R_field Y p y stored Nb Nt) as NW. specialize (NW ltac:(change ((1 + 1)%R <> 0); lra) k Hk). rewrite En in NW.
    destruct (C20_equation_of_motion R_field Y p y stored K C M (fun t i => F t i + r i)) with (k := k) as [E1 E2].
    - rewrite En. exact motion_linear.
    - intros i j _ _. apply (entries_sym d pen X Z cells HS i j).
    - intros i j _ _. apply (entries_sym d pen X Z cells HS i j).
    - intros i j _ _. apply (entries_sym d pen X Z cells HS i j).
    - exact Nb.
    - exact Nt.
    - rewrite En. exact (pm_solver _ _ _ _ _ P).
    - intros t. rewrite En. apply (motion_nonsingular (fst (hq_bcs p t))); [apply (pm_conditions _ _ _ _ _ P t)|apply Hst].
    - intros t. rewrite En. exact (pm_conditions _ _ _ _ _ P t).
    - exact Hk.
    - split; [exact NW|]. split; [exact E1|]. intros i Hi Ni. rewrite En in E2. specialize (E2 i Hi Ni). unfold val. rewrite (dyn_linear d nn pen X Z cells Hd Hm) by exact Hi. fold M C K r.
      change ((rsum (nn * d) (fun j => M i j * ha (hsolution p y stored k) j) + rsum (nn * d) (fun j => C i j * hv (hsolution p y stored k) j) + rsum (nn * d) (fun j => K i j * hu (hsolution p y stored k) j))%R
        = (F (times (K := R_field) k dt) i + r i)%R) in E2. rewrite E2. ring. }
  split; [exact ST|]. intros cur (C1 & C2 & C3). destruct ST as (S1 & S2 & S3). destruct (pm_conditions _ _ _ _ _ P (times (K := R_field) k dt)) as (Hl & _ & _).
  set (prev := hsolution p y stored (k - 1)%nat) in *. set (nxt := hsolution p y stored k) in *.
  assert (DV : forall i, (i < nn * d)%nat -> hu cur i - hu nxt i = b * dt * dt * (ha cur i - ha nxt i) /\ hv cur i - hv nxt i = g * dt * (ha cur i - ha nxt i)).
  { intros i Hi. destruct (C1 i Hi) as [E1 E2]. destruct (S1 i Hi) as [E3 E4].
    change (hu cur i = hu prev i + dt * hv prev i + dt * dt / (1 + 1) * ((1 - (1 + 1) * b) * ha prev i + (1 + 1) * b * ha cur i))%R in E1. change (hv cur i = hv prev i + dt * ((1 - g) * ha prev i + g * ha cur i))%R in E2.
    change (hu nxt i = hu prev i + dt * hv prev i + dt * dt / (1 + 1) * ((1 - (1 + 1) * b) * ha prev i + (1 + 1) * b * ha nxt i))%R in E3. change (hv nxt i = hv prev i + dt * ((1 - g) * ha prev i + g * ha nxt i))%R in E4.
    rewrite E1, E2, E3, E4. split; field. }
  fold b in Pb, Nb. fold dt in Pt, Nt. fold g in Pg.
  assert (UE : forall i, (i < nn * d)%nat -> hu cur i = hu nxt i).
  { apply (states_agree (listed (fst (hq_bcs p (times (K := R_field) k dt)))) (hu cur) (hv cur) (ha cur) (hu nxt) (hv nxt) (ha nxt) (g / (b * dt)) (1 / (b * dt * dt))).
    - unfold Rdiv. apply Rmult_le_pos; [exact Pg|]. left. apply Rinv_0_lt_compat. apply Rmult_lt_0_compat; assumption.
    - unfold Rdiv. rewrite Rmult_1_l. apply Rinv_0_lt_compat. repeat apply Rmult_lt_0_compat; assumption.
    - apply Hst.
    - intros i Hi. destruct (DV i Hi) as [E1 E2]. rewrite E1, E2. split; field; split; assumption.
    - intros i Hi. destruct (listed (fst (hq_bcs p (times (K := R_field) k dt))) i) eqn:E.
      + apply listed_in in E. assert (I : exists v, In (i, v) (combine (fst (hq_bcs p (times (K := R_field) k dt))) (snd (hq_bcs p (times (K := R_field) k dt))))).
        { clear -E Hl. revert E Hl. generalize (snd (hq_bcs p (times (K := R_field) k dt))). induction (fst (hq_bcs p (times (K := R_field) k dt))) as [|x l IH]; intros vs E Hl; [contradiction|].
          destruct vs as [|v vs]; [discriminate|]. destruct E as [->|E]; [exists v; left; reflexivity|]. destruct (IH vs E) as (w & I); [injection Hl as Hl; exact Hl|]. exists w. right. exact I. }
        destruct I as (v & I). rewrite (C2 i v I), (S2 i v I). reflexivity.
      + apply listed_out in E. rewrite (C3 i Hi E), (S3 i Hi E). reflexivity. }
  intros i Hi. destruct (DV i Hi) as [E1 E2]. specialize (UE i Hi). split; [exact UE|].
  assert (A0 : ha cur i - ha nxt i = 0).
  { assert (Q : b * dt * dt * (ha cur i - ha nxt i) = 0) by lra. apply Rmult_integral in Q. destruct Q as [Q|Q]; [|exact Q]. exfalso. revert Q. apply Rgt_not_eq. repeat apply Rmult_lt_0_compat; assumption. }
  rewrite A0 in E2. split; lra.
Qed.
End Steps.
End Body.

(** ** C170: each computed step is the only one that follows Newmark's formulas, takes the prescribed displacements and satisfies the equation of motion, for every
    positive step length, when no rigid motion keeps the supports and the centres of all cells. *)
Theorem C170_steps : forall (Y : Type) (p : hproblem R_field Y) (y : Y) (stored : hhistory R_field) d nn pen X Z cells F, moving_body d nn pen X Z cells ->
  poses_motion p y (nn * d) (fun U V A => elastodynamic d pen X U V A Z cells) F -> (forall t, steady d nn X cells (listed (fst (hq_bcs p t)))) ->
  forall k, (1 <= k < hq_steps p)%nat -> let t := times (K := R_field) k (hq_dt p) in
  motion_step (nn * d) (fun U V A => elastodynamic d pen X U V A Z cells) (F t) (hq_bcs p t) (hq_gamma p) (hq_beta p) (hq_dt p) (hsolution p y stored (k - 1)%nat) (hsolution p y stored k) /\
  forall cur, motion_step (nn * d) (fun U V A => elastodynamic d pen X U V A Z cells) (F t) (hq_bcs p t) (hq_gamma p) (hq_beta p) (hq_dt p) (hsolution p y stored (k - 1)%nat) cur ->
    forall i, (i < nn * d)%nat -> hu cur i = hu (hsolution p y stored k) i /\ hv cur i = hv (hsolution p y stored k) i /\ ha cur i = ha (hsolution p y stored k) i.
Proof. intros Y p y stored d nn pen X Z cells F B P Hst k Hk. exact (motion_steps d nn pen X Z cells B Y p y F P stored Hst k Hk). Qed.
Print Assumptions C170_steps.
(** Supports that admit no rigid motion will do. *)
Theorem C170_supported : forall M d nn X (cells : list (cell M)) held, restrains d nn d X held -> steady d nn X cells held.
Proof. intros M d nn X cells held H t A HA Hh _. exact (H t A HA Hh). Qed.
Print Assumptions C170_supported.
(** So will no supports at all: a bar of any number of cells, a plane body in which two cells have different centres, a solid in which three cells have centres that
    are not on a line. *)
Definition spread {M} (d : nat) (X : nat -> nat -> R) (cells : list (cell M)) : Prop :=
  match d with
  | 1%nat => exists c, In c cells
  | 2%nat => exists c c' i, In c cells /\ In c' cells /\ (i < 2)%nat /\ centre 2 X c i <> centre 2 X c' i
  | _ => exists c c' c'' i j, In c cells /\ In c' cells /\ In c'' cells /\ (i < 3)%nat /\ (j < 3)%nat /\
      (centre 3 X c' i - centre 3 X c i) * (centre 3 X c'' j - centre 3 X c j) <> (centre 3 X c' j - centre 3 X c j) * (centre 3 X c'' i - centre 3 X c i)
  end.
Lemma turn_zero (p q r a b c a' b' c' : R) : p * b - q * a = 0 -> r * a - p * c = 0 -> q * c - r * b = 0 ->
  p * b' - q * a' = 0 -> r * a' - p * c' = 0 -> q * c' - r * b' = 0 ->
  a * b' <> b * a' \/ a * c' <> c * a' \/ b * c' <> c * b' -> p = 0 /\ q = 0 /\ r = 0.
Proof.
  intros H1 H2 H3 H4 H5 H6 HN.
  assert (Cancel : forall u v, u * u * v = 0 -> v <> 0 -> u = 0) by (intros u v E N; apply Rmult_integral in E; destruct E as [E|E]; [|contradiction]; apply Rmult_integral in E; destruct E; assumption).
  assert (All : forall v, v <> 0 -> p * p * v = 0 -> q * q * v = 0 -> r * r * v = 0 -> p = 0 /\ q = 0 /\ r = 0) by (intros v N E1 E2 E3; repeat split; eapply Cancel; eauto).
  assert (Epb : p * b = q * a) by lra. assert (Epb' : p * b' = q * a') by lra. assert (Era : r * a = p * c) by lra. assert (Era' : r * a' = p * c') by lra. assert (Eqc : q * c = r * b) by lra. assert (Eqc' : q * c' = r * b') by lra.
  assert (F1 : p * (a * b' - b * a') = 0) by (replace (p * (a * b' - b * a')) with (a * (p * b') - (p * b) * a') by ring; rewrite Epb, Epb'; ring).
  assert (F2 : q * (a * b' - b * a') = 0) by (replace (q * (a * b' - b * a')) with ((q * a) * b' - b * (q * a')) by ring; rewrite <- Epb, <- Epb'; ring).
  assert (F3 : p * (a * c' - c * a') = 0) by (replace (p * (a * c' - c * a')) with (a * (p * c') - (p * c) * a') by ring; rewrite <- Era, <- Era'; ring).
  assert (F4 : r * (a * c' - c * a') = 0) by (replace (r * (a * c' - c * a')) with ((r * a) * c' - c * (r * a')) by ring; rewrite Era, Era'; ring).
  assert (F5 : q * (b * c' - c * b') = 0) by (replace (q * (b * c' - c * b')) with (b * (q * c') - (q * c) * b') by ring; rewrite Eqc, Eqc'; ring).
  assert (F6 : r * (b * c' - c * b') = 0) by (replace (r * (b * c' - c * b')) with ((r * b) * c' - c * (r * b')) by ring; rewrite <- Eqc, <- Eqc'; ring).
  destruct HN as [N|[N|N]].
  - apply (All (a * b' - b * a')); [lra|rewrite Rmult_assoc, F1; ring|rewrite Rmult_assoc, F2; ring|].
    replace (r * r * (a * b' - b * a')) with (r * ((r * a) * b' - b * (r * a'))) by ring. rewrite Era, Era'. replace (r * (p * c * b' - b * (p * c'))) with (- (p * (r * b * c' - c * (r * b')))) by ring. rewrite <- Eqc, <- Eqc'. ring.
  - apply (All (a * c' - c * a')); [lra|rewrite Rmult_assoc, F3; ring| |rewrite Rmult_assoc, F4; ring].
    replace (q * q * (a * c' - c * a')) with (q * ((q * a) * c' - c * (q * a'))) by ring. rewrite <- Epb, <- Epb'. replace (q * (p * b * c' - c * (p * b'))) with (p * (q * (b * c' - c * b'))) by ring. rewrite F5. ring.
  - apply (All (b * c' - c * b')); [lra| |rewrite Rmult_assoc, F5; ring|rewrite Rmult_assoc, F6; ring].
    replace (p * p * (b * c' - c * b')) with (p * ((p * b) * c' - c * (p * b'))) by ring. rewrite Epb, Epb'. replace (p * (q * a * c' - c * (q * a'))) with (q * (p * (a * c' - c * a'))) by ring. rewrite F3. ring.
Qed.
Theorem C170_free : forall M d nn X (cells : list (cell M)), (1 <= d <= 3)%nat -> spread d X cells -> steady d nn X cells (fun _ => false).
Proof.
  intros M d nn X cells Hd Hs t A HA _ Hc.
  enough (E : (forall i, (i < d)%nat -> t i = 0) /\ forall i j, (i < d)%nat -> (j < d)%nat -> A i j = 0).
  { destruct E as [E1 E2]. intros n i _ Hi. unfold affine. rewrite (E1 i Hi). unfold rs. rewrite rsum_0; [ring|]. intros j Hj. rewrite (E2 i j Hi Hj). req. ring. }
  assert (E : (exists c, In c cells) -> (forall i j, (i < d)%nat -> (j < d)%nat -> A i j = 0) -> forall i, (i < d)%nat -> t i = 0).
  { intros (c & Hin) E i Hi. specialize (Hc c i Hin Hi). unfold rs in Hc. rewrite rsum_0 in Hc; [lra|]. intros j Hj. rewrite (E i j Hi Hj). req. ring. }
  destruct d as [|[|[|[|d]]]]; try lia.
  - enough (A0 : forall i j, (i < 1)%nat -> (j < 1)%nat -> A i j = 0) by (split; [apply E; [exact Hs|exact A0]|exact A0]).
    intros i j Hi Hj. replace i with 0%nat by lia. replace j with 0%nat by lia. pose proof (HA 0%nat 0%nat ltac:(lia) ltac:(lia)). lra.
  - destruct Hs as (c & c' & m & Hin & Hin' & Hi & N).
    enough (A0 : forall i j, (i < 2)%nat -> (j < 2)%nat -> A i j = 0) by (split; [apply E; [exists c; exact Hin|exact A0]|exact A0]).
    pose proof (HA 0%nat 0%nat ltac:(lia) ltac:(lia)). pose proof (HA 1%nat 1%nat ltac:(lia) ltac:(lia)). pose proof (HA 0%nat 1%nat ltac:(lia) ltac:(lia)) as W.
    pose proof (Hc c 0%nat Hin ltac:(lia)) as P0. pose proof (Hc c 1%nat Hin ltac:(lia)) as P1. pose proof (Hc c' 0%nat Hin' ltac:(lia)) as P2. pose proof (Hc c' 1%nat Hin' ltac:(lia)) as P3.
    unfold rs in *. revert P0 P1 P2 P3. rsums. intros P0 P1 P2 P3.
    assert (D0 : A 0%nat 0%nat = 0) by lra. assert (D1 : A 1%nat 1%nat = 0) by lra. rewrite D0, ?D1 in *.
    assert (W0 : A 0%nat 1%nat = 0).
    { destruct m as [|[|m]]; try lia.
      - assert (Q : A 1%nat 0%nat * (centre 2 X c 0%nat - centre 2 X c' 0%nat) = 0) by lra. apply Rmult_integral in Q. destruct Q; [lra|exfalso; apply N; lra].
      - assert (Q : A 0%nat 1%nat * (centre 2 X c 1%nat - centre 2 X c' 1%nat) = 0) by lra. apply Rmult_integral in Q. destruct Q; [lra|exfalso; apply N; lra]. }
    intros k l Hk Hl. destruct k as [|[|k]], l as [|[|l]]; try lia; lra.
  - destruct Hs as (c & c' & c'' & i & j & Hin & Hin' & Hin'' & Hi & Hj & N).
    enough (A0 : forall i j, (i < 3)%nat -> (j < 3)%nat -> A i j = 0) by (split; [apply E; [exists c; exact Hin|exact A0]|exact A0]).
    assert (Dg : forall i, (i < 3)%nat -> A i i = 0) by (intros k Hk; pose proof (HA k k Hk Hk); lra).
    pose proof (HA 1%nat 0%nat ltac:(lia) ltac:(lia)) as W1. pose proof (HA 2%nat 0%nat ltac:(lia) ltac:(lia)) as W2. pose proof (HA 2%nat 1%nat ltac:(lia) ltac:(lia)) as W3.
    assert (T : forall e, In e cells -> forall i, (i < 3)%nat -> A i 0%nat * (centre 3 X e 0%nat - centre 3 X c 0%nat) + A i 1%nat * (centre 3 X e 1%nat - centre 3 X c 1%nat) + A i 2%nat * (centre 3 X e 2%nat - centre 3 X c 2%nat) = 0).
    { intros e He k Hk. pose proof (Hc c k Hin Hk) as Q1. pose proof (Hc e k He Hk) as Q2. unfold rs in Q1, Q2. revert Q1 Q2. rsums. intros. lra. }
    pose proof (T c' Hin') as T1. pose proof (T c'' Hin'') as T2. clear T Hc E.
    set (v := fun k => centre 3 X c' k - centre 3 X c k). set (v' := fun k => centre 3 X c'' k - centre 3 X c k).
    destruct (turn_zero (A 1%nat 2%nat) (- A 0%nat 2%nat) (A 0%nat 1%nat) (v 0%nat) (v 1%nat) (v 2%nat) (v' 0%nat) (v' 1%nat) (v' 2%nat)) as (Z1 & Z2 & Z3).
    + pose proof (T1 2%nat ltac:(lia)) as Q. rewrite W2, W3, (Dg 2%nat) in Q by lia. unfold v. lra.
    + pose proof (T1 1%nat ltac:(lia)) as Q. rewrite W1, (Dg 1%nat) in Q by lia. unfold v. lra.
    + pose proof (T1 0%nat ltac:(lia)) as Q. rewrite (Dg 0%nat) in Q by lia. unfold v. lra.
    + pose proof (T2 2%nat ltac:(lia)) as Q. rewrite W2, W3, (Dg 2%nat) in Q by lia. unfold v'. lra.
    + pose proof (T2 1%nat ltac:(lia)) as Q. rewrite W1, (Dg 1%nat) in Q by lia. unfold v'. lra.
    + pose proof (T2 0%nat ltac:(lia)) as Q. rewrite (Dg 0%nat) in Q by lia. unfold v'. lra.
    + fold (v i) (v j) (v' i) (v' j) in N. clear - N Hi Hj.
      destruct i as [|[|[|i]]]; try lia; destruct j as [|[|[|j]]]; try lia; try (exfalso; apply N; ring);
        first [left; lra | right; left; lra | right; right; lra | left; intros Q; apply N; lra | right; left; intros Q; apply N; lra | right; right; intros Q; apply N; lra].
    + intros k l Hk Hl. destruct k as [|[|[|k]]]; try lia; destruct l as [|[|[|l]]]; try lia; try (apply Dg; lia); lra.
Qed.
Print Assumptions C170_free.

(** A triangle on its own and without supports has steps that are not determined: it can turn about its centre, where its mass is. *)
Definition triangle_X (n i : nat) : R := match n, i with 1%nat, 0%nat => 3 | 2%nat, 1%nat => 3 | _, _ => 0 end.
Definition triangle {M} (m : M) : list (cell M) := [mkCell (fun a => a) m].
Lemma triangle_ok {M} (m : M) : mesh_ok 2 3 triangle_X (triangle m).
Proof.
  intros c [E|[]]; subst c. split; [intros [|[|[|a]]] Ha; cbn; lia|]. unfold simplex_measure, triangle_X. cbn. rewrite Rabs_right by lra. lra.
Qed.
Lemma steel_positive : positive_form (num_voigt 2) (e_stiff (y_law steel)).
Proof.
  intros e (i & Hi & N). unfold steel, rs. cbn [y_law e_stiff num_voigt] in *. rsums. cbn [Nat.eqb].
  assert (Q : 0 < e i * e i) by (apply Rsqr_pos_lt in N; exact N).
  assert (E : 0 <= (e 0%nat + e 1%nat + e 2%nat) * (e 0%nat + e 1%nat + e 2%nat)) by apply Rle_0_sqr.
  assert (S : 0 < e 0%nat * e 0%nat + e 1%nat * e 1%nat + e 2%nat * e 2%nat).
  { pose proof (Rle_0_sqr (e 0%nat)). pose proof (Rle_0_sqr (e 1%nat)). pose proof (Rle_0_sqr (e 2%nat)). unfold Rsqr in *. destruct i as [|[|[|i]]]; try (cbn in Hi; lia); lra. }
  lra.
Qed.
Lemma steel_body nn X cells : mesh_ok 2 nn X cells -> one_piece 2 nn (map c_node cells) -> (forall c, In c cells -> c_mat c = steel) -> moving_body 2 nn (fun z => z) X (fun _ => 1) cells.
Proof.
  intros Hm Ho Hc. split; [lia|exact Hm|exact Ho|]. intros c Hin. rewrite (Hc c Hin). split; [intros i j _ _; unfold steel; cbn; rewrite Nat.eqb_sym; reflexivity|]. split; [exact steel_positive|].
  unfold steel. cbn [y_rho y_ra y_rb]. split; [lra|]. split; [lra|]. split; [lra|]. unfold solid, rs. rsums. cbn. lra.
Qed.
Lemma triangle_body : moving_body 2 3 (fun z => z) triangle_X (fun _ => 1) (triangle steel).
Proof.
  apply steel_body; [apply triangle_ok| |intros c [<-|[]]; reflexivity]. split.
  - exists (fun a => a). split; [left; reflexivity|]. intros c [<-|[]]. apply joined_start.
  - intros n Hn. exists (fun a => a), n. split; [left; reflexivity|]. split; [lia|reflexivity].
Qed.
Definition spin : nat -> R := rigid_field 2 2 triangle_X (fun i => if Nat.eqb i 0 then 1 else -1) (fun i j => if Nat.eqb i j then 0 else if Nat.eqb i 0 then -1 else 1).
Theorem C170_refuted : ~ (forall d nn pen X Z cells F bc gamma beta dt prev cur cur', moving_body d nn pen X Z cells -> 0 < gamma -> 0 < beta -> 0 < dt -> conditions (nn * d) (fst bc) (snd bc) ->
  motion_step (nn * d) (fun U V A => elastodynamic d pen X U V A Z cells) F bc gamma beta dt prev cur ->
  motion_step (nn * d) (fun U V A => elastodynamic d pen X U V A Z cells) F bc gamma beta dt prev cur' ->
  forall k, (k < nn * d)%nat -> hu cur k = hu cur' k).
Proof.
  intros H. pose proof triangle_body as B. set (rest := mkH (K := R_field) zero zero zero). set (turn := mkH (K := R_field) spin spin spin).
  assert (MV : moves 2 3 2 triangle_X (fun i => if Nat.eqb i 0 then 1 else -1) (fun i j => if Nat.eqb i j then 0 else if Nat.eqb i 0 then -1 else 1) spin).
  { intros n i Hn Hi. unfold spin. apply rigid_field_at. exact Hi. }
  assert (AN : antisymmetric 2 (fun i j => if Nat.eqb i j then 0 else if Nat.eqb i 0 then -1 else 1)).
  { intros i j Hi Hj. destruct i as [|[|i]], j as [|[|j]]; try lia; cbn; lra. }
  assert (ST : forall (c : cell dynamic) v, In c (triangle steel) -> (v < num_voigt 2)%nat -> strain_of 2 triangle_X spin c v = 0 /\ strain_of 2 triangle_X zero c v = 0).
  { intros c v Hc Hv. destruct (mesh_cell _ _ _ _ _ (triangle_ok steel) Hc) as [Hn Hm]. split.
    - exact (rigid_strain 2 3 2 triangle_X _ _ spin c v ltac:(lia) (le_n 2) Hn Hm MV AN Hv).
    - refine (rigid_strain 2 3 2 triangle_X (fun _ => 0) (fun _ _ => 0) zero c v ltac:(lia) (le_n 2) Hn Hm _ _ Hv); [intros n i _ _; rewrite affine_const; reflexivity|intros i j _ _; lra]. }
  assert (ME : forall (c : cell dynamic) i, In c (triangle steel) -> (i < 2)%nat -> mean_of 2 spin c i = 0 /\ mean_of 2 zero c i = 0).
  { intros c i [<-|[]] Hi. split; unfold mean_of, rs; [|rewrite rsum_0 by reflexivity; unfold Rdiv; ring].
    rewrite (rsum_ext 3 _ (fun a => affine 2 (if Nat.eqb i 0 then 1 else -1) (fun j => if Nat.eqb i j then 0 else if Nat.eqb i 0 then -1 else 1) triangle_X a)) by (intros a Ha; apply MV; [exact Ha|exact Hi]).
    unfold affine, rs. rsums. destruct i as [|[|i]]; try lia; cbn; lra. }
  assert (RE : forall U, U = spin \/ U = zero -> forall k, (k < 3 * 2)%nat -> elastodynamic 2 (fun z => z) triangle_X U U U (fun _ => 1) (triangle steel) k = 0).
  { intros U HU k Hk. rewrite <- (DynProof.work_unit (3 * 2) _ k Hk), (dyn_work 2 3) by (try lia; apply triangle_ok). apply sum_over_0. intros c Hc.
    assert (SU : forall v, (v < num_voigt 2)%nat -> strain_of 2 triangle_X U c v = 0) by (intros v Hv; destruct (ST c v Hc Hv); destruct HU as [->| ->]; assumption).
    assert (MU : forall i, (i < 2)%nat -> mean_of 2 U c i = 0) by (intros i Hi; destruct (ME c i Hc Hi); destruct HU as [->| ->]; assumption).
    assert (I0 : forall W, inertia_work 2 (fun z => z) triangle_X (fun _ => 1) c U W = 0).
    { intros W. unfold inertia_work, rs. rewrite rsum_0; [ring|]. intros i Hi. rewrite (MU i Hi). req. ring. }
    assert (S0 : forall e f, (forall v, (v < num_voigt 2)%nat -> e v = 0) -> stress_power 2 (fun z => z) triangle_X (fun _ => 1) c e f = 0).
    { intros e f He. unfold stress_power, stiff, rs. rewrite rsum_0; [ring|]. intros i Hi. rewrite rsum_0; [req; ring|]. intros j Hj. rewrite (He j Hj). req. ring. }
    rewrite !I0, !S0; [ring|exact SU|]. intros v Hv. rewrite (SU v Hv). destruct Hc as [<-|[]]. unfold steel. cbn. ring. }
  assert (HC : conditions (3 * 2) (fst (@nil nat, @nil R)) (snd (@nil nat, @nil R))) by (split; [reflexivity|split; [constructor|intros k []]]).
  assert (S1 : motion_step (3 * 2) (fun U V A => elastodynamic 2 (fun z => z) triangle_X U V A (fun _ => 1) (triangle steel)) zero ([], []) (1 / 2) (1 / 4) 2 rest rest).
  { split; [|split; [intros k w []|]].
    - intros i Hi. change ((0 = 0 + 2 * 0 + 2 * 2 / (1 + 1) * ((1 - (1 + 1) * (1 / 4)) * 0 + (1 + 1) * (1 / 4) * 0)) /\ (0 = 0 + 2 * ((1 - 1 / 2) * 0 + 1 / 2 * 0)))%R. split; field.
    - intros k Hk _. exact (RE zero (or_intror eq_refl) k Hk). }
  assert (S2 : motion_step (3 * 2) (fun U V A => elastodynamic 2 (fun z => z) triangle_X U V A (fun _ => 1) (triangle steel)) zero ([], []) (1 / 2) (1 / 4) 2 rest turn).
  { split; [|split; [intros k w []|]].
    - intros i Hi. change ((spin i = 0 + 2 * 0 + 2 * 2 / (1 + 1) * ((1 - (1 + 1) * (1 / 4)) * 0 + (1 + 1) * (1 / 4) * spin i)) /\ (spin i = 0 + 2 * ((1 - 1 / 2) * 0 + 1 / 2 * spin i)))%R. split; field.
    - intros k Hk _. exact (RE spin (or_introl eq_refl) k Hk). }
  pose proof (H 2%nat 3%nat (fun z => z) triangle_X (fun _ => 1) (triangle steel) zero ([], []) (1 / 2) (1 / 4) 2 rest rest turn B ltac:(lra) ltac:(lra) ltac:(lra) HC S1 S2 0%nat ltac:(lia)) as E.
  change (0 = spin 0%nat) in E. pose proof (MV 0%nat 0%nat ltac:(lia) ltac:(lia)) as Q. cbn [Nat.mul Nat.add] in Q. rewrite Q in E. unfold affine, rs in E. revert E. rsums. cbn. lra.
Qed.
Print Assumptions C170_refuted.

(** ** C171: energy and momentum of the computed motion. *)
(** Average acceleration, no loads, supports held where they are: from the second step on, each step loses exactly what damping takes at the mean velocity, which is
    never negative. *)
Theorem C171_energy_partial : forall (Y : Type) (p : hproblem R_field Y) (y : Y) (stored : hhistory R_field) d nn pen X Z cells bc, moving_body d nn pen X Z cells ->
  poses_motion p y (nn * d) (fun U V A => elastodynamic d pen X U V A Z cells) (fun _ _ => 0) -> (forall t, hq_bcs p t = bc) -> steady d nn X cells (listed (fst bc)) ->
  hq_gamma p = (1 / 2)%R -> hq_beta p = (1 / 4)%R ->
  let E k := total_energy d pen X Z cells (hu (hsolution p y stored k)) (hv (hsolution p y stored k)) in
  forall k, (2 <= k < hq_steps p)%nat -> let V := mid (hv (hsolution p y stored (k - 1)%nat)) (hv (hsolution p y stored k)) in
  E k = E (k - 1)%nat - hq_dt p * dissipation d pen X Z cells V /\ 0 <= dissipation d pen X Z cells V.
Proof.
  intros Y p y stored d nn pen X Z cells bc B P Hbc Hst Hg Hb E k Hk V. pose proof (mo_dim _ _ _ _ _ _ B) as Hd. pose proof (mo_mesh _ _ _ _ _ _ B) as Hm.
  assert (HS : symmetric_laws d cells) by (intros c Hc; apply (mo_cells _ _ _ _ _ _ B c Hc)).
  assert (SD : forall t, steady d nn X cells (listed (fst (hq_bcs p t)))) by (intros t; rewrite Hbc; exact Hst).
  destruct (C170_steps Y p y stored d nn pen X Z cells _ B P SD k ltac:(lia)) as [(N1 & V1 & Q1) _]. destruct (C170_steps Y p y stored d nn pen X Z cells _ B P SD (k - 1)%nat ltac:(lia)) as [(_ & V0 & Q0) _].
  rewrite Hbc in V0, V1, Q0, Q1. rewrite Hg, Hb in N1. pose proof (pm_conditions _ _ _ _ _ P 0) as HC. rewrite Hbc in HC. destruct HC as (Hl & _ & _).
  assert (Same : forall i, In i (fst bc) -> hu (hsolution p y stored k) i = hu (hsolution p y stored (k - 1)%nat) i).
  { intros i I. assert (J : exists v, In (i, v) (combine (fst bc) (snd bc))).
    { clear -I Hl. revert I Hl. generalize (snd bc). induction (fst bc) as [|x l IH]; intros vs E Hl; [contradiction|].
      destruct vs as [|v vs]; [discriminate|]. destruct E as [->|E]; [exists v; left; reflexivity|]. destruct (IH vs E) as (w & I); [injection Hl as Hl; exact Hl|]. exists w. right. exact I. }
    destruct J as (v & J). rewrite (V0 i v J), (V1 i v J). reflexivity. }
  split.
  - pose proof (C121_step d nn pen X Z cells (hq_dt p) _ _ Hd Hm HS N1) as S.
    assert (W0 : work (nn * d) (mid (elastodynamic d pen X (hu (hsolution p y stored (k - 1)%nat)) (hv (hsolution p y stored (k - 1)%nat)) (ha (hsolution p y stored (k - 1)%nat)) Z cells)
        (elastodynamic d pen X (hu (hsolution p y stored k)) (hv (hsolution p y stored k)) (ha (hsolution p y stored k)) Z cells)) (fun i => hu (hsolution p y stored k) i - hu (hsolution p y stored (k - 1)%nat) i) = 0).
    { unfold work, rs. apply rsum_0. intros i Hi. destruct (in_dec Nat.eq_dec i (fst bc)) as [I|No]; [rewrite (Same i I); req; ring|].
      unfold mid. rewrite (Q0 i Hi No), (Q1 i Hi No). req. field. }
    rewrite W0 in S. unfold E, V. lra.
  - unfold dissipation. apply sum_over_nonneg. intros c Hc. destruct (mo_cells _ _ _ _ _ _ B c Hc) as (_ & HP & Hr & Ha & Hrb & _). pose proof (weight_pos d nn pen X Z cells B c Hc) as W.
    pose proof (squares_nonneg d (fun i => mean_of d V c i)) as Sq. pose proof (positive_nonneg _ _ (strain_of d X V c) HP) as Pn. rewrite <- (stiff_flip d) in Pn.
    unfold mass_of. apply Rplus_le_le_0_compat; (apply Rmult_le_pos; [apply Rmult_le_pos; [lra|]|assumption]); [apply Rmult_le_pos; lra|lra].
Qed.
Print Assumptions C171_energy_partial.
(** Momentum in the rigid motion t + Rot x: for Rot = 0 linear momentum in the direction t, for t = 0 angular momentum; the mass of a cell is at its centre. *)
Definition momentum (d : nat) (pen : R -> R) (X : nat -> nat -> R) (Z : nat -> R) (cells : list (cell dynamic)) (t : nat -> R) (Rot : nat -> nat -> R) (V : nat -> R) : R :=
  sum_over cells (fun c => mass_of d pen y_rho X Z c * rs d (fun i => mean_of d V c i * (t i + rs d (fun l => Rot i l * centre d X c l)))).
(** A free body without mass damping: momentum grows by the step length times the weighted mean of the loads at both ends of the step, in every rigid motion W and for
    all Newmark parameters.  At the start the load is replaced by what the initial accelerations stand for. *)
Theorem C171_impulse : forall (Y : Type) (p : hproblem R_field Y) (y : Y) (stored : hhistory R_field) d nn pen X Z cells F t Rot W, moving_body d nn pen X Z cells ->
  poses_motion p y (nn * d) (fun U V A => elastodynamic d pen X U V A Z cells) F -> (forall t, hq_bcs p t = ([], [])) -> spread d X cells ->
  (forall c, In c cells -> y_ra (c_mat c) = 0) -> moves d nn d X t Rot W -> antisymmetric d Rot ->
  let M := momentum d pen X Z cells t Rot in
  let rate k := match k with O => M (hq_init_a p) | S _ => work (nn * d) (F (times (K := R_field) k (hq_dt p))) W end in
  forall k, (1 <= k < hq_steps p)%nat ->
  M (hv (hsolution p y stored k)) = M (hv (hsolution p y stored (k - 1)%nat)) + hq_dt p * ((1 - hq_gamma p) * rate (k - 1)%nat + hq_gamma p * rate k).
Proof.
  intros Y p y stored d nn pen X Z cells F t Rot W B P Hbc Hsp Hra HW HR M rate k Hk. pose proof (mo_dim _ _ _ _ _ _ B) as Hd. pose proof (mo_mesh _ _ _ _ _ _ B) as Hm.
  assert (SD : forall s, steady d nn X cells (listed (fst (hq_bcs p s)))).
  { intros s. rewrite Hbc. intros t' A HA _ Hc. exact (C170_free _ d nn X cells Hd Hsp t' A HA (fun n i _ _ H => False_ind _ (diff_false_true H)) Hc). }
  assert (RT : forall j, (j < hq_steps p)%nat -> M (ha (hsolution p y stored j)) = rate j).
  { intros [|j] Hj; [cbn [rate]; rewrite hsolution_init; reflexivity|].
    destruct (C170_steps Y p y stored d nn pen X Z cells F B P SD (S j) ltac:(lia)) as [(_ & _ & Q) _]. rewrite Hbc in Q. cbn [fst] in Q.
    unfold rate. transitivity (work (nn * d) (elastodynamic d pen X (hu (hsolution p y stored (S j))) (hv (hsolution p y stored (S j))) (ha (hsolution p y stored (S j))) Z cells) W).
    2: { unfold work, rs. apply rsum_ext. intros i Hi. rewrite (Q i Hi ltac:(intros [])). reflexivity. }
    rewrite (C120_momentum d nn pen X _ _ _ Z cells t Rot W Hd Hm HW HR). unfold M, momentum. apply sum_over_ext. intros c Hc. f_equal. unfold rs. apply rsum_ext. intros i Hi. rewrite (Hra c Hc). unfold centre, rs. req. ring. }
  rewrite <- (RT k), <- (RT (k - 1)%nat) by lia.
  destruct (C170_steps Y p y stored d nn pen X Z cells F B P SD k Hk) as [(NW & _ & _) _].
  set (o := hsolution p y stored (k - 1)%nat) in *. set (s := hsolution p y stored k) in *. clearbody o s.
  assert (EV : forall i, (i < nn * d)%nat -> hv s i = hv o i + hq_dt p * (1 - hq_gamma p) * ha o i + hq_dt p * hq_gamma p * ha s i).
  { intros i Hi. destruct (NW i Hi) as [_ E2]. change (hv s i = hv o i + hq_dt p * ((1 - hq_gamma p) * ha o i + hq_gamma p * ha s i))%R in E2. rewrite E2. real_goal. ring. }
  unfold M, momentum.
  transitivity (sum_over cells (fun c => mass_of d pen y_rho X Z c * rs d (fun i => mean_of d (hv o) c i * (t i + rs d (fun l => Rot i l * centre d X c l)))
     + (hq_dt p * (1 - hq_gamma p) * (mass_of d pen y_rho X Z c * rs d (fun i => mean_of d (ha o) c i * (t i + rs d (fun l => Rot i l * centre d X c l))))
     + hq_dt p * hq_gamma p * (mass_of d pen y_rho X Z c * rs d (fun i => mean_of d (ha s) c i * (t i + rs d (fun l => Rot i l * centre d X c l))))))).
  2: { rewrite !sum_over_add, !sum_over_scal. ring. }
  apply sum_over_ext. intros c Hc. destruct (mesh_cell _ _ _ _ _ Hm Hc) as [Hn _].
  transitivity (mass_of d pen y_rho X Z c * (rs d (fun i => mean_of d (hv o) c i * (t i + rs d (fun l => Rot i l * centre d X c l)))
     + (hq_dt p * (1 - hq_gamma p) * rs d (fun i => mean_of d (ha o) c i * (t i + rs d (fun l => Rot i l * centre d X c l)))
     + hq_dt p * hq_gamma p * rs d (fun i => mean_of d (ha s) c i * (t i + rs d (fun l => Rot i l * centre d X c l)))))); [|ring]. f_equal. unfold rs.
  rewrite <- !rsum_scal_l, <- !rsum_add. apply rsum_ext. intros i Hi.
  rewrite (mean_ext d nn (hv s) (fun j => (hv o j + (hq_dt p * (1 - hq_gamma p)) * ha o j) + (hq_dt p * hq_gamma p) * ha s j) c i Hn Hi) by (intros j Hj; rewrite (EV j Hj); reflexivity).
  rewrite !mean_lin. req. ring.
Qed.
Print Assumptions C171_impulse.
(** No loads and no initial accelerations: momentum and angular momentum stay what they were. *)
Theorem C171_coasting : forall (Y : Type) (p : hproblem R_field Y) (y : Y) (stored : hhistory R_field) d nn pen X Z cells t Rot, moving_body d nn pen X Z cells ->
  poses_motion p y (nn * d) (fun U V A => elastodynamic d pen X U V A Z cells) (fun _ _ => 0) -> (forall t, hq_bcs p t = ([], [])) -> spread d X cells ->
  (forall c, In c cells -> y_ra (c_mat c) = 0) -> antisymmetric d Rot -> (forall i, (i < nn * d)%nat -> hq_init_a p i = 0) ->
  forall k, (k < hq_steps p)%nat -> momentum d pen X Z cells t Rot (hv (hsolution p y stored k)) = momentum d pen X Z cells t Rot (hq_init_v p).
Proof.
  intros Y p y stored d nn pen X Z cells t Rot B P Hbc Hsp Hra HR HA k Hk. pose proof (mo_dim _ _ _ _ _ _ B) as Hd. pose proof (mo_mesh _ _ _ _ _ _ B) as Hm.
  assert (A0 : momentum d pen X Z cells t Rot (hq_init_a p) = 0).
  { unfold momentum. apply sum_over_0. intros c Hc. destruct (mesh_cell _ _ _ _ _ Hm Hc) as [Hn _]. unfold rs. rewrite rsum_0; [ring|]. intros i Hi.
    rewrite (mean_ext d nn (hq_init_a p) (fun _ => 0) c i Hn Hi HA). unfold mean_of, rs. rewrite (rsum_0 (S d)) by reflexivity. unfold Rdiv. req. ring. }
  induction k as [|k IH]; [rewrite hsolution_init; reflexivity|].
  assert (HW : moves d nn d X t Rot (rigid_field d d X t Rot)) by (intros n i _ Hi; apply rigid_field_at; exact Hi).
  rewrite (C171_impulse Y p y stored d nn pen X Z cells (fun _ _ => 0) t Rot (rigid_field d d X t Rot) B P Hbc Hsp Hra HW HR (S k)) by lia. replace (S k - 1)%nat with k by lia. rewrite IH by lia.
  assert (W0 : forall W, work (nn * d) (fun _ => 0) W = 0) by (intros W; unfold work, rs; apply rsum_0; intros; req; ring).
  destruct k as [|k]; rewrite ?A0, !W0; ring.
Qed.
Print Assumptions C171_coasting.

(** The square of two triangles, held at three entries or free, under a load that changes in time. *)
Definition body_problem (d nn : nat) (X : nat -> nat -> R) (cells : list (cell dynamic)) (F : R -> nat -> R) (bc : list nat * list R) (u0 v0 : nat -> R) : hproblem R_field Datatypes.unit :=
  let pen := fun z : R => z in let Z := fun _ : nat => 1 in
  mkHProblem (K := R_field) (Z := Datatypes.unit) (nn * d) 5 (fun _ => bc) (gauss (nn * d)) (1 / 2)%R (1 / 4)%R 2%R u0 v0 (fun _ => 0)
    (mkHPde (K := R_field) (Z := Datatypes.unit) (fun s _ t k => elastodynamic d pen X (hu s) (hv s) (ha s) Z cells k - F t k)
      (fun _ _ _ => stiffness_entry d pen X Z cells) (fun _ _ _ => damping_entry d pen X Z cells) (fun _ _ _ => mass_entry d pen X Z cells) (fun _ _ _ _ _ => 0) (fun _ _ _ _ _ => 0)).
Lemma body_poses d nn X cells F bc u0 v0 : (1 <= d <= 3)%nat -> mesh_ok d nn X cells -> conditions (nn * d) (fst bc) (snd bc) ->
  poses_motion (body_problem d nn X cells F bc u0 v0) tt (nn * d) (fun U V A => elastodynamic d (fun z => z) X U V A (fun _ => 1) cells) F.
Proof.
  intros Hd Hm HC. split.
  - reflexivity.
  - intros s t k Hk. reflexivity.
  - intros V A t U i j Hi Hj. cbn [hq_pde body_problem hp_value hp_gradient_u hu hv ha].
    apply (affine_derivative _ (elastodynamic d (fun z => z) X U V A (fun _ => 1) cells i - F t i)). intros h. rewrite !(dyn_linear d nn (fun z => z) X (fun _ => 1) cells Hd Hm) by exact Hi. rewrite row_moved by exact Hj. ring.
  - intros U A t V i j Hi Hj. cbn [hq_pde body_problem hp_value hp_gradient_v hu hv ha].
    apply (affine_derivative _ (elastodynamic d (fun z => z) X U V A (fun _ => 1) cells i - F t i)). intros h. rewrite !(dyn_linear d nn (fun z => z) X (fun _ => 1) cells Hd Hm) by exact Hi. rewrite row_moved by exact Hj. ring.
  - intros U V t A i j Hi Hj. cbn [hq_pde body_problem hp_value hp_gradient_a hu hv ha].
    apply (affine_derivative _ (elastodynamic d (fun z => z) X U V A (fun _ => 1) cells i - F t i)). intros h. rewrite !(dyn_linear d nn (fun z => z) X (fun _ => 1) cells Hd Hm) by exact Hi. rewrite row_moved by exact Hj. ring.
  - apply gauss_ok.
  - intros t. exact HC.
  - cbn. lra.
  - cbn. lra.
  - cbn. lra.
Qed.
Definition iron : dynamic := mkDyn (y_law steel) 8 0 (1 / 5).
Lemma square_moving m : y_law m = y_law steel -> 0 < y_rho m -> 0 <= y_ra m -> 0 <= y_rb m -> moving_body 2 4 (fun z => z) square_X (fun _ => 1) (square m).
Proof.
  intros E Hr Ha Hb. split; [lia|apply square_ok|apply square_one_piece|]. intros c Hc. assert (Em : c_mat c = m) by (destruct Hc as [<-|[<-|[]]]; reflexivity). rewrite Em, E.
  split; [intros i j _ _; unfold steel; cbn; rewrite Nat.eqb_sym; reflexivity|]. split; [exact steel_positive|]. split; [exact Hr|]. split; [exact Ha|]. split; [exact Hb|]. unfold solid, rs. rsums. cbn. lra.
Qed.
Lemma square_spread {M} (m : M) : spread 2 square_X (square m).
Proof.
  unfold spread, square. eexists _, _, 0%nat. split; [left; reflexivity|]. split; [right; left; reflexivity|]. split; [lia|]. unfold centre, rs. rsums. cbn. lra.
Qed.
Definition gust (t : R) (k : nat) : R := if Nat.eqb k 7 then t else 0.
Example C170_case : moving_body 2 4 (fun z => z) square_X (fun _ => 1) (square steel) /\
  poses_motion (body_problem 2 4 square_X (square steel) gust ([0; 1; 3]%nat, [0; 0; 0]) zero zero) tt (4 * 2) (fun U V A => elastodynamic 2 (fun z => z) square_X U V A (fun _ => 1) (square steel)) gust /\
  steady 2 4 square_X (square steel) (listed [0; 1; 3]%nat) /\ gust 2 7%nat = 2.
Proof.
  split; [apply square_moving; try reflexivity; unfold steel; cbn; lra|]. split.
  - apply body_poses; [lia|apply square_ok|]. split; [reflexivity|]. split; [repeat constructor; cbn; lia|]. intros k [<-|[<-|[<-|[]]]]; lia.
  - split; [|reflexivity]. apply C170_supported. intros t A HA H. apply (square_restrained t A HA). intros n i Hn Hi Hh. apply H; try assumption. apply listed_in. unfold three_held in Hh.
    destruct (Nat.eqb_spec (n * 2 + i) 0) as [E|_]; [left; lia|]. destruct (Nat.eqb_spec (n * 2 + i) 1) as [E|_]; [right; left; lia|]. destruct (Nat.eqb_spec (n * 2 + i) 3) as [E|_]; [right; right; left; lia|discriminate].
Qed.
Example C171_case : moving_body 2 4 (fun z => z) square_X (fun _ => 1) (square iron) /\
  poses_motion (body_problem 2 4 square_X (square iron) gust ([], []) zero (fun k => INR k)) tt (4 * 2) (fun U V A => elastodynamic 2 (fun z => z) square_X U V A (fun _ => 1) (square iron)) gust /\
  spread 2 square_X (square iron) /\ (forall c, In c (square iron) -> y_ra (c_mat c) = 0).
Proof.
  split; [apply square_moving; unfold iron; cbn; try reflexivity; lra|]. split.
  - apply body_poses; [lia|apply square_ok|]. split; [reflexivity|]. split; [constructor|intros k []].
  - split; [apply square_spread|]. intros c [<-|[<-|[]]]; reflexivity.
Qed.
