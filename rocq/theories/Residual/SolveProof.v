(** From forces that depend on displacements reciprocally and have one equilibrium to a matrix the solver can solve. *)
From Coq Require Import Reals List Arith Bool Lia Lra.
From Verif Require Import Base.Field Base.Sums Base.Res BC.ConstraintsSpec BC.ConstraintsMain Problem.DenseBC Problem.EllipticModel Problem.EllipticSpec Problem.EllipticProof Problem.EllipticProps
  Element.ElementModel Element.ElementSpec Element.ElementProof Residual.Kernel
  Residual.ResidualModel Residual.ResidualSpec Residual.ResidualProof Residual.ResidualEnergyProps Residual.SupportSpec Residual.SupportProof Residual.PotentialProps Residual.SolveSpec.
Import ListNotations.
Local Open Scope R_scope.

Notation zero := (fun _ : nat => 0).
Lemma constrained_listed dofs k : constrained dofs k = listed dofs k.
Proof.
  unfold listed. destruct (in_dec Nat.eq_dec k dofs) as [H|H]; [apply constrained_in; exact H|].
  destruct (constrained dofs k) eqn:E; [|reflexivity]. apply constrained_in in E. contradiction.
Qed.
Lemma listed_in dofs k : listed dofs k = true <-> In k dofs.
Proof. unfold listed. destruct (in_dec Nat.eq_dec k dofs); split; intros; try assumption; try reflexivity; [discriminate|contradiction]. Qed.
Lemma listed_out dofs k : listed dofs k = false <-> ~ In k dofs.
Proof. unfold listed. destruct (in_dec Nat.eq_dec k dofs); split; intros; try assumption; try reflexivity; [discriminate|contradiction]. Qed.
Lemma affine_derivative f a b : (forall t, f t = a + t * b) -> derivable_pt_lim f 0 b.
Proof.
  intros H eps He. exists (mkposreal eps He). intros h Hh _. rewrite !H. replace ((a + (0 + h) * b - (a + 0 * b)) / h - b) with 0 by (field; exact Hh). rewrite Rabs_R0. exact He.
Qed.

(** Forces val U = val 0 + A U. *)
Definition affine_forces (n : nat) (val : (nat -> R) -> nat -> R) (A : nat -> nat -> R) : Prop :=
  forall U i, (i < n)%nat -> val U i = val zero i + rsum n (fun j => A i j * U j).
Section Affine.
Variables (n : nat) (val : (nat -> R) -> nat -> R) (A : nat -> nat -> R).
Hypothesis HA : affine_forces n val A.
Lemma row_moved U i j t : (j < n)%nat -> rsum n (fun k => A i k * moved U j t k) = rsum n (fun k => A i k * U k) + t * A i j.
Proof.
  intros Hj. rewrite <- (rsum_delta' n j (t * A i j)%R) by exact Hj. rewrite <- rsum_add. apply rsum_ext. intros k Hk. unfold moved. destruct (Nat.eqb_spec k j) as [->|]; req; ring.
Qed.
Lemma derivative_entry G : partial_derivatives n val G -> forall U i j, (i < n)%nat -> (j < n)%nat -> G U i j = A i j.
Proof.
  intros HG U i j Hi Hj. apply (uniqueness_limite (fun t => val (moved U j t) i) 0); [apply HG; assumption|].
  apply (affine_derivative _ (val U i)). intros t. rewrite (HA (moved U j t) i Hi), (HA U i Hi), row_moved by exact Hj. ring.
Qed.
(** One equilibrium for each set of values and loads: the matrix with the conditions has an inverse. *)
Lemma one_equilibrium_nonsingular dofs : (forall k, In k dofs -> (k < n)%nat) ->
  (forall U U', same_conditions n (listed dofs) U U' (val U) (val U') -> forall k, (k < n)%nat -> U k = U' k) ->
  nonsingular (K := R_ring) n (bc_matrix (K := R_ring) dofs A).
Proof.
  intros Hd HU. apply kernel_inverse. intros x Hx. apply (HU x zero). intros k Hk. pose proof Hx as Hx'. specialize (Hx k Hk).
  destruct (listed dofs k) eqn:E.
  - rewrite <- constrained_listed in E. etransitivity; [|exact Hx]. symmetry. apply (bc_row_fixed (K := R_ring) n dofs A x k Hk E).
  - rewrite (HA x k Hk). symmetry. rewrite <- (Rplus_0_r (val zero k)) at 1. f_equal. symmetry.
    assert (Z : forall j, (j < n)%nat -> listed dofs j = true -> x j = 0).
    { clear k Hk Hx E. intros j Hj E. pose proof (bc_row_fixed (K := R_ring) n dofs A x j Hj) as B. rewrite constrained_listed in B. specialize (B E). rewrite <- B.
      exact (Hx' j Hj). }
    etransitivity; [|exact Hx]. apply rsum_ext. intros j Hj. unfold bc_matrix, constrained_matrix. rewrite !constrained_listed, E. cbn [orb].
    destruct (listed dofs j) eqn:Ej; [|reflexivity]. rewrite (Z j Hj Ej). req. ring.
Qed.
End Affine.

(** Reciprocal forces: affine, with a symmetric matrix. *)
Definition reciprocal (n : nat) (val : (nat -> R) -> nat -> R) : Prop :=
  forall U W, work n (val U) W - work n (val zero) W = work n (val W) U - work n (val zero) U.
Definition stiffness (val : (nat -> R) -> nat -> R) (i j : nat) : R := val (unit i) j - val zero j.
Lemma reciprocal_affine n val : reciprocal n val -> affine_forces n val (stiffness val).
Proof.
  intros HR U i Hi. pose proof (HR U (unit i)) as E. rewrite !work_unit in E by exact Hi.
  assert (S : rsum n (fun j => stiffness val i j * U j) = work n (val (unit i)) U - work n (val zero) U).
  { unfold work, rs, stiffness. rewrite <- rsum_sub. apply rsum_ext. intros. req. ring. }
  rewrite S. lra.
Qed.
Lemma reciprocal_symmetric n val : reciprocal n val -> ConstraintsSpec.symmetric (K := R_ring) n (stiffness val).
Proof. intros HR i j Hi Hj. pose proof (HR (unit i) (unit j)) as E. rewrite !work_unit in E by assumption. unfold stiffness. exact E. Qed.

(** What the stationary problem returns for such forces. *)
Lemma solve_equilibrium {Z} (p : problem R_ring Z) (z : Z) n val (F : nat -> R) : reciprocal n val ->
  (forall U U', same_conditions n (listed (bc_dofs p)) U U' (val U) (val U') -> forall k, (k < n)%nat -> U k = U' k) ->
  n_dofs p = n -> (forall U k, (k < n)%nat -> p_value (the_pde p) U z k = val U k - F k) ->
  partial_derivatives n (fun U => p_value (the_pde p) U z) (fun U => p_gradient_u (the_pde p) U z) ->
  solver_ok (K := R_ring) n (lin_solve p) -> conditions n (bc_dofs p) (bc_vals p) -> (0 < newton_steps p)%nat ->
  newton_steps p = 1%nat \/ res_small p (fun i => -1 * p_value (the_pde p) zero z i) = false ->
  equilibrium n val F (bc_dofs p) (bc_vals p) (solution p z) /\
  forall U, equilibrium n val F (bc_dofs p) (bc_vals p) U -> forall k, (k < n)%nat -> U k = solution p z k.
Proof.
  intros HR HU Hn HV HG Hs (Hl & Hnd & Hd) H0 Hex. subst n.
  pose proof (reciprocal_affine _ _ HR) as HA. set (A := stiffness val) in *.
  assert (HA' : affine_forces (n_dofs p) (fun U => p_value (the_pde p) U z) A).
  { intros U i Hi. rewrite (HV U i Hi), (HV zero i Hi), (HA U i Hi). ring. }
  assert (Lin : linear_pde (K := R_ring) (n_dofs p) (the_pde p) z A (fun i => F i - val zero i)).
  { intros U. split.
    - intros i Hi. rewrite (HV U i Hi), (HA U i Hi). unfold mv. cbn. ring.
    - intros i j Hi Hj. exact (derivative_entry _ _ _ HA' _ HG U i j Hi Hj). }
  destruct (C12_linear_solve R_ring Z p z A _ Lin (reciprocal_symmetric _ _ HR) Hs (one_equilibrium_nonsingular _ _ _ HA _ Hd HU) Hl Hnd Hd H0 Hex) as [E1 E2].
  assert (EQ : equilibrium (n_dofs p) val F (bc_dofs p) (bc_vals p) (solution p z)).
  { split; [exact E1|]. intros k Hk Hni. rewrite (HA _ k Hk). specialize (E2 k Hk Hni). unfold mv in E2. cbn in E2. cbn. rewrite E2. ring. }
  split; [exact EQ|]. intros U [U1 U2] k Hk. apply (HU U (solution p z)); [|exact Hk]. clear k Hk. intros k Hk.
  destruct (listed (bc_dofs p) k) eqn:E.
  - apply listed_in in E. assert (I : exists v, In (k, v) (combine (bc_dofs p) (bc_vals p))).
    { clear -E Hl. revert E Hl. generalize (bc_vals p). induction (bc_dofs p) as [|d l IH]; intros vs E Hl; [contradiction|].
      destruct vs as [|v vs]; [discriminate|]. destruct E as [->|E]; [exists v; left; reflexivity|]. destruct (IH vs E) as (w & I); [injection Hl as Hl; exact Hl|]. exists w. right. exact I. }
    destruct I as (v & I). rewrite (U1 k v I), (proj1 EQ k v I). reflexivity.
  - apply listed_out in E. rewrite (U2 k Hk E), (proj2 EQ k Hk E). reflexivity.
Qed.
