(** C165: the stationary solve of a supported body returns its equilibrium. *)
From Coq Require Import Reals List Arith Bool Lia Lra.
From Verif Require Import Base.Field Base.Sums Base.Res BC.ConstraintsSpec BC.ConstraintsMain Problem.DenseBC Problem.SmallSolver Problem.EllipticModel Problem.EllipticSpec Problem.EllipticProof Problem.EllipticProps
  Element.ElementModel Element.ElementSpec Element.ElementProof Penalty.PenaltyModel Residual.Kernel
  Residual.ResidualModel Residual.ResidualSpec Residual.ResidualProof Residual.ResidualProps Residual.ResidualEnergyProps Residual.SupportSpec Residual.SupportProof Residual.SupportProps Residual.PotentialProps
  Residual.SolveSpec Residual.SolveProof.
Import ListNotations.
Local Open Scope R_scope.

(** The problem is about the forces [val] and loads F: its residual is val - F with n entries, its Jacobian the matrix of the partial derivatives,
    its linear solver solves what has a solution, its conditions list no entry twice, and the test on the residual does not fire at the start. *)
Record poses {Z} (p : problem R_ring Z) (z : Z) (n : nat) (val : (nat -> R) -> nat -> R) (F : nat -> R) : Prop := {
  ps_size : n_dofs p = n;
  ps_value : forall U k, (k < n)%nat -> p_value (the_pde p) U z k = val U k - F k;
  ps_jacobian : partial_derivatives n (fun U => p_value (the_pde p) U z) (fun U => p_gradient_u (the_pde p) U z);
  ps_solver : solver_ok (K := R_ring) n (lin_solve p);
  ps_conditions : conditions n (bc_dofs p) (bc_vals p);
  ps_steps : (0 < newton_steps p)%nat;
  ps_start : newton_steps p = 1%nat \/ res_small p (fun i => -1 * p_value (the_pde p) (fun _ => 0) z i) = false }.
(** The problem returns an equilibrium, and there is no other. *)
Definition solves_body {Z} (p : problem R_ring Z) (z : Z) (n : nat) (val : (nat -> R) -> nat -> R) (F : nat -> R) : Prop :=
  equilibrium n val F (bc_dofs p) (bc_vals p) (solution p z) /\
  forall U, equilibrium n val F (bc_dofs p) (bc_vals p) U -> forall k, (k < n)%nat -> U k = solution p z k.
Lemma posed_solves {Z} (p : problem R_ring Z) (z : Z) n val F : poses p z n val F -> reciprocal n val ->
  (forall U U', same_conditions n (listed (bc_dofs p)) U U' (val U) (val U') -> forall k, (k < n)%nat -> U k = U' k) -> solves_body p z n val F.
Proof. intros [] HR HU. apply solve_equilibrium; assumption. Qed.

Lemma elastic_reciprocal d nn pen col X Z cells : (1 <= d <= 3)%nat -> mesh_ok d nn X cells -> all_symmetric (num_voigt d) cells ->
  reciprocal (nn * d) (fun U => elastostatic d pen col X U Z cells).
Proof.
  intros Hd Hm Hs U W.
  assert (F : forall U W, work (nn * d) (elastostatic d pen col X U Z cells) W - work (nn * d) (elastostatic d pen col X zero Z cells) W =
    sum_over cells (fun c => cell_measure d (gather_coords X c) * pen (cell_density (S d) (gather_control Z c)) *
      rsum (num_voigt d) (fun v => rsum (num_voigt d) (fun j => strain d d zero (gather d U c) (cell_gradient d (gather_coords X c)) j * e_stiff (c_mat c) v j)
        * strain d d zero (gather d W c) (cell_gradient d (gather_coords X c)) v))).
  { clear U W. intros U W. unfold elastostatic. rewrite !assemble_work by (apply (mesh_nodes d nn X); exact Hm).
    unfold Rminus. rewrite <- (Rmult_1_l (sum_over cells (fun c => cell_work _ _ (elastostatic_cell _ _ _ _ _ (gather d zero c) _) _))), Ropp_mult_distr_l, <- sum_over_scal, <- sum_over_add.
    apply sum_over_ext. intros c Hc. rewrite !elastic_work by exact Hd. set (q := cell_measure _ _ * pen _). set (g := cell_gradient _ _).
    assert (E : forall v, elastic_stress d (c_mat c) col (gather_coords X c) (gather d U c) v - elastic_stress d (c_mat c) col (gather_coords X c) (gather d zero c) v
      = rsum (num_voigt d) (fun j => strain d d zero (gather d U c) g j * e_stiff (c_mat c) v j)).
    { intros v. assert (E : forall s s', add_forcing (e_stiff (c_mat c)) col s v - add_forcing (e_stiff (c_mat c)) col s' v = s v - s' v) by (intros; unfold add_forcing; destruct col; ring).
      unfold elastic_stress. rewrite E. unfold linear_stress. rewrite <- rsum_sub. apply rsum_ext. intros j Hj.
      assert (Z0 : strain d d zero (gather d zero c) (cell_gradient d (gather_coords X c)) j = 0).
      { pose proof (strain_sub d d zero zero c (cell_gradient d (gather_coords X c)) j Hd Hj) as Q.
        rewrite (strain_ext d d (gather d (fun k => 0 - 0) c) (gather d zero c)) in Q by (try lia; intros; unfold gather; ring). lra. }
      rewrite Z0. unfold g. req. ring. }
    transitivity (q * (rsum (num_voigt d) (fun v => elastic_stress d (c_mat c) col (gather_coords X c) (gather d U c) v * strain d d zero (gather d W c) g v)
       - rsum (num_voigt d) (fun v => elastic_stress d (c_mat c) col (gather_coords X c) (gather d zero c) v * strain d d zero (gather d W c) g v))); [ring|].
    f_equal. rewrite <- rsum_sub. apply rsum_ext. intros v Hv. rewrite <- E. req. ring. }
  rewrite !F. apply sum_over_ext. intros c Hc. f_equal. apply form_sym. apply Hs. exact Hc.
Qed.
Lemma symmetric_reciprocal n val : (forall U W, work n (val U) W = work n (val W) U) -> reciprocal n val.
Proof.
  intros H U W. assert (N : forall F : nat -> R, work n F zero = 0) by (intros; unfold work, rs; apply rsum_0; intros; req; ring).
  rewrite (H zero W), (H zero U), !N, (H U W). reflexivity.
Qed.

(** Elastic bodies in one piece, with supports that admit no rigid motion, a symmetric positive stiffness and some material in every cell; reference
    strains and cell forcing may be present.  Whatever the solver, the loads and the given displacements (zero or not). *)
Theorem C165_elastic : forall (Y : Type) (p : problem R_ring Y) (y : Y) d nn pen col X Z cells F, (1 <= d <= 3)%nat -> mesh_ok d nn X cells -> one_piece d nn (map c_node cells) ->
  restrains d nn d X (listed (bc_dofs p)) ->
  (forall c, In c cells -> symmetric (num_voigt d) (e_stiff (c_mat c)) /\ positive_form (num_voigt d) (e_stiff (c_mat c)) /\ solid d pen Z c) ->
  poses p y (nn * d) (fun U => elastostatic d pen col X U Z cells) F ->
  solves_body p y (nn * d) (fun U => elastostatic d pen col X U Z cells) F.
Proof.
  intros Y p y d nn pen col X Z cells F Hd Hm Hone Hres Hc Hp. apply posed_solves; [exact Hp| |].
  - apply elastic_reciprocal; try assumption. intros c Hin. apply (Hc c Hin).
  - intros U U' Hs. apply (C162_elastic d nn pen col X U U' Z cells (listed (bc_dofs p))); try assumption. intros c Hin. destruct (Hc c Hin) as (_ & H). exact H.
Qed.
Print Assumptions C165_elastic.
(** Conducting bodies, every node connected through cells to one of given temperature. *)
Theorem C165_heat : forall (Y : Type) (p : problem R_ring Y) (y : Y) d nn pen X Z cells F, (1 <= d <= 3)%nat -> mesh_ok d nn X cells ->
  (forall n, (n < nn)%nat -> anchored d (map c_node cells) (listed (bc_dofs p)) n) ->
  (forall c, In c cells -> t_nonlinear (c_mat c) = false /\ symmetric d (t_cond_const (c_mat c)) /\ positive_form d (t_cond_const (c_mat c)) /\ solid d pen Z c) ->
  poses p y nn (fun T => thermostatic d pen X T Z cells) F ->
  solves_body p y nn (fun T => thermostatic d pen X T Z cells) F.
Proof.
  intros Y p y d nn pen X Z cells F Hd Hm Hanc Hc Hp. apply posed_solves; [exact Hp| |].
  - apply symmetric_reciprocal. intros T S'. apply (C99_thermal d nn); try assumption. intros c Hin. destruct (Hc c Hin) as (H1 & H2 & _). split; assumption.
  - intros T T' Hs n Hn. apply (C162_heat d nn pen X T T' Z cells (listed (bc_dofs p))); try assumption; [|apply Hanc; exact Hn]. intros c Hin. destruct (Hc c Hin) as (H1 & _ & H2). split; assumption.
Qed.
Print Assumptions C165_heat.
(** Piezoelectric bodies. *)
Theorem C165_electroelastic : forall (Y : Type) (p : problem R_ring Y) (y : Y) d nn pen X Z cells F, (1 <= d <= 3)%nat -> mesh_ok d nn X cells -> one_piece d nn (map c_node cells) ->
  restrains d nn (S d) X (listed (bc_dofs p)) -> (forall n, (n < nn)%nat -> anchored d (map c_node cells) (held_last d (listed (bc_dofs p))) n) ->
  (forall c, In c cells -> p_alpha (c_mat c) <> 0 /\ symmetric (num_voigt d) (p_stiff (c_mat c)) /\ positive_form (num_voigt d) (p_stiff (c_mat c)) /\
     symmetric d (p_perm (c_mat c)) /\ positive_form d (p_perm (c_mat c)) /\ solid d pen Z c) ->
  poses p y (nn * S d) (fun U => electroelastostatic d pen X U Z cells) F ->
  solves_body p y (nn * S d) (fun U => electroelastostatic d pen X U Z cells) F.
Proof.
  intros Y p y d nn pen X Z cells F Hd Hm Hone Hres Hanc Hc Hp. apply posed_solves; [exact Hp| |].
  - apply symmetric_reciprocal. intros U V. apply (C99_electroelastic d nn); try assumption. intros c Hin. destruct (Hc c Hin) as (_ & H1 & _ & H2 & _). split; assumption.
  - intros U U' Hs. apply (C162_electroelastic d nn pen X U U' Z cells (listed (bc_dofs p))); try assumption. intros c Hin. destruct (Hc c Hin) as (H1 & _ & H2 & _ & H3 & H4). repeat split; assumption.
Qed.
Print Assumptions C165_electroelastic.

(** The hypotheses met: a bar whose left end is moved by 1 and whose right end is loaded by 1. *)
Definition bar_problem : problem R_ring Datatypes.unit :=
  mkProblem (K := R_ring) (Z := Datatypes.unit) 2 1 (fun _ => false) (fun _ => false) [0%nat] [1] false (solver2 (K := R_field))
    (mkPde (K := R_ring) (Z := Datatypes.unit) (fun U _ k => elastostatic 1 (fun x => x) None bar_X U (fun _ => 1) (bar rod) k - pull k)
      (fun _ _ i j => if Nat.eqb i j then 2 else -2) (fun _ _ i j => if Nat.eqb i j then 2 else -2) (fun _ _ _ _ => 0) (fun _ _ _ _ => 0)).
Example C165_case : mesh_ok 1 2 bar_X (bar rod) /\ one_piece 1 2 (map c_node (bar rod)) /\ restrains 1 2 1 bar_X (listed (bc_dofs bar_problem)) /\
  (forall c, In c (bar rod) -> symmetric (num_voigt 1) (e_stiff (c_mat c)) /\ positive_form (num_voigt 1) (e_stiff (c_mat c)) /\ solid 1 (fun x => x) (fun _ => 1) c) /\
  poses bar_problem tt 2 (fun U => elastostatic 1 (fun x => x) None bar_X U (fun _ => 1) (bar rod)) pull /\
  solution bar_problem tt 0%nat = 1 /\ solution bar_problem tt 1%nat = 3 / 2.
Proof.
  split; [apply bar_ok|]. split.
  { split; [exists (c_node (mkCell (fun a => a) rod))|].
    - split; [left; reflexivity|]. intros c [<-|[]]. apply joined_start.
    - intros n Hn. exists (fun a => a), n. split; [left; reflexivity|]. split; [lia|reflexivity]. }
  split.
  { intros t A HA Hh n i Hn Hi. assert (i = 0%nat) by lia. subst i. pose proof (HA 0%nat 0%nat ltac:(lia) ltac:(lia)) as A0. pose proof (Hh 0%nat 0%nat ltac:(lia) ltac:(lia) eq_refl) as H0.
    unfold affine, rs in *. revert H0. rsums. cbn. intros. nra. }
  split.
  { intros c [<-|[]]. split; [intros i j _ _; reflexivity|]. split.
    - intros e (i & Hi & N). cbn in Hi. assert (i = 0%nat) by lia. subst i. unfold rs. rsums. cbn. apply Rsqr_pos_lt in N. unfold Rsqr in N. lra.
    - unfold solid, rs. rsums. cbn. lra. }
  assert (B : forall U k, (k < 2)%nat -> elastostatic 1 (fun x => x) None bar_X U (fun _ => 1) (bar rod) k = 2 * (U 1%nat - U 0%nat) * (if Nat.eqb k 1 then 1 else -1)) by (intros U k Hk; rewrite bar_loaded by exact Hk; ring).
  split.
  { split; try reflexivity.
    - intros U i j Hi Hj. cbn [the_pde bar_problem p_value p_gradient_u].
      apply (affine_derivative _ (2 * (U 1%nat - U 0%nat) * (if Nat.eqb i 1 then 1 else -1) - pull i)). intros t. rewrite B by exact Hi.
      destruct i as [|[|i]]; try lia; destruct j as [|[|j]]; try lia; unfold moved; cbn; ring.
    - apply (solver2_ok (K := R_field)).
    - split; [reflexivity|]. split; [repeat constructor; intros []|]. intros k [<-|[]]. cbn. lia.
    - cbn. lia.
    - left. reflexivity. }
  unfold solution, newton. cbn [newton_steps bar_problem the_pde p_value p_gradient_u lin_solve bc_dofs bc_vals].
  unfold solver2, bc_matrix, constrained_matrix, bc_rhs, prescribed, constrained. cbn -[elastostatic]. rewrite !B by lia. cbn. split; field.
Qed.
