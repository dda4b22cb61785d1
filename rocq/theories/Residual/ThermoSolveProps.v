(** C167: stationary thermoelastic solves. *)
From Coq Require Import Reals List Arith Bool Lia Lra FunctionalExtensionality.
From Verif Require Import Base.Field Base.Sums Base.Res BC.ConstraintsSpec BC.ConstraintsMain Problem.DenseBC Problem.EllipticModel Problem.EllipticSpec Problem.EllipticProof Problem.EllipticProps
  Element.ElementModel Element.ElementSpec Element.ElementProof Penalty.PenaltyModel Residual.Kernel
  Residual.ResidualModel Residual.ResidualSpec Residual.ResidualProof Residual.ResidualProps Residual.ResidualEnergyProps Residual.SupportSpec Residual.SupportProof Residual.SupportProps Residual.PotentialProps
  Residual.SolveSpec Residual.SolveProof Residual.SolveProps Residual.Gauss Residual.CurveProof.
Import ListNotations.
Local Open Scope R_scope.

(** The internal forces and heat flows of a thermoelastic body (an outcome in two and three dimensions, C95). *)
Definition tm_forces (d : nat) (pen : R -> R) (X : nat -> nat -> R) (Z : nat -> R) (cells : list (cell thermoelastic)) (U : nat -> R) : nat -> R :=
  match thermoelastostatic d pen X U Z cells with Ok r => r | _ => fun _ => 0 end.

(** Maps that are affine along lines and look at n entries only have a matrix. *)
Definition tangent_matrix (val : (nat -> R) -> nat -> R) (i j : nat) : R := val (unit j) i - val zero i.
Definition cut (U : nat -> R) (m k : nat) : R := if Nat.ltb k m then U k else 0.
Lemma affine_matrix n (val : (nat -> R) -> nat -> R) :
  (forall U W s k, (k < n)%nat -> val (along U W s) k = val U k + s * (val W k - val zero k)) ->
  (forall U U', (forall k, (k < n)%nat -> U k = U' k) -> forall k, (k < n)%nat -> val U k = val U' k) ->
  affine_forces n val (tangent_matrix val).
Proof.
  intros HL HE U i Hi.
  assert (E : forall m, (m <= n)%nat -> val (cut U m) i = val zero i + rsum m (fun j => tangent_matrix val i j * U j)).
  { induction m as [|m IH]; intros Hm.
    - change (rsum 0 (fun j => tangent_matrix val i j * U j)) with 0. rewrite Rplus_0_r. apply HE; [|exact Hi]. intros k _. reflexivity.
    - replace (cut U (S m)) with (along (cut U m) (unit m) (U m)).
      + rewrite HL by exact Hi. rewrite IH by lia. rewrite last_sum. unfold tangent_matrix at 3. req. ring.
      + apply functional_extensionality. intros k. unfold along, cut, unit. destruct (Nat.eqb_spec k m) as [->|N].
        * rewrite (proj2 (Nat.ltb_ge m m)), (proj2 (Nat.ltb_lt m (S m))) by lia. ring.
        * destruct (Nat.ltb_spec k m), (Nat.ltb_spec k (S m)); try lia; ring. }
  rewrite <- (E n (le_n n)). apply HE; [|exact Hi]. intros k Hk. unfold cut. rewrite (proj2 (Nat.ltb_lt k n)) by exact Hk. reflexivity.
Qed.

Lemma gather_agree {M} nn ndof U U' (c : cell M) d : (0 < ndof)%nat -> (forall a, (a <= d)%nat -> (c_node c a < nn)%nat) -> (forall k, (k < nn * ndof)%nat -> U k = U' k) ->
  forall k, (k < S d * ndof)%nat -> gather ndof U c k = gather ndof U' c k.
Proof.
  intros H0 Hn H k Hk. unfold gather. apply H. pose proof (Nat.mod_upper_bound k ndof ltac:(lia)). assert (k / ndof < S d)%nat by (apply Nat.div_lt_upper_bound; lia).
  pose proof (Hn (k / ndof)%nat ltac:(lia)). nia.
Qed.
Section Body.
Variables (d nn : nat) (pen : R -> R) (X : nat -> nat -> R) (Z : nat -> R) (cells : list (cell thermoelastic)).
Hypothesis Hd : (2 <= d <= 3)%nat.
Hypothesis Hm : mesh_ok d nn X cells.
Hypothesis Hlin : forall c, In c cells -> m_nonlinear (c_mat c) = false.
Let val := tm_forces d pen X Z cells.
Lemma tm_forces_entry U k : (k < nn * S d)%nat -> val U k = sum_over cells (fun c =>
  cell_measure d (gather_coords X c) * pen (cell_density (S d) (gather_control Z c)) *
    (rsum (num_voigt d) (fun v => tm_stress d (c_mat c) (strain d (S d) (fun _ => 0) (gather (S d) U c) (cell_gradient d (gather_coords X c))) (interpolate d (S d) d (gather (S d) U c)) v * strain d (S d) (fun _ => 0) (gather (S d) (unit k) c) (cell_gradient d (gather_coords X c)) v)
     + rsum d (fun i => tm_flux d (c_mat c) (scalar_gradient d (S d) d (gather (S d) U c) (cell_gradient d (gather_coords X c))) (interpolate d (S d) d (gather (S d) U c)) i * scalar_gradient d (S d) d (gather (S d) (unit k) c) (cell_gradient d (gather_coords X c)) i))).
Proof.
  intros Hk. rewrite <- (work_unit (nn * S d) (val U) k Hk). unfold val, tm_forces. destruct (tm_ok d pen X U Z cells Hd) as (r & E & R1). rewrite E.
  transitivity (work (nn * S d) (assemble (S d) (S d) (fun c => tm_cell_value d pen (c_mat c) (gather_coords X c) (gather (S d) U c) (gather_control Z c)) cells) (unit k)).
  { unfold work, rs. apply rsum_ext. intros j Hj. rewrite R1. reflexivity. }
  rewrite assemble_work by (apply (mesh_nodes d nn X); exact Hm). apply sum_over_ext. intros c Hc. rewrite tm_work by lia. reflexivity.
Qed.
Lemma interpolate_lin u v s : interpolate d (S d) d (fun j => u j + s * v j) = interpolate d (S d) d u + s * interpolate d (S d) d v.
Proof. unfold interpolate. rewrite <- rsum_scal_l, <- rsum_add. apply rsum_ext. intros. req. ring. Qed.
Lemma gradient_lin u v s g k : scalar_gradient d (S d) d (fun j => u j + s * v j) g k = scalar_gradient d (S d) d u g k + s * scalar_gradient d (S d) d v g k.
Proof. unfold scalar_gradient. rewrite <- rsum_scal_l, <- rsum_add. apply rsum_ext. intros. req. ring. Qed.
Lemma gather_along {M} U W s (c : cell M) : gather (S d) (along U W s) c = fun k => gather (S d) U c k + s * gather (S d) W c k.
Proof. reflexivity. Qed.
Lemma tm_stress_affine m e e' T T' s v : m_nonlinear m = false ->
  tm_stress d m (fun j => e j + s * e' j) (T + s * T') v = tm_stress d m e T v + s * (tm_stress d m e' T' v - tm_stress d m (fun _ => 0) 0 v).
Proof.
  intros Hl. unfold tm_stress. rewrite <- rsum_sub, <- rsum_scal_l, <- rsum_add. apply rsum_ext. intros j Hj.
  unfold thermal_strain_value, m_alpha, m_stiff. rewrite Hl. destruct (Nat.ltb j d); req; ring.
Qed.
Lemma strain_zero {M} (c : cell M) g v : (v < num_voigt d)%nat -> strain d (S d) (fun _ => 0) (gather (S d) zero c) g v = 0.
Proof.
  intros Hv. pose proof (strain_sub d (S d) zero zero c g v ltac:(lia) Hv) as Q.
  rewrite (strain_ext d (S d) (gather (S d) (fun k => 0 - 0) c) (gather (S d) zero c)) in Q by (try lia; intros; unfold gather; ring). lra.
Qed.
Lemma interpolate_zero {M} (c : cell M) : interpolate d (S d) d (gather (S d) zero c) = 0.
Proof. unfold interpolate. apply rsum_0. intros. unfold gather. req. ring. Qed.
Lemma gradient_zero {M} (c : cell M) g k : scalar_gradient d (S d) d (gather (S d) zero c) g k = 0.
Proof. unfold scalar_gradient. apply rsum_0. intros. unfold gather. req. ring. Qed.
Lemma tm_stress_ext m e e' T v : (forall j, (j < num_voigt d)%nat -> e j = e' j) -> tm_stress d m e T v = tm_stress d m e' T v.
Proof. intros H. unfold tm_stress. apply rsum_ext. intros j Hj. rewrite (H j Hj). reflexivity. Qed.
Lemma tm_affine : affine_forces (nn * S d) val (tangent_matrix val).
Proof.
  apply affine_matrix.
  - intros U W s k Hk. rewrite !tm_forces_entry by exact Hk. unfold Rminus. rewrite <- (Rmult_1_l (sum_over cells (fun c => _ * (rsum (num_voigt d) (fun v => tm_stress d _ (strain d (S d) _ (gather (S d) zero c) _) _ v * _) + _)))).
    rewrite Ropp_mult_distr_l, <- sum_over_scal, <- sum_over_add, <- sum_over_scal, <- sum_over_add.
    apply sum_over_ext. intros c Hc. set (q := cell_measure _ _ * pen _). set (g := cell_gradient _ _). rewrite gather_along, interpolate_lin, interpolate_zero.
    set (T := interpolate d (S d) d (gather (S d) U c)). set (T' := interpolate d (S d) d (gather (S d) W c)).
    transitivity (q * (rsum (num_voigt d) (fun v => (tm_stress d (c_mat c) (strain d (S d) (fun _ => 0) (gather (S d) U c) g) T v + s * (tm_stress d (c_mat c) (strain d (S d) (fun _ => 0) (gather (S d) W c) g) T' v
        - tm_stress d (c_mat c) (strain d (S d) (fun _ => 0) (gather (S d) zero c) g) 0 v)) * strain d (S d) (fun _ => 0) (gather (S d) (unit k) c) g v)
      + rsum d (fun i => (tm_flux d (c_mat c) (scalar_gradient d (S d) d (gather (S d) U c) g) T i + s * (tm_flux d (c_mat c) (scalar_gradient d (S d) d (gather (S d) W c) g) T' i
        - tm_flux d (c_mat c) (scalar_gradient d (S d) d (gather (S d) zero c) g) 0 i)) * scalar_gradient d (S d) d (gather (S d) (unit k) c) g i))).
    + f_equal. f_equal.
      * apply rsum_ext. intros v Hv. req. f_equal.
        rewrite (tm_stress_ext _ (strain d (S d) (fun _ => 0) (gather (S d) zero c) g) (fun _ => 0)) by (intros; apply strain_zero; assumption).
        rewrite <- tm_stress_affine by (apply Hlin; exact Hc). apply tm_stress_ext. intros j Hj. apply strain_lin; [exact Hj|lia].
      * apply rsum_ext. intros i Hi. req. f_equal. unfold tm_flux, m_cond. rewrite (Hlin c Hc). rewrite <- rsum_sub, <- rsum_scal_l, <- rsum_add. apply rsum_ext. intros j Hj.
        rewrite gradient_lin, gradient_zero. req. ring.
    + rewrite (rsum_ext _ _ (fun v => tm_stress d (c_mat c) (strain d (S d) (fun _ => 0) (gather (S d) U c) g) T v * strain d (S d) (fun _ => 0) (gather (S d) (unit k) c) g v
         + s * (tm_stress d (c_mat c) (strain d (S d) (fun _ => 0) (gather (S d) W c) g) T' v * strain d (S d) (fun _ => 0) (gather (S d) (unit k) c) g v
           - tm_stress d (c_mat c) (strain d (S d) (fun _ => 0) (gather (S d) zero c) g) 0 v * strain d (S d) (fun _ => 0) (gather (S d) (unit k) c) g v))) by (intros; req; ring).
      rewrite (rsum_ext d _ (fun i => tm_flux d (c_mat c) (scalar_gradient d (S d) d (gather (S d) U c) g) T i * scalar_gradient d (S d) d (gather (S d) (unit k) c) g i
         + s * (tm_flux d (c_mat c) (scalar_gradient d (S d) d (gather (S d) W c) g) T' i * scalar_gradient d (S d) d (gather (S d) (unit k) c) g i
           - tm_flux d (c_mat c) (scalar_gradient d (S d) d (gather (S d) zero c) g) 0 i * scalar_gradient d (S d) d (gather (S d) (unit k) c) g i))) by (intros; req; ring).
      rewrite !rsum_add, !rsum_scal_l, !rsum_sub. req. ring.
  - intros U U' H k Hk. rewrite !tm_forces_entry by exact Hk. apply sum_over_ext. intros c Hc. destruct (mesh_cell _ _ _ _ _ Hm Hc) as [Hn _].
    pose proof (gather_agree nn (S d) U U' c d ltac:(lia) Hn H) as G. f_equal.
    assert (EI : interpolate d (S d) d (gather (S d) U c) = interpolate d (S d) d (gather (S d) U' c)).
    { unfold interpolate. apply rsum_ext. intros a Ha. rewrite (G (a * S d + d)%nat) by nia. reflexivity. }
    rewrite EI. f_equal.
    + apply rsum_ext. intros v Hv. req. f_equal. apply tm_stress_ext. intros j Hj. apply strain_ext; [lia|lia|exact G].
    + apply rsum_ext. intros i Hi. req. f_equal. unfold tm_flux. apply rsum_ext. intros j Hj. rewrite (scalar_gradient_ext d (S d) d (gather (S d) U c) (gather (S d) U' c)) by (try lia; exact G). reflexivity.
Qed.
End Body.
Section Solve.
Variables (Y : Type) (p : problem R_ring Y) (y : Y) (d nn : nat) (pen : R -> R) (X : nat -> nat -> R) (Z : nat -> R) (cells : list (cell thermoelastic)) (F : nat -> R).
Let n := (nn * S d)%nat.
Let val := tm_forces d pen X Z cells.
(** A thermoelastic body with constant coefficients, in one piece, held so that it can neither move nor drift in temperature. *)
Record held_body : Prop := {
  hb_dim : (2 <= d <= 3)%nat;
  hb_mesh : mesh_ok d nn X cells;
  hb_piece : one_piece d nn (map c_node cells);
  hb_held : restrains d nn (S d) X (listed (bc_dofs p));
  hb_warm : forall n, (n < nn)%nat -> anchored d (map c_node cells) (held_last d (listed (bc_dofs p))) n;
  hb_cells : forall c, In c cells -> m_nonlinear (c_mat c) = false /\ m_scale (c_mat c) <> 0 /\ positive_form (num_voigt d) (m_stiff_const (c_mat c)) /\
     positive_form d (m_cond_const (c_mat c)) /\ solid d pen Z c }.
Hypothesis H : held_body.
Hypothesis P : poses p y n val F.
Lemma tm_linear : forall c, In c cells -> m_nonlinear (c_mat c) = false.
Proof. intros c Hc. apply (hb_cells H c Hc). Qed.
Lemma tm_unique U U' : same_conditions n (listed (bc_dofs p)) U U' (val U) (val U') -> forall k, (k < n)%nat -> U k = U' k.
Proof.
  intros Hs. destruct (tm_ok d pen X U Z cells (hb_dim H)) as (r & E & _). destruct (tm_ok d pen X U' Z cells (hb_dim H)) as (r' & E' & _).
  unfold val, tm_forces in Hs. rewrite E, E' in Hs.
  apply (C162_thermoelastic d nn pen X U U' Z cells (listed (bc_dofs p)) r r'); try assumption; apply H.
Qed.
Lemma tm_nonsingular : nonsingular (K := R_ring) n (bc_matrix (K := R_ring) (bc_dofs p) (tangent_matrix val)).
Proof.
  apply (one_equilibrium_nonsingular n val); [apply tm_affine; [apply H|apply H|apply tm_linear]|apply (ps_conditions _ _ _ _ _ P)|apply tm_unique].
Qed.
Lemma tm_kernel : trivial_kernel n (bc_matrix (K := R_ring) (bc_dofs p) (tangent_matrix val)).
Proof.
  intros x Hx. assert (HA : affine_forces n val (tangent_matrix val)) by (apply tm_affine; [apply H|apply H|apply tm_linear]).
  apply (tm_unique x zero). intros k Hk. pose proof Hx as Hx'. specialize (Hx k Hk).
  assert (Zk : forall j, (j < n)%nat -> listed (bc_dofs p) j = true -> x j = 0).
  { intros j Hj E. pose proof (bc_row_fixed (K := R_ring) n (bc_dofs p) (tangent_matrix val) x j Hj) as B. rewrite constrained_listed in B. specialize (B E). rewrite <- B. exact (Hx' j Hj). }
  destruct (listed (bc_dofs p) k) eqn:E; [apply Zk; assumption|].
  rewrite (HA x k Hk). symmetry. rewrite <- (Rplus_0_r (val zero k)) at 1. f_equal. symmetry. etransitivity; [|exact Hx].
  apply rsum_ext. intros j Hj. unfold bc_matrix, constrained_matrix. rewrite !constrained_listed, E. cbn [orb]. destruct (listed (bc_dofs p) j) eqn:Ej; [|reflexivity]. rewrite (Zk j Hj Ej). req. ring.
Qed.
Lemma tm_pde : linear_pde (K := R_ring) n (the_pde p) y (tangent_matrix val) (fun i => F i - val zero i).
Proof.
  assert (HA : affine_forces n val (tangent_matrix val)) by (apply tm_affine; [apply H|apply H|apply tm_linear]).
  assert (HA' : affine_forces n (fun U => p_value (the_pde p) U y) (tangent_matrix val)).
  { intros U i Hi. rewrite (ps_value _ _ _ _ _ P U i Hi), (ps_value _ _ _ _ _ P zero i Hi). pose proof (HA U i Hi) as E. cbn in E |- *. lra. }
  intros U. split.
  - intros i Hi. rewrite (ps_value _ _ _ _ _ P U i Hi). pose proof (HA U i Hi) as E. unfold mv. cbn in E |- *. lra.
  - intros i j Hi Hj. exact (derivative_entry _ _ _ HA' _ (ps_jacobian _ _ _ _ _ P) U i j Hi Hj).
Qed.
End Solve.
(** A second step repairs what the first leaves: with at least two steps and tests that do not fire the solve returns the equilibrium, also for non-zero prescribed values. *)
Theorem C167_repeated : forall (Y : Type) (p : problem R_ring Y) (y : Y) d nn pen X Z cells F, held_body Y p d nn pen X Z cells ->
  poses p y (nn * S d) (tm_forces d pen X Z cells) F -> (1 < newton_steps p)%nat -> (forall v, res_small p v = false) -> (forall v, inc_small p v = false) ->
  solves_body p y (nn * S d) (tm_forces d pen X Z cells) F.
Proof.
  intros Y p y d nn pen X Z cells F H P Hn Hr Hi. pose proof (tm_pde _ p y d nn pen X Z cells F H P) as Lin. pose proof (tm_nonsingular _ p y d nn pen X Z cells F H P) as Ns.
  pose proof (ps_size _ _ _ _ _ P) as Es. set (n := (nn * S d)%nat) in *. destruct (ps_conditions _ _ _ _ _ P) as (Hl & Hnd & Hd).
  set (val := tm_forces d pen X Z cells) in *.
  assert (HA : affine_forces n val (tangent_matrix val)) by (apply tm_affine; [apply H|apply H|apply (tm_linear _ _ _ _ _ _ _ _ H)]).
  assert (Ns' : forall u, nonsingular (K := R_ring) (n_dofs p) (bc_matrix (K := R_ring) (bc_dofs p) (p_gradient_u (the_pde p) u y))).
  { intros u. rewrite Es. apply (nonsingular_ext (K := R_ring) n (bc_matrix (K := R_ring) (bc_dofs p) (tangent_matrix val))); [|exact Ns].
    apply bc_matrix_ext. intros i j Hi' Hj. symmetry. apply (proj2 (Lin u)); assumption. }
  pose proof (ps_solver _ _ _ _ _ P) as Sol. rewrite <- Es in Sol, Lin, Hd.
  assert (Hc : compatible (K := R_ring) r1 (bc_dofs p) (bc_vals p)) by (apply NoDup_compatible; exact Hnd).
  assert (LF : forall u, at_free (K := R_ring) p (tangent_matrix val) (fun i => F i - val zero i) (fun i => radd (u i) (rmul r1 (incr p y r0 u i)))).
  { intros u i Hi' Hni. pose proof (incr_solves (K := R_ring) p y Sol Ns' r0 u) as S0. apply (bc_zero (K := R_ring) (n_dofs p) r0 (bc_dofs p) (bc_vals p) _ _ _ Hl Hd) in S0; [|intros; apply Rmult_0_l].
    destruct S0 as [_ S0]. specialize (S0 i Hi' Hni). rewrite (grad_A (K := R_ring) p y (tangent_matrix val) _ Lin) in S0 by exact Hi'. unfold EllipticProof.res in S0. rewrite (proj1 (Lin u) i Hi') in S0.
    rewrite (mv_ext (K := R_ring) (n_dofs p) (tangent_matrix val) (tangent_matrix val) _ (fun j => radd (u j) (incr p y r0 u j))); [|reflexivity|intros; cbn; ring].
    rewrite mv_add, S0. cbn. ring. }
  assert (EQ : equilibrium n val F (bc_dofs p) (bc_vals p) (solution p y)).
  { split.
    - apply (newton_values (K := R_ring) p y Hl Hc Hd Sol Ns'); [lia|right; apply Hr].
    - intros k Hk Nk. rewrite (HA _ k Hk).
      assert (AF : at_free (K := R_ring) p (tangent_matrix val) (fun i => F i - val zero i) (solution p y)).
      { unfold solution. destruct (newton_steps p) as [|[|m]] eqn:E; [lia|lia|]. cbn [newton]. rewrite !Hr, !Hi, !andb_false_r. cbn [Nat.eqb].
        apply (newton_later_free (K := R_ring) p y Hl Hd Sol Ns' _ _ Lin). apply LF. }
      specialize (AF k ltac:(rewrite Es; exact Hk) Nk). rewrite Es in AF. unfold mv in AF. cbn in AF |- *. rewrite AF. ring. }
  split; [exact EQ|]. intros U [U1 U2] k Hk. apply (tm_unique _ p d nn pen X Z cells H U (solution p y)); [|exact Hk]. clear k Hk. intros k Hk.
  destruct (listed (bc_dofs p) k) eqn:E.
  - apply listed_in in E. assert (I : exists v, In (k, v) (combine (bc_dofs p) (bc_vals p))).
    { clear -E Hl. revert E Hl. generalize (bc_vals p). induction (bc_dofs p) as [|a l IH]; intros vs E Hl; [contradiction|].
      destruct vs as [|v vs]; [discriminate|]. destruct E as [->|E]; [exists v; left; reflexivity|]. destruct (IH vs E) as (w & I); [injection Hl as Hl; exact Hl|]. exists w. right. exact I. }
    destruct I as (v & I). rewrite (U1 k v I), (proj1 EQ k v I). reflexivity.
  - apply listed_out in E. fold val. rewrite (U2 k Hk E). symmetry. exact (proj2 EQ k Hk E).
Qed.
Print Assumptions C167_repeated.
(** Temperature rows do not see displacements. *)
Lemma temperature_place d a b i : (i < d)%nat -> (a * S d + d)%nat <> (b * S d + i)%nat.
Proof.
  intros Hi E. apply (f_equal (fun k => k mod S d)) in E. rewrite (Nat.add_comm (a * S d)), (Nat.add_comm (b * S d)), !Nat.mod_add, !Nat.mod_small in E by lia. lia.
Qed.
Lemma tm_temperature_row d nn pen X Z cells m i m' : (2 <= d <= 3)%nat -> mesh_ok d nn X cells -> (m < nn)%nat -> (m' < nn)%nat -> (i < d)%nat ->
  tangent_matrix (tm_forces d pen X Z cells) (m * S d + d) (m' * S d + i) = 0.
Proof.
  intros Hd Hm H1 H2 Hi. unfold tangent_matrix. rewrite !(tm_forces_entry d nn) by (try assumption; nia).
  set (k := (m * S d + d)%nat). set (j := (m' * S d + i)%nat).
  apply Rminus_diag_eq. apply sum_over_ext. intros c Hc. f_equal.
  assert (S0 : forall v, (v < num_voigt d)%nat -> strain d (S d) (fun _ => 0) (gather (S d) (unit k) c) (cell_gradient d (gather_coords X c)) v = 0).
  { intros v Hv. etransitivity; [|exact (last_entry_strain d (unit k) c (cell_gradient d (gather_coords X c)) v ltac:(lia) Hv)]. f_equal.
    apply functional_extensionality. intros l. unfold gather. set (l' := (c_node c (l / S d) * S d + l mod S d)%nat). unfold last_entry, unit. destruct (Nat.eqb_spec (l' mod S d) d) as [|N]; [reflexivity|].
    destruct (Nat.eqb_spec l' k) as [E|]; [|reflexivity]. exfalso. apply N. rewrite E. unfold k. rewrite (Nat.add_comm (m * S d)), Nat.mod_add, Nat.mod_small by lia. reflexivity. }
  rewrite !(rsum_0 (num_voigt d)) by (intros v Hv; rewrite S0 by exact Hv; req; ring). f_equal.
  assert (G0 : forall a, (a < S d)%nat -> gather (S d) (unit j) c (a * S d + d)%nat = 0).
  { intros a Ha. rewrite gather_at by lia. unfold unit, j. destruct (Nat.eqb_spec (c_node c a * S d + d) (m' * S d + i)) as [E|]; [exfalso; exact (temperature_place d _ _ i Hi E)|reflexivity]. }
  apply rsum_ext. intros l Hl. req. f_equal. unfold tm_flux.
  assert (I0 : interpolate d (S d) d (gather (S d) (unit j) c) = interpolate d (S d) d (gather (S d) zero c)).
  { unfold interpolate. apply rsum_ext. intros a Ha. rewrite G0 by exact Ha. reflexivity. }
  rewrite I0. apply rsum_ext. intros q Hq. f_equal. f_equal. unfold scalar_gradient. apply rsum_ext. intros a Ha. rewrite G0 by exact Ha. reflexivity.
Qed.
Lemma tm_zero d nn pen X Z cells k : (2 <= d <= 3)%nat -> mesh_ok d nn X cells -> (forall c, In c cells -> m_tref (c_mat c) = 0) -> (k < nn * S d)%nat -> tm_forces d pen X Z cells zero k = 0.
Proof.
  intros Hd Hm Ht Hk. rewrite (tm_forces_entry d nn) by assumption. transitivity (sum_over cells (fun _ => 0)); [|clear; induction cells; cbn; lra]. apply sum_over_ext. intros c Hc.
  rewrite !rsum_0; [req; ring| |].
  - intros i Hi. unfold tm_flux. rewrite rsum_0; [req; ring|]. intros j Hj. rewrite gradient_zero. req. ring.
  - intros v Hv. unfold tm_stress. rewrite rsum_0; [req; ring|]. intros j Hj. rewrite strain_zero by (try assumption; lia). rewrite interpolate_zero. unfold thermal_strain_value. rewrite (Ht c Hc). destruct (Nat.ltb j d); req; ring.
Qed.

(** One step, temperatures given at every node, no load and nothing else to move the body: whatever the temperatures, the displacements returned are zero. *)
Theorem C167_temperatures_lost : forall (Y : Type) (p : problem R_ring Y) (y : Y) d nn pen X Z cells F, held_body Y p d nn pen X Z cells ->
  poses p y (nn * S d) (tm_forces d pen X Z cells) F -> newton_steps p = 1%nat ->
  (forall m, (m < nn)%nat -> In (m * S d + d)%nat (bc_dofs p)) ->
  (forall m i v, (i < d)%nat -> In ((m * S d + i)%nat, v) (combine (bc_dofs p) (bc_vals p)) -> v = 0) ->
  (forall c, In c cells -> m_tref (c_mat c) = 0) -> (forall k, F k = 0) ->
  forall m i, (m < nn)%nat -> (i < d)%nat -> solution p y (m * S d + i)%nat = 0.
Proof.
  intros Y p y d nn pen X Z cells F H P Hn HT HU Hr HF m i Hmn Hin.
  pose proof (tm_pde _ p y d nn pen X Z cells F H P) as Lin. pose proof (tm_nonsingular _ p y d nn pen X Z cells F H P) as Ns. pose proof (tm_kernel _ p d nn pen X Z cells H) as Kr.
  pose proof (ps_size _ _ _ _ _ P) as Es. destruct (ps_conditions _ _ _ _ _ P) as (Hl & Hnd & Hd). pose proof (hb_dim _ _ _ _ _ _ _ _ H) as Hdim. pose proof (hb_mesh _ _ _ _ _ _ _ _ H) as Hmesh.
  set (n := (nn * S d)%nat) in *. set (val := tm_forces d pen X Z cells) in *. set (A := tangent_matrix val) in *.
  set (J := p_gradient_u (the_pde p) zero y) in *. assert (EJ : forall i j, (i < n)%nat -> (j < n)%nat -> J i j = A i j) by (apply (proj2 (Lin zero))).
  set (rhs := bc_rhs (K := R_ring) r1 (bc_dofs p) (bc_vals p) J (fun i => rmul (ropp r1) (p_value (the_pde p) zero y i))).
  set (x := lin_solve p (bc_matrix (K := R_ring) (bc_dofs p) J) rhs).
  assert (Sx : solves (K := R_ring) n (bc_matrix (K := R_ring) (bc_dofs p) J) rhs x).
  { apply (ps_solver _ _ _ _ _ P). apply (nonsingular_ext (K := R_ring) n (bc_matrix (K := R_ring) (bc_dofs p) A)); [|exact Ns]. apply bc_matrix_ext. intros a b Ha Hb. symmetry. apply EJ; assumption. }
  assert (Sol : forall k, solution p y k = x k).
  { intros k. unfold solution. rewrite Hn. cbn [newton]. rewrite Hn. cbn [Nat.ltb Nat.leb andb Nat.eqb]. change (0 + 1 * x k = x k). ring. }
  assert (Hcp : compatible (K := R_ring) r1 (bc_dofs p) (bc_vals p)) by (apply NoDup_compatible; exact Hnd).
  (* the displacement part of the solution *)
  set (D := fun k => if Nat.eqb (k mod S d) d then 0 else x k).
  assert (split_k : forall k, (k < n)%nat -> k = (k / S d * S d + k mod S d)%nat /\ (k / S d < nn)%nat /\ (k mod S d < S d)%nat).
  { intros k Hk. pose proof (Nat.div_mod k (S d) ltac:(lia)). pose proof (Nat.mod_upper_bound k (S d) ltac:(lia)). split; [lia|]. split; [apply Nat.div_lt_upper_bound; unfold n in Hk; lia|lia]. }
  assert (DZ : forall k, (k < n)%nat -> D k = 0).
  { apply Kr. intros k Hk. destruct (listed (bc_dofs p) k) eqn:El.
    - rewrite <- constrained_listed in El. etransitivity; [exact (bc_row_fixed (K := R_ring) n (bc_dofs p) A D k Hk El)|]. unfold D. destruct (Nat.eqb_spec (k mod S d) d) as [|Nd]; [reflexivity|].
      rewrite constrained_listed in El. apply listed_in in El. destruct (split_k k Hk) as (Ek & Hkn & Hkd).
      assert (I : exists v, In (k, v) (combine (bc_dofs p) (bc_vals p))).
      { clear -El Hl. revert El Hl. generalize (bc_vals p). induction (bc_dofs p) as [|a l IH]; intros vs E Hl; [contradiction|].
        destruct vs as [|v vs]; [discriminate|]. destruct E as [->|E]; [exists v; left; reflexivity|]. destruct (IH vs E) as (w & I); [injection Hl as Hl; exact Hl|]. exists w. right. exact I. }
      destruct I as (v & I). pose proof I as I'. rewrite Ek in I'. apply HU in I'; [|lia]. subst v.
      specialize (Sx k Hk). pose proof (bc_row_fixed (K := R_ring) n (bc_dofs p) J x k Hk) as RF. rewrite constrained_listed in RF. rewrite <- RF by (apply listed_in; exact El). rewrite Sx. unfold rhs, bc_rhs.
      rewrite (prescribed_all (K := R_ring) r1 (bc_dofs p) (bc_vals p) Hcp k (rmul r1 0)); [apply Rmult_1_l|]. unfold bcs_of. apply in_map_iff. exists (k, 0). split; [reflexivity|exact I].
    - destruct (split_k k Hk) as (Ek & Hkn & Hkd). pose proof El as Ef. apply listed_out in Ef.
      assert (Nd : (k mod S d <> d)%nat) by (intros E; apply Ef; rewrite Ek, E; apply HT; exact Hkn).
      transitivity (rsum n (fun j => bc_matrix (K := R_ring) (bc_dofs p) J k j * x j)).
      { apply rsum_ext. intros j Hj. unfold bc_matrix, constrained_matrix. rewrite !constrained_listed, El. cbn [orb]. destruct (listed (bc_dofs p) j) eqn:Ej.
        - destruct (Nat.eqb_spec k j) as [->|]; [congruence|]. etransitivity; [apply Rmult_0_l|symmetry; apply Rmult_0_l].
        - rewrite (EJ k j Hk Hj). f_equal. unfold D. destruct (Nat.eqb_spec (j mod S d) d) as [E|]; [|reflexivity]. exfalso. apply listed_out in Ej. apply Ej. destruct (split_k j Hj) as (Ej' & Hjn & _). rewrite Ej', E. apply HT. exact Hjn. }
      etransitivity; [exact (Sx k Hk)|]. unfold rhs, bc_rhs. rewrite (proj2 (prescribed_none (K := R_ring) r1 (bc_dofs p) (bc_vals p) k Hl)) by (rewrite constrained_listed; exact El).
      assert (V0 : p_value (the_pde p) zero y k = 0). { rewrite (ps_value _ _ _ _ _ P zero k Hk), HF. fold val. unfold val. rewrite (tm_zero d nn) by assumption. apply Rminus_diag_eq. reflexivity. }
      rewrite V0. assert (L0 : lsum (K := R_ring) (map (fun dv => rmul (J (fst dv) k) (rmul r1 (snd dv))) (combine (bc_dofs p) (bc_vals p))) = 0).
      { assert (Q : forall dv, In dv (combine (bc_dofs p) (bc_vals p)) -> rmul (J (fst dv) k) (rmul r1 (snd dv)) = (0 : R)).
        { intros (a, v) I. cbn [fst snd]. assert (Ha : (a < n)%nat) by (apply Hd; eapply in_combine_l; eauto). destruct (split_k a Ha) as (Ea & Han & Had). destruct (Nat.eq_dec (a mod S d) d) as [E|N].
          - rewrite (EJ a k Ha Hk). rewrite E in Ea. rewrite Ea, Ek. unfold A, val. rewrite (tm_temperature_row d nn) by (try assumption; lia). apply Rmult_0_l.
          - rewrite Ea in I. apply HU in I; [|lia]. subst v. rewrite Rmult_0_r at 1. apply Rmult_0_r. }
        revert Q. generalize (combine (bc_dofs p) (bc_vals p)). intros l. induction l as [|dv l IH]; intros Q; [reflexivity|]. cbn [map lsum]. rewrite (Q dv (or_introl eq_refl)), IH by (intros; apply Q; right; assumption). apply Rplus_0_l. }
      rewrite L0. cbn. match goal with |- @eq _ ?l ?r => change (@eq R l r) end. ring. }
  rewrite Sol. specialize (DZ (m * S d + i)%nat ltac:(unfold n; nia)). unfold D in DZ. rewrite (Nat.add_comm (m * S d)), Nat.mod_add, Nat.mod_small in DZ by lia.
  destruct (Nat.eqb_spec i d); [lia|]. rewrite Nat.add_comm. exact DZ.
Qed.
Print Assumptions C167_temperatures_lost.

(** One step is enough when all prescribed values are zero. *)
Theorem C167_zero_partial : forall (Y : Type) (p : problem R_ring Y) (y : Y) d nn pen X Z cells F, held_body Y p d nn pen X Z cells ->
  poses p y (nn * S d) (tm_forces d pen X Z cells) F -> newton_steps p = 1%nat -> (forall v, In v (bc_vals p) -> v = 0) ->
  solves_body p y (nn * S d) (tm_forces d pen X Z cells) F.
Proof.
  intros Y p y d nn pen X Z cells F H P Hn HV.
  pose proof (tm_pde _ p y d nn pen X Z cells F H P) as Lin. pose proof (tm_nonsingular _ p y d nn pen X Z cells F H P) as Ns.
  destruct (ps_conditions _ _ _ _ _ P) as (Hl & Hnd & Hd). set (n := (nn * S d)%nat) in *. set (val := tm_forces d pen X Z cells) in *. set (A := tangent_matrix val) in *.
  assert (HA : affine_forces n val A) by (apply tm_affine; [apply H|apply H|apply (tm_linear _ _ _ _ _ _ _ _ H)]).
  set (J := p_gradient_u (the_pde p) zero y) in *. assert (EJ : forall i j, (i < n)%nat -> (j < n)%nat -> J i j = A i j) by (apply (proj2 (Lin zero))).
  set (b := fun i => rmul (ropp r1) (p_value (the_pde p) zero y i) : R).
  set (x := lin_solve p (bc_matrix (K := R_ring) (bc_dofs p) J) (bc_rhs (K := R_ring) r1 (bc_dofs p) (bc_vals p) J b)).
  assert (Sx : solves (K := R_ring) n (bc_matrix (K := R_ring) (bc_dofs p) J) (bc_rhs (K := R_ring) r1 (bc_dofs p) (bc_vals p) J b) x).
  { apply (ps_solver _ _ _ _ _ P). apply (nonsingular_ext (K := R_ring) n (bc_matrix (K := R_ring) (bc_dofs p) A)); [|exact Ns]. apply bc_matrix_ext. intros a c Ha Hc. symmetry. apply EJ; assumption. }
  assert (Sol : solution p y = x).
  { apply functional_extensionality. intros k. unfold solution. rewrite Hn. cbn [newton]. rewrite Hn. cbn [Nat.ltb Nat.leb andb Nat.eqb]. change (0 + 1 * x k = x k). ring. }
  apply (bc_zero (K := R_ring) n r1 (bc_dofs p) (bc_vals p) _ _ _ Hl Hd) in Sx; [|intros v Iv; rewrite (HV v Iv); apply Rmult_0_r].
  destruct Sx as [S1 S2].
  assert (EQ : equilibrium n val F (bc_dofs p) (bc_vals p) x).
  { split.
    - intros k v I. rewrite (S1 k) by (eapply in_combine_l; eauto). symmetry. apply HV. eapply in_combine_r; eauto.
    - intros k Hk Nk. rewrite (HA x k Hk). specialize (S2 k Hk Nk). unfold b in S2. rewrite (ps_value _ _ _ _ _ P zero k Hk) in S2.
      rewrite (mv_ext (K := R_ring) n J A x x k) in S2; [|intros j Hj; apply EJ; assumption|reflexivity]. fold val in S2. unfold mv in S2. cbn in S2 |- *. rewrite S2. ring. }
  rewrite <- Sol in EQ. split; [exact EQ|]. intros U [U1 U2] k Hk. apply (tm_unique _ p d nn pen X Z cells H U (solution p y)); [|exact Hk]. clear k Hk. intros k Hk.
  destruct (listed (bc_dofs p) k) eqn:E.
  - apply listed_in in E. assert (I : exists v, In (k, v) (combine (bc_dofs p) (bc_vals p))).
    { clear -E Hl. revert E Hl. generalize (bc_vals p). induction (bc_dofs p) as [|a l IH]; intros vs E Hl; [contradiction|].
      destruct vs as [|v vs]; [discriminate|]. destruct E as [->|E]; [exists v; left; reflexivity|]. destruct (IH vs E) as (w & I); [injection Hl as Hl; exact Hl|]. exists w. right. exact I. }
    destruct I as (v & I). rewrite (U1 k v I), (proj1 EQ k v I). reflexivity.
  - apply listed_out in E. fold val. rewrite (U2 k Hk E). symmetry. exact (proj2 EQ k Hk E).
Qed.
Print Assumptions C167_zero_partial.

(** A square, simply supported, all of it heated by one degree. *)
Definition warm_law : thermoelastic :=
  mkTM false (fun i j => if Nat.eqb i j then 1 else 0) (fun _ _ _ => 0) (fun i j => if Nat.eqb i j then 1 / 10 else 0) (fun _ _ _ => 0)
    (fun i j => if Nat.eqb i j then 1 else 0) (fun _ _ _ => 0) 0 1.
Definition warm_value : (nat -> R) -> nat -> R := tm_forces 2 (fun x => x) square_X (fun _ => 1) (square warm_law).
Definition warm_problem (steps : nat) : problem R_ring Datatypes.unit :=
  mkProblem (K := R_ring) (Z := Datatypes.unit) 12 steps (fun _ => false) (fun _ => false) [0; 1; 4; 2; 5; 8; 11]%nat [0; 0; 0; 1; 1; 1; 1] false (gauss 12)
    (mkPde (K := R_ring) (Z := Datatypes.unit) (fun U _ k => warm_value U k - 0) (fun _ _ => tangent_matrix warm_value) (fun _ _ i j => tangent_matrix warm_value j i) (fun _ _ _ _ => 0) (fun _ _ _ _ => 0)).
Lemma warm_held steps : held_body _ (warm_problem steps) 2 4 (fun x => x) square_X (fun _ => 1) (square warm_law).
Proof.
  split.
  - lia.
  - apply square_ok.
  - apply square_one_piece.
  - intros t A HA H n i Hn Hi. pose proof (H 0%nat 0%nat ltac:(lia) ltac:(lia) eq_refl) as H0. pose proof (H 0%nat 1%nat ltac:(lia) ltac:(lia) eq_refl) as H1.
    pose proof (H 1%nat 1%nat ltac:(lia) ltac:(lia) eq_refl) as H3. pose proof (HA 0%nat 0%nat ltac:(lia) ltac:(lia)) as A0. pose proof (HA 1%nat 1%nat ltac:(lia) ltac:(lia)) as A1.
    pose proof (HA 0%nat 1%nat ltac:(lia) ltac:(lia)) as A2. unfold affine, rs in *. revert H0 H1 H3. rsums. cbn. intros.
    destruct i as [|[|i]]; try lia; destruct n as [|[|[|[|n]]]]; try lia; cbn; nra.
  - intros n Hn. apply anchored_here. destruct n as [|[|[|[|n]]]]; try lia; reflexivity.
  - assert (PF : forall n, positive_form n (fun i j => if Nat.eqb i j then 1 else 0)).
    { intros n e (i & Hi & N). unfold rs. rewrite (rsum_ext n _ (fun i => e i * e i)).
      - rewrite (rsum_point n i) by exact Hi. assert (0 <= rsum n (fun k => if Nat.eqb k i then 0 else e k * e k)).
        { apply rsum_nonneg. intros k Hk. destruct (Nat.eqb k i); nra. } nra.
      - intros a Ha. req. f_equal. unfold rs. rewrite (rsum_ext n _ (fun b => if Nat.eqb b a then e a else 0)) by (intros b Hb; rewrite (Nat.eqb_sym b a); destruct (Nat.eqb_spec a b) as [->|]; req; ring). apply rsum_delta'. exact Ha. }
    intros c [<-|[<-|[]]]; (split; [reflexivity|]; split; [cbn; lra|]; split; [apply PF|]; split; [apply PF|]; unfold solid, rs; rsums; cbn; lra).
Qed.
Lemma warm_poses steps : (0 < steps)%nat -> poses (warm_problem steps) tt (4 * 3) (tm_forces 2 (fun x => x) square_X (fun _ => 1) (square warm_law)) (fun _ => 0).
Proof.
  intros Hs. split.
  - reflexivity.
  - reflexivity.
  - intros U i j Hi Hj. cbn [the_pde warm_problem p_value p_gradient_u].
    assert (HA : affine_forces (4 * 3) warm_value (tangent_matrix warm_value)) by (apply (tm_affine 2 4 (fun x => x) square_X (fun _ => 1) (square warm_law) ltac:(lia) (square_ok _)); intros c [<-|[<-|[]]]; reflexivity).
    apply (affine_derivative _ (warm_value U i - 0)). intros t. rewrite (HA (moved U j t) i Hi), (HA U i Hi).
    assert (E : rsum (4 * 3) (fun k => tangent_matrix warm_value i k * moved U j t k) = rsum (4 * 3) (fun k => tangent_matrix warm_value i k * U k) + t * tangent_matrix warm_value i j).
    { pose proof (rsum_delta' (4 * 3) j (t * tangent_matrix warm_value i j) Hj) as D. rewrite <- D. rewrite <- rsum_add. apply rsum_ext. intros k Hk. unfold moved. destruct (Nat.eqb_spec k j) as [->|]; req; ring. }
    match type of E with ?l = ?r => apply (f_equal (fun q => warm_value zero i + q - 0)) in E end. etransitivity; [exact E|]. req. ring.
  - apply gauss_ok.
  - split; [reflexivity|]. split; [repeat constructor; cbn; lia|]. intros k Hk. cbn in Hk. lia.
  - exact Hs.
  - right. reflexivity.
Qed.
Definition warm_expansion (k : nat) : R := if Nat.eqb (k mod 3) 2 then 1 else 1 / 10 * square_X (k / 3) (k mod 3).
Lemma warm_equilibrium : equilibrium (4 * 3) warm_value (fun _ => 0) [0; 1; 4; 2; 5; 8; 11]%nat [0; 0; 0; 1; 1; 1; 1] warm_expansion.
Proof.
  split.
  - intros k v I. cbn in I. repeat (destruct I as [[= <- <-]|I]; [unfold warm_expansion; cbn; lra|]). destruct I.
  - intros k Hk _. destruct (C95_free_expansion_partial 2 4 (fun x => x) square_X warm_expansion (fun _ => 1) (square warm_law) (fun i j => if Nat.eqb i j then 1 / 10 else 0) ltac:(lia) (square_ok _)) as (r & E & Hr).
    + exists (fun _ => 0), (fun _ _ => 0), 1. split; [intros i j _ _; ring|]. split; [|split].
      * intros n i Hn Hi. unfold affine, rs. rsums. destruct n as [|[|[|[|n]]]]; try lia; destruct i as [|[|i]]; try lia; unfold warm_expansion; cbn; lra.
      * intros n Hn. rewrite affine_const. destruct n as [|[|[|[|n]]]]; try lia; reflexivity.
      * intros c i j [<-|[<-|[]]] Hi Hj; cbn; destruct i as [|[|i]]; try lia; destruct j as [|[|j]]; try lia; cbn; lra.
    + intros i j Hi Hj N. destruct (Nat.eqb_spec i j); [contradiction|reflexivity].
    + unfold warm_value, tm_forces. rewrite E. apply Hr.
Qed.
(** It expands by a tenth, and one step returns no expansion at all: a single step does not return the equilibrium. *)
Theorem C167_refuted : ~ (forall (Y : Type) (p : problem R_ring Y) (y : Y) d nn pen X Z cells F, held_body Y p d nn pen X Z cells ->
  poses p y (nn * S d) (tm_forces d pen X Z cells) F -> solves_body p y (nn * S d) (tm_forces d pen X Z cells) F).
Proof.
  intros H. destruct (H _ (warm_problem 1) tt 2%nat 4%nat (fun x => x) square_X (fun _ => 1) (square warm_law) (fun _ => 0) (warm_held 1) (warm_poses 1 ltac:(lia))) as [_ H2].
  pose proof (H2 warm_expansion warm_equilibrium 3%nat ltac:(lia)) as E.
  pose proof (C167_temperatures_lost _ (warm_problem 1) tt 2%nat 4%nat (fun x => x) square_X (fun _ => 1) (square warm_law) (fun _ => 0) (warm_held 1) (warm_poses 1 ltac:(lia)) eq_refl) as L.
  assert (L0 : solution (warm_problem 1) tt 3%nat = 0).
  { apply (L) with (m := 1%nat) (i := 0%nat); try lia.
    - intros m Hm. destruct m as [|[|[|[|m]]]]; try lia; cbn; tauto.
    - intros m i v Hi I. cbn [warm_problem bc_dofs bc_vals combine In] in I. repeat (destruct I as [I|I]; [injection I as I1 I2; first [symmetry; exact I2 | exfalso; destruct i as [|[|i]]; lia]|]). destruct I.
    - intros c [<-|[<-|[]]]; reflexivity.
    - reflexivity. }
  rewrite L0 in E. unfold warm_expansion in E. cbn in E. lra.
Qed.
Print Assumptions C167_refuted.
(** The hypotheses of the theorems met by the same square, which two steps solve. *)
Example C167_case : held_body _ (warm_problem 2) 2 4 (fun x => x) square_X (fun _ => 1) (square warm_law) /\
  poses (warm_problem 2) tt (4 * 3) (tm_forces 2 (fun x => x) square_X (fun _ => 1) (square warm_law)) (fun _ => 0) /\ (1 < newton_steps (warm_problem 2))%nat /\
  (forall m, (m < 4)%nat -> solution (warm_problem 2) tt (m * 3)%nat = 1 / 10 * square_X m 0).
Proof.
  split; [apply warm_held|]. split; [apply warm_poses; lia|]. split; [cbn; lia|]. intros m Hm.
  destruct (C167_repeated _ (warm_problem 2) tt 2%nat 4%nat (fun x => x) square_X (fun _ => 1) (square warm_law) (fun _ => 0) (warm_held 2) (warm_poses 2 ltac:(lia)) ltac:(cbn; lia) (fun _ => eq_refl) (fun _ => eq_refl)) as [_ H2].
  rewrite <- (H2 warm_expansion warm_equilibrium (m * 3)%nat ltac:(lia)). destruct m as [|[|[|[|m]]]]; try lia; unfold warm_expansion; cbn; lra.
Qed.
