(** C168 and C169: transient heat conduction in a whole body. *)
From Coq Require Import Reals List Arith Bool Lia Lra FunctionalExtensionality.
From Verif Require Import Base.Field Base.Sums Base.Res BC.ConstraintsSpec BC.ConstraintsMain Problem.DenseBC Problem.EllipticProof Problem.ParabolicModel Problem.ParabolicSpec Problem.ParabolicProof Problem.ParabolicProps
  Element.ElementModel Element.ElementSpec Element.ElementProof Penalty.PenaltyModel Residual.Kernel
  Residual.ResidualModel Residual.ResidualSpec Residual.ResidualProof Residual.ResidualProps Residual.ResidualEnergyProps Residual.FrameProof Residual.SupportSpec Residual.SupportProof Residual.SupportProps Residual.PotentialProps
  Residual.SolveSpec Residual.SolveProof Residual.Gauss Residual.CurveProof Residual.ThermoSolveProps.
Import ListNotations.
Local Open Scope R_scope.

(** Heat stored at the temperatures T, and the same with the square of the temperature: cell volume times penalised density times mass density times
    specific heat times the mean temperature of the corners. *)
Definition capacity (d : nat) (pen : R -> R) (X : nat -> nat -> R) (Z : nat -> R) (c : cell thermal) : R :=
  simplex_measure d (fun a i => X (c_node c a) i) * pen (rs (S d) (fun a => Z (c_node c a)) / INR (S d)) * (t_rho_const (c_mat c) * t_cp_const (c_mat c)).
Definition mean {M} (d : nat) (T : nat -> R) (c : cell M) : R := rs (S d) (fun a => T (c_node c a)) / INR (S d).
Definition stored_heat (d : nat) (pen : R -> R) (X : nat -> nat -> R) (Z : nat -> R) (cells : list (cell thermal)) (T : nat -> R) : R :=
  sum_over cells (fun c => capacity d pen X Z c * mean d T c).
Definition stored_square (d : nat) (pen : R -> R) (X : nat -> nat -> R) (Z : nat -> R) (cells : list (cell thermal)) (T : nat -> R) : R :=
  sum_over cells (fun c => capacity d pen X Z c * (mean d T c * mean d T c)).

(** A conducting body with constant coefficients; every node belongs to a cell. *)
Record heat_body (d nn : nat) (pen : R -> R) (X : nat -> nat -> R) (Z : nat -> R) (cells : list (cell thermal)) : Prop := {
  ht_dim : (1 <= d <= 3)%nat;
  ht_mesh : mesh_ok d nn X cells;
  ht_nodes : forall n, (n < nn)%nat -> exists c a, In c cells /\ (a <= d)%nat /\ c_node c a = n;
  ht_cells : forall c, In c cells -> t_nonlinear (c_mat c) = false /\ ResidualSpec.symmetric d (t_cond_const (c_mat c)) /\ positive_form d (t_cond_const (c_mat c)) /\
     0 < t_rho_const (c_mat c) /\ 0 < t_cp_const (c_mat c) /\ solid d pen Z c }.
(** A transient problem posed on it with the supplies F: its residual and the derivatives of it, a solver that solves what has one solution, one prescribed value for each listed node, one Newton step or tests that do not fire. *)
Record poses_heat {Y} (p : pproblem R_field Y) (y : Y) (nn : nat) (val : (nat -> R) -> (nat -> R) -> nat -> R) (F : nat -> R) : Prop := {
  ph_size : pq_n p = nn;
  ph_value : forall T V k, (k < nn)%nat -> pp_value (pq_pde p) T V y k = val T V k - F k;
  ph_states : forall V, partial_derivatives nn (fun T => pp_value (pq_pde p) T V y) (fun T => pp_gradient_u (pq_pde p) T V y);
  ph_rates : forall T, partial_derivatives nn (fun V => pp_value (pq_pde p) T V y) (fun V => pp_gradient_v (pq_pde p) T V y);
  ph_solver : solver_ok (K := R_ring) nn (pq_solve p);
  ph_conditions : conditions nn (pq_dofs p) (pq_vals p);
  ph_alpha : 0 < pq_alpha p;
  ph_dt : 0 < pq_dt p;
  ph_newton : (0 < pq_newton p)%nat;
  ph_tests : pq_newton p = 1%nat \/ forall r, pq_res_small p r = false }.
(** Storage is created as zeros: all temperatures and rates but the initial temperatures. *)
Definition fresh_storage (h : phistory R_field) : Prop := (forall i, snd (h 0%nat) i = 0) /\ forall k i, (1 <= k)%nat -> fst (h k) i = 0 /\ snd (h k) i = 0.
(** One time step: the trapezoid rule, the prescribed temperatures, and heat balance at all other nodes. *)
Definition heat_step (nn : nat) (val : (nat -> R) -> (nat -> R) -> nat -> R) (F : nat -> R) (dofs : list nat) (vals : list R) (alpha dt : R) (prev cur : (nat -> R) * (nat -> R)) : Prop :=
  (forall i, (i < nn)%nat -> fst cur i = fst prev i + dt * ((1 - alpha) * snd prev i + alpha * snd cur i)) /\
  (forall k w, In (k, w) (combine dofs vals) -> fst cur k = w) /\
  (forall k, (k < nn)%nat -> ~ In k dofs -> val (fst cur) (snd cur) k = F k).

Section Forms.
Variables (d nn : nat) (pen : R -> R) (X : nat -> nat -> R) (Z : nat -> R) (cells : list (cell thermal)).
Hypothesis B : heat_body d nn pen X Z cells.
Let Hd := ht_dim _ _ _ _ _ _ B.
Let Hm := ht_mesh _ _ _ _ _ _ B.
Let val := fun T V => heat_equation d pen X T V Z cells.
Let q (c : cell thermal) := cell_measure d (gather_coords X c) * pen (cell_density (S d) (gather_control Z c)).
Let gr (T : nat -> R) (c : cell thermal) := scalar_gradient d 1 0 (gather 1 T c) (cell_gradient d (gather_coords X c)).
Let k0 (c : cell thermal) := t_cond_const (c_mat c).
Let av (T : nat -> R) (c : cell thermal) := interpolate d 1 0 (gather 1 T c).
Let rc (c : cell thermal) := t_rho_const (c_mat c) * t_cp_const (c_mat c).
Definition conducts (T W : nat -> R) : R := sum_over cells (fun c => q c * rsum d (fun i => rsum d (fun j => gr T c j * k0 c i j) * gr W c i)).
Definition stores (V W : nat -> R) : R := sum_over cells (fun c => q c * rc c * (av V c * av W c)).
Lemma heat_forms T V W : work nn (val T V) W = conducts T W + stores V W.
Proof.
  unfold val, heat_equation, conducts, stores. replace nn with (nn * 1)%nat by lia. rewrite assemble_work by (apply (mesh_nodes d nn X); exact Hm). rewrite <- sum_over_add.
  apply sum_over_ext. intros c Hc. rewrite heat_work. destruct (ht_cells _ _ _ _ _ _ B c Hc) as (Hl & _). unfold flux_no_temperature, thermal_content, thermal_flux. rewrite Hl. fold (q c).
  f_equal; [|unfold rc, av; ring]. rewrite <- Ropp_mult_distr_r_reverse. f_equal.
  rewrite <- rsum_opp. apply rsum_ext. intros i Hi. unfold gr, k0. req. ring.
Qed.
Lemma mean_av T c : (1 <= d <= 3)%nat -> av T c = mean d T c.
Proof.
  intros H. unfold av, mean. rewrite interpolate_average by lia. unfold average. f_equal. unfold rs. apply rsum_ext. intros a _. f_equal. lia.
Qed.
Lemma gr_lin T W s c i : gr (along T W s) c i = gr T c i + s * gr W c i.
Proof. unfold gr, scalar_gradient, gather, along. rewrite <- rsum_scal_l, <- rsum_add. apply rsum_ext. intros. req. ring. Qed.
Lemma av_lin T W s c : av (along T W s) c = av T c + s * av W c.
Proof. unfold av, interpolate, gather, along. rewrite <- rsum_scal_l, <- rsum_add. apply rsum_ext. intros. req. ring. Qed.
Lemma conducts_lin T T' s W : conducts (along T T' s) W = conducts T W + s * conducts T' W.
Proof.
  unfold conducts. rewrite <- sum_over_scal, <- sum_over_add. apply sum_over_ext. intros c Hc.
  transitivity (q c * (rsum d (fun i => rsum d (fun j => gr T c j * k0 c i j) * gr W c i) + s * rsum d (fun i => rsum d (fun j => gr T' c j * k0 c i j) * gr W c i))); [|ring]. f_equal.
  rewrite <- rsum_scal_l, <- rsum_add. apply rsum_ext. intros i Hi. transitivity ((rsum d (fun j => gr T c j * k0 c i j) + s * rsum d (fun j => gr T' c j * k0 c i j)) * gr W c i); [|req; ring]. req. f_equal.
  rewrite <- rsum_scal_l, <- rsum_add. apply rsum_ext. intros j Hj. rewrite gr_lin. req. ring.
Qed.
Lemma stores_lin T T' s W : stores (along T T' s) W = stores T W + s * stores T' W.
Proof. unfold stores. rewrite <- sum_over_scal, <- sum_over_add. apply sum_over_ext. intros c Hc. rewrite av_lin. ring. Qed.
Lemma conducts_sym T W : conducts T W = conducts W T.
Proof. unfold conducts. apply sum_over_ext. intros c Hc. f_equal. apply form_sym. apply (ht_cells _ _ _ _ _ _ B c Hc). Qed.
Lemma stores_sym T W : stores T W = stores W T.
Proof. unfold stores. apply sum_over_ext. intros c Hc. ring. Qed.
Lemma q_pos c : In c cells -> 0 < q c.
Proof. intros Hc. destruct (mesh_cell _ _ _ _ _ Hm Hc) as [_ Hv]. apply solid_weight; [exact Hd|exact Hv|apply (ht_cells _ _ _ _ _ _ B c Hc)]. Qed.
Lemma rc_pos c : In c cells -> 0 < rc c.
Proof. intros Hc. destruct (ht_cells _ _ _ _ _ _ B c Hc) as (_ & _ & _ & H1 & H2 & _). apply Rmult_lt_0_compat; assumption. Qed.
Lemma conducts_term T c : In c cells -> 0 <= q c * rsum d (fun i => rsum d (fun j => gr T c j * k0 c i j) * gr T c i).
Proof. intros Hc. apply Rmult_le_pos; [left; apply q_pos; exact Hc|]. rewrite form_flip. apply positive_nonneg. apply (ht_cells _ _ _ _ _ _ B c Hc). Qed.
Lemma stores_term T c : In c cells -> 0 <= q c * rc c * (av T c * av T c).
Proof. intros Hc. pose proof (q_pos c Hc). pose proof (rc_pos c Hc). apply Rmult_le_pos; [left; apply Rmult_lt_0_compat; assumption|nra]. Qed.
Lemma conducts_nonneg T : 0 <= conducts T T.
Proof. apply sum_over_nonneg. intros c Hc. apply conducts_term. exact Hc. Qed.
Lemma stores_nonneg T : 0 <= stores T T.
Proof. apply sum_over_nonneg. intros c Hc. apply stores_term. exact Hc. Qed.
(** Conduction and storage together see every temperature. *)
Lemma forms_definite D : conducts D D = 0 -> stores D D = 0 -> forall n, (n < nn)%nat -> D n = 0.
Proof.
  intros H1 H2 n Hn. destruct (ht_nodes _ _ _ _ _ _ B n Hn) as (c & a & Hc & Ha & <-). destruct (mesh_cell _ _ _ _ _ Hm Hc) as [_ Hv].
  pose proof (sum_over_zero cells _ (fun c Hc => conducts_term D c Hc) H1 c Hc) as E1. apply (weight_zero _ _ (q_pos c Hc)) in E1. rewrite form_flip in E1.
  pose proof (sum_over_zero cells _ (fun c Hc => stores_term D c Hc) H2 c Hc) as E2. apply (weight_zero _ _ (Rmult_lt_0_compat _ _ (q_pos c Hc) (rc_pos c Hc))) in E2.
  assert (E3 : av D c = 0) by nra.
  assert (G : forall l, (l < d)%nat -> gr D c l = 0) by (apply (positive_zero d (k0 c)); [apply (ht_cells _ _ _ _ _ _ B c Hc)|exact E1]).
  pose proof (flat_gradient d 1 0 (gather 1 D c) (gather_coords X c) Hd (det_measure d _ Hd Hv) G) as Fl.
  unfold av in E3. rewrite (interpolate_const d 1 0 (gather 1 D c) (gather 1 D c (a * 1 + 0)%nat) Hd) in E3 by (intros b Hb; apply Fl; [lia|exact Ha]).
  rewrite gather_at in E3 by lia. rewrite Nat.mul_1_r, Nat.add_0_r in E3. exact E3.
Qed.
Lemma val_entry T V k : (k < nn)%nat -> val T V k = conducts T (unit k) + stores V (unit k).
Proof. intros Hk. rewrite <- heat_forms. symmetry. apply work_unit. exact Hk. Qed.
Lemma forms_agree T T' W : (forall k, (k < nn)%nat -> T k = T' k) -> conducts T W = conducts T' W /\ stores T W = stores T' W.
Proof.
  intros H. assert (G : forall c, In c cells -> forall k, (k < S d * 1)%nat -> gather 1 T c k = gather 1 T' c k).
  { intros c Hc. destruct (mesh_cell _ _ _ _ _ Hm Hc) as [Hn _]. apply (gather_agree nn 1 T T' c d ltac:(lia) Hn). intros k Hk. apply H. lia. }
  split; apply sum_over_ext; intros c Hc.
  - f_equal. apply rsum_ext. intros i Hi. req. f_equal. apply rsum_ext. intros j Hj. req. f_equal. unfold gr. apply scalar_gradient_ext; [lia|exact (G c Hc)].
  - f_equal. f_equal. unfold av, interpolate. apply rsum_ext. intros a Ha. req. f_equal. apply (G c Hc). lia.
Qed.
Lemma conducts_zero W : conducts zero W = 0.
Proof. pose proof (conducts_lin zero zero 1 W) as E. rewrite (proj1 (forms_agree (along zero zero 1) zero W ltac:(intros; unfold along; ring))) in E. lra. Qed.
Lemma stores_zero W : stores zero W = 0.
Proof. pose proof (stores_lin zero zero 1 W) as E. rewrite (proj2 (forms_agree (along zero zero 1) zero W ltac:(intros; unfold along; ring))) in E. lra. Qed.
Definition conduction (i j : nat) : R := conducts (unit j) (unit i).
Definition storage (i j : nat) : R := stores (unit j) (unit i).
Lemma conduction_mv T i : (i < nn)%nat -> rsum nn (fun j => conduction i j * T j) = conducts T (unit i).
Proof.
  intros Hi. assert (A : affine_forces nn (fun T k => conducts T (unit k)) (tangent_matrix (fun T k => conducts T (unit k)))).
  { apply affine_matrix; [intros; rewrite conducts_lin, conducts_zero; ring|intros U U' H k _; apply forms_agree; exact H]. }
  specialize (A T i Hi). cbn beta in A. rewrite A, conducts_zero, Rplus_0_l. apply rsum_ext. intros j Hj. unfold conduction, tangent_matrix. rewrite conducts_zero. req. ring.
Qed.
Lemma storage_mv T i : (i < nn)%nat -> rsum nn (fun j => storage i j * T j) = stores T (unit i).
Proof.
  intros Hi. assert (A : affine_forces nn (fun T k => stores T (unit k)) (tangent_matrix (fun T k => stores T (unit k)))).
  { apply affine_matrix; [intros; rewrite stores_lin, stores_zero; ring|intros U U' H k _; apply forms_agree; exact H]. }
  specialize (A T i Hi). cbn beta in A. rewrite A, stores_zero, Rplus_0_l. apply rsum_ext. intros j Hj. unfold storage, tangent_matrix. rewrite stores_zero. req. ring.
Qed.
Section Steps.
Variables (Y : Type) (p : pproblem R_field Y) (y : Y) (F : nat -> R).
Hypothesis P : poses_heat p y nn val F.
Let a := pq_alpha p.
Let dt := pq_dt p.
Lemma heat_linear : linear_ppde (K := R_field) nn (pq_pde p) y conduction storage F.
Proof.
  intros T V. split; [|split].
  - intros i Hi. rewrite (ph_value _ _ _ _ _ P T V i Hi), (val_entry T V i Hi). rewrite <- (conduction_mv T i Hi), <- (storage_mv V i Hi). reflexivity.
  - intros i j Hi Hj. refine (derivative_entry nn (fun T => pp_value (pq_pde p) T V y) conduction _ _ (ph_states _ _ _ _ _ P V) T i j Hi Hj).
    intros U k Hk. rewrite !(ph_value _ _ _ _ _ P _ _ k Hk), !(val_entry _ V k Hk), (conduction_mv U k Hk), conducts_zero. ring.
  - intros i j Hi Hj. refine (derivative_entry nn (fun V => pp_value (pq_pde p) T V y) storage _ _ (ph_rates _ _ _ _ _ P T) V i j Hi Hj).
    intros U k Hk. rewrite !(ph_value _ _ _ _ _ P _ _ k Hk), !(val_entry T _ k Hk), (storage_mv U k Hk), stores_zero. ring.
Qed.
(** Two pairs of temperatures and rates that differ as the trapezoid rule has them differ agree when they agree at the listed nodes and have the same balance at the others. *)
Lemma steps_agree dofs T V T' V' : (forall k, (k < nn)%nat -> T k - T' k = a * dt * (V k - V' k)) ->
  (forall k, (k < nn)%nat -> if listed dofs k then T k = T' k else val T V k = val T' V' k) -> forall k, (k < nn)%nat -> T k = T' k /\ V k = V' k.
Proof.
  intros HT HS. pose proof (ph_alpha _ _ _ _ _ P) as Pa. pose proof (ph_dt _ _ _ _ _ P) as Pt. assert (Pq : 0 < a * dt) by (apply Rmult_lt_0_compat; assumption).
  set (D := along T T' (-1)). set (E := along V V' (-1)).
  assert (W : work nn (fun k => val T V k - val T' V' k) D = 0).
  { unfold work, rs. apply rsum_0. intros k Hk. specialize (HS k Hk). unfold D, along. destruct (listed dofs k); rewrite HS; req; ring. }
  rewrite work_sub, !heat_forms in W.
  assert (C : conducts D D = conducts T D - conducts T' D) by (unfold D at 1; rewrite conducts_lin; ring).
  assert (S' : stores E D = stores V D - stores V' D) by (unfold E; rewrite stores_lin; ring).
  assert (Q : stores D D = a * dt * stores E D).
  { rewrite (proj2 (forms_agree D (along zero E (a * dt)) D ltac:(intros k Hk; unfold D, E, along; specialize (HT k Hk); lra))), stores_lin, stores_zero. ring. }
  pose proof (conducts_nonneg D). pose proof (stores_nonneg D).
  assert (S1 : 0 <= stores E D) by (apply (Rmult_le_reg_l (a * dt)); [exact Pq|]; rewrite Rmult_0_r, <- Q; assumption).
  assert (S0 : stores E D = 0) by lra. assert (C0 : conducts D D = 0) by lra.
  intros k Hk. assert (D0 : D k = 0) by (apply forms_definite; [exact C0|rewrite Q, S0; ring|exact Hk]). unfold D, along in D0.
  split; [lra|]. specialize (HT k Hk). assert (T k - T' k = 0) by lra. rewrite H1 in HT. symmetry in HT. apply Rmult_integral in HT. destruct HT; lra.
Qed.
Lemma heat_nonsingular : nonsingular (K := R_ring) nn (bc_matrix (K := R_ring) (pq_dofs p) (fun i j => conduction i j + storage i j / (a * dt))).
Proof.
  pose proof (ph_alpha _ _ _ _ _ P) as Pa. pose proof (ph_dt _ _ _ _ _ P) as Pt. assert (Pq : 0 < a * dt) by (apply Rmult_lt_0_compat; assumption).
  apply (one_equilibrium_nonsingular nn (fun T k => val T (along zero T (/ (a * dt))) k)).
  - intros U i Hi. rewrite !val_entry by exact Hi. rewrite !stores_lin, stores_zero, conducts_zero. rewrite <- (conduction_mv U i Hi), <- (storage_mv U i Hi).
    rewrite (rsum_ext nn (fun j => (conduction i j + storage i j / (a * dt)) * U j) (fun j => conduction i j * U j + / (a * dt) * (storage i j * U j))) by (intros; unfold Rdiv; req; ring).
    rewrite rsum_add, rsum_scal_l. req. ring.
  - apply (ph_conditions _ _ _ _ _ P).
  - intros U U' HS k Hk. refine (proj1 (steps_agree (pq_dofs p) U (along zero U (/ (a * dt))) U' (along zero U' (/ (a * dt))) _ HS k Hk)).
    intros j Hj. unfold along. rewrite !Rplus_0_l. rewrite <- Rmult_minus_distr_l, <- Rmult_assoc, Rinv_r by lra. ring.
Qed.
Lemma heat_steps h : fresh_storage h -> forall k, (1 <= k < pq_steps p)%nat ->
  heat_step nn val F (pq_dofs p) (pq_vals p) a dt (psolution p y h (k - 1)%nat) (psolution p y h k) /\
  forall cur, heat_step nn val F (pq_dofs p) (pq_vals p) a dt (psolution p y h (k - 1)%nat) cur ->
    forall i, (i < nn)%nat -> fst cur i = fst (psolution p y h k) i /\ snd cur i = snd (psolution p y h k) i.
Proof.
  intros [Hf0 Hf] k Hk. pose proof (ph_alpha _ _ _ _ _ P) as Pa. pose proof (ph_dt _ _ _ _ _ P) as Pt. pose proof (ph_size _ _ _ _ _ P) as En. destruct (ph_conditions _ _ _ _ _ P) as (Hl & Hnd & Hdf).
  assert (Na : pq_alpha p <> 0) by lra. assert (Nt : pq_dt p <> 0) by lra.
  assert (ST : heat_step nn val F (pq_dofs p) (pq_vals p) a dt (psolution p y h (k - 1)%nat) (psolution p y h k)).
  { pose proof (C17_trapezoid R_field Y p y h Na Nt (ph_newton _ _ _ _ _ P) (ph_tests _ _ _ _ _ P) k Hk) as E1.
    assert (HA : ConstraintsSpec.symmetric (K := R_ring) nn conduction) by (intros i j Hi Hj; apply conducts_sym).
    assert (HC : ConstraintsSpec.symmetric (K := R_ring) nn storage) by (intros i j Hi Hj; apply stores_sym).
    pose proof heat_linear as Lin. pose proof heat_nonsingular as Ns. rewrite <- En in Lin, Ns, HA, HC, Hdf. pose proof (ph_solver _ _ _ _ _ P) as Sv. rewrite <- En in Sv.
    destruct (C17_linear_steps R_field Y p y h conduction storage F Lin HA HC Na Nt (ph_newton _ _ _ _ _ P) (ph_tests _ _ _ _ _ P) Sv Ns Hl Hnd Hdf) with (k := k) as [E2 E3]; [intros j i Hj _; apply Hf; lia|exact Hk|].
    split; [|split].
    - intros i Hi. apply E1. rewrite En. exact Hi.
    - exact E2.
    - intros i Hi Ni. rewrite val_entry by exact Hi. rewrite <- (conduction_mv _ i Hi), <- (storage_mv _ i Hi). specialize (E3 i ltac:(rewrite En; exact Hi) Ni). rewrite En in E3. exact E3. }
  split; [exact ST|]. intros [cT cV] (C1 & C2 & C3). revert ST. generalize dependent (psolution p y h (k - 1)%nat). intros [oT oV] C1. destruct (psolution p y h k) as [nT nV]. intros (S1 & S2 & S3). cbn [fst snd] in *.
  apply (steps_agree (pq_dofs p)).
  - intros i Hi. rewrite (C1 i Hi), (S1 i Hi). ring.
  - intros i Hi. destruct (listed (pq_dofs p) i) eqn:E.
    + apply listed_in in E. assert (I : exists v, In (i, v) (combine (pq_dofs p) (pq_vals p))).
      { clear -E Hl. revert E Hl. generalize (pq_vals p). induction (pq_dofs p) as [|x l IH]; intros vs E Hl; [contradiction|].
        destruct vs as [|v vs]; [discriminate|]. destruct E as [->|E]; [exists v; left; reflexivity|]. destruct (IH vs E) as (w & I); [injection Hl as Hl; exact Hl|]. exists w. right. exact I. }
      destruct I as (v & I). rewrite (C2 i v I), (S2 i v I). reflexivity.
    + apply listed_out in E. rewrite (C3 i Hi E), (S3 i Hi E). reflexivity.
Qed.
Lemma stored_square_form T : stores T T = stored_square d pen X Z cells T.
Proof.
  apply sum_over_ext. intros c Hc. destruct (mesh_cell _ _ _ _ _ Hm Hc) as [_ Hv]. rewrite !mean_av by exact Hd. unfold capacity, q, rc. rewrite (proj1 (measure_simplex d (gather_coords X c) Hd Hv)).
  change (simplex_measure d (gather_coords X c)) with (simplex_measure d (fun a i => X (c_node c a) i)). change (cell_density (S d) (gather_control Z c)) with (rs (S d) (fun a => Z (c_node c a)) / INR (S d)). ring.
Qed.
Lemma ones_av c : av (fun _ => 1) c = 1.
Proof. unfold av. apply interpolate_const; [exact Hd|reflexivity]. Qed.
Lemma ones_conducts T : conducts T (fun _ => 1) = 0.
Proof.
  apply sum_over_0. intros c Hc. destruct (mesh_cell _ _ _ _ _ Hm Hc) as [Hn Hv]. rewrite rsum_0; [ring|]. intros i Hi. unfold gr.
  rewrite (uniform_gradient d nn 1 0 X 1 (fun _ => 1) c i Hd ltac:(lia) Hn Hv) by (try exact Hi; intros n _; symmetry; apply affine_const). req. ring.
Qed.
Lemma stored_heat_form T : stores T (fun _ => 1) = stored_heat d pen X Z cells T.
Proof.
  apply sum_over_ext. intros c Hc. destruct (mesh_cell _ _ _ _ _ Hm Hc) as [_ Hv]. rewrite ones_av, mean_av by exact Hd. unfold capacity, q, rc. rewrite (proj1 (measure_simplex d (gather_coords X c) Hd Hv)).
  change (simplex_measure d (gather_coords X c)) with (simplex_measure d (fun a i => X (c_node c a) i)). change (cell_density (S d) (gather_control Z c)) with (rs (S d) (fun a => Z (c_node c a)) / INR (S d)). ring.
Qed.
(** No supplies and no prescribed temperature but zero: the stored square never grows. *)
Lemma square_decays (H : nat -> (nat -> R) * (nat -> R)) N k : (forall k, (1 <= k < N)%nat -> heat_step nn val F (pq_dofs p) (pq_vals p) a dt (H (k - 1)%nat) (H k)) -> (forall i, (i < nn)%nat -> snd (H 0%nat) i = 0) ->
  (forall i, F i = 0) -> (forall w, In w (pq_vals p) -> w = 0) -> 1 / 2 <= a -> (S k < N)%nat ->
  stored_square d pen X Z cells (fst (H (S k))) <= stored_square d pen X Z cells (fst (H k)).
Proof.
  intros Hf Hf0 HF HV Ha Hk. pose proof (ph_dt _ _ _ _ _ P) as Pt. fold dt in Pt. destruct (ph_conditions _ _ _ _ _ P) as (Hl & Hnd & Hdf).
  destruct (Hf (S k) ltac:(lia)) as (S1 & S2 & S3). replace (S k - 1)%nat with k in * by lia.
  set (T := fst (H k)) in *. set (V := snd (H k)) in *. set (T' := fst (H (S k))) in *. set (V' := snd (H (S k))) in *.
  assert (Rest : forall j, (1 <= j < N)%nat -> forall W, (forall i, In i (pq_dofs p) -> W i = 0) -> conducts (fst (H j)) W + stores (snd (H j)) W = 0).
  { intros j Hj W HW. destruct (Hf j Hj) as (_ & _ & J3). rewrite <- heat_forms. unfold work, rs. apply rsum_0. intros i Hi. destruct (in_dec Nat.eq_dec i (pq_dofs p)) as [I|No].
    - rewrite (HW i I). req. ring.
    - rewrite (J3 i Hi No), HF. req. ring. }
  assert (Held : forall j, (1 <= j < N)%nat -> forall i, In i (pq_dofs p) -> fst (H j) i = 0).
  { intros j Hj i I. destruct (Hf j Hj) as (_ & J2 & _).
    assert (E : exists v, In (i, v) (combine (pq_dofs p) (pq_vals p))).
    { clear -I Hl. revert I Hl. generalize (pq_vals p). induction (pq_dofs p) as [|x l IH]; intros vs E Hl; [contradiction|].
      destruct vs as [|v vs]; [discriminate|]. destruct E as [->|E]; [exists v; left; reflexivity|]. destruct (IH vs E) as (w & I); [injection Hl as Hl; exact Hl|]. exists w. right. exact I. }
    destruct E as (v & E). rewrite (J2 i v E). apply HV. eapply in_combine_r; eauto. }
  rewrite <- !stored_square_form. set (D := along T' T (-1)).
  assert (ET : stores T' T' - stores T T = 2 * stores D T' - stores D D).
  { assert (LD : forall W, stores D W = stores T' W + -1 * stores T W) by (intros W; unfold D; apply stores_lin).
    rewrite (LD D), (stores_sym T' D), (stores_sym T D), (LD T'), (LD T), (stores_sym T T'). ring. }
  assert (ED : forall W, stores D W = dt * ((1 - a) * stores V W + a * stores V' W)).
  { intros W. rewrite (proj2 (forms_agree D (along (along zero V (dt * (1 - a))) V' (dt * a)) W ltac:(intros i Hi; unfold D, along; rewrite (S1 i Hi); ring))), !stores_lin, stores_zero. ring. }
  pose proof (stores_nonneg D) as ND. pose proof (conducts_nonneg T') as NC.
  assert (R1 : conducts T' T' + stores V' T' = 0) by (apply (Rest (S k)); [lia|]; apply (Held (S k)); lia).
  destruct k as [|k].
  - (* the first step starts at rest *)
    assert (V0 : forall W, stores V W = 0).
    { intros W. rewrite (proj2 (forms_agree V zero W ltac:(intros i Hi; unfold V; apply Hf0; exact Hi))). apply stores_zero. }
    rewrite ED, V0 in ET. assert (E : stores V' T' = - conducts T' T') by lra. rewrite E in ET. 
    assert (0 <= dt * a * conducts T' T') by (apply Rmult_le_pos; [apply Rmult_le_pos; lra|exact NC]). lra.
  - assert (HT' : forall i, In i (pq_dofs p) -> T' i = 0) by exact (Held (S (S k)) ltac:(lia)). assert (HT0 : forall i, In i (pq_dofs p) -> T i = 0) by exact (Held (S k) ltac:(lia)).
    assert (R2 : conducts T D + stores V D = 0) by (apply (Rest (S k)); [lia|]; intros i I; unfold D, along; rewrite (HT' i I), (HT0 i I); ring).
    assert (R3 : conducts T' D + stores V' D = 0) by (apply (Rest (S (S k))); [lia|]; intros i I; unfold D, along; rewrite (HT' i I), (HT0 i I); ring).
    (* the temperature the rates belong to *)
    set (M := along (along zero T (1 - a)) T' a).
    assert (HM : forall i, In i (pq_dofs p) -> M i = 0) by (intros i I; unfold M, along; rewrite (HT' i I), (HT0 i I); ring).
    pose proof (Rest (S k) ltac:(lia) M HM) as R4. pose proof (Rest (S (S k)) ltac:(lia) M HM) as R5. fold T V in R4. fold T' V' in R5.
    pose proof (conducts_nonneg M) as NM. assert (EM : conducts M M = (1 - a) * conducts T M + a * conducts T' M) by (unfold M at 1; rewrite !conducts_lin, conducts_zero; ring).
    assert (DM : stores D M = - (dt * conducts M M)) by (rewrite ED, EM; replace (stores V M) with (- conducts T M) by lra; replace (stores V' M) with (- conducts T' M) by lra; ring).
    assert (DT : stores D T' = stores D M + (1 - a) * stores D D).
    { rewrite (stores_sym D T'), (stores_sym D M), (proj2 (forms_agree T' (along M D (1 - a)) D ltac:(intros i Hi; unfold M, D, along; ring))), stores_lin. ring. }
    assert (0 <= dt * conducts M M) by (apply Rmult_le_pos; lra). assert (0 <= (2 * a - 1) * stores D D) by (apply Rmult_le_pos; lra). rewrite DT, DM in ET. lra.
Qed.
(** What is stored grows by what is supplied: no prescribed temperature. *)
Lemma heat_grows (H : nat -> (nat -> R) * (nat -> R)) N k : (forall k, (1 <= k < N)%nat -> heat_step nn val F (pq_dofs p) (pq_vals p) a dt (H (k - 1)%nat) (H k)) -> (forall i, (i < nn)%nat -> snd (H 0%nat) i = 0) ->
  pq_dofs p = [] -> (S k < N)%nat ->
  stored_heat d pen X Z cells (fst (H (S k))) = stored_heat d pen X Z cells (fst (H k)) + (if Nat.eqb k 0 then a else 1) * dt * rs nn F.
Proof.
  intros Hf Hf0 HV Hk. destruct (Hf (S k) ltac:(lia)) as (S1 & S2 & S3). replace (S k - 1)%nat with k in * by lia. rewrite <- !stored_heat_form.
  rewrite (proj2 (forms_agree (fst (H (S k))) (along (along (fst (H k)) (snd (H k)) (dt * (1 - a))) (snd (H (S k))) (dt * a)) (fun _ => 1) ltac:(intros i Hi; unfold along; rewrite (S1 i Hi); ring))), !stores_lin.
  assert (Rate : forall j, (1 <= j < N)%nat -> stores (snd (H j)) (fun _ => 1) = rs nn F).
  { intros j Hj. destruct (Hf j Hj) as (_ & _ & J3). pose proof (heat_forms (fst (H j)) (snd (H j)) (fun _ => 1)) as E. rewrite ones_conducts, Rplus_0_l in E. rewrite <- E.
    unfold work, rs. apply rsum_ext. intros i Hi. rewrite (J3 i Hi) by (rewrite HV; intros []). req. ring. }
  rewrite (Rate (S k)) by lia. destruct k as [|k]; cbn [Nat.eqb].
  - rewrite (proj2 (forms_agree (snd (H 0%nat)) zero (fun _ => 1) Hf0)), stores_zero. ring.
  - rewrite (Rate (S k)) by lia. ring.
Qed.
End Steps.
End Forms.

(** ** C168: each computed step is the only one that follows the trapezoid rule, takes the prescribed temperatures and balances heat, for every positive step length,
    with or without prescribed temperatures. *)
Theorem C168_steps : forall (Y : Type) (p : pproblem R_field Y) (y : Y) (h : phistory R_field) d nn pen X Z cells F, heat_body d nn pen X Z cells ->
  poses_heat p y nn (fun T V => heat_equation d pen X T V Z cells) F -> fresh_storage h ->
  forall k, (1 <= k < pq_steps p)%nat ->
  heat_step nn (fun T V => heat_equation d pen X T V Z cells) F (pq_dofs p) (pq_vals p) (pq_alpha p) (pq_dt p) (psolution p y h (k - 1)%nat) (psolution p y h k) /\
  forall cur, heat_step nn (fun T V => heat_equation d pen X T V Z cells) F (pq_dofs p) (pq_vals p) (pq_alpha p) (pq_dt p) (psolution p y h (k - 1)%nat) cur ->
    forall i, (i < nn)%nat -> fst cur i = fst (psolution p y h k) i /\ snd cur i = snd (psolution p y h k) i.
Proof. intros Y p y h d nn pen X Z cells F B P Hf k Hk. exact (heat_steps d nn pen X Z cells B Y p y F P h Hf k Hk). Qed.
Print Assumptions C168_steps.
(** Without supplies and with all prescribed temperatures zero the stored square of the temperature never grows, from the first step on, however long the steps. *)
Theorem C168_decay : forall (Y : Type) (p : pproblem R_field Y) (y : Y) (h : phistory R_field) d nn pen X Z cells, heat_body d nn pen X Z cells ->
  poses_heat p y nn (fun T V => heat_equation d pen X T V Z cells) (fun _ => 0) -> fresh_storage h ->
  1 / 2 <= pq_alpha p -> (forall w, In w (pq_vals p) -> w = 0) ->
  forall j k, (j <= k < pq_steps p)%nat -> stored_square d pen X Z cells (fst (psolution p y h k)) <= stored_square d pen X Z cells (fst (psolution p y h j)).
Proof.
  intros Y p y h d nn pen X Z cells B P Hf Ha HV j k [Hj Hk]. induction Hj as [|k Hj IH]; [apply Rle_refl|].
  apply (Rle_trans _ (stored_square d pen X Z cells (fst (psolution p y h k)))); [|apply IH; lia].
  refine (square_decays d nn pen X Z cells B Y p y (fun _ => 0) P (fun k => psolution p y h k) (pq_steps p) k _ _ (fun _ => eq_refl) HV Ha Hk).
  - intros l Hl. exact (proj1 (heat_steps d nn pen X Z cells B Y p y (fun _ => 0) P h Hf l Hl)).
  - intros i Hi. rewrite psolution_init. exact (proj1 Hf i).
Qed.
Print Assumptions C168_decay.

(** ** C169: with no prescribed temperature, the heat stored grows in each step by the step length times what is supplied - but for the first step, which takes the
    share [alpha] of it: the rates of the initial state are never computed. *)
Theorem C169_supplied_partial : forall (Y : Type) (p : pproblem R_field Y) (y : Y) (h : phistory R_field) d nn pen X Z cells F, heat_body d nn pen X Z cells ->
  poses_heat p y nn (fun T V => heat_equation d pen X T V Z cells) F -> fresh_storage h -> pq_dofs p = [] ->
  forall k, (1 <= k < pq_steps p)%nat ->
  stored_heat d pen X Z cells (fst (psolution p y h k)) = stored_heat d pen X Z cells (fst (h 0%nat)) + (INR (k - 1) + pq_alpha p) * pq_dt p * rs nn F.
Proof.
  intros Y p y h d nn pen X Z cells F B P Hf HV k Hk. destruct k as [|k]; [lia|]. replace (S k - 1)%nat with k by lia.
  assert (G : forall k, (S k < pq_steps p)%nat -> stored_heat d pen X Z cells (fst (psolution p y h (S k))) = stored_heat d pen X Z cells (fst (psolution p y h k)) + (if Nat.eqb k 0 then pq_alpha p else 1) * pq_dt p * rs nn F).
  { intros l Hl. refine (heat_grows d nn pen X Z cells B Y p F (fun k => psolution p y h k) (pq_steps p) l _ _ HV Hl).
    - intros m Hm. exact (proj1 (heat_steps d nn pen X Z cells B Y p y F P h Hf m Hm)).
    - intros i Hi. rewrite psolution_init. exact (proj1 Hf i). }
  destruct Hk as [_ Hk]. induction k as [|k IH].
  - rewrite (G 0%nat Hk), psolution_init. cbn [Nat.eqb INR]. rewrite Rplus_0_l. reflexivity.
  - rewrite (G (S k) Hk), IH by lia. cbn [Nat.eqb]. rewrite (S_INR k). ring.
Qed.
Print Assumptions C169_supplied_partial.
(** Nothing supplied: nothing is lost or gained. *)
Theorem C169_conserved : forall (Y : Type) (p : pproblem R_field Y) (y : Y) (h : phistory R_field) d nn pen X Z cells F, heat_body d nn pen X Z cells ->
  poses_heat p y nn (fun T V => heat_equation d pen X T V Z cells) F -> fresh_storage h -> pq_dofs p = [] -> rs nn F = 0 ->
  forall k, (k < pq_steps p)%nat -> stored_heat d pen X Z cells (fst (psolution p y h k)) = stored_heat d pen X Z cells (fst (h 0%nat)).
Proof.
  intros Y p y h d nn pen X Z cells F B P Hf HV HF k Hk. destruct k as [|k]; [rewrite psolution_init; reflexivity|].
  rewrite (C169_supplied_partial Y p y h d nn pen X Z cells F B P Hf HV (S k)) by lia. rewrite HF. ring.
Qed.
Print Assumptions C169_conserved.

(** A bar of one cell in which heat is supplied at one end; the trapezoid rule with its default share 1/2, three states. *)
Definition rod_law : thermal := mkThermal false (fun _ _ => 1) (fun _ _ _ => 0) 1 (fun _ => 0) 1 (fun _ => 0).
Definition rod_value (T V : nat -> R) : nat -> R := heat_equation 1 (fun x => x) bar_X T V (fun _ => 1) (bar rod_law).
Definition rod_supply (k : nat) : R := if Nat.eqb k 0 then 3 else 0.
Definition rod_problem : pproblem R_field Datatypes.unit :=
  mkPProblem (K := R_field) (Z := Datatypes.unit) 2 3 1 (fun _ => false) (fun _ => false) [] [] (gauss 2) (1 / 2)%R 1%R
    (mkPPde (K := R_field) (Z := Datatypes.unit) (fun T V _ k => rod_value T V k - rod_supply k)
       (fun _ _ _ => tangent_matrix (fun T => rod_value T zero)) (fun _ _ _ => tangent_matrix (fun V => rod_value zero V)) (fun _ _ _ _ _ => 0) (fun _ _ _ _ _ => 0)).
Definition rod_start : phistory R_field := fun k => (fun i => if Nat.eqb k 0 then INR i else 0, fun _ => 0).
Lemma rod_body : heat_body 1 2 (fun x => x) bar_X (fun _ => 1) (bar rod_law).
Proof.
  split.
  - lia.
  - apply bar_ok.
  - intros n Hn. exists (mkCell (fun a => a) rod_law), n. split; [left; reflexivity|]. split; [lia|reflexivity].
  - intros c [<-|[]]. split; [reflexivity|]. split; [intros i j _ _; reflexivity|]. split.
    + intros e (i & Hi & N). assert (i = 0%nat) by lia. subst i. unfold rs. rsums. cbn. apply Rsqr_pos_lt in N. unfold Rsqr in N. lra.
    + split; [cbn; lra|]. split; [cbn; lra|]. unfold solid, rs. rsums. cbn. lra.
Qed.
Lemma rod_poses : poses_heat rod_problem tt 2 (fun T V => heat_equation 1 (fun x => x) bar_X T V (fun _ => 1) (bar rod_law)) rod_supply.
Proof.
  assert (E : forall T V k, (k < 2)%nat -> rod_value T V k = conducts 1 (fun x => x) bar_X (fun _ => 1) (bar rod_law) T (unit k) + stores 1 (fun x => x) bar_X (fun _ => 1) (bar rod_law) V (unit k))
    by (intros T V k Hk; exact (val_entry 1 2 (fun x => x) bar_X (fun _ => 1) (bar rod_law) rod_body T V k Hk)).
  split; try reflexivity.
  - intros V T i j Hi Hj. cbn [pq_pde rod_problem pp_value pp_gradient_u]. unfold tangent_matrix.
    apply (affine_derivative _ (rod_value T V i - rod_supply i)). intros t. rewrite !E by assumption.
    rewrite (proj1 (forms_agree 1 2 _ _ _ _ rod_body (moved T j t) (along T (unit j) t) _ ltac:(intros k Hk; unfold moved, along, unit; destruct (Nat.eqb k j); ring))).
    rewrite conducts_lin, (conducts_zero 1 2) by apply rod_body. ring.
  - intros T V i j Hi Hj. cbn [pq_pde rod_problem pp_value pp_gradient_v]. unfold tangent_matrix.
    apply (affine_derivative _ (rod_value T V i - rod_supply i)). intros t. rewrite !E by assumption.
    rewrite (proj2 (forms_agree 1 2 _ _ _ _ rod_body (moved V j t) (along V (unit j) t) _ ltac:(intros k Hk; unfold moved, along, unit; destruct (Nat.eqb k j); ring))).
    rewrite stores_lin, (stores_zero 1 2) by apply rod_body. ring.
  - apply gauss_ok.
  - split; [reflexivity|]. split; [constructor|intros k []].
  - cbn. lra.
  - cbn. lra.
  - cbn. lia.
  - left. reflexivity.
Qed.
Lemma rod_fresh : fresh_storage rod_start.
Proof. split; [reflexivity|]. intros [|k] i Hk; [lia|]. split; reflexivity. Qed.
Example C168_case : heat_body 1 2 (fun x => x) bar_X (fun _ => 1) (bar rod_law) /\
  poses_heat rod_problem tt 2 (fun T V => heat_equation 1 (fun x => x) bar_X T V (fun _ => 1) (bar rod_law)) rod_supply /\ fresh_storage rod_start /\ fst (rod_start 0%nat) 1%nat = 1.
Proof. split; [apply rod_body|]. split; [apply rod_poses|]. split; [apply rod_fresh|reflexivity]. Qed.
(** The heat stored is not what was there plus what was supplied: half of the supply of the first step is missing. *)
Theorem C169_refuted : ~ (forall (Y : Type) (p : pproblem R_field Y) (y : Y) (h : phistory R_field) d nn pen X Z cells F, heat_body d nn pen X Z cells ->
  poses_heat p y nn (fun T V => heat_equation d pen X T V Z cells) F -> fresh_storage h -> pq_dofs p = [] ->
  forall k, (k < pq_steps p)%nat ->
  stored_heat d pen X Z cells (fst (psolution p y h k)) = stored_heat d pen X Z cells (fst (h 0%nat)) + INR k * pq_dt p * rs nn F).
Proof.
  intros H. pose proof (H _ rod_problem tt rod_start 1%nat 2%nat (fun x => x) bar_X (fun _ => 1) (bar rod_law) rod_supply rod_body rod_poses rod_fresh eq_refl 1%nat ltac:(cbn; lia)) as E.
  rewrite (C169_supplied_partial _ rod_problem tt rod_start 1%nat 2%nat (fun x => x) bar_X (fun _ => 1) (bar rod_law) rod_supply rod_body rod_poses rod_fresh eq_refl 1%nat ltac:(cbn; lia)) in E.
  assert (S : rs 2 rod_supply = 3) by (unfold rs; rsums; cbn; ring). rewrite S in E. cbn [rod_problem pq_alpha pq_dt Nat.sub INR] in E. lra.
Qed.
Print Assumptions C169_refuted.
