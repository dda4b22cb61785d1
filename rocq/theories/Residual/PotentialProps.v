(** C163: equilibria minimise the potential energy; more material or more supports make a loaded body no more compliant. *)
From Coq Require Import Reals List Arith Bool Lia Lra.
From Verif Require Import Base.Field Base.Sums Base.Res Element.ElementModel Element.ElementSpec Element.ElementProof Element.ElementProps
  Element.MaterialModel Element.MaterialSpec Element.MaterialProps
  Penalty.PenaltyModel Penalty.PenaltyProps Residual.ResidualModel Residual.ResidualSpec Residual.ResidualProof Residual.ResidualProps Residual.ResidualEnergyProps
  Residual.FrameSpec Residual.FrameProof Residual.SupportSpec Residual.SupportProof Residual.SupportProps.
Import ListNotations.
Local Open Scope R_scope.

(** ** Symmetric linear maps whose form is not negative *)
Section Form.
Variables (n : nat) (K : (nat -> R) -> nat -> R).
Hypothesis lin : forall U V s W, work n (K (along U V s)) W = work n (K U) W + s * work n (K V) W.
Hypothesis sym : forall U V, work n (K U) V = work n (K V) U.
Hypothesis pos : forall U, 0 <= work n (K U) U.

Lemma carries_work held (F : nat -> R) U D : carries n held (K U) F -> at_rest n held D -> work n (K U) D = work n F D.
Proof.
  intros HB HD. unfold work, rs. apply rsum_ext. intros k Hk. destruct (held k) eqn:E; [rewrite (HD k Hk E); req; ring|rewrite (HB k Hk E); reflexivity].
Qed.
Lemma square_along U V s : work n (K (along U V s)) (along U V s) = work n (K U) U + 2 * s * work n (K U) V + s * s * work n (K V) V.
Proof. rewrite work_along, !lin, (sym V U). ring. Qed.
Lemma minimum held F U V : carries n held (K U) F -> allowed n held U V ->
  1 / 2 * work n (K U) U - work n F U <= 1 / 2 * work n (K V) V - work n F V.
Proof.
  intros HB HA. pose proof (pos (along V U (-1))) as P. rewrite square_along in P.
  assert (Q : work n (K U) (along V U (-1)) = work n F (along V U (-1))).
  { apply (carries_work held); [exact HB|]. intros k Hk E. unfold along. rewrite (HA k Hk E). ring. }
  rewrite !work_along in Q. rewrite (sym V U) in P. lra.
Qed.
Definition unit (k j : nat) : R := if Nat.eqb j k then 1 else 0.
Lemma work_unit F k : (k < n)%nat -> work n F (unit k) = F k.
Proof.
  intros Hk. unfold work, rs. rewrite (rsum_single _ k) by (try exact Hk; intros i Hi Ni; unfold unit; apply Nat.eqb_neq in Ni; rewrite Ni; req; ring).
  unfold unit. rewrite Nat.eqb_refl. req. ring.
Qed.
Lemma only_minimum held F U : (forall V, allowed n held U V -> 1 / 2 * work n (K U) U - work n F U <= 1 / 2 * work n (K V) V - work n F V) -> carries n held (K U) F.
Proof.
  intros H k Hk E. set (a := work n (K U) (unit k) - work n F (unit k)). set (b := work n (K (unit k)) (unit k)).
  assert (B : 0 <= b) by apply pos. set (s := - a / (b + 1)).
  assert (Q : 0 <= s * a + s * s * b / 2).
  { assert (A : allowed n held U (along U (unit k) s)).
    { intros j Hj Ej. unfold along, unit. destruct (Nat.eqb_spec j k); [subst; congruence|ring]. }
    specialize (H _ A). rewrite square_along, work_along in H. fold b in H. unfold a. lra. }
  assert (Z : a = 0).
  { destruct (Req_dec a 0) as [|Na]; [assumption|exfalso]. assert (S : 0 < a * a) by (apply Rsqr_pos_lt in Na; exact Na).
    assert (E2 : s * a + s * s * b / 2 = a * a * (- (b + 2) / (2 * ((b + 1) * (b + 1))))) by (unfold s; field; lra).
    rewrite E2 in Q. assert (D : 0 < (b + 2) / (2 * ((b + 1) * (b + 1)))) by (apply Rdiv_lt_0_compat; [lra|]; apply Rmult_lt_0_compat; [lra|apply Rmult_lt_0_compat; lra]).
    assert (N : - (b + 2) / (2 * ((b + 1) * (b + 1))) = - ((b + 2) / (2 * ((b + 1) * (b + 1))))) by (unfold Rdiv; ring). rewrite N in Q. nra. }
  unfold a in Z. rewrite !work_unit in Z by exact Hk. lra.
Qed.
Lemma loaded_energy held F U : carries n held (K U) F -> at_rest n held U -> work n (K U) U = work n F U.
Proof. intros. apply (carries_work held); assumption. Qed.
End Form.

Lemma stiffer n (K K' : (nat -> R) -> nat -> R) held held' F U U' :
  (forall U V s W, work n (K (along U V s)) W = work n (K U) W + s * work n (K V) W) -> (forall U V, work n (K U) V = work n (K V) U) ->
  (forall U, 0 <= work n (K U) U) -> (forall V, work n (K V) V <= work n (K' V) V) ->
  (forall k, held k = true -> held' k = true) -> at_rest n held U -> at_rest n held' U' -> carries n held (K U) F -> carries n held' (K' U') F -> work n F U' <= work n F U.
Proof.
  intros lin sym pos le Hh R1 R2 C1 C2. pose proof (minimum n K lin sym pos held F U U' C1) as M.
  assert (A : allowed n held U U') by (intros k Hk E; rewrite (R1 k Hk E), (R2 k Hk (Hh k E)); reflexivity). specialize (M A).
  pose proof (loaded_energy n K held F U C1 R1) as E1. pose proof (loaded_energy n K' held' F U' C2 R2) as E2. pose proof (le U'). lra.
Qed.
Lemma driven n (K K' : (nat -> R) -> nat -> R) held U U' :
  (forall U V s W, work n (K (along U V s)) W = work n (K U) W + s * work n (K V) W) -> (forall U V, work n (K U) V = work n (K V) U) ->
  (forall U, 0 <= work n (K U) U) -> (forall V, work n (K V) V <= work n (K' V) V) ->
  allowed n held U U' -> carries n held (K U) (fun _ => 0) -> work n (K U) U <= work n (K' U') U'.
Proof.
  intros lin sym pos le HA HC. pose proof (minimum n K lin sym pos held _ U U' HC HA) as M. pose proof (le U').
  assert (Z : forall V, work n (fun _ => 0) V = 0) by (intros V; unfold work, rs; apply rsum_0; intros; req; ring). rewrite !Z in M. lra.
Qed.

(** ** The two residuals *)
(** Densities between 0 and 1; [Z'] has at least the material of [Z] everywhere. *)
Definition densities (nn : nat) (Z : nat -> R) : Prop := forall n, (n < nn)%nat -> 0 <= Z n <= 1.
Definition more_material (nn : nat) (Z Z' : nat -> R) : Prop := forall n, (n < nn)%nat -> Z n <= Z' n.

Lemma density_sum {M} d Z (c : cell M) : cell_density (S d) (gather_control Z c) = rs (S d) (fun a => Z (c_node c a)) / INR (S d).
Proof. reflexivity. Qed.
Lemma rs_le n f g : (forall i, (i < n)%nat -> f i <= g i) -> rs n f <= rs n g.
Proof. induction n as [|n IH]; intros H; [apply Rle_refl|]. change (rs n f + f n <= rs n g + g n). apply Rplus_le_compat; [apply IH; intros; apply H; lia|apply H; lia]. Qed.
Lemma rs_const n k : rs n (fun _ => k) = INR n * k.
Proof. induction n as [|n IH]; [cbn; ring|]. change (rs n (fun _ => k) + k = INR (S n) * k). rewrite IH, S_INR. ring. Qed.
Lemma density_range {M} d nn Z (c : cell M) : (forall a, (a <= d)%nat -> (c_node c a < nn)%nat) -> densities nn Z -> 0 <= cell_density (S d) (gather_control Z c) <= 1.
Proof.
  intros Hn HZ. rewrite density_sum. assert (P : 0 < INR (S d)) by (apply lt_0_INR; lia).
  assert (A : rs (S d) (fun _ => 0) <= rs (S d) (fun a => Z (c_node c a))) by (apply rs_le; intros a Ha; apply HZ, Hn; lia).
  assert (B : rs (S d) (fun a => Z (c_node c a)) <= rs (S d) (fun _ => 1)) by (apply rs_le; intros a Ha; apply HZ, Hn; lia).
  rewrite rs_const in A, B. split.
  - apply Rmult_le_pos; [lra|left; apply Rinv_0_lt_compat; exact P].
  - apply Rmult_le_reg_r with (INR (S d)); [exact P|]. unfold Rdiv. rewrite Rmult_assoc, Rinv_l by lra. lra.
Qed.
Lemma density_mono {M} d nn Z Z' (c : cell M) : (forall a, (a <= d)%nat -> (c_node c a < nn)%nat) -> more_material nn Z Z' ->
  cell_density (S d) (gather_control Z c) <= cell_density (S d) (gather_control Z' c).
Proof.
  intros Hn HZ. rewrite !density_sum. apply Rmult_le_compat_r; [left; apply Rinv_0_lt_compat, lt_0_INR; lia|]. apply rs_le. intros a Ha. apply HZ, Hn. lia.
Qed.

(** A cell's elastic form: volume, penalised density, strain energy. *)
Definition elastic_form (d : nat) X U (c : cell elastic) : R :=
  let e := strain d d (fun _ => 0) (gather d U c) (cell_gradient d (gather_coords X c)) in rs (num_voigt d) (fun i => e i * rs (num_voigt d) (fun j => e_stiff (c_mat c) i j * e j)).
Lemma elastic_square d nn pen X U Z cells : (1 <= d <= 3)%nat -> mesh_ok d nn X cells -> no_reference d cells ->
  work (nn * d) (elastostatic d pen None X U Z cells) U = sum_over cells (fun c => pen (cell_density (S d) (gather_control Z c)) * (cell_measure d (gather_coords X c) * elastic_form d X U c)).
Proof.
  intros Hd Hm Hr. unfold elastostatic. rewrite assemble_work by (apply (mesh_nodes d nn X); exact Hm). apply sum_over_ext. intros c Hc. rewrite elastic_work by exact Hd.
  unfold elastic_form. cbv zeta. rewrite <- form_flip.
  transitivity (cell_measure d (gather_coords X c) * pen (cell_density (S d) (gather_control Z c)) * rsum (num_voigt d) (fun i => rsum (num_voigt d) (fun j =>
     strain d d (fun _ => 0) (gather d U c) (cell_gradient d (gather_coords X c)) j * e_stiff (c_mat c) i j) * strain d d (fun _ => 0) (gather d U c) (cell_gradient d (gather_coords X c)) i)); [|ring].
  f_equal. apply rsum_ext. intros i Hi. rewrite stress_none by (intros; apply Hr; assumption). reflexivity.
Qed.
Definition heat_form (d : nat) X T (c : cell thermal) : R :=
  let g := scalar_gradient d 1 0 (gather 1 T c) (cell_gradient d (gather_coords X c)) in rs d (fun i => g i * rs d (fun j => t_cond_const (c_mat c) i j * g j)).
Lemma heat_square d nn pen X T Z cells : (1 <= d <= 3)%nat -> mesh_ok d nn X cells -> (forall c, In c cells -> t_nonlinear (c_mat c) = false) ->
  work nn (thermostatic d pen X T Z cells) T = sum_over cells (fun c => pen (cell_density (S d) (gather_control Z c)) * (cell_measure d (gather_coords X c) * heat_form d X T c)).
Proof.
  intros Hd Hm Hl. replace nn with (nn * 1)%nat by lia. unfold thermostatic. rewrite assemble_work by (apply (mesh_nodes d nn X); exact Hm). apply sum_over_ext. intros c Hc. rewrite thermostatic_work.
  unfold heat_form. cbv zeta. rewrite <- form_flip. set (g := scalar_gradient _ _ _ _ _).
  rewrite Ropp_mult_distr_r, <- rsum_opp.
  transitivity (cell_measure d (gather_coords X c) * pen (cell_density (S d) (gather_control Z c)) * rsum d (fun i => rsum d (fun j => g j * t_cond_const (c_mat c) i j) * g i)); [|ring].
  f_equal. apply rsum_ext. intros i Hi. unfold flux_at, thermal_flux. rewrite (Hl c Hc). req. ring.
Qed.
Lemma heat_work_linear d nn pen X T S' W Z cells s : (1 <= d <= 3)%nat -> mesh_ok d nn X cells -> (forall c, In c cells -> t_nonlinear (c_mat c) = false) ->
  work nn (thermostatic d pen X (along T S' s) Z cells) W = work nn (thermostatic d pen X T Z cells) W + s * work nn (thermostatic d pen X S' Z cells) W.
Proof.
  intros Hd Hm Hl. replace nn with (nn * 1)%nat by lia. unfold thermostatic. rewrite !assemble_work by (apply (mesh_nodes d nn X); exact Hm).
  rewrite <- sum_over_scal, <- sum_over_add. apply sum_over_ext. intros c Hc. rewrite !thermostatic_work. set (q := cell_measure _ _ * _). set (g := cell_gradient _ _).
  assert (E : forall k, scalar_gradient d 1 0 (gather 1 (along T S' s) c) g k = scalar_gradient d 1 0 (gather 1 T c) g k + s * scalar_gradient d 1 0 (gather 1 S' c) g k).
  { intros k. unfold scalar_gradient. rewrite <- rsum_scal_l, <- rsum_add. apply rsum_ext. intros. unfold gather, along. req. ring. }
  assert (F : forall k, flux_at d (c_mat c) (scalar_gradient d 1 0 (gather 1 (along T S' s) c) g) (interpolate d 1 0 (gather 1 (along T S' s) c)) k
    = flux_at d (c_mat c) (scalar_gradient d 1 0 (gather 1 T c) g) (interpolate d 1 0 (gather 1 T c)) k + s * flux_at d (c_mat c) (scalar_gradient d 1 0 (gather 1 S' c) g) (interpolate d 1 0 (gather 1 S' c)) k).
  { intros k. unfold flux_at, thermal_flux. rewrite (Hl c Hc).
    rewrite (rsum_ext d (fun j => scalar_gradient d 1 0 (gather 1 (along T S' s) c) g j * t_cond_const (c_mat c) k j)
      (fun j => scalar_gradient d 1 0 (gather 1 T c) g j * t_cond_const (c_mat c) k j + s * (scalar_gradient d 1 0 (gather 1 S' c) g j * t_cond_const (c_mat c) k j)))
      by (intros j _; rewrite E; req; ring).
    rewrite rsum_add, rsum_scal_l. req. ring. }
  rewrite (rsum_ext d (fun k => flux_at d (c_mat c) (scalar_gradient d 1 0 (gather 1 (along T S' s) c) g) (interpolate d 1 0 (gather 1 (along T S' s) c)) k * scalar_gradient d 1 0 (gather 1 W c) g k)
     (fun k => flux_at d (c_mat c) (scalar_gradient d 1 0 (gather 1 T c) g) (interpolate d 1 0 (gather 1 T c)) k * scalar_gradient d 1 0 (gather 1 W c) g k +
       s * (flux_at d (c_mat c) (scalar_gradient d 1 0 (gather 1 S' c) g) (interpolate d 1 0 (gather 1 S' c)) k * scalar_gradient d 1 0 (gather 1 W c) g k)))
    by (intros k _; rewrite F; req; ring).
  rewrite rsum_add, rsum_scal_l. req. ring.
Qed.

(** What is assumed of an elastic and of a conducting body. *)
Definition sound_elastic (d : nat) (cells : list (cell elastic)) : Prop :=
  no_reference d cells /\ forall c, In c cells -> symmetric (num_voigt d) (e_stiff (c_mat c)) /\ nonnegative_form (num_voigt d) (e_stiff (c_mat c)).
Definition sound_conductor (d : nat) (cells : list (cell thermal)) : Prop :=
  forall c, In c cells -> t_nonlinear (c_mat c) = false /\ symmetric d (t_cond_const (c_mat c)) /\ nonnegative_form d (t_cond_const (c_mat c)).

Section Bodies.
Variables (d nn : nat) (pen : R -> R) (pmin : R) (X : nat -> nat -> R).
Hypothesis Hd : (1 <= d <= 3)%nat.
Hypothesis Hp : interpolates pen 0 1 pmin.
Hypothesis Hmin : 0 <= pmin.
Lemma weight_ge {M} Z (c : cell M) : (forall a, (a <= d)%nat -> (c_node c a < nn)%nat) -> densities nn Z -> 0 <= pen (cell_density (S d) (gather_control Z c)).
Proof. intros Hn HZ. destruct Hp as (_ & _ & _ & Hr). destruct (Hr _ (density_range d nn Z c Hn HZ)). lra. Qed.
Lemma weight_mono {M} Z Z' (c : cell M) : (forall a, (a <= d)%nat -> (c_node c a < nn)%nat) -> densities nn Z -> densities nn Z' -> more_material nn Z Z' ->
  pen (cell_density (S d) (gather_control Z c)) <= pen (cell_density (S d) (gather_control Z' c)).
Proof.
  intros Hn HZ HZ' HM. destruct Hp as (_ & _ & Hmono & _). apply Hmono; [apply (density_range d nn Z c Hn HZ)|exact (density_mono d nn Z Z' c Hn HM)|apply (density_range d nn Z' c Hn HZ')].
Qed.
Section Elastic.
Variable cells : list (cell elastic).
Hypothesis Hm : mesh_ok d nn X cells.
Hypothesis Hs : sound_elastic d cells.
Lemma elastic_lin Z U V s W : work (nn * d) (elastostatic d pen None X (along U V s) Z cells) W =
  work (nn * d) (elastostatic d pen None X U Z cells) W + s * work (nn * d) (elastostatic d pen None X V Z cells) W.
Proof. apply elastic_work_linear; [exact Hd|exact Hm|apply Hs]. Qed.
Lemma elastic_sym Z U V : work (nn * d) (elastostatic d pen None X U Z cells) V = work (nn * d) (elastostatic d pen None X V Z cells) U.
Proof. apply C99_elastic; [exact Hd|exact Hm|apply Hs|]. intros c Hc. apply (proj2 Hs c Hc). Qed.
Lemma elastic_form_pos U c : In c cells -> 0 <= cell_measure d (gather_coords X c) * elastic_form d X U c.
Proof.
  intros Hc. destruct (mesh_cell _ _ _ _ _ Hm Hc) as [_ Hv]. apply Rmult_le_pos; [left; apply (measure_simplex d _ Hd Hv)|]. apply (proj2 (proj2 Hs c Hc)).
Qed.
Lemma elastic_pos Z U : densities nn Z -> 0 <= work (nn * d) (elastostatic d pen None X U Z cells) U.
Proof.
  intros HZ. rewrite elastic_square by (try apply Hs; assumption). apply sum_over_nonneg. intros c Hc. destruct (mesh_cell _ _ _ _ _ Hm Hc) as [Hn _].
  apply Rmult_le_pos; [apply weight_ge; assumption|apply elastic_form_pos; exact Hc].
Qed.
Lemma elastic_le Z Z' U : densities nn Z -> densities nn Z' -> more_material nn Z Z' ->
  work (nn * d) (elastostatic d pen None X U Z cells) U <= work (nn * d) (elastostatic d pen None X U Z' cells) U.
Proof.
  intros HZ HZ' HM. rewrite !elastic_square by (try apply Hs; assumption). apply Rminus_le. unfold Rminus. rewrite <- (Rmult_1_l (sum_over cells (fun c => pen (cell_density (S d) (gather_control Z' c)) * _))).
  rewrite Ropp_mult_distr_l. rewrite <- sum_over_scal, <- sum_over_add. rewrite <- (Ropp_involutive (sum_over _ _)). apply Ropp_le_cancel. rewrite Ropp_0, Ropp_involutive.
  assert (E : - sum_over cells (fun x => pen (cell_density (S d) (gather_control Z x)) * (cell_measure d (gather_coords X x) * elastic_form d X U x) +
     - (1) * (pen (cell_density (S d) (gather_control Z' x)) * (cell_measure d (gather_coords X x) * elastic_form d X U x)))
     = sum_over cells (fun x => (pen (cell_density (S d) (gather_control Z' x)) - pen (cell_density (S d) (gather_control Z x))) * (cell_measure d (gather_coords X x) * elastic_form d X U x))).
  { replace (- sum_over cells _) with (-1 * sum_over cells (fun x => pen (cell_density (S d) (gather_control Z x)) * (cell_measure d (gather_coords X x) * elastic_form d X U x) +
     - (1) * (pen (cell_density (S d) (gather_control Z' x)) * (cell_measure d (gather_coords X x) * elastic_form d X U x)))) by ring.
    rewrite <- sum_over_scal. apply sum_over_ext. intros. ring. }
  rewrite E. apply sum_over_nonneg. intros c Hc. destruct (mesh_cell _ _ _ _ _ Hm Hc) as [Hn _].
  apply Rmult_le_pos; [|apply elastic_form_pos; exact Hc]. pose proof (weight_mono Z Z' c Hn HZ HZ' HM). lra.
Qed.
End Elastic.
Section Heat.
Variable cells : list (cell thermal).
Hypothesis Hm : mesh_ok d nn X cells.
Hypothesis Hs : sound_conductor d cells.
Lemma heat_lin Z U V s W : work nn (thermostatic d pen X (along U V s) Z cells) W = work nn (thermostatic d pen X U Z cells) W + s * work nn (thermostatic d pen X V Z cells) W.
Proof. apply heat_work_linear; [exact Hd|exact Hm|]. intros c Hc. apply (Hs c Hc). Qed.
Lemma heat_sym Z U V : work nn (thermostatic d pen X U Z cells) V = work nn (thermostatic d pen X V Z cells) U.
Proof. apply C99_thermal; [exact Hd|exact Hm|]. intros c Hc. destruct (Hs c Hc) as (A & B & _). split; assumption. Qed.
Lemma heat_form_pos U c : In c cells -> 0 <= cell_measure d (gather_coords X c) * heat_form d X U c.
Proof.
  intros Hc. destruct (mesh_cell _ _ _ _ _ Hm Hc) as [_ Hv]. apply Rmult_le_pos; [left; apply (measure_simplex d _ Hd Hv)|]. apply (Hs c Hc).
Qed.
Lemma heat_pos Z U : densities nn Z -> 0 <= work nn (thermostatic d pen X U Z cells) U.
Proof.
  intros HZ. rewrite heat_square by (try (intros c Hc; apply (Hs c Hc)); assumption). apply sum_over_nonneg. intros c Hc. destruct (mesh_cell _ _ _ _ _ Hm Hc) as [Hn _].
  apply Rmult_le_pos; [apply weight_ge; assumption|apply heat_form_pos; exact Hc].
Qed.
Lemma heat_le Z Z' U : densities nn Z -> densities nn Z' -> more_material nn Z Z' ->
  work nn (thermostatic d pen X U Z cells) U <= work nn (thermostatic d pen X U Z' cells) U.
Proof.
  intros HZ HZ' HM. rewrite !heat_square by (try (intros c Hc; apply (Hs c Hc)); assumption).
  assert (E : sum_over cells (fun x => (pen (cell_density (S d) (gather_control Z' x)) - pen (cell_density (S d) (gather_control Z x))) * (cell_measure d (gather_coords X x) * heat_form d X U x))
    = sum_over cells (fun x => pen (cell_density (S d) (gather_control Z' x)) * (cell_measure d (gather_coords X x) * heat_form d X U x))
      + -1 * sum_over cells (fun x => pen (cell_density (S d) (gather_control Z x)) * (cell_measure d (gather_coords X x) * heat_form d X U x))).
  { rewrite <- sum_over_scal, <- sum_over_add. apply sum_over_ext. intros. ring. }
  assert (P : 0 <= sum_over cells (fun x => (pen (cell_density (S d) (gather_control Z' x)) - pen (cell_density (S d) (gather_control Z x))) * (cell_measure d (gather_coords X x) * heat_form d X U x))).
  { apply sum_over_nonneg. intros c Hc. destruct (mesh_cell _ _ _ _ _ Hm Hc) as [Hn _]. apply Rmult_le_pos; [|apply heat_form_pos; exact Hc]. pose proof (weight_mono Z Z' c Hn HZ HZ' HM). lra. }
  lra.
Qed.
End Heat.
End Bodies.

(** A displacement field is in equilibrium with the loads F exactly if no field with the same held values has less potential energy. *)
Theorem C163_minimum : forall d nn pen pmin X Z cells held F U, (1 <= d <= 3)%nat -> interpolates pen 0 1 pmin -> 0 <= pmin -> mesh_ok d nn X cells -> sound_elastic d cells -> densities nn Z ->
  (carries (nn * d) held (elastostatic d pen None X U Z cells) F <->
   forall V, allowed (nn * d) held U V -> elastic_energy d pen X U Z cells - work (nn * d) F U <= elastic_energy d pen X V Z cells - work (nn * d) F V).
Proof.
  intros d nn pen pmin X Z cells held F U Hd Hp H0 Hm Hs HZ.
  assert (E : forall V, elastic_energy d pen X V Z cells = 1 / 2 * work (nn * d) (elastostatic d pen None X V Z cells) V) by (intros V; apply C97_elastic; assumption).
  pose proof (elastic_lin d nn pen X Hd cells Hm Hs Z) as L. pose proof (elastic_sym d nn pen X Hd cells Hm Hs Z) as S. pose proof (fun U => elastic_pos d nn pen pmin X Hd Hp H0 cells Hm Hs Z U HZ) as P.
  split.
  - intros HC V HA. rewrite !E. apply (minimum _ (fun U => elastostatic d pen None X U Z cells) L S P held); assumption.
  - intros HV. apply (only_minimum _ (fun U => elastostatic d pen None X U Z cells) L S P held F U). intros V HA. rewrite <- !E. apply HV. exact HA.
Qed.
Print Assumptions C163_minimum.
Theorem C163_minimum_heat : forall d nn pen pmin X Z cells held F T, (1 <= d <= 3)%nat -> interpolates pen 0 1 pmin -> 0 <= pmin -> mesh_ok d nn X cells -> sound_conductor d cells -> densities nn Z ->
  (carries nn held (thermostatic d pen X T Z cells) F <->
   forall V, allowed nn held T V -> 1 / 2 * thermal_energy d pen X T Z cells - work nn F T <= 1 / 2 * thermal_energy d pen X V Z cells - work nn F V).
Proof.
  intros d nn pen pmin X Z cells held F T Hd Hp H0 Hm Hs HZ.
  assert (E : forall V, thermal_energy d pen X V Z cells = work nn (thermostatic d pen X V Z cells) V) by (intros V; apply C97_thermal_partial; try assumption; intros c Hc; apply (Hs c Hc)).
  pose proof (heat_lin d nn pen X Hd cells Hm Hs Z) as L. pose proof (heat_sym d nn pen X Hd cells Hm Hs Z) as S. pose proof (fun U => heat_pos d nn pen pmin X Hd Hp H0 cells Hm Hs Z U HZ) as P.
  split.
  - intros HC V HA. rewrite !E. apply (minimum _ (fun U => thermostatic d pen X U Z cells) L S P held); assumption.
  - intros HV. apply (only_minimum _ (fun U => thermostatic d pen X U Z cells) L S P held F T). intros V HA. rewrite <- !E. apply HV. exact HA.
Qed.
Print Assumptions C163_minimum_heat.

(** The same loads on a body with more material and more supports: the loads do no more work, and the body stores no more energy. *)
Theorem C163_loaded : forall d nn pen pmin X Z Z' cells held held' F U U', (1 <= d <= 3)%nat -> interpolates pen 0 1 pmin -> 0 <= pmin -> mesh_ok d nn X cells -> sound_elastic d cells ->
  densities nn Z -> densities nn Z' -> more_material nn Z Z' -> (forall k, held k = true -> held' k = true) ->
  at_rest (nn * d) held U -> at_rest (nn * d) held' U' ->
  carries (nn * d) held (elastostatic d pen None X U Z cells) F -> carries (nn * d) held' (elastostatic d pen None X U' Z' cells) F ->
  work (nn * d) F U' <= work (nn * d) F U /\ elastic_energy d pen X U' Z' cells <= elastic_energy d pen X U Z cells.
Proof.
  intros d nn pen pmin X Z Z' cells held held' F U U' Hd Hp H0 Hm Hs HZ HZ' HM Hh R1 R2 C1 C2.
  assert (W : work (nn * d) F U' <= work (nn * d) F U).
  { apply (stiffer _ (fun U => elastostatic d pen None X U Z cells) (fun U => elastostatic d pen None X U Z' cells) held held'); try assumption.
    - apply elastic_lin; assumption.
    - apply elastic_sym; assumption.
    - intros V. apply (elastic_pos d nn pen pmin); assumption.
    - intros V. apply (elastic_le d nn pen pmin); assumption. }
  split; [exact W|]. rewrite !(C97_elastic d nn) by assumption.
  rewrite (loaded_energy _ (fun U => elastostatic d pen None X U Z cells) held F U C1 R1), (loaded_energy _ (fun U => elastostatic d pen None X U Z' cells) held' F U' C2 R2). lra.
Qed.
Print Assumptions C163_loaded.
Theorem C163_loaded_heat : forall d nn pen pmin X Z Z' cells held held' F T T', (1 <= d <= 3)%nat -> interpolates pen 0 1 pmin -> 0 <= pmin -> mesh_ok d nn X cells -> sound_conductor d cells ->
  densities nn Z -> densities nn Z' -> more_material nn Z Z' -> (forall k, held k = true -> held' k = true) ->
  at_rest nn held T -> at_rest nn held' T' ->
  carries nn held (thermostatic d pen X T Z cells) F -> carries nn held' (thermostatic d pen X T' Z' cells) F ->
  work nn F T' <= work nn F T /\ thermal_energy d pen X T' Z' cells <= thermal_energy d pen X T Z cells.
Proof.
  intros d nn pen pmin X Z Z' cells held held' F U U' Hd Hp H0 Hm Hs HZ HZ' HM Hh R1 R2 C1 C2.
  assert (W : work nn F U' <= work nn F U).
  { apply (stiffer _ (fun U => thermostatic d pen X U Z cells) (fun U => thermostatic d pen X U Z' cells) held held'); try assumption.
    - apply heat_lin; assumption.
    - apply heat_sym; assumption.
    - intros V. apply (heat_pos d nn pen pmin); assumption.
    - intros V. apply (heat_le d nn pen pmin); assumption. }
  split; [exact W|]. rewrite !(C97_thermal_partial d nn) by (try assumption; intros c Hc; apply (Hs c Hc)).
  rewrite (loaded_energy _ (fun U => thermostatic d pen X U Z cells) held F U C1 R1), (loaded_energy _ (fun U => thermostatic d pen X U Z' cells) held' F U' C2 R2). lra.
Qed.
Print Assumptions C163_loaded_heat.

(** The same given displacements and no loads: more material stores no less energy. *)
Theorem C163_driven : forall d nn pen pmin X Z Z' cells held U U', (1 <= d <= 3)%nat -> interpolates pen 0 1 pmin -> 0 <= pmin -> mesh_ok d nn X cells -> sound_elastic d cells ->
  densities nn Z -> densities nn Z' -> more_material nn Z Z' -> allowed (nn * d) held U U' ->
  carries (nn * d) held (elastostatic d pen None X U Z cells) (fun _ => 0) ->
  elastic_energy d pen X U Z cells <= elastic_energy d pen X U' Z' cells.
Proof.
  intros d nn pen pmin X Z Z' cells held U U' Hd Hp H0 Hm Hs HZ HZ' HM HA HC. rewrite !(C97_elastic d nn) by assumption. apply Rmult_le_compat_l; [lra|].
  apply (driven _ (fun U => elastostatic d pen None X U Z cells) (fun U => elastostatic d pen None X U Z' cells) held); try assumption.
  - apply elastic_lin; assumption.
  - apply elastic_sym; assumption.
  - intros V. apply (elastic_pos d nn pen pmin); assumption.
  - intros V. apply (elastic_le d nn pen pmin); assumption.
Qed.
Print Assumptions C163_driven.

(** The hypotheses met: a bar held at its left end and loaded at its right one, without and with material, penalised with the code's default interpolation. *)
Definition default_simp : R -> R := simp (mkPenalty (1 / 1000) 3 0 3 0).
Definition rod : elastic := mkElastic (fun _ _ => 2) (fun _ => 0).
Definition pull (k : nat) : R := match k with 1%nat => 1 | _ => 0 end.
Lemma bar_loaded pen (z : R) U k : (k < 2)%nat -> elastostatic 1 pen None bar_X U (fun _ => z) (bar rod) k = pen z * (2 * (U 1%nat - U 0%nat)) * (if Nat.eqb k 1 then 1 else -1).
Proof.
  intros Hk. rewrite <- (work_unit 2 _ k Hk). change 2%nat with (2 * 1)%nat. unfold elastostatic. rewrite assemble_work by (apply (mesh_nodes 1 2 bar_X); apply bar_ok).
  cbn [bar sum_over]. rewrite elastic_work by lia. rewrite density_sum. unfold elastic_stress, add_forcing, linear_stress, strain. cbn [num_voigt]. rsums.
  replace (rs 2 (fun _ => z) / INR 2) with z by (rewrite rs_const; cbn; field).
  unfold cell_measure, cell_volume, cell_gradient, gradient1, cell_det, det1, gather_coords, gather, bar_X, cub_weight. cbn -[Rabs].
  replace (Rabs (0 - 1)) with 1. 2: { replace (0 - 1) with (- (1)) by ring. rewrite Rabs_Ropp, Rabs_R1. reflexivity. }
  rsums. replace (0 - 1) with (-1) by ring. destruct k as [|[|k]]; [| |lia]; unfold unit; cbn; field.
Qed.
Example C163_case : interpolates default_simp 0 1 (1 / 1000) /\ sound_elastic 1 (bar rod) /\
  exists U U', at_rest 2 (Nat.eqb 0) U /\ at_rest 2 (Nat.eqb 0) U' /\
  carries 2 (Nat.eqb 0) (elastostatic 1 default_simp None bar_X U (fun _ => 0) (bar rod)) pull /\ carries 2 (Nat.eqb 0) (elastostatic 1 default_simp None bar_X U' (fun _ => 1) (bar rod)) pull /\
  work 2 pull U = 500 /\ work 2 pull U' = 1 / 2.
Proof.
  assert (I : interpolates default_simp 0 1 (1 / 1000)) by (apply (C28_simp (mkPenalty (1 / 1000) 3 0 3 0)); cbn; lra).
  split; [exact I|]. split.
  - split; [intros c v [<-|[]] _; reflexivity|]. intros c [<-|[]]. split; [intros i j _ _; reflexivity|]. intros e. unfold rs. rsums. cbn. pose proof (Rle_0_sqr (e 0%nat)). unfold Rsqr in *. lra.
  - exists (fun k => match k with 1%nat => 500 | _ => 0 end), (fun k => match k with 1%nat => 1 / 2 | _ => 0 end). destruct I as (I0 & I1 & _).
    split; [intros k Hk E; destruct k as [|k]; [reflexivity|discriminate]|]. split; [intros k Hk E; destruct k as [|k]; [reflexivity|discriminate]|].
    split; [intros k Hk E; destruct k as [|[|k]]; [discriminate| |lia]; rewrite bar_loaded by lia; rewrite I0; cbn; lra|].
    split; [intros k Hk E; destruct k as [|[|k]]; [discriminate| |lia]; rewrite bar_loaded by lia; rewrite I1; cbn; lra|].
    unfold work, rs; rsums; cbn; lra.
Qed.
