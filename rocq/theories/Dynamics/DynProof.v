From Coq Require Import Reals List Arith Bool Lia Lra.
From Verif Require Import Base.Field Base.Sums Base.Res Element.ElementModel Element.ElementSpec Element.ElementProof Element.ElementProps
  Penalty.PenaltyModel Residual.ResidualModel Residual.ResidualSpec Residual.ResidualProof Residual.ResidualProps Residual.ResidualEnergyProps
  Dynamics.DynModel Dynamics.DynSpec.
Import ListNotations.
Local Open Scope R_scope.

Lemma project_vector_entry d vol q out k :
  project_vector d vol q out k = out k + rsum (S d) (fun a => rsum d (fun i => pick k (a * d + i) (cub_basis d a * q i * vol))).
Proof.
  unfold project_vector. rewrite (fold_add (S d) _ (fun a k => rsum d (fun i => pick k (a * d + i) (cub_basis d a * q i * vol)))); [reflexivity|].
  intros o a k'. rewrite (fold_add d _ (fun i k => pick k (a * d + i) (cub_basis d a * q i * vol))); [reflexivity|].
  intros o' i k''. unfold pick. rewrite (Nat.mul_comm d a). destruct (Nat.eqb k'' _); ring.
Qed.
Lemma project_vector_work d vol q out w :
  cell_work (S d) d (project_vector d vol q out) w = cell_work (S d) d out w + vol * rsum d (fun i => q i * interpolate d d i w).
Proof.
  assert (E : forall a i, (a < S d)%nat -> (i < d)%nat -> project_vector d vol q out (a * d + i)%nat = out (a * d + i)%nat + cub_basis d a * q i * vol).
  { intros a i Ha Hi. rewrite project_vector_entry. f_equal. rewrite (rsum_single (S d) a); [|exact Ha|].
    - rewrite (rsum_single d i); [unfold pick; rewrite Nat.eqb_refl; reflexivity|exact Hi|].
      intros j Hj Hne. unfold pick. destruct (Nat.eqb_spec (a * d + i) (a * d + j)); [lia|reflexivity].
    - intros b Hb Hne. apply rsum_0. intros j Hj. unfold pick. destruct (Nat.eqb_spec (a * d + i) (b * d + j)) as [E|]; [|reflexivity].
      exfalso. apply Hne. assert (i = j /\ a = b)%nat; [|lia]. nia. }
  unfold cell_work.
  rewrite (rsum_ext _ _ (fun a => rsum d (fun i => out (a * d + i)%nat * w (a * d + i)%nat) + rsum d (fun i => vol * (q i * (cub_basis d a * w (a * d + i)%nat))))).
  2: { intros a Ha. rewrite <- rsum_add. apply rsum_ext. intros i Hi. rewrite E by assumption. req. ring. }
  rewrite rsum_add. f_equal. rewrite rsum_swap. rewrite <- rsum_scal_l. apply rsum_ext. intros i Hi.
  unfold interpolate. rewrite <- rsum_scal_l, <- rsum_scal_l. apply rsum_ext. intros. req. ring.
Qed.

(** The two branches are one formula. *)
Lemma damped_false m : damped m = false -> y_ra m = 0 /\ y_rb m = 0.
Proof. unfold damped. destruct (Req_EM_T (y_ra m) 0), (Req_EM_T (y_rb m) 0); cbn; intros H; try discriminate H; auto. Qed.
Lemma dyn_stress_eq d pen m x u v z i :
  dyn_stress d pen m x u v z i = pen (cell_density (S d) z) *
    (rsum (num_voigt d) (fun j => (strain d d (fun _ => 0) u (cell_gradient d x) j - e_ref (y_law m) j) * e_stiff (y_law m) i j)
     + y_rb m * rsum (num_voigt d) (fun j => strain d d (fun _ => 0) v (cell_gradient d x) j * e_stiff (y_law m) i j)).
Proof.
  unfold dyn_stress, weigh. cbv zeta. destruct (damped m) eqn:D.
  - unfold linear_stress_rayleigh. rewrite <- rsum_scal_l, <- rsum_add. rewrite Rmult_comm. f_equal. apply rsum_ext. intros. req. ring.
  - destruct (damped_false m D) as [_ ->]. unfold linear_stress. ring.
Qed.
Lemma dyn_cell_work d pen m x u v a z w : (1 <= d <= 3)%nat ->
  cell_work (S d) d (dyn_cell d pen m x u v a z) w =
  cell_measure d x * pen (cell_density (S d) z) *
  (y_rho m * rsum d (fun i => interpolate d d i a * interpolate d d i w)
   + y_ra m * (y_rho m * rsum d (fun i => interpolate d d i v * interpolate d d i w))
   + rsum (num_voigt d) (fun i => rsum (num_voigt d) (fun j => (strain d d (fun _ => 0) u (cell_gradient d x) j - e_ref (y_law m) j) * e_stiff (y_law m) i j) * strain d d (fun _ => 0) w (cell_gradient d x) i)
   + y_rb m * rsum (num_voigt d) (fun i => rsum (num_voigt d) (fun j => strain d d (fun _ => 0) v (cell_gradient d x) j * e_stiff (y_law m) i j) * strain d d (fun _ => 0) w (cell_gradient d x) i)).
Proof.
  intros Hd. unfold dyn_cell. cbv zeta. rewrite project_vector_work, stress_work, cell_work_0 by lia.
  set (P := pen _). set (V := cell_measure d x).
  rewrite (rsum_ext (num_voigt d) (fun i => dyn_stress d pen m x u v z i * _)
    (fun i => P * (rsum (num_voigt d) (fun j => (strain d d (fun _ => 0) u (cell_gradient d x) j - e_ref (y_law m) j) * e_stiff (y_law m) i j) * strain d d (fun _ => 0) w (cell_gradient d x) i)
            + P * y_rb m * (rsum (num_voigt d) (fun j => strain d d (fun _ => 0) v (cell_gradient d x) j * e_stiff (y_law m) i j) * strain d d (fun _ => 0) w (cell_gradient d x) i))).
  2: { intros i Hi. rewrite dyn_stress_eq. fold P. req. ring. }
  rewrite rsum_add, !rsum_scal_l.
  assert (Q : rsum d (fun i => weigh d pen z (if damped m then inertial_content_damped m (interpolate_vector d v) (interpolate_vector d a) else inertial_content m (interpolate_vector d a)) i * interpolate d d i w)
     = P * (y_rho m * rsum d (fun i => interpolate d d i a * interpolate d d i w) + y_ra m * (y_rho m * rsum d (fun i => interpolate d d i v * interpolate d d i w)))).
  { rewrite <- !rsum_scal_l, <- rsum_add, <- rsum_scal_l. apply rsum_ext. intros i Hi. unfold weigh. fold P. req.
    destruct (damped m) eqn:D; unfold inertial_content_damped, inertial_content, interpolate_vector; [ring|].
    destruct (damped_false m D) as [-> _]. ring. }
  rewrite Q. req. ring.
Qed.

(** Means and strains are linear and only see the corners. *)
Lemma mean_interpolate {M} d U (c : cell M) i : (1 <= d <= 3)%nat -> (i < d)%nat -> interpolate d d i (gather d U c) = mean_of d U c i.
Proof. intros Hd Hi. rewrite interpolate_average by lia. reflexivity. Qed.
Lemma mean_lin {M} d U V k (c : cell M) i : mean_of d (fun j => U j + k * V j) c i = mean_of d U c i + k * mean_of d V c i.
Proof. unfold mean_of, rs. rewrite rsum_add, rsum_scal_l. unfold Rdiv. ring. Qed.
Lemma mean_ext {M} d nn U V (c : cell M) i : (forall a, (a <= d)%nat -> (c_node c a < nn)%nat) -> (i < d)%nat ->
  (forall j, (j < nn * d)%nat -> U j = V j) -> mean_of d U c i = mean_of d V c i.
Proof. intros Hc Hi H. unfold mean_of, rs. f_equal. apply rsum_ext. intros a Ha. apply H. specialize (Hc a ltac:(lia)). nia. Qed.
Lemma strain_of_lin {M} d X U V k (c : cell M) v : (1 <= d <= 3)%nat -> (v < num_voigt d)%nat ->
  strain_of d X (fun j => U j + k * V j) c v = strain_of d X U c v + k * strain_of d X V c v.
Proof. intros Hd Hv. unfold strain_of. exact (strain_lin d d (gather d U c) (gather d V c) k _ v Hv Hd). Qed.
Lemma gather_ext {M} d nn U V (c : cell M) j : (forall a, (a <= d)%nat -> (c_node c a < nn)%nat) -> (1 <= d)%nat ->
  (forall j, (j < nn * d)%nat -> U j = V j) -> (j < S d * d)%nat -> gather d U c j = gather d V c j.
Proof.
  intros Hc Hd H Hj. unfold gather. apply H. assert (j / d < S d)%nat by (apply Nat.div_lt_upper_bound; lia).
  specialize (Hc (j / d)%nat ltac:(lia)). pose proof (Nat.mod_upper_bound j d ltac:(lia)). nia.
Qed.
Lemma strain_of_ext {M} d nn X U V (c : cell M) v : (1 <= d <= 3)%nat -> (forall a, (a <= d)%nat -> (c_node c a < nn)%nat) ->
  (forall j, (j < nn * d)%nat -> U j = V j) -> strain_of d X U c v = strain_of d X V c v.
Proof.
  intros Hd Hc H. unfold strain_of. apply strain_ext; [exact Hd|lia|]. intros j Hj. apply (gather_ext d nn); try assumption. lia.
Qed.

(** The stiffness form. *)
Lemma stiff_ext d C e f e' f' : (forall v, (v < num_voigt d)%nat -> e v = e' v) -> (forall v, (v < num_voigt d)%nat -> f v = f' v) -> stiff d C e f = stiff d C e' f'.
Proof. intros He Hf. unfold stiff, rs. apply rsum_ext. intros i Hi. rewrite Hf by exact Hi. f_equal. apply rsum_ext. intros j Hj. rewrite He by exact Hj. reflexivity. Qed.
Lemma stiff_lin_l d C e e' k f : stiff d C (fun j => e j + k * e' j) f = stiff d C e f + k * stiff d C e' f.
Proof.
  unfold stiff, rs. rewrite <- rsum_scal_l, <- rsum_add. apply rsum_ext. intros i _.
  rewrite (rsum_ext _ (fun j => (e j + k * e' j) * C i j) (fun j => e j * C i j + k * (e' j * C i j))) by (intros; req; ring).
  rewrite rsum_add, rsum_scal_l. req. ring.
Qed.
Lemma stiff_lin_r d C e f f' k : stiff d C e (fun j => f j + k * f' j) = stiff d C e f + k * stiff d C e f'.
Proof. unfold stiff, rs. rewrite <- rsum_scal_l, <- rsum_add. apply rsum_ext. intros i _. req. ring. Qed.
Lemma stiff_sym d C e f : symmetric (num_voigt d) C -> stiff d C e f = stiff d C f e.
Proof. intros H. unfold stiff, rs. apply form_sym. exact H. Qed.
Lemma stiff_nonneg d C e : nonnegative_form (num_voigt d) C -> 0 <= stiff d C e e.
Proof.
  intros H. specialize (H e). unfold rs in H. unfold stiff, rs.
  rewrite (rsum_ext _ _ (fun i => e i * rsum (num_voigt d) (fun j => C i j * e j))); [exact H|].
  intros i _. rewrite (rsum_ext _ (fun j => e j * C i j) (fun j => C i j * e j)) by (intros; req; ring). req. ring.
Qed.
Lemma stiff_diff d C e f : symmetric (num_voigt d) C ->
  stiff d C e e - stiff d C f f = stiff d C (fun j => e j + -1 * f j) (fun j => e j + 1 * f j).
Proof. intros H. rewrite stiff_lin_l, !stiff_lin_r. rewrite (stiff_sym d C f e H). ring. Qed.

(** Virtual work of the whole mesh. *)
Definition inertia_work (d : nat) (pen : R -> R) (X : nat -> nat -> R) (Z : nat -> R) (c : cell dynamic) (A W : nat -> R) : R :=
  mass_of d pen y_rho X Z c * rs d (fun i => mean_of d A c i * mean_of d W c i).
Definition stress_power (d : nat) (pen : R -> R) (X : nat -> nat -> R) (Z : nat -> R) (c : cell dynamic) (e f : nat -> R) : R :=
  weight_of d pen X Z c * stiff d (e_stiff (y_law (c_mat c))) e f.
Lemma weight_eq {M} d pen X Z (c : cell M) : (1 <= d <= 3)%nat -> simplex_measure d (gather_coords X c) <> 0 ->
  cell_measure d (gather_coords X c) * pen (cell_density (S d) (gather_control Z c)) = weight_of d pen X Z c.
Proof. intros Hd Hv. rewrite (proj1 (measure_simplex d _ Hd Hv)). reflexivity. Qed.
Lemma dyn_work d nn pen X U V A Z cells W : (1 <= d <= 3)%nat -> mesh_ok d nn X cells ->
  work (nn * d) (elastodynamic d pen X U V A Z cells) W =
  sum_over cells (fun c => inertia_work d pen X Z c A W + y_ra (c_mat c) * inertia_work d pen X Z c V W
    + stress_power d pen X Z c (fun j => strain_of d X U c j - e_ref (y_law (c_mat c)) j) (strain_of d X W c)
    + y_rb (c_mat c) * stress_power d pen X Z c (strain_of d X V c) (strain_of d X W c)).
Proof.
  intros Hd Hm. unfold elastodynamic. rewrite assemble_work by (apply (mesh_nodes d nn X); exact Hm).
  apply sum_over_ext. intros c Hc. destruct (mesh_cell _ _ _ _ _ Hm Hc) as [Hn Hv]. rewrite dyn_cell_work by exact Hd.
  rewrite (weight_eq d pen X Z c Hd Hv). unfold inertia_work, stress_power, mass_of, stiff, rs, strain_of.
  rewrite (rsum_ext d (fun i => mean_of d A c i * mean_of d W c i) (fun i => interpolate d d i (gather d A c) * interpolate d d i (gather d W c)))
    by (intros; rewrite !mean_interpolate by assumption; reflexivity).
  rewrite (rsum_ext d (fun i => mean_of d V c i * mean_of d W c i) (fun i => interpolate d d i (gather d V c) * interpolate d d i (gather d W c)))
    by (intros; rewrite !mean_interpolate by assumption; reflexivity).
  ring.
Qed.

(** A linear function of finitely many numbers. *)
Definition unit_at (k j : nat) : R := if Nat.eqb j k then 1 else 0.
Lemma lin_expand (n : nat) (f : (nat -> R) -> R) (u : nat -> R) :
  (forall a b c, f (fun j => a j + c * b j) = f a + c * f b) -> (forall a b, (forall j, (j < n)%nat -> a j = b j) -> f a = f b) ->
  f u = rsum n (fun k => u k * f (unit_at k)).
Proof.
  intros L E.
  assert (Z : f (fun _ => 0) = 0).
  { pose proof (L (fun _ => 0) (fun _ => 0) (-1)) as H. cbn beta in H. rewrite (E (fun _ => 0 + -1 * 0) (fun _ => 0)) in H by (intros; ring). lra. }
  assert (H : forall m, (m <= n)%nat -> f (fun j => if Nat.ltb j m then u j else 0) = rsum m (fun k => u k * f (unit_at k))).
  { induction m as [|m IH]; intros Hm; [exact Z|].
    rewrite (E _ (fun j => (if Nat.ltb j m then u j else 0) + u m * unit_at m j)).
    - rewrite L, IH by lia. reflexivity.
    - intros j Hj. unfold unit_at. destruct (Nat.ltb_spec j (S m)), (Nat.ltb_spec j m), (Nat.eqb_spec j m); subst; try lia; ring. }
  rewrite <- (H n (le_n n)). apply E. intros j Hj. rewrite (proj2 (Nat.ltb_lt j n) Hj). reflexivity.
Qed.
Lemma work_unit n F k : (k < n)%nat -> work n F (unit_at k) = F k.
Proof.
  intros Hk. unfold work, rs. rewrite (rsum_single n k); [unfold unit_at; rewrite Nat.eqb_refl; req; ring|exact Hk|].
  intros j _ Hj. unfold unit_at. destruct (Nat.eqb_spec j k); [contradiction|req; ring].
Qed.
