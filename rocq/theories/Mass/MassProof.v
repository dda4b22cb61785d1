(** Lemmas about the mass properties. *)
From Coq Require Import String Reals List Arith Bool Lia Lra Permutation.
From Verif Require Import Base.Field Base.Sums Base.Res Element.ElementModel Element.ElementSpec Element.ElementProof Penalty.PenaltyModel
  Residual.ResidualModel Residual.ResidualSpec Residual.ResidualProof Criteria.CriteriaModel Criteria.CriteriaSpec Criteria.CriteriaProof
  Mass.MassModel Mass.MassSpec.
Import ListNotations.
Local Open Scope R_scope.

Lemma sum_over_map {A B} (g : A -> B) (l : list A) f : sum_over (map g l) f = sum_over l (fun x => f (g x)).
Proof. induction l as [|x l IH]; [reflexivity|]. cbn. rewrite IH. reflexivity. Qed.
Lemma sum_over_opp {A} (l : list A) f : sum_over l (fun x => - f x) = - sum_over l f.
Proof. induction l as [|x l IH]; cbn; [ring|]. rewrite IH. ring. Qed.
Lemma measure_all d x : (1 <= d <= 3)%nat -> cell_measure d x = simplex_measure d x.
Proof.
  intros Hd. unfold cell_measure, cell_volume. dims d; unfold simplex_measure; cbn [cell_det cub_weight INR]; cbv zeta.
  - unfold det1. rewrite Rmult_1_r, Rabs_minus_sym. reflexivity.
  - unfold det2. replace (1 / (1 + 1)) with (/ 2) by field. unfold Rdiv. f_equal. f_equal. ring.
  - unfold det3. replace (1 / (1 + 1) / (1 + 1 + 1)) with (/ 6) by field. unfold Rdiv. f_equal. rewrite <- Rabs_Ropp. f_equal. ring.
Qed.
Lemma cell_mass_mean d z : (1 <= d <= 3)%nat -> cell_mass (S d) (cub_basis d) z = mean d z.
Proof. intros Hd. unfold cell_mass, mean, rs. dims d; rsums; cbn [cub_basis cub_point INR]; field. Qed.
Lemma mapped_middle d x i : (1 <= d <= 3)%nat -> mapped_point d x i = middle d x i.
Proof. intros Hd. unfold mapped_point, middle, rs. dims d; rsums; cbn [seq fold_left fst snd cub_point INR]; field. Qed.
Lemma moment_cell_spec d k rho x z : (1 <= d <= 3)%nat -> moment_cell d k rho x z =
  rho * mean d z * simplex_measure d x * match k with Mass => 1 | First i => middle d x i | Second i j => middle d x i * middle d x j end.
Proof. intros Hd. unfold moment_cell. cbv zeta. rewrite cell_mass_mean, measure_all by exact Hd. destruct k; rewrite ?mapped_middle by exact Hd; ring. Qed.
Definition cells_of (cells : list (cell R)) : list ((nat -> nat) * R) := map (fun c => (c_node c, c_mat c)) cells.
Lemma moment_sum_spec d k X Z cells : (1 <= d <= 3)%nat -> moment_sum d k X Z cells =
  let b := design_body d X Z (cells_of cells) in
  match k with Mass => mass_of b | First i => first_of b i | Second i j => second_of b i j end.
Proof.
  intros Hd. cbv zeta. unfold moment_sum. rewrite total_sum.
  destruct k; unfold mass_of, first_of, second_of, design_body, cells_of; rewrite !sum_over_map; apply sum_over_ext; intros c _; rewrite moment_cell_spec by exact Hd;
    cbn [fst snd]; unfold gather_control, gather_coords; ring.
Qed.
