(** Lemmas for the coupling properties. *)
From Coq Require Import Reals List Arith Bool Lia Lra.
From Verif Require Import Base.Field Base.Sums Base.Res Element.ElementModel Element.ElementSpec Element.ElementProof Element.ElementProps
  Penalty.PenaltyModel Residual.ResidualModel Residual.ResidualSpec Residual.ResidualProof Residual.CouplingModel Residual.CouplingSpec.
Import ListNotations.
Local Open Scope R_scope.

Lemma flux_at_node d ndof off scale vol q g out a : (a < S d)%nat -> (off < ndof)%nat ->
  flux_divergence d ndof off scale vol q g out (a * ndof + off)%nat = out (a * ndof + off)%nat + scale * vol * rsum d (fun j => q j * g a j).
Proof.
  intros Ha Ho. rewrite flux_entry. f_equal. rewrite (rsum_single (S d) a); [rewrite Nat.eqb_refl; reflexivity|exact Ha|].
  intros a' _ Hne. destruct (Nat.eqb_spec (a * ndof + off) (a' * ndof + off)) as [E|]; [|reflexivity]. exfalso. apply Hne. nia.
Qed.
Lemma flux_other d ndof off scale vol q g out a i : (i < ndof)%nat -> (off < ndof)%nat -> i <> off ->
  flux_divergence d ndof off scale vol q g out (a * ndof + i)%nat = out (a * ndof + i)%nat.
Proof.
  intros Hi Ho Hne. rewrite flux_entry. rewrite (rsum_0 (S d)); [ring|]. intros a' _.
  destruct (Nat.eqb_spec (a * ndof + i) (a' * ndof + off)) as [E|]; [|reflexivity]. exfalso. assert (a = a') by nia. lia.
Qed.
Lemma stress_at d ndof scale vol s g out a i : (i < d)%nat -> (a < S d)%nat -> (d <= ndof)%nat ->
  stress_divergence d ndof 0 scale vol s g out (a * ndof + i)%nat = out (a * ndof + i)%nat + scale * vol * rsum d (fun j => s (voigt d i j) * g a j).
Proof. intros Hi Ha Hn. pose proof (divergence_at d ndof 0 scale vol s g out a i Hi Ha ltac:(lia)) as H. rewrite Nat.add_0_r in H. exact H. Qed.
Lemma stress_other d ndof scale vol s g out a i : (i < ndof)%nat -> (d <= i)%nat ->
  stress_divergence d ndof 0 scale vol s g out (a * ndof + i)%nat = out (a * ndof + i)%nat.
Proof. intros Hi Hd. apply divergence_other. intros a' i' Hi' _ E. assert (a = a') by nia. lia. Qed.

(** Rows of a residual with displacements and one scalar field. *)
Lemma mech_row d vol s q g a i : (i < d)%nat -> (a < S d)%nat ->
  flux_divergence d (S d) d 1 vol q g (stress_divergence d (S d) 0 1 vol s g (fun _ => 0)) (a * S d + i)%nat = vol * rsum d (fun j => s (voigt d i j) * g a j).
Proof. intros Hi Ha. rewrite flux_other by lia. rewrite stress_at by lia. ring. Qed.
Lemma scalar_row d vol s q g a : (a < S d)%nat ->
  flux_divergence d (S d) d 1 vol q g (stress_divergence d (S d) 0 1 vol s g (fun _ => 0)) (a * S d + d)%nat = vol * rsum d (fun j => q j * g a j).
Proof. intros Ha. rewrite flux_at_node by lia. rewrite stress_other by lia. ring. Qed.

Lemma sum_over_map {A B} (f : A -> B) l g : sum_over (map f l) g = sum_over l (fun x => g (f x)).
Proof. induction l as [|x l IH]; [reflexivity|]. cbn. rewrite IH. reflexivity. Qed.

Lemma row_pick npc ndof n i (node : nat -> nat) (r : nat -> R) : (i < ndof)%nat ->
  rsum npc (fun a => rsum ndof (fun j => pick (n * ndof + i) (node a * ndof + j) (r (a * ndof + j)%nat))) =
  rsum npc (fun a => if Nat.eqb n (node a) then r (a * ndof + i)%nat else 0).
Proof.
  intros Hi. apply rsum_ext. intros a _. rewrite (rsum_single ndof i).
  - unfold pick. destruct (Nat.eqb_spec (n * ndof + i) (node a * ndof + i)), (Nat.eqb_spec n (node a)); try reflexivity; exfalso; nia.
  - exact Hi.
  - intros j Hj Hne. unfold pick. destruct (Nat.eqb_spec (n * ndof + i) (node a * ndof + j)) as [E|]; [|reflexivity]. exfalso. assert (n = node a) by nia. lia.
Qed.
Lemma assemble_row {M} npc ndof (r : cell M -> nat -> R) cells n i : (i < ndof)%nat ->
  assemble npc ndof r cells (n * ndof + i)%nat = sum_over cells (fun c => rsum npc (fun a => if Nat.eqb n (c_node c a) then r c (a * ndof + i)%nat else 0)).
Proof. intros Hi. rewrite assemble_entry. apply sum_over_ext. intros c _. apply row_pick. exact Hi. Qed.
(** Rows of two residuals on the same mesh that are proportional cell by cell. *)
Lemma assemble_rows {M N} npc nd1 nd2 (f : cell M -> cell N) (r : cell M -> nat -> R) (s : cell N -> nat -> R) cells n i1 i2 l :
  (i1 < nd1)%nat -> (i2 < nd2)%nat -> (forall c a, c_node (f c) a = c_node c a) ->
  (forall c a, In c cells -> (a < npc)%nat -> r c (a * nd1 + i1)%nat = l * s (f c) (a * nd2 + i2)%nat) ->
  assemble npc nd1 r cells (n * nd1 + i1)%nat = l * assemble npc nd2 s (map f cells) (n * nd2 + i2)%nat.
Proof.
  intros H1 H2 Hf H. rewrite !assemble_row by assumption. rewrite sum_over_map, <- sum_over_scal. apply sum_over_ext. intros c Hc.
  rewrite <- rsum_scal_l. apply rsum_ext. intros a Ha. rewrite Hf. destruct (Nat.eqb n _); [apply H; assumption|req; ring].
Qed.

Lemma gather_rescaled_scalar {M} ndof off s U (c : cell M) a : (off < ndof)%nat ->
  gather ndof (rescaled ndof off s U) c (a * ndof + off) = s * gather ndof U c (a * ndof + off).
Proof.
  intros Ho. rewrite !gather_at by exact Ho. unfold rescaled. rewrite (Nat.add_comm (c_node c a * ndof)), Nat.mod_add by lia.
  rewrite Nat.mod_small by exact Ho. rewrite Nat.eqb_refl. reflexivity.
Qed.
Lemma gather_rescaled_other {M} ndof off s U (c : cell M) a i : (i < ndof)%nat -> i <> off ->
  gather ndof (rescaled ndof off s U) c (a * ndof + i) = gather ndof U c (a * ndof + i).
Proof.
  intros Hi Hne. rewrite !gather_at by exact Hi. unfold rescaled. rewrite (Nat.add_comm (c_node c a * ndof)), Nat.mod_add by lia.
  rewrite Nat.mod_small by exact Hi. destruct (Nat.eqb_spec i off); [contradiction|reflexivity].
Qed.
Lemma pairs_lt d v i j : (1 <= d <= 3)%nat -> nth_error (voigt_pairs d) v = Some (i, j) -> (i < d)%nat /\ (j < d)%nat.
Proof.
  intros Hd E. apply nth_error_In in E. dims d; cbn in E; repeat (destruct E as [E|E]; [injection E as <- <-; lia|]); contradiction.
Qed.
(** The strain only sees the displacement entries. *)
Lemma strain_disp d ndof u w g v : (1 <= d <= 3)%nat -> (forall a i, (a <= d)%nat -> (i < d)%nat -> u (a * ndof + i)%nat = w (a * ndof + i)%nat) ->
  strain d ndof (fun _ => 0) u g v = strain d ndof (fun _ => 0) w g v.
Proof.
  intros Hd H. unfold strain. destruct (nth_error (voigt_pairs d) v) as [[i j]|] eqn:E; [|reflexivity].
  destruct (pairs_lt d v i j Hd E) as [Hi Hj]. destruct (Nat.eqb i j).
  - apply rsum_ext. intros a Ha. rewrite H by lia. reflexivity.
  - f_equal. apply rsum_ext. intros a Ha. rewrite !H by lia. reflexivity.
Qed.
Lemma strain_rescaled {M} d s U (c : cell M) g v : (1 <= d <= 3)%nat ->
  strain d (S d) (fun _ => 0) (gather (S d) (rescaled (S d) d s U) c) g v = strain d (S d) (fun _ => 0) (gather (S d) U c) g v.
Proof. intros Hd. apply strain_disp; [exact Hd|]. intros a i Ha Hi. apply gather_rescaled_other; lia. Qed.
Lemma gradient_rescaled {M} d s U (c : cell M) g k :
  scalar_gradient d (S d) d (gather (S d) (rescaled (S d) d s U) c) g k = s * scalar_gradient d (S d) d (gather (S d) U c) g k.
Proof. unfold scalar_gradient. rewrite <- rsum_scal_l. apply rsum_ext. intros a Ha. rewrite gather_rescaled_scalar by lia. req. ring. Qed.
Lemma interpolate_rescaled {M} d s U (c : cell M) :
  interpolate d (S d) d (gather (S d) (rescaled (S d) d s U) c) = s * interpolate d (S d) d (gather (S d) U c).
Proof. unfold interpolate. rewrite <- rsum_scal_l. apply rsum_ext. intros a Ha. rewrite gather_rescaled_scalar by lia. req. ring. Qed.
