(** Lemmas on changes of frame. *)
From Coq Require Import Reals List Arith Bool Lia Lra.
From Verif Require Import Base.Field Base.Sums Base.Res Element.ElementModel Element.ElementSpec Element.ElementProof Element.ElementProps
  Penalty.PenaltyModel Residual.ResidualModel Residual.ResidualSpec Residual.ResidualProof Residual.FrameSpec.
Import ListNotations.
Local Open Scope R_scope.

Lemma det_measure d x : (1 <= d <= 3)%nat -> simplex_measure d x <> 0 -> cell_det d x <> 0.
Proof. intros Hd Hm E. destruct (C31_gradients d x Hd Hm) as (_ & _ & V & P). apply Hm. rewrite <- V. unfold cell_volume. rewrite E, Rabs_R0. ring. Qed.
Lemma measure_det d x : (1 <= d <= 3)%nat -> simplex_measure d x = cub_weight d * cell_volume d x.
Proof.
  intros Hd. unfold cell_volume, simplex_measure. dims d; cbn [cell_det cub_weight]; cbv zeta.
  - unfold det1. rewrite Rmult_1_l, <- Rabs_Ropp. f_equal. ring.
  - unfold det2. cbv zeta. replace (1 / INR 2) with (/ 2) by (cbn; lra). unfold Rdiv. rewrite Rmult_comm. f_equal. f_equal. ring.
  - unfold det3. cbv zeta. replace (1 / INR 2 / INR 3) with (/ 6) by (cbn; field). unfold Rdiv. rewrite Rmult_comm. f_equal.
    rewrite <- Rabs_Ropp. f_equal. ring.
Qed.
Lemma weight_pos d : (1 <= d <= 3)%nat -> 0 < cub_weight d.
Proof. intros Hd. dims d; cbn; lra. Qed.
Lemma det_measure_iff d x : (1 <= d <= 3)%nat -> cell_det d x <> 0 -> simplex_measure d x <> 0.
Proof.
  intros Hd Hn. rewrite measure_det by exact Hd. unfold cell_volume. pose proof (weight_pos d Hd). pose proof (Rabs_pos_lt _ Hn).
  pose proof (Rmult_lt_0_compat _ _ H H0). lra.
Qed.

(** Each basis function is the affine one that its gradient says. *)
Lemma gradient_dual d x a b : (1 <= d <= 3)%nat -> cell_det d x <> 0 -> (a <= d)%nat -> (b <= d)%nat ->
  rsum d (fun l => cell_gradient d x a l * (x b l - x d l)) = delta a b - delta a d.
Proof.
  intros Hd Hn Ha Hb. dims d.
  - destruct a as [|[|a]]; try lia; destruct b as [|[|b]]; try lia; rsums; cbn in *; unfold det1, delta in *; cbn; field; exact Hn.
  - cbn [cell_det] in Hn. destruct a as [|[|[|a]]]; try lia; destruct b as [|[|[|b]]]; try lia; rsums; cbn [cell_gradient]; unfold gradient2, delta; cbv zeta; cbn [Nat.eqb]; unfold det2 in *; cbv zeta in *; field; exact Hn.
  - cbn [cell_det] in Hn. destruct a as [|[|[|[|a]]]]; try lia; destruct b as [|[|[|[|b]]]]; try lia; rsums; cbn [cell_gradient]; unfold gradient3, delta; cbv zeta; cbn [Nat.eqb]; unfold det3 in *; cbv zeta in *; field; exact Hn.
Qed.
Lemma rsum_delta n i f : (i < n)%nat -> rsum n (fun j => delta i j * f j) = f i.
Proof.
  intros Hi. rewrite (rsum_single n i); [unfold delta; rewrite Nat.eqb_refl; req; ring|exact Hi|].
  intros j _ Hj. unfold delta. destruct (Nat.eqb_spec i j); [congruence|req; ring].
Qed.
Lemma rsum_delta_r n i f : (i < n)%nat -> rsum n (fun j => f j * delta j i) = f i.
Proof.
  intros Hi. rewrite (rsum_single n i); [unfold delta; rewrite Nat.eqb_refl; req; ring|exact Hi|].
  intros j _ Hj. unfold delta. destruct (Nat.eqb_spec j i); [congruence|req; ring].
Qed.
Lemma gradient_affine d x x' t A B : (1 <= d <= 3)%nat ->
  (forall a i, (a <= d)%nat -> (i < d)%nat -> x' a i = t i + rsum d (fun j => A i j * x a j)) ->
  (forall i j, (i < d)%nat -> (j < d)%nat -> rsum d (fun k => B i k * A k j) = delta i j) ->
  cell_det d x <> 0 -> cell_det d x' <> 0 ->
  forall a k, (a <= d)%nat -> (k < d)%nat -> cell_gradient d x' a k = rsum d (fun l => B l k * cell_gradient d x a l).
Proof.
  intros Hd HX HB H0 H1 a k Ha Hk.
  pose proof (linear_field d x' (delta a d - rsum d (fun l => cell_gradient d x a l * (x d l + rsum d (fun i => B l i * t i))))
                (fun i => rsum d (fun l => B l i * cell_gradient d x a l)) k Hd H1 Hk) as E.
  rewrite <- E. rewrite (rsum_ext (S d) _ (fun b => delta a b * cell_gradient d x' b k)).
  { symmetry. apply (rsum_delta (S d) a (fun b => cell_gradient d x' b k)). lia. }
  intros b Hb. f_equal.
  transitivity (delta a d + rsum d (fun l => cell_gradient d x a l * (x b l - x d l))).
  2: { rewrite gradient_dual by (try assumption; lia). ring. }
  unfold Rminus at 1. rewrite Rplus_assoc. f_equal.
  assert (Q : rsum d (fun i => rsum d (fun l => B l i * cell_gradient d x a l) * x' b i) =
              rsum d (fun l => cell_gradient d x a l * (rsum d (fun i => B l i * t i) + x b l))).
  { rewrite (rsum_ext d _ (fun i => rsum d (fun l => B l i * cell_gradient d x a l * x' b i))) by (intros; apply rsum_scal_r).
    rewrite rsum_swap. apply rsum_ext. intros l Hl.
    transitivity (cell_gradient d x a l * rsum d (fun i => B l i * x' b i)).
    { rewrite <- rsum_scal_l. apply rsum_ext. intros. req. ring. }
    f_equal. rewrite (rsum_ext d _ (fun i => B l i * t i + rsum d (fun j => B l i * A i j * x b j))).
    2: { intros i Hi. rewrite HX by lia. rewrite Rmult_plus_distr_l. f_equal. rewrite <- rsum_scal_l. apply rsum_ext. intros. req. ring. }
    rewrite rsum_add. f_equal. rewrite rsum_swap.
    rewrite (rsum_ext d _ (fun j => delta l j * x b j)).
    2: { intros j Hj. rewrite <- (HB l j Hl Hj). symmetry. apply rsum_scal_r. }
    apply (rsum_delta d l (x b)). exact Hl. }
  rewrite Q. clear Q E.
  transitivity (rsum d (fun l => cell_gradient d x a l * (rsum d (fun i => B l i * t i) + x b l)) - rsum d (fun l => cell_gradient d x a l * (x d l + rsum d (fun i => B l i * t i)))); [ring|].
  rewrite <- rsum_sub. apply rsum_ext. intros. req. ring.
Qed.

(** ** Turning preserves products *)
Lemma turn_dot d Q u v : orthogonal d Q -> rsum d (fun i => turn d Q u i * turn d Q v i) = rsum d (fun i => u i * v i).
Proof.
  intros HQ. unfold turn, rs.
  rewrite (rsum_ext d _ (fun i => rsum d (fun j => rsum d (fun k => (Q i j * Q i k) * (u j * v k))))).
  2: { intros i _. rewrite rsum_scal_r. apply rsum_ext. intros j _. rewrite <- rsum_scal_l. apply rsum_ext. intros. req. ring. }
  rewrite rsum_swap. apply rsum_ext. intros j Hj. rewrite rsum_swap.
  rewrite (rsum_ext d _ (fun k => delta j k * (u j * v k))).
  2: { intros k Hk. rewrite <- (proj1 (HQ j k Hj Hk)). symmetry. unfold rs. apply rsum_scal_r. }
  apply (rsum_delta d j (fun k => u j * v k) Hj).
Qed.
Lemma turn_ext d Q u v i : (forall j, (j < d)%nat -> u j = v j) -> turn d Q u i = turn d Q v i.
Proof. intros H. unfold turn, rs. apply rsum_ext. intros j Hj. rewrite H by exact Hj. reflexivity. Qed.
Lemma tensor_rows d Q T i j : turn_tensor d Q T i j = turn d Q (fun k => turn d Q (T k) j) i.
Proof. unfold turn_tensor, turn, rs. apply rsum_ext. intros k _. rewrite <- rsum_scal_l. apply rsum_ext. intros. req. ring. Qed.
Lemma tensor_dot d Q S T : orthogonal d Q ->
  rsum d (fun i => rsum d (fun j => turn_tensor d Q S i j * turn_tensor d Q T i j)) = rsum d (fun i => rsum d (fun j => S i j * T i j)).
Proof.
  intros HQ.
  rewrite (rsum_ext d _ (fun i => rsum d (fun j => turn d Q (fun k => turn d Q (S k) j) i * turn d Q (fun k => turn d Q (T k) j) i))).
  2: { intros i _. apply rsum_ext. intros j _. rewrite !tensor_rows. reflexivity. }
  rewrite rsum_swap.
  rewrite (rsum_ext d _ (fun j => rsum d (fun k => turn d Q (S k) j * turn d Q (T k) j))).
  2: { intros j _. apply (turn_dot d Q (fun k => turn d Q (S k) j) (fun k => turn d Q (T k) j) HQ). }
  rewrite rsum_swap. apply rsum_ext. intros i _. apply turn_dot. exact HQ.
Qed.

(** ** Determinants *)
Definition edge (d : nat) (x : coords) (a k : nat) : R := x a k - x d k.
Definition gram (d : nat) (x : coords) (a b : nat) : R := rsum d (fun k => edge d x a k * edge d x b k).
Definition gram_det (d : nat) (g : nat -> nat -> R) : R :=
  match d with
  | 1%nat => g 0%nat 0%nat
  | 2%nat => g 0%nat 0%nat * g 1%nat 1%nat - g 0%nat 1%nat * g 1%nat 0%nat
  | _ => g 0%nat 0%nat * (g 1%nat 1%nat * g 2%nat 2%nat - g 1%nat 2%nat * g 2%nat 1%nat)
       - g 0%nat 1%nat * (g 1%nat 0%nat * g 2%nat 2%nat - g 1%nat 2%nat * g 2%nat 0%nat)
       + g 0%nat 2%nat * (g 1%nat 0%nat * g 2%nat 1%nat - g 1%nat 1%nat * g 2%nat 0%nat)
  end.
Lemma gram_square d x : (1 <= d <= 3)%nat -> cell_det d x * cell_det d x = gram_det d (gram d x).
Proof. intros Hd. dims d; unfold gram_det, gram, edge; rsums; cbn [cell_det]; unfold det1, det2, det3; cbv zeta; ring. Qed.
Lemma volume_turned d Q t x x' : (1 <= d <= 3)%nat -> orthogonal d Q -> (forall a i, (a <= d)%nat -> (i < d)%nat -> x' a i = t i + turn d Q (x a) i) ->
  cell_volume d x' = cell_volume d x.
Proof.
  intros Hd HQ HX. unfold cell_volume. rewrite <- !sqrt_Rsqr_abs. unfold Rsqr. f_equal. rewrite !gram_square by exact Hd.
  assert (G : forall a b, (a < d)%nat -> (b < d)%nat -> gram d x' a b = gram d x a b).
  { intros a b Ha Hb. unfold gram. rewrite <- (turn_dot d Q (edge d x a) (edge d x b) HQ). apply rsum_ext. intros k Hk. unfold edge.
    rewrite !HX by lia. unfold turn, rs.
    assert (L : forall u v, t k + rsum d (fun j => Q k j * u j) - (t k + rsum d (fun j => Q k j * v j)) = rsum d (fun j => Q k j * (u j - v j))).
    { intros u v. transitivity (rsum d (fun j => Q k j * u j) - rsum d (fun j => Q k j * v j)); [ring|]. rewrite <- rsum_sub. apply rsum_ext. intros. req. ring. }
    f_equal; apply L. }
  dims d; unfold gram_det; rewrite !G by lia; reflexivity.
Qed.
Lemma det_of_volume d x x' : cell_volume d x' = cell_volume d x -> cell_det d x <> 0 -> cell_det d x' <> 0.
Proof. unfold cell_volume. intros E H Z. apply Rabs_pos_lt in H. rewrite Z, Rabs_R0 in E. lra. Qed.
Lemma measure_of_volume d x x' : cell_volume d x' = cell_volume d x -> cell_measure d x' = cell_measure d x.
Proof. unfold cell_measure. intros ->. reflexivity. Qed.
