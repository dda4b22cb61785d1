(** Lemmas for the p-norm criteria. *)
From Coq Require Import String Reals List Arith Bool ZArith Lia Lra Psatz.
From Verif Require Import Base.Field Base.Sums Base.Res Element.ElementModel Element.ElementSpec Element.ElementProof
  Penalty.PenaltyModel Residual.ResidualModel Residual.ResidualSpec Residual.ResidualProof Ortho.OrthoModel LevelSet.LevelSetProof Norms.NormsModel Norms.NormsSpec.
Import ListNotations.
Local Open Scope R_scope.

(** ** Integers and powers *)
Lemma to_int_INR k : to_int (INR k) = Z.of_nat k.
Proof.
  unfold to_int. destruct (Rlt_dec (INR k) 0) as [H|H]; [pose proof (pos_INR k); lra|].
  rewrite INR_IZR_INZ. unfold Int_part. rewrite <- (tech_up (IZR (Z.of_nat k)) (Z.of_nat k + 1)); [lia| |]; rewrite plus_IZR; lra.
Qed.
Lemma pow_real_root x k : 0 <= x -> (1 <= k)%nat -> exists v, pow_real x (1 / INR k) = Ok v /\ is_root k x v.
Proof.
  intros Hx Hk. assert (K : 0 < INR k) by (apply lt_0_INR; lia). assert (K1 : 0 < 1 / INR k) by (apply Rdiv_lt_0_compat; lra).
  unfold pow_real. destruct (Rlt_dec x 0); [lra|]. destruct (Req_EM_T x 0) as [->|Hn].
  - destruct (Req_EM_T (1 / INR k) 0); [lra|]. destruct (Rlt_dec (1 / INR k) 0); [lra|]. eexists. split; [reflexivity|]. split; [lra|]. apply pow_i. lia.
  - eexists. split; [reflexivity|]. split; [unfold Rpower; left; apply exp_pos|].
    rewrite <- Rpower_pow by (unfold Rpower; apply exp_pos). rewrite Rpower_mult. replace (1 / INR k * INR k) with 1 by (field; lra). apply Rpower_1. lra.
Qed.
Lemma pow_real_half x k : 0 <= x -> (1 <= k)%nat -> pow_real x (INR k / 2) = Ok (sqrt x ^ k).
Proof.
  intros Hx Hk. assert (K : 0 < INR k) by (apply lt_0_INR; lia).
  unfold pow_real. destruct (Rlt_dec x 0); [lra|]. destruct (Req_EM_T x 0) as [->|Hn].
  - destruct (Req_EM_T (INR k / 2) 0); [lra|]. destruct (Rlt_dec (INR k / 2) 0); [lra|]. rewrite sqrt_0, pow_i by lia. reflexivity.
  - f_equal. assert (0 < x) by lra. rewrite <- Rpower_sqrt by assumption. rewrite <- Rpower_pow by (unfold Rpower; apply exp_pos).
    rewrite Rpower_mult. f_equal. field.
Qed.
Lemma root_unique k t v w : (1 <= k)%nat -> is_root k t v -> is_root k t w -> v = w.
Proof.
  intros Hk [V0 V] [W0 W]. destruct (Rtotal_order v w) as [L|[E|L]]; [|exact E|]; exfalso.
  - assert (v ^ k < w ^ k); [|lra]. clear V W. induction k as [|k IH]; [lia|]. destruct k as [|k]; [cbn; lra|].
    specialize (IH ltac:(lia)). change (v * v ^ S k < w * w ^ S k). assert (0 <= v ^ S k) by (apply pow_le; exact V0). nra.
  - assert (w ^ k < v ^ k); [|lra]. clear V W. induction k as [|k IH]; [lia|]. destruct k as [|k]; [cbn; lra|].
    specialize (IH ltac:(lia)). change (w * w ^ S k < v * v ^ S k). assert (0 <= w ^ S k) by (apply pow_le; exact W0). nra.
Qed.
Lemma pow_lt_base v w k : (1 <= k)%nat -> 0 <= v -> v < w -> v ^ k < w ^ k.
Proof.
  intros Hk V L. induction k as [|k IH]; [lia|]. destruct k as [|k]; [cbn; lra|].
  specialize (IH ltac:(lia)). change (v * v ^ S k < w * w ^ S k). assert (0 <= v ^ S k) by (apply pow_le; exact V). nra.
Qed.
Lemma pow_le_base v w k : (1 <= k)%nat -> 0 <= v -> 0 <= w -> v ^ k <= w ^ k -> v <= w.
Proof. intros Hk V W L. destruct (Rle_lt_dec v w) as [|H]; [assumption|]. pose proof (pow_lt_base w v k Hk W H). lra. Qed.
(** The power is convex on the nonnegative numbers. *)
Lemma pow_convex k x y l : (1 <= k)%nat -> 0 <= x -> 0 <= y -> 0 <= l <= 1 -> (l * x + (1 - l) * y) ^ k <= l * x ^ k + (1 - l) * y ^ k.
Proof.
  intros Hk Hx Hy Hl. induction k as [|k IH]; [lia|]. destruct k as [|k]; [cbn; lra|]. specialize (IH ltac:(lia)).
  change ((l * x + (1 - l) * y) * (l * x + (1 - l) * y) ^ S k <= l * (x * x ^ S k) + (1 - l) * (y * y ^ S k)).
  set (m := (l * x + (1 - l) * y) ^ S k) in *. set (a := x ^ S k) in *. set (b := y ^ S k) in *.
  assert (M : 0 <= (x - y) * (a - b)).
  { destruct (Rle_lt_dec x y) as [L|L].
    - assert (a <= b) by (apply pow_incr; lra). nra.
    - assert (b <= a) by (apply pow_incr; lra). nra. }
  assert (0 <= l * x + (1 - l) * y) by nra. assert (0 <= l * (1 - l)) by nra.
  apply Rle_trans with ((l * x + (1 - l) * y) * (l * a + (1 - l) * b)); [apply Rmult_le_compat_l; assumption|].
  assert (0 <= l * (1 - l) * ((x - y) * (a - b))) by (apply Rmult_le_pos; assumption). nra.
Qed.

(** ** Magnitudes *)
Lemma squares_nonneg n s : 0 <= rsum n (fun i => s i * s i).
Proof. apply rsum_nonneg. intros i _. apply Rle_0_sqr. Qed.
Lemma magnitude_nonneg n s : 0 <= magnitude n s.
Proof. apply sqrt_pos. Qed.
Lemma magnitude_sqr n s : magnitude n s * magnitude n s = rsum n (fun i => s i * s i).
Proof. unfold magnitude, rs. apply sqrt_sqrt. apply squares_nonneg. Qed.
Lemma magnitude_ext n s t : (forall i, (i < n)%nat -> s i = t i) -> magnitude n s = magnitude n t.
Proof. intros H. unfold magnitude, rs. f_equal. apply rsum_ext. intros i Hi. rewrite (H i Hi). reflexivity. Qed.
Lemma magnitude_scal n a s : magnitude n (fun i => a * s i) = Rabs a * magnitude n s.
Proof.
  unfold magnitude, rs. rewrite (rsum_ext _ _ (fun i => (a * a) * (s i * s i))) by (intros; req; ring).
  rewrite rsum_scal_l. rewrite sqrt_mult; [|apply Rle_0_sqr|apply squares_nonneg]. f_equal. change (a * a) with (Rsqr a). apply sqrt_Rsqr_abs.
Qed.
Lemma magnitude_zero n s : magnitude n s = 0 <-> (forall i, (i < n)%nat -> s i = 0).
Proof.
  split.
  - intros H i Hi. assert (Z : rsum n (fun i => s i * s i) = 0) by (rewrite <- magnitude_sqr, H; req; ring).
    assert (E : s i * s i = 0) by (exact (rsum_zero n (fun i => s i * s i) (fun i _ => Rle_0_sqr (s i)) Z i Hi)).
    nra.
  - intros H. unfold magnitude, rs. rewrite rsum_0; [apply sqrt_0|]. intros i Hi. rewrite (H i Hi). req. ring.
Qed.
(** Cauchy and Schwarz, and the triangle inequality. *)
Lemma cauchy n s t : rsum n (fun i => s i * t i) <= magnitude n s * magnitude n t.
Proof.
  set (a := magnitude n s). set (b := magnitude n t). assert (A : 0 <= a) by apply magnitude_nonneg. assert (B : 0 <= b) by apply magnitude_nonneg.
  destruct (Req_dec a 0) as [Z|NA].
  { pose proof (proj1 (magnitude_zero n s) Z) as Hs. rewrite rsum_0; [nra|]. intros i Hi. rewrite Hs by assumption. req. ring. }
  destruct (Req_dec b 0) as [Z|NB].
  { pose proof (proj1 (magnitude_zero n t) Z) as Hs. rewrite rsum_0; [nra|]. intros i Hi. rewrite Hs by assumption. req. ring. }
  assert (P : 0 <= rsum n (fun i => (b * s i - a * t i) * (b * s i - a * t i))) by apply squares_nonneg.
  assert (E : rsum n (fun i => (b * s i - a * t i) * (b * s i - a * t i)) = b * b * (a * a) + a * a * (b * b) - 2 * a * b * rsum n (fun i => s i * t i)).
  { unfold a at 3 4. unfold b at 5 6. rewrite !magnitude_sqr. rewrite <- !rsum_scal_l, <- rsum_add, <- rsum_sub. apply rsum_ext. intros. req. ring. }
  rewrite E in P. assert (0 < a * b) by (apply Rmult_lt_0_compat; lra). nra.
Qed.
Lemma magnitude_add n s t : magnitude n (fun i => s i + t i) <= magnitude n s + magnitude n t.
Proof.
  apply Rsqr_incr_0; [|apply magnitude_nonneg|pose proof (magnitude_nonneg n s); pose proof (magnitude_nonneg n t); lra].
  unfold Rsqr. rewrite magnitude_sqr. pose proof (cauchy n s t) as C.
  rewrite (rsum_ext _ _ (fun i => s i * s i + (2 * (s i * t i) + t i * t i))) by (intros; req; ring).
  rewrite !rsum_add, rsum_scal_l, <- !magnitude_sqr. nra.
Qed.

(** ** The criterion *)
Lemma plain_value n k s vol : (1 <= k)%nat -> plain_cell n (to_int (INR k)) s vol = Ok (magnitude n s ^ k * vol).
Proof.
  intros Hk. unfold plain_cell. rewrite to_int_INR, <- INR_IZR_INZ, pow_real_half by (try assumption; apply squares_nonneg). reflexivity.
Qed.
Lemma root_value k t : 0 <= t -> (1 <= k)%nat -> exists v, root (INR k) t = Ok v /\ is_root k t v.
Proof.
  intros Ht Hk. unfold root, quot. destruct (Req_EM_T (INR k) 0) as [E|_]; [pose proof (lt_0_INR k ltac:(lia)); lra|]. cbn [rbind]. apply pow_real_root; assumption.
Qed.
Lemma criterion_plain {M} n k (tensor : cell M -> nat -> R) vol cells : (1 <= k)%nat -> (forall c, In c cells -> 0 <= vol c) ->
  exists v, criterion n Plain (INR k) tensor vol cells = Ok v /\ is_root k (sum_over cells (fun c => vol c * magnitude n (tensor c) ^ k)) v.
Proof.
  intros Hk Hv. unfold criterion, norm_cell. rewrite (totalR_ok _ (fun c => magnitude n (tensor c) ^ k * vol c)) by (intros; apply plain_value; exact Hk).
  cbn [rbind]. rewrite (sum_over_ext _ (fun c => magnitude n (tensor c) ^ k * vol c) (fun c => vol c * magnitude n (tensor c) ^ k)) by (intros; ring). apply root_value; [|exact Hk]. apply sum_over_nonneg. intros c Hc.
  apply Rmult_le_pos; [apply Hv; exact Hc|apply pow_le; apply magnitude_nonneg].
Qed.
Lemma weight_loop d : (1 <= d <= 3)%nat -> loop_weight d = cub_weight d.
Proof. intros Hd. dims d; unfold loop_weight, cub_weight; cbn [seq fold_left Nat.sub INR]; field. Qed.
