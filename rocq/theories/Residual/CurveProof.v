(** The solution of a linear system whose coefficients depend on a parameter: differentiable with them. *)
From Coq Require Import Reals List Arith Bool Lia Lra.
From Verif Require Import Base.Field Base.Sums Element.ElementModel Element.ElementProof Residual.ResidualProof Residual.Kernel.
Local Open Scope R_scope.

(** Small parameters. *)
Definition near (P : R -> Prop) : Prop := exists r, 0 < r /\ forall t, Rabs t < r -> P t.
Lemma near_and P Q : near P -> near Q -> near (fun t => P t /\ Q t).
Proof.
  intros (r & Hr & H) (s & Hs & K). exists (Rmin r s). split; [apply Rmin_pos; assumption|]. intros t Ht. pose proof (Rmin_l r s). pose proof (Rmin_r r s). split; [apply H|apply K]; lra.
Qed.
Lemma near_imp (P Q : R -> Prop) : (forall t, P t -> Q t) -> near P -> near Q.
Proof. intros H (r & Hr & K). exists r. split; [exact Hr|]. intros. apply H, K. assumption. Qed.
Lemma near_all n (P : nat -> R -> Prop) : (forall i, (i < n)%nat -> near (P i)) -> near (fun t => forall i, (i < n)%nat -> P i t).
Proof.
  induction n as [|n IH]; intros H; [exists 1; split; [lra|intros; lia]|].
  apply (near_imp (fun t => (forall i, (i < n)%nat -> P i t) /\ P n t)); [|apply near_and; [apply IH; intros; apply H; lia|apply H; lia]].
  intros t [K1 K2] i Hi. destruct (Nat.eq_dec i n) as [->|]; [exact K2|apply K1; lia].
Qed.
Lemma near_0 P : near P -> P 0.
Proof. intros (r & Hr & H). apply H. rewrite Rabs_R0. exact Hr. Qed.
Lemma near_small r : 0 < r -> near (fun t => Rabs t < r).
Proof. intros H. exists r. split; [exact H|]. intros t Ht. exact Ht. Qed.

(** Derivatives at 0. *)
Lemma derivative_near f g l : near (fun t => f t = g t) -> derivable_pt_lim f 0 l -> derivable_pt_lim g 0 l.
Proof.
  intros (r & Hr & E) H eps He. destruct (H eps He) as (del & D). assert (P : 0 < Rmin r del) by (apply Rmin_pos; [exact Hr|apply cond_pos]).
  exists (mkposreal _ P). intros h Hh Hl. cbn in Hl. pose proof (Rmin_l r del). pose proof (Rmin_r r del). rewrite Rplus_0_l.
  rewrite <- (E h) by lra. rewrite <- (E 0) by (rewrite Rabs_R0; exact Hr). rewrite <- (Rplus_0_l h) at 1. apply D; [exact Hh|lra].
Qed.
Lemma derivative_bound f l : derivable_pt_lim f 0 l -> near (fun t => Rabs (f t - f 0) <= (Rabs l + 1) * Rabs t).
Proof.
  intros H. destruct (H 1 ltac:(lra)) as (del & D). exists del. split; [apply cond_pos|]. intros t Ht. destruct (Req_dec t 0) as [->|N].
  - replace (f 0 - f 0) with 0 by ring. rewrite Rabs_R0. lra.
  - specialize (D t N Ht). rewrite Rplus_0_l in D. replace (f t - f 0) with ((f t - f 0) / t * t) by (field; exact N). rewrite Rabs_mult.
    apply Rmult_le_compat_r; [apply Rabs_pos|]. replace ((f t - f 0) / t) with (l + ((f t - f 0) / t - l)) by ring. eapply Rle_trans; [apply Rabs_triang|]. lra.
Qed.
Lemma derivative_square r C : 0 <= C -> near (fun t => Rabs (r t) <= C * (Rabs t * Rabs t)) -> derivable_pt_lim r 0 0.
Proof.
  intros HC (d & Hd & H) eps He. assert (P0 : 0 < eps / (C + 1)) by (apply Rdiv_lt_0_compat; lra).
  assert (P : 0 < Rmin d (eps / (C + 1))) by (apply Rmin_pos; assumption).
  assert (Z : r 0 = 0). { specialize (H 0). rewrite Rabs_R0 in H. specialize (H Hd). rewrite !Rmult_0_r in H. pose proof (Rabs_pos (r 0)). destruct (Req_dec (r 0) 0) as [|N]; [assumption|]. apply Rabs_pos_lt in N. lra. }
  exists (mkposreal _ P). intros h Hh Hl. cbn in Hl. pose proof (Rmin_l d (eps / (C + 1))). pose proof (Rmin_r d (eps / (C + 1))). rewrite Rplus_0_l, Z, !Rminus_0_r.
  unfold Rdiv. rewrite Rabs_mult, Rabs_inv. pose proof (Rabs_pos_lt h Hh) as Ph. specialize (H h ltac:(lra)).
  apply Rle_lt_trans with (C * Rabs h).
  - apply Rmult_le_reg_r with (Rabs h); [exact Ph|]. rewrite Rmult_assoc, Rinv_l by lra. lra.
  - apply Rle_lt_trans with ((C + 1) * Rabs h); [nra|]. apply Rmult_lt_reg_r with (/ (C + 1)); [apply Rinv_0_lt_compat; lra|].
    replace ((C + 1) * Rabs h * / (C + 1)) with (Rabs h) by (field; lra). unfold Rdiv in *. lra.
Qed.
Lemma derivative_sum n (f : nat -> R -> R) (l : nat -> R) : (forall i, (i < n)%nat -> derivable_pt_lim (f i) 0 (l i)) -> derivable_pt_lim (fun t => rsum n (fun i => f i t)) 0 (rsum n l).
Proof.
  induction n as [|n IH]; intros H; [apply derivable_pt_lim_const|].
  change (derivable_pt_lim (plus_fct (fun t => rsum n (fun i => f i t)) (f n)) 0 (rsum n l + l n)). apply derivable_pt_lim_plus; [apply IH; intros; apply H; lia|apply H; lia].
Qed.
Lemma derivative_scal f l c : derivable_pt_lim f 0 l -> derivable_pt_lim (fun t => c * f t) 0 (c * l).
Proof. intros H. apply (derivable_pt_lim_scal f c 0 l H). Qed.
Lemma derivative_mult f g l m : derivable_pt_lim f 0 l -> derivable_pt_lim g 0 m -> derivable_pt_lim (fun t => f t * g t) 0 (l * g 0 + f 0 * m).
Proof. intros H K. apply (derivable_pt_lim_mult f g 0 l m H K). Qed.
Lemma derivative_minus f g l m : derivable_pt_lim f 0 l -> derivable_pt_lim g 0 m -> derivable_pt_lim (fun t => f t - g t) 0 (l - m).
Proof. intros H K. apply (derivable_pt_lim_minus f g 0 l m H K). Qed.

Lemma rsum_abs n f : Rabs (rsum n f) <= rsum n (fun i => Rabs (f i)).
Proof. induction n as [|n IH]; [change (Rabs 0 <= 0); rewrite Rabs_R0; lra|]. change (Rabs (rsum n f + f n) <= rsum n (fun i => Rabs (f i)) + Rabs (f n)). eapply Rle_trans; [apply Rabs_triang|]. lra. Qed.
Lemma rsum_le n (f g : nat -> R) : (forall i, (i < n)%nat -> f i <= g i) -> rsum n f <= rsum n g.
Proof. induction n as [|n IH]; intros H; [apply Rle_refl|]. change (rsum n f + f n <= rsum n g + g n). apply Rplus_le_compat; [apply IH; intros; apply H; lia|apply H; lia]. Qed.
Lemma rsum_nonneg n (f : nat -> R) : (forall i, (i < n)%nat -> 0 <= f i) -> 0 <= rsum n f.
Proof. intros H. apply Rle_trans with (rsum n (fun _ => 0)); [right; symmetry; apply rsum_0; reflexivity|apply rsum_le; exact H]. Qed.
Lemma rsum_term n (f : nat -> R) i : (forall i, (i < n)%nat -> 0 <= f i) -> (i < n)%nat -> f i <= rsum n f.
Proof.
  induction n as [|n IH]; intros H Hi; [lia|]. change (f i <= rsum n f + f n). pose proof (rsum_nonneg n f (fun j Hj => H j ltac:(lia))) as N. pose proof (H n ltac:(lia)).
  destruct (Nat.eq_dec i n) as [->|]; [lra|]. specialize (IH (fun j Hj => H j ltac:(lia)) ltac:(lia)). lra.
Qed.

Lemma rsum_const' n c : rsum n (fun _ => c) = INR n * c.
Proof. induction n as [|n IH]; [change (0 = INR 0 * c); cbn; ring|]. change (rsum n (fun _ => c) + c = INR (S n) * c). rewrite IH, S_INR. ring. Qed.

Section Curve.
Variables (n : nat) (free : nat -> bool) (A : R -> nat -> nat -> R) (F u : R -> nat -> R) (B dA : nat -> nat -> R) (dF : nat -> R).
Hypothesis HA : forall i j, (i < n)%nat -> (j < n)%nat -> derivable_pt_lim (fun t => A t i j) 0 (dA i j).
Hypothesis HF : forall i, (i < n)%nat -> derivable_pt_lim (fun t => F t i) 0 (dF i).
(** B inverts the system with the conditions, at parameter 0. *)
Hypothesis HB : forall (x g : nat -> R), (forall k, (k < n)%nat -> if free k then rsum n (fun j => if free j then A 0 k j * x j else 0) = g k else x k = g k) ->
  forall i, (i < n)%nat -> x i = rsum n (fun k => B i k * g k).
Hypothesis Hfix : near (fun t => forall i, (i < n)%nat -> free i = false -> u t i = u 0 i).
Hypothesis Hfree : near (fun t => forall i, (i < n)%nat -> free i = true -> rsum n (fun j => A t i j * u t j) = F t i).

Let D t i := u t i - u 0 i.
Let g t k := if free k then F t k - F 0 k - rsum n (fun j => (A t k j - A 0 k j) * u t j) else 0.
Lemma curve_difference : near (fun t => forall i, (i < n)%nat -> D t i = rsum n (fun k => B i k * g t k)).
Proof.
  pose proof (near_0 _ Hfree) as H0. cbn beta in H0. apply (near_imp _ _ (fun t H => HB (D t) (g t) H)).
  apply (near_imp (fun t => (forall i, (i < n)%nat -> free i = false -> u t i = u 0 i) /\ (forall i, (i < n)%nat -> free i = true -> rsum n (fun j => A t i j * u t j) = F t i))); [|apply near_and; assumption].
  intros t [K1 K2] k Hk. unfold g. destruct (free k) eqn:Ek; [|unfold D; rewrite (K1 k Hk Ek); ring].
  rewrite <- (K2 k Hk Ek), <- (H0 k Hk Ek). rewrite <- !rsum_sub. apply rsum_ext. intros j Hj. unfold D. destruct (free j) eqn:Ej; [req; ring|]. rewrite (K1 j Hj Ej). req. ring.
Qed.
(** The change of the solution is at most proportional to the parameter. *)
Let b := rsum n (fun i => rsum n (fun k => Rabs (B i k))).
Lemma b_nonneg : 0 <= b.
Proof. apply rsum_nonneg. intros. apply rsum_nonneg. intros. apply Rabs_pos. Qed.
Lemma B_bound i k : (i < n)%nat -> (k < n)%nat -> Rabs (B i k) <= b.
Proof.
  intros Hi Hk. eapply Rle_trans; [apply (rsum_term n (fun k => Rabs (B i k)) k (fun _ _ => Rabs_pos _) Hk)|].
  apply (rsum_term n (fun i => rsum n (fun k => Rabs (B i k)))); [|exact Hi]. intros. apply rsum_nonneg. intros. apply Rabs_pos.
Qed.
Let a := rsum n (fun k => rsum n (fun j => Rabs (dA k j) + 1)).
Let f := rsum n (fun k => Rabs (dF k) + 1).
Let s0 := rsum n (fun j => Rabs (u 0 j)).
Let size t := rsum n (fun i => Rabs (D t i)).
Lemma a_nonneg : 0 <= a. Proof. apply rsum_nonneg. intros. apply rsum_nonneg. intros. pose proof (Rabs_pos (dA i i0)). lra. Qed.
Lemma f_nonneg : 0 <= f. Proof. apply rsum_nonneg. intros. pose proof (Rabs_pos (dF i)). lra. Qed.
Lemma s0_nonneg : 0 <= s0. Proof. apply rsum_nonneg. intros. apply Rabs_pos. Qed.
Lemma size_nonneg t : 0 <= size t. Proof. apply rsum_nonneg. intros. apply Rabs_pos. Qed.
Lemma size_bound t j : (j < n)%nat -> Rabs (D t j) <= size t.
Proof. intros. apply (rsum_term n (fun i => Rabs (D t i))); [intros; apply Rabs_pos|assumption]. Qed.
Lemma state_bound t j : (j < n)%nat -> Rabs (u t j) <= s0 + size t.
Proof.
  intros Hj. replace (u t j) with (u 0 j + D t j) by (unfold D; ring). eapply Rle_trans; [apply Rabs_triang|]. apply Rplus_le_compat; [|apply size_bound; exact Hj].
  apply (rsum_term n (fun j => Rabs (u 0 j))); [intros; apply Rabs_pos|exact Hj].
Qed.
Lemma matrix_bound : near (fun t => forall k, (k < n)%nat -> forall j, (j < n)%nat -> Rabs (A t k j - A 0 k j) <= (Rabs (dA k j) + 1) * Rabs t).
Proof. apply near_all. intros k Hk. apply near_all. intros j Hj. apply (derivative_bound (fun t => A t k j)). apply HA; assumption. Qed.
Lemma load_bound : near (fun t => forall k, (k < n)%nat -> Rabs (F t k - F 0 k) <= (Rabs (dF k) + 1) * Rabs t).
Proof. apply near_all. intros k Hk. apply (derivative_bound (fun t => F t k)). apply HF; assumption. Qed.
(** Sums of matrix changes times a bounded vector. *)
Lemma change_bound t k (x : nat -> R) m : (k < n)%nat -> (forall j, (j < n)%nat -> Rabs (A t k j - A 0 k j) <= (Rabs (dA k j) + 1) * Rabs t) -> (forall j, (j < n)%nat -> Rabs (x j) <= m) ->
  Rabs (rsum n (fun j => (A t k j - A 0 k j) * x j)) <= rsum n (fun j => Rabs (dA k j) + 1) * Rabs t * m.
Proof.
  intros Hk H Hx. eapply Rle_trans; [apply rsum_abs|]. rewrite Rmult_assoc, rsum_scal_r. apply rsum_le. intros j Hj. rewrite Rabs_mult, <- Rmult_assoc.
  apply Rmult_le_compat; try apply Rabs_pos; [apply H; exact Hj|apply Hx; exact Hj].
Qed.
Lemma weighted_bound (h : nat -> R) m i : (i < n)%nat -> (forall k, (k < n)%nat -> Rabs (h k) <= m k) -> Rabs (rsum n (fun k => B i k * h k)) <= b * rsum n m.
Proof.
  intros Hi H. eapply Rle_trans; [apply rsum_abs|]. rewrite <- rsum_scal_l. apply rsum_le. intros k Hk. rewrite Rabs_mult.
  apply Rmult_le_compat; try apply Rabs_pos; [apply B_bound; assumption|apply H; exact Hk].
Qed.
Lemma size_small : near (fun t => size t <= (2 * INR n * b * (f + a * s0)) * Rabs t).
Proof.
  pose proof b_nonneg as Pb. pose proof a_nonneg as Pa. pose proof f_nonneg as Pf. pose proof s0_nonneg as Ps. pose proof (pos_INR n) as Pn.
  assert (P : 0 < / (2 * (INR n * b * a) + 1)) by (apply Rinv_0_lt_compat; assert (0 <= INR n * b * a) by (repeat apply Rmult_le_pos; assumption); lra).
  pose proof (near_and _ _ curve_difference (near_and _ _ matrix_bound (near_and _ _ load_bound (near_small _ P)))) as N. revert N. apply near_imp.
  intros t (K1 & K2 & K3 & K4).
  assert (G : forall k, (k < n)%nat -> Rabs (g t k) <= (Rabs (dF k) + 1) * Rabs t + rsum n (fun j => Rabs (dA k j) + 1) * Rabs t * (s0 + size t)).
  { intros k Hk. unfold g. pose proof (Rabs_pos t) as Pt. pose proof (size_nonneg t) as Psz.
    assert (Q : 0 <= rsum n (fun j => Rabs (dA k j) + 1)) by (apply rsum_nonneg; intros j _; pose proof (Rabs_pos (dA k j)); lra).
    assert (Q2 : 0 <= rsum n (fun j => Rabs (dA k j) + 1) * Rabs t * (s0 + size t)) by (repeat apply Rmult_le_pos; try assumption; lra).
    destruct (free k).
    - unfold Rminus at 1. eapply Rle_trans; [apply Rabs_triang|]. rewrite Rabs_Ropp. apply Rplus_le_compat; [apply K3; exact Hk|].
      apply change_bound; [exact Hk|apply K2; exact Hk|intros; apply state_bound; assumption].
    - rewrite Rabs_R0. assert (0 <= (Rabs (dF k) + 1) * Rabs t) by (apply Rmult_le_pos; [pose proof (Rabs_pos (dF k)); lra|exact Pt]). lra. }
  assert (E : size t <= INR n * (b * (f * Rabs t + a * Rabs t * (s0 + size t)))).
  { unfold size at 1. apply Rle_trans with (rsum n (fun _ => b * (f * Rabs t + a * Rabs t * (s0 + size t)))).
    - apply rsum_le. intros i Hi. rewrite (K1 i Hi).
      replace (f * Rabs t + a * Rabs t * (s0 + size t)) with (rsum n (fun k => (Rabs (dF k) + 1) * Rabs t + rsum n (fun j => Rabs (dA k j) + 1) * Rabs t * (s0 + size t))).
      { apply weighted_bound; assumption. }
      rewrite rsum_add. unfold f, a. req. f_equal; [rewrite rsum_scal_r; reflexivity|]. rewrite Rmult_assoc, rsum_scal_r. apply rsum_ext. intros. req. ring.
    - right. apply rsum_const'. }
  assert (H : INR n * b * a * Rabs t <= 1 / 2).
  { set (q := INR n * b * a) in *. assert (Q : 0 <= q) by (unfold q; repeat apply Rmult_le_pos; assumption). pose proof (Rabs_pos t) as Pt.
    assert (W : Rabs t * (2 * q + 1) <= 1). { apply Rlt_le, Rmult_lt_reg_r with (/ (2 * q + 1)); [apply Rinv_0_lt_compat; lra|]. rewrite Rmult_assoc, Rinv_r by lra. lra. }
    nra. }
  pose proof (size_nonneg t) as Psz. pose proof (Rabs_pos t) as Pt.
  assert (E2 : INR n * (b * (f * Rabs t + a * Rabs t * (s0 + size t))) = INR n * b * (f + a * s0) * Rabs t + INR n * b * a * Rabs t * size t) by ring.
  rewrite E2 in E. assert (INR n * b * a * Rabs t * size t <= 1 / 2 * size t) by (apply Rmult_le_compat_r; assumption). lra.
Qed.
Theorem curve_derivative : exists w : nat -> R, (forall i, (i < n)%nat -> derivable_pt_lim (fun t => u t i) 0 (w i)) /\
  (forall i, (i < n)%nat -> free i = false -> w i = 0) /\
  (forall i, (i < n)%nat -> free i = true -> rsum n (fun j => A 0 i j * w j) = dF i - rsum n (fun j => dA i j * u 0 j)).
Proof.
  set (h := fun k => if free k then dF k - rsum n (fun j => dA k j * u 0 j) else 0).
  set (w := fun i => rsum n (fun k => B i k * h k)). exists w.
  assert (W : forall i, (i < n)%nat -> derivable_pt_lim (fun t => u t i) 0 (w i)).
  { intros i Hi.
    set (E := fun t => rsum n (fun k => B i k * (if free k then F t k - F 0 k - rsum n (fun j => (A t k j - A 0 k j) * u 0 j) else 0))).
    set (rest := fun t => rsum n (fun k => B i k * (if free k then rsum n (fun j => (A t k j - A 0 k j) * D t j) else 0))).
    assert (E1 : derivable_pt_lim E 0 (w i)).
    { apply derivative_sum. intros k Hk. apply derivative_scal. unfold h. destruct (free k); [|apply derivable_pt_lim_const].
      apply derivative_minus.
      - replace (dF k) with (dF k - 0) by ring. apply derivative_minus; [apply HF; exact Hk|apply derivable_pt_lim_const].
      - apply derivative_sum. intros j Hj. replace (dA k j * u 0 j) with ((dA k j - 0) * u 0 j + (A 0 k j - A 0 k j) * 0) by ring.
        apply (derivative_mult (fun t => A t k j - A 0 k j) (fun _ => u 0 j)); [|apply derivable_pt_lim_const]. apply derivative_minus; [apply HA; assumption|apply derivable_pt_lim_const]. }
    assert (E2 : derivable_pt_lim rest 0 0).
    { set (C := 2 * INR n * b * (f + a * s0)). pose proof b_nonneg as Pb. pose proof a_nonneg as Pa. pose proof f_nonneg as Pf. pose proof s0_nonneg as Ps. pose proof (pos_INR n) as Pn.
      assert (PC : 0 <= C) by (unfold C; apply Rmult_le_pos; [repeat apply Rmult_le_pos; lra|]; assert (0 <= a * s0) by (apply Rmult_le_pos; assumption); lra).
      apply (derivative_square rest (b * (a * C))); [apply Rmult_le_pos; [exact Pb|apply Rmult_le_pos; [exact Pa|exact PC]]|].
      pose proof (near_and _ _ matrix_bound size_small) as N. revert N. apply near_imp. intros t [K1 K2]. fold C in K2.
      unfold rest. apply Rle_trans with (b * rsum n (fun k => rsum n (fun j => Rabs (dA k j) + 1) * Rabs t * (C * Rabs t))).
      - apply weighted_bound; [exact Hi|]. intros k Hk. destruct (free k).
        + apply change_bound; [exact Hk|apply K1; exact Hk|]. intros j Hj. eapply Rle_trans; [apply size_bound; exact Hj|exact K2].
        + rewrite Rabs_R0. apply Rmult_le_pos; [apply Rmult_le_pos; [|apply Rabs_pos]|apply Rmult_le_pos; [exact PC|apply Rabs_pos]]. apply rsum_nonneg. intros j _. pose proof (Rabs_pos (dA k j)). lra.
      - right. rewrite (rsum_ext n _ (fun k => rsum n (fun j => Rabs (dA k j) + 1) * (Rabs t * (C * Rabs t)))) by (intros; req; ring). rewrite <- rsum_scal_r. fold a. req. ring. }
    apply (derivative_near (fun t => u 0 i + (E t - rest t))).
    - pose proof curve_difference as N. revert N. apply near_imp. intros t K. assert (Q : D t i = E t - rest t); [|unfold D in Q; lra].
      rewrite (K i Hi). unfold E, rest. rewrite <- rsum_sub. apply rsum_ext. intros k Hk. unfold g. destruct (free k); [|req; ring].
      transitivity (B i k * (F t k - F 0 k - (rsum n (fun j => (A t k j - A 0 k j) * u 0 j) + rsum n (fun j => (A t k j - A 0 k j) * D t j)))); [|req; ring].
      rewrite <- rsum_add. req. f_equal. f_equal. apply rsum_ext. intros j Hj. unfold D. req. ring.
    - replace (w i) with (0 + (w i - 0)) by ring. apply (derivable_pt_lim_plus (fun _ => u 0 i) (fun t => E t - rest t)); [apply derivable_pt_lim_const|]. apply derivative_minus; assumption. }
  split; [exact W|]. split.
  - intros i Hi Ei. apply (uniqueness_limite (fun t => u t i) 0); [apply W; exact Hi|]. apply (derivative_near (fun _ => u 0 i)); [|apply derivable_pt_lim_const].
    revert Hfix. apply near_imp. intros t K. symmetry. apply K; assumption.
  - intros i Hi Ei.
    assert (P : derivable_pt_lim (fun t => rsum n (fun j => A t i j * u t j)) 0 (rsum n (fun j => dA i j * u 0 j + A 0 i j * w j))).
    { apply derivative_sum. intros j Hj. apply (derivative_mult (fun t => A t i j) (fun t => u t j)); [apply HA; assumption|apply W; exact Hj]. }
    assert (Q : rsum n (fun j => dA i j * u 0 j + A 0 i j * w j) = dF i).
    { apply (uniqueness_limite (fun t => F t i) 0); [|apply HF; exact Hi]. refine (derivative_near _ _ _ _ P). revert Hfree. apply near_imp. intros t K. apply K; assumption. }
    rewrite rsum_add in Q. assert (Q' : rsum n (fun j => dA i j * u 0 j) + rsum n (fun j => A 0 i j * w j) = dF i) by exact Q. lra.
Qed.
End Curve.
