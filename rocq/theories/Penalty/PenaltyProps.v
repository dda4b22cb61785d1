(** Properties of penalties, projections and continuation (C28-C30, C65-C67). *)
From Coq Require Import Reals List String Lra Lia ZArith.
From Verif Require Import Base.Field Base.Sums Base.Res Penalty.PenaltyModel.
Import ListNotations.
Local Open Scope R_scope.

(** A material interpolation: anchored at a and b, between m and 1, nondecreasing. *)
Definition interpolates (f : R -> R) (a b m : R) : Prop :=
  f a = m /\ f b = 1 /\ (forall x y, a <= x -> x <= y -> y <= b -> f x <= f y) /\ (forall x, a <= x <= b -> m <= f x <= 1).

Lemma interpolates_mono f a b m : a <= b -> f a = m -> f b = 1 -> (forall x y, a <= x -> x <= y -> y <= b -> f x <= f y) -> interpolates f a b m.
Proof.
  intros Hab Ha Hb H. split; [exact Ha|]. split; [exact Hb|]. split; [exact H|]. intros x Hx. rewrite <- Ha, <- Hb. split; apply H; lra.
Qed.

Lemma cpow_mono p x y : 0 <= p -> 0 <= x <= y -> cpow x p <= cpow y p.
Proof.
  intros Hp [Hx Hy]. unfold cpow. destruct (Rle_dec x 0), (Rle_dec y 0); try lra.
  - destruct (Req_EM_T p 0) as [->|]; [rewrite Rpower_O by lra; lra|]. left. apply exp_pos.
  - destruct (Req_EM_T p 0) as [->|]; [rewrite !Rpower_O by lra; lra|]. destruct Hy as [Hy| ->]; [|lra].
    left. unfold Rpower. apply exp_increasing. apply Rmult_lt_compat_l; [lra|]. apply ln_increasing; lra.
Qed.
Lemma cpow_0 p : p <> 0 -> cpow 0 p = 0.
Proof. intros H. unfold cpow. destruct (Rle_dec 0 0); [|lra]. destruct (Req_EM_T p 0); [contradiction|reflexivity]. Qed.
Lemma cpow_1 p : cpow 1 p = 1.
Proof. unfold cpow. destruct (Rle_dec 1 0); [lra|]. unfold Rpower. rewrite ln_1, Rmult_0_r, exp_0. reflexivity. Qed.
Lemma cpow_01 p x : 0 <= p -> 0 <= x <= 1 -> cpow x p <= 1.
Proof. intros Hp Hx. rewrite <- (cpow_1 p). apply cpow_mono; lra. Qed.

(** ** C28 *)

Theorem C28_simp : forall f, 0 < pn_exp f -> pn_min f <= 1 -> interpolates (simp f) 0 1 (pn_min f).
Proof.
  intros f Hp Hm. apply interpolates_mono; [lra| | |].
  - unfold simp. rewrite cpow_0 by lra. ring.
  - unfold simp. rewrite cpow_1. ring.
  - intros x y Hx Hxy Hy. unfold simp. apply Rplus_le_compat_l, Rmult_le_compat_l; [lra|]. apply cpow_mono; lra.
Qed.
Print Assumptions C28_simp.

Theorem C28_ramp : forall f, 0 <= pn_exp f -> pn_min f <= 1 -> interpolates (ramp f) 0 1 (pn_min f).
Proof.
  intros f Hp Hm. apply interpolates_mono; [lra| | |].
  - unfold ramp. field; lra.
  - unfold ramp. field; lra.
  - intros x y Hx Hxy Hy. unfold ramp, Rdiv. apply Rplus_le_compat_l. rewrite !Rmult_assoc. apply Rmult_le_compat_l; [lra|].
    assert (0 <= pn_exp f * (1 - x)) by (apply Rmult_le_pos; lra). assert (0 <= pn_exp f * (1 - y)) by (apply Rmult_le_pos; lra).
    assert (pn_exp f * (1 - y) <= pn_exp f * (1 - x)) by (apply Rmult_le_compat_l; lra).
    apply Rmult_le_compat; [lra| |lra|apply Rinv_le_contravar; lra]. left. apply Rinv_0_lt_compat. lra.
Qed.
Print Assumptions C28_ramp.

(** The Heaviside interpolation is anchored at plus and minus the regularization length, and constant beyond. *)
Theorem C28_heaviside : forall f, 0 < pn_exp f -> pn_min f <= 1 -> 0 < pn_reg f ->
  interpolates (heaviside f) (- pn_reg f) (pn_reg f) (pn_min f) /\
  (forall x, x <= - pn_reg f -> heaviside f x = pn_min f) /\ (forall x, pn_reg f <= x -> heaviside f x = 1) /\
  (forall x y, x <= y -> heaviside f x <= heaviside f y).
Proof.
  intros f Hp Hm Hr.
  assert (B : forall x, 0 <= 1 / 2 * (1 + sin x) <= 1) by (intros x; pose proof (SIN_bound x); lra).
  assert (L : forall x, x <= - pn_reg f -> heaviside f x = pn_min f).
  { intros x Hx. unfold heaviside. destruct (Rle_dec x (- pn_reg f)); [reflexivity|lra]. }
  assert (U : forall x, pn_reg f <= x -> heaviside f x = 1).
  { intros x Hx. unfold heaviside. destruct (Rle_dec x (- pn_reg f)); [lra|]. destruct (Rge_dec x (pn_reg f)); [reflexivity|lra]. }
  assert (V : forall x, pn_min f <= heaviside f x <= 1).
  { intros x. unfold heaviside. destruct (Rle_dec x (- pn_reg f)); [lra|]. destruct (Rge_dec x (pn_reg f)); [lra|].
    set (u := 1 / 2 * (1 + sin (PI * x / (2 * pn_reg f)))). pose proof (B (PI * x / (2 * pn_reg f))) as Bu. fold u in Bu.
    pose proof (cpow_01 (pn_exp f) u ltac:(lra) Bu). pose proof (cpow_mono (pn_exp f) 0 u ltac:(lra) ltac:(lra)) as P. rewrite cpow_0 in P by lra.
    split; [assert (0 <= (1 - pn_min f) * cpow u (pn_exp f)) by (apply Rmult_le_pos; lra); lra|].
    assert ((1 - pn_min f) * cpow u (pn_exp f) <= (1 - pn_min f) * 1) by (apply Rmult_le_compat_l; lra). lra. }
  assert (M : forall x y, x <= y -> heaviside f x <= heaviside f y).
  { intros x y Hxy. destruct (Rle_lt_dec x (- pn_reg f)) as [X|X]; [rewrite (L x X); apply V|].
    destruct (Rle_lt_dec (pn_reg f) y) as [Y|Y]; [rewrite (U y Y); apply V|].
    unfold heaviside. destruct (Rle_dec x (- pn_reg f)); [lra|]. destruct (Rge_dec x (pn_reg f)); [lra|].
    destruct (Rle_dec y (- pn_reg f)); [lra|]. destruct (Rge_dec y (pn_reg f)); [lra|].
    apply Rplus_le_compat_l, Rmult_le_compat_l; [lra|]. apply cpow_mono; [lra|]. split; [apply B|].
    apply Rmult_le_compat_l; [lra|]. apply Rplus_le_compat_l.
    assert (Q : forall z, PI * z / (2 * pn_reg f) = (PI / 2) * (z / pn_reg f)) by (intros; field; lra).
    assert (I : forall z, - pn_reg f < z -> z < pn_reg f -> - (PI / 2) <= PI * z / (2 * pn_reg f) <= PI / 2).
    { intros z Hz1 Hz2. rewrite Q. pose proof PI_RGT_0. assert (-1 <= z / pn_reg f <= 1).
      { split; [apply (Rmult_le_reg_r (pn_reg f)); [lra|]|apply (Rmult_le_reg_r (pn_reg f)); [lra|]]; unfold Rdiv; rewrite Rmult_assoc, Rinv_l, Rmult_1_r by lra; lra. }
      split; nra. }
    destruct Hxy as [Hxy| ->]; [|lra]. left. apply sin_increasing_1; try apply I; try lra.
    rewrite !Q. apply Rmult_lt_compat_l; [pose proof PI_RGT_0; lra|]. apply Rmult_lt_compat_r; [apply Rinv_0_lt_compat; exact Hr|exact Hxy]. }
  split; [|split; [exact L|split; [exact U|exact M]]].
  apply interpolates_mono; [lra|apply L; lra|apply U; lra|]. intros x y _ Hxy _. apply M. exact Hxy.
Qed.
Print Assumptions C28_heaviside.

(** Every entry of the cell's output is multiplied by the penalty exactly once. *)
Theorem C28_applied_once : forall pen out, List.length (apply_penalty pen out) = List.length out /\
  forall i, (i < List.length out)%nat -> nth i (apply_penalty pen out) 0 = nth i out 0 * pen.
Proof.
  intros pen out. unfold apply_penalty. split; [apply map_length|]. intros i Hi.
  rewrite (nth_indep _ 0 (0 * pen)) by (rewrite map_length; exact Hi). apply (map_nth (fun v => v * pen)).
Qed.
Print Assumptions C28_applied_once.
Example C28_instance : simp (mkPenalty (1 / 10) 2 1 3 1) (1 / 2) = 13 / 40 /\ ramp (mkPenalty (1 / 10) 2 1 3 1) (1 / 2) = 13 / 40 /\
  heaviside (mkPenalty (1 / 10) 1 2 3 1) 0 = 11 / 20.
Proof.
  split; [|split].
  - unfold simp, cpow. cbn. destruct (Rle_dec (1 / 2) 0); [lra|]. replace 2 with (INR 2) by (cbn; ring). rewrite Rpower_pow; cbn; lra.
  - unfold ramp. cbn. lra.
  - unfold heaviside. cbn. destruct (Rle_dec 0 (- (2))); [lra|]. destruct (Rge_dec 0 2); [lra|].
    replace (PI * 0 / (2 * 2)) with 0 by field. rewrite sin_0. unfold cpow. destruct (Rle_dec _ 0); [lra|]. rewrite Rpower_1; lra.
Qed.

(** ** C29 *)

Lemma updates_fields n f : pn_bound (updates n f) = pn_bound f /\ pn_inc (updates n f) = pn_inc f /\ pn_min (updates n f) = pn_min f /\ pn_reg (updates n f) = pn_reg f.
Proof. induction n; [auto|]. cbn. exact IHn. Qed.

Lemma INR_above x : exists n, INR n > x.
Proof.
  destruct (archimed x) as [H _]. exists (Z.to_nat (up x)). apply Rge_gt_trans with (IZR (up x)); [|exact H]. apply Rle_ge. rewrite INR_IZR_INZ. apply IZR_le. lia.
Qed.
(** The bound holds after any number of updates, of any object. *)
Theorem C29_bound : forall n f, (0 < n)%nat -> pn_exp (updates n f) <= pn_bound f.
Proof.
  intros [|n] f H; [lia|]. cbn. destruct (updates_fields n f) as [-> _]. destruct (Rge_dec _ _); lra.
Qed.
Print Assumptions C29_bound.
(** Starting at or below the bound with a nonnegative increment, n updates give the smaller of p + n inc and the bound: the
    exponent never decreases and, for a positive increment, reaches the bound. *)
Theorem C29_continuation_partial : forall f, pn_exp f <= pn_bound f -> 0 <= pn_inc f ->
  (forall n, pn_exp (updates n f) = Rmin (pn_exp f + INR n * pn_inc f) (pn_bound f)) /\
  (forall n m, (n <= m)%nat -> pn_exp (updates n f) <= pn_exp (updates m f)) /\
  (0 < pn_inc f -> exists n, forall m, (n <= m)%nat -> pn_exp (updates m f) = pn_bound f).
Proof.
  intros f H0 Hi.
  assert (F : forall n, pn_exp (updates n f) = Rmin (pn_exp f + INR n * pn_inc f) (pn_bound f)).
  { induction n as [|n IH].
    - cbn. rewrite Rmult_0_l, Rplus_0_r. symmetry. apply Rmin_left. exact H0.
    - cbn [updates]. unfold update. destruct (updates_fields n f) as [-> [-> _]]. cbn [pn_exp]. rewrite IH, S_INR.
      unfold Rmin. destruct (Rle_dec (pn_exp f + INR n * pn_inc f) (pn_bound f)), (Rle_dec (pn_exp f + (INR n + 1) * pn_inc f) (pn_bound f)),
        (Rge_dec _ (pn_bound f)); lra. }
  assert (M : forall n m, (n <= m)%nat -> pn_exp (updates n f) <= pn_exp (updates m f)).
  { intros n m H. rewrite !F. apply le_INR in H. assert (INR n * pn_inc f <= INR m * pn_inc f) by (apply Rmult_le_compat_r; assumption).
    unfold Rmin. destruct (Rle_dec (pn_exp f + INR n * pn_inc f) (pn_bound f)), (Rle_dec (pn_exp f + INR m * pn_inc f) (pn_bound f)); lra. }
  split; [exact F|]. split; [exact M|]. intros Hp.
  destruct (INR_above ((pn_bound f - pn_exp f) / pn_inc f)) as [n Hn]. exists n. intros m Hm. rewrite F. apply Rmin_right.
  apply le_INR in Hm. apply (Rmult_gt_compat_r (pn_inc f)) in Hn; [|exact Hp]. unfold Rdiv in Hn. rewrite Rmult_assoc, Rinv_l in Hn by lra.
  assert (INR n * pn_inc f <= INR m * pn_inc f) by (apply Rmult_le_compat_r; lra). lra.
Qed.
Print Assumptions C29_continuation_partial.
Example C29_instance : pn_exp (updates 3 (mkPenalty 0 1 0 3 (1 / 2))) = 5 / 2 /\ pn_exp (updates 5 (mkPenalty 0 1 0 3 (1 / 2))) = 3.
Proof. destruct (C29_continuation_partial (mkPenalty 0 1 0 3 (1 / 2))) as [H _]; cbn [pn_exp pn_bound pn_inc]; [lra|lra|]. rewrite !H. cbn [pn_exp pn_bound pn_inc].
  split; [rewrite Rmin_left|rewrite Rmin_right]; cbn; lra. Qed.
(** An exponent above the bound is lowered by the first update. *)
Theorem C29_monotone_refuted : exists f, 0 <= pn_inc f /\ pn_exp (update f) < pn_exp f.
Proof. exists (mkPenalty 0 5 0 3 (1 / 10)). cbn. destruct (Rge_dec _ _); lra. Qed.
Print Assumptions C29_monotone_refuted.

(** ** C30 *)

Lemma cosh_pos x : 0 < cosh x.
Proof. unfold cosh. pose proof (exp_pos x). pose proof (exp_pos (- x)). lra. Qed.
Lemma tanh_increasing x y : x < y -> tanh x < tanh y.
Proof.
  intros H. unfold tanh. apply (Rmult_lt_reg_r (cosh x * cosh y)); [apply Rmult_lt_0_compat; apply cosh_pos|].
  pose proof (cosh_pos x). pose proof (cosh_pos y).
  replace (sinh x / cosh x * (cosh x * cosh y)) with (sinh x * cosh y) by (field; lra).
  replace (sinh y / cosh y * (cosh x * cosh y)) with (sinh y * cosh x) by (field; lra).
  unfold sinh, cosh.
  assert (E1 : exp x * exp (- y) < exp y * exp (- x)).
  { rewrite <- !exp_plus. apply exp_increasing. lra. }
  pose proof (Rmult_comm (exp x) (exp y)). pose proof (Rmult_comm (exp (-x)) (exp (-y))). nra.
Qed.
Lemma tanh_0 : tanh 0 = 0.
Proof. unfold tanh, sinh. rewrite Ropp_0, Rminus_diag_eq by reflexivity. unfold Rdiv. rewrite !Rmult_0_l. reflexivity. Qed.
Lemma tanh_odd x : tanh (- x) = - tanh x.
Proof. unfold tanh, sinh, cosh. rewrite Ropp_involutive, (Rplus_comm (exp (- x))). unfold Rdiv. pose proof (exp_pos x). pose proof (exp_pos (- x)). field. lra. Qed.

Definition tp_run (f : tanh_projection) (l : list tp_op) : tanh_projection := fold_left tp_step l f.
Lemma tp_run_make l : forall f, (exists b e, f = tp_make b e) -> exists b e, tp_run f l = tp_make b e.
Proof.
  induction l as [|o l IH]; intros f H; [exact H|]. cbn. apply IH. destruct H as [b [e ->]]. destruct o as [b'|e'|b' e']; cbn;
    [exists b', e|exists b, e'|exists b', e']; reflexivity.
Qed.
(** After construction and any sequence of parameter changes (ending with some positive beta and a threshold in [0,1]) the
    projection is the documented formula, fixes 0 and 1, is strictly increasing and maps [0,1] into itself; so does its
    application to the average of nodal densities. *)
Theorem C30_projection :
  forall b0 e0 ops, let f := tp_run (tp_make b0 e0) ops in
    0 < tp_beta f -> 0 <= tp_eta f <= 1 ->
    (forall x, tp_apply f x = (tanh (tp_beta f * tp_eta f) + tanh (tp_beta f * (x - tp_eta f))) / (tanh (tp_beta f * tp_eta f) + tanh (tp_beta f * (1 - tp_eta f)))) /\
    tp_apply f 0 = 0 /\ tp_apply f 1 = 1 /\ (forall x y, x < y -> tp_apply f x < tp_apply f y) /\
    (forall x, 0 <= x <= 1 -> 0 <= tp_apply f x <= 1) /\
    (forall n z, (0 < n)%nat -> (forall i, (i < n)%nat -> 0 <= z i <= 1) -> 0 <= apply_projection n f z <= 1).
Proof.
  intros b0 e0 ops f Hb He. destruct (tp_run_make ops (tp_make b0 e0) (ex_intro _ b0 (ex_intro _ e0 eq_refl))) as [b [e E]].
  fold f in E. rewrite E in *. cbn [tp_make tp_beta tp_eta] in *. clear E f.
  assert (D : 0 < tanh (b * e) + tanh (b * (1 - e))).
  { assert (- tanh (b * e) < tanh (b * (1 - e))); [|lra]. rewrite <- tanh_odd. apply tanh_increasing. lra. }
  assert (F : forall x, tp_apply (tp_make b e) x = (tanh (b * e) + tanh (b * (x - e))) / (tanh (b * e) + tanh (b * (1 - e)))) by reflexivity.
  assert (Z : tp_apply (tp_make b e) 0 = 0).
  { rewrite F. replace (b * (0 - e)) with (- (b * e)) by ring. rewrite tanh_odd. unfold Rdiv. rewrite Rplus_opp_r. ring. }
  assert (O : tp_apply (tp_make b e) 1 = 1) by (rewrite F; field; lra).
  assert (I : forall x y, x < y -> tp_apply (tp_make b e) x < tp_apply (tp_make b e) y).
  { intros x y H. rewrite !F. apply Rmult_lt_compat_r; [apply Rinv_0_lt_compat; exact D|]. apply Rplus_lt_compat_l, tanh_increasing, Rmult_lt_compat_l; lra. }
  assert (B : forall x, 0 <= x <= 1 -> 0 <= tp_apply (tp_make b e) x <= 1).
  { intros x [H1 H2]. split.
    - rewrite <- Z. destruct H1 as [H1| <-]; [left; apply I; exact H1|lra].
    - rewrite <- O. destruct H2 as [H2| ->]; [left; apply I; exact H2|lra]. }
  split; [exact F|]. split; [exact Z|]. split; [exact O|]. split; [exact I|]. split; [exact B|].
  intros n z Hn Hz. apply B. unfold cell_density. assert (0 < INR n) by (apply lt_0_INR; exact Hn).
  assert (S : forall m, (m <= n)%nat -> 0 <= sum (K := R_ring) m z <= INR m).
  { induction m as [|m IH]; intros Hm; [cbn; lra|]. specialize (IH ltac:(lia)). specialize (Hz m ltac:(lia)). rewrite S_INR.
    change (sum (K := R_ring) (S m) z) with (sum (K := R_ring) m z + z m). lra. }
  specialize (S n ltac:(lia)). split; [apply Rmult_le_pos; [lra|left; apply Rinv_0_lt_compat; lra]|].
  apply (Rmult_le_reg_r (INR n)); [lra|]. unfold Rdiv. rewrite Rmult_assoc, Rinv_l by lra. lra.
Qed.
Print Assumptions C30_projection.
Example C30_instance : let f := tp_run (tp_make 10 (1 / 2)) [SetBeta 5; SetEta (1 / 4); SetBeta 20] in
  tp_beta f = 20 /\ tp_eta f = 1 / 4 /\ tp_apply f (1 / 4) = tanh 5 / (tanh 5 + tanh 15).
Proof.
  cbn. split; [reflexivity|]. split; [reflexivity|]. unfold tp_apply. cbn. rewrite Rminus_diag_eq by reflexivity. rewrite Rmult_0_r, tanh_0, Rplus_0_r.
  replace (20 * (1 / 4)) with 5 by lra. replace (20 * (1 - 1 / 4)) with 15 by lra. reflexivity.
Qed.

(** ** C65 *)

(** The documentation defines the projection as 1 - H(1 - rho), H(a) = 1 - exp(-beta a) + a exp(-beta): it fixes 0 and 1 and is
    increasing.  The code returns H(1 - rho): void and solid are exchanged. *)
Definition documented_projection (beta rho : R) : R := let H a := 1 - exp (- beta * a) + a * exp (- beta) in 1 - H (1 - rho).
Theorem C65_reversed_refuted :
  forall beta, 0 <= beta ->
    documented_projection beta 0 = 0 /\ documented_projection beta 1 = 1 /\
    heaviside_projection beta 0 = 1 /\ heaviside_projection beta 1 = 0 /\
    (forall x y, x < y -> heaviside_projection beta y < heaviside_projection beta x) /\
    (forall x, heaviside_projection beta x = 1 - documented_projection beta x).
Proof.
  intros b Hb. unfold documented_projection, heaviside_projection. cbv zeta.
  rewrite !Rminus_0_r, !Rmult_1_r, !(Rminus_diag_eq 1 1 eq_refl), !Rmult_0_r, !Rmult_0_l, Ropp_0, exp_0.
  split; [lra|]. split; [lra|]. split; [lra|]. split; [lra|]. split.
  - intros x y H. pose proof (exp_pos (- b)). assert ((1 - y) * exp (- b) < (1 - x) * exp (- b)) by (apply Rmult_lt_compat_r; lra).
    assert (exp (- (b * (1 - x))) <= exp (- (b * (1 - y)))); [|lra].
    destruct Hb as [Hb| <-]; [|rewrite !Rmult_0_l; lra]. left. apply exp_increasing. apply Ropp_lt_contravar, Rmult_lt_compat_l; lra.
  - intros x. rewrite Ropp_mult_distr_l. ring.
Qed.
Print Assumptions C65_reversed_refuted.
(** What does hold: values stay in [0,1]. *)
Theorem C65_range_partial : forall beta x, 0 <= beta -> 0 <= x <= 1 -> 0 <= heaviside_projection beta x <= 1.
Proof.
  intros b x Hb Hx. destruct (C65_reversed_refuted b Hb) as [_ [_ [H0 [H1 [D _]]]]].
  split.
  - destruct Hx as [_ [Y| ->]]; [pose proof (D x 1 Y); lra|lra].
  - destruct Hx as [[X| <-] _]; [pose proof (D 0 x X); lra|lra].
Qed.
Print Assumptions C65_range_partial.

(** ** C66 *)

(** What a caller of setParameters expects: each value given is installed, a default where it is missing. *)
Definition get_or (k : string) (m : pmap) (d : R) : R := match find_key k m with Some v => v | None => d end.
(** With every key present the SIMP and RAMP models take the values; the penalty bound and everything else are unchanged. *)
Theorem C66_all_given_partial :
  forall f m e mn inc, find_key "Exponent" m = Some e -> find_key "Minimum Value" m = Some mn -> find_key "Additive Continuation" m = Some inc ->
    set_parameters f m = Ok (mkPenalty mn e (pn_reg f) (pn_bound f) inc).
Proof. intros f m e mn inc H1 H2 H3. unfold set_parameters. rewrite H1, H2, H3. reflexivity. Qed.
Print Assumptions C66_all_given_partial.
(** Any missing key: the end iterator is dereferenced. *)
Theorem C66_missing_key_refuted :
  (forall f m, find_key "Exponent" m = None \/ find_key "Minimum Value" m = None \/ find_key "Additive Continuation" m = None ->
     set_parameters f m = UB) /\
  (forall f m, find_key "Exponent" m = None \/ find_key "Minimum Value" m = None \/ find_key "Regularization Length" m = None \/ find_key "Additive Continuation" m = None ->
     heaviside_set_parameters f m = UB).
Proof.
  split; intros f m H; unfold set_parameters, heaviside_set_parameters.
  - destruct (find_key "Exponent" m); [|reflexivity]. destruct (find_key "Minimum Value" m); [|reflexivity].
    destruct (find_key "Additive Continuation" m); [|reflexivity]. destruct H as [H|[H|H]]; discriminate.
  - destruct (find_key "Exponent" m); [|reflexivity]. destruct (find_key "Minimum Value" m); [|reflexivity].
    destruct (find_key "Regularization Length" m); [|reflexivity].
    destruct (find_key "Additive Continuation" m); [|reflexivity]. destruct H as [H|[H|[H|H]]]; discriminate.
Qed.
Print Assumptions C66_missing_key_refuted.
(** The Heaviside model takes the regularization length for its minimum value, even when all keys are given. *)
Theorem C66_heaviside_refuted :
  forall f m e mn reg inc, find_key "Exponent" m = Some e -> find_key "Minimum Value" m = Some mn -> find_key "Regularization Length" m = Some reg ->
    find_key "Additive Continuation" m = Some inc ->
    exists f', heaviside_set_parameters f m = Ok f' /\ pn_min f' = reg /\ pn_reg f' = pn_reg f /\
      (mn <> reg -> pn_min f' <> mn) /\ (reg <> pn_reg f -> pn_reg f' <> reg).
Proof.
  intros f m e mn reg inc H1 H2 H3 H4. unfold heaviside_set_parameters. rewrite H1, H2, H3, H4. eexists. split; [reflexivity|]. cbn.
  split; [reflexivity|]. split; [reflexivity|]. split; intros H E; apply H; congruence.
Qed.
Print Assumptions C66_heaviside_refuted.
Example C66_instance : let m := [("Exponent"%string, 2); ("Additive Continuation"%string, 1); ("Minimum Value"%string, 1 / 4); ("Regularization Length"%string, 3)] in
  set_parameters (mkPenalty 0 1 1 3 1) m = Ok (mkPenalty (1 / 4) 2 1 3 1) /\ heaviside_set_parameters (mkPenalty 0 1 1 3 1) m = Ok (mkPenalty 3 2 1 3 1).
Proof. split; reflexivity. Qed.

(** ** C67 *)

Lemma cell_mass_average dim z : (1 <= dim <= 3)%nat -> cell_mass (S dim) (cub_basis dim) z = cell_density (S dim) z.
Proof.
  intros H. unfold cell_mass, cell_density, cub_basis, cub_point.
  destruct dim as [|[|[|[|dim]]]]; try lia; cbn; field.
Qed.
(** The intermediate density penalty of a cell: between 0 and the amplitude; zero exactly when the average density is an integer
    (void or solid, for densities in [0,1]); the amplitude at one half. *)
Theorem C67_intermediate_density :
  forall dim amp z, (1 <= dim <= 3)%nat -> 0 < amp ->
    let rho := cell_density (S dim) z in let pen := intermediate_density_penalty dim amp z in
    0 <= pen <= amp /\ (rho = 1 / 2 -> pen = amp) /\
    ((forall i, (i <= dim)%nat -> 0 <= z i <= 1) -> (pen = 0 <-> (forall i, (i <= dim)%nat -> z i = 0) \/ (forall i, (i <= dim)%nat -> z i = 1))).
Proof.
  intros dim amp z Hd Ha rho pen. unfold pen, intermediate_density_penalty. rewrite (cell_mass_average dim z Hd). fold rho.
  pose proof (COS_bound (2 * PI * rho)) as B. split; [nra|]. split.
  - intros ->. replace (2 * PI * (1 / 2)) with PI by field. rewrite cos_PI. field.
  - intros Hz.
    assert (P : 0 < INR (S dim)) by (apply lt_0_INR; lia).
    assert (R01 : 0 <= rho <= 1 /\ (rho = 0 -> forall i, (i <= dim)%nat -> z i = 0) /\ (rho = 1 -> forall i, (i <= dim)%nat -> z i = 1)).
    { assert (S1 : forall m, (m <= S dim)%nat -> 0 <= sum (K := R_ring) m z <= INR m /\
        (sum (K := R_ring) m z = 0 -> forall i, (i < m)%nat -> z i = 0) /\ (sum (K := R_ring) m z = INR m -> forall i, (i < m)%nat -> z i = 1)).
      { induction m as [|m IH]; intros Hm; [cbn; split; [lra|split; intros; lia]|]. destruct (IH ltac:(lia)) as [I1 [I2 I3]]. specialize (Hz m ltac:(lia)).
        rewrite S_INR. change (sum (K := R_ring) (S m) z) with (sum (K := R_ring) m z + z m). split; [lra|]. split.
        - intros E i Hi. destruct (Nat.eq_dec i m) as [->|]; [lra|]. apply I2; [lra|lia].
        - intros E i Hi. destruct (Nat.eq_dec i m) as [->|]; [lra|]. apply I3; [lra|lia]. }
      destruct (S1 (S dim) ltac:(lia)) as [J1 [J2 J3]]. unfold rho, cell_density.
      assert (X : sum (K := R_ring) (S dim) z / INR (S dim) * INR (S dim) = sum (K := R_ring) (S dim) z) by (field; lra).
      set (s := sum (K := R_ring) (S dim) z) in *. set (q := s / INR (S dim)) in *. split; [split; nra|]. split.
      - intros E i Hi. apply J2; [|lia]. rewrite E in X. lra.
      - intros E i Hi. apply J3; [|lia]. rewrite E in X. lra. }
    destruct R01 as [R01 [Z0 Z1]]. split.
    + intros E. assert (C : cos (2 * PI * rho) = 1) by nra. pose proof PI_RGT_0.
      destruct R01 as [[R0|R0] [R1|R1]].
      * exfalso. replace (2 * PI * rho) with (2 * (PI * rho)) in C by ring. rewrite cos_2a_sin in C.
        assert (0 < sin (PI * rho)) by (apply sin_gt_0; nra). nra.
      * right. apply Z1. exact R1.
      * left. apply Z0. symmetry. exact R0.
      * lra.
    + intros [E|E].
      * assert (rho = 0) as ->. { unfold rho, cell_density. rewrite (sum_ext (K := R_ring) (S dim) z (fun _ => 0)) by (intros; apply E; lia).
          destruct dim as [|[|[|[|dim]]]]; try lia; cbn; field. }
        rewrite Rmult_0_r, cos_0. ring.
      * assert (rho = 1) as ->. { unfold rho, cell_density. rewrite (sum_ext (K := R_ring) (S dim) z (fun _ => 1)) by (intros; apply E; lia).
          destruct dim as [|[|[|[|dim]]]]; try lia; cbn; field. }
        rewrite Rmult_1_r, cos_2PI. ring.
Qed.
Print Assumptions C67_intermediate_density.
Example C67_instance : intermediate_density_penalty 3 7 (fun i => match i with O => 0 | 1%nat => 1 | 2%nat => 1 / 4 | _ => 3 / 4 end) = 7.
Proof. refine (proj1 (proj2 (C67_intermediate_density 3 7 _ _ _)) _); [lia|lra|]. unfold cell_density. cbn. field. Qed.
