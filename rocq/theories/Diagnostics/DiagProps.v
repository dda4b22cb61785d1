(** C154, C155: derivative checks report the distance between the predicted and the true directional derivative. *)
From Coq Require Import Reals List Arith Lia Lra.
From Verif Require Import Base.Field Base.Sums Base.Res Element.ElementSpec Element.ElementProof Diagnostics.DiagModel.
Import ListNotations.
Local Open Scope R_scope.

(** ** Specification *)
(** The function [F] of [n] numbers reads nothing else. *)
Definition reads {A : Type} (n : nat) (F : (nat -> R) -> A) : Prop := forall y y', (forall i, (i < n)%nat -> y i = y' i) -> F y = F y'.
(** [phi] has five derivatives up to [b] on both sides of 0, the first of them [slope] at 0, the fifth at most [M]. *)
Definition smooth (phi : R -> R) (b M slope : R) : Prop := exists d1 d2 d3 d4 d5 : R -> R,
  (forall t, Rabs t <= b -> derivable_pt_lim phi t (d1 t) /\ derivable_pt_lim d1 t (d2 t) /\ derivable_pt_lim d2 t (d3 t) /\ derivable_pt_lim d3 t (d4 t) /\
    derivable_pt_lim d4 t (d5 t) /\ Rabs (d5 t) <= M) /\ d1 0 = slope.
(** [x] is within [r] of [y]. *)
Definition within (x r y : R) : Prop := Rabs (x - y) <= r.

(** ** Lemmas *)
Lemma mono (g h g' h' : R -> R) (e : R) : 0 <= e -> (forall t, 0 <= t <= e -> derivable_pt_lim g t (g' t)) -> (forall t, 0 <= t <= e -> derivable_pt_lim h t (h' t)) ->
  (forall t, 0 <= t <= e -> g' t <= h' t) -> g 0 <= h 0 -> g e <= h e.
Proof.
  intros [He|<-] Dg Dh L L0; [|exact L0].
  destruct (MVT_cor2 (fun t => h t - g t) (fun t => h' t - g' t) 0 e He) as (c & Ec & Hc).
  - intros c Hc. apply derivable_pt_lim_minus; [apply Dh|apply Dg]; exact Hc.
  - cbn beta in Ec. pose proof (L c ltac:(lra)) as Lc. assert (0 <= (h' c - g' c) * (e - 0)) by (apply Rmult_le_pos; lra). lra.
Qed.
Lemma lim_eq f x a b : derivable_pt_lim f x a -> a = b -> derivable_pt_lim f x b.
Proof. intros H ->. exact H. Qed.
Lemma scal_ext f g x l : (forall t, f t = g t) -> derivable_pt_lim f x l -> derivable_pt_lim g x l.
Proof. intros E H eps He. destruct (H eps He) as [d Hd]. exists d. intros h Hh Hl. rewrite <- !E. apply Hd; assumption. Qed.
Lemma pow_lim C k t : derivable_pt_lim (fun t => C * t ^ S k / INR (S k)) t (C * t ^ k).
Proof.
  apply (scal_ext (fun t => C / INR (S k) * t ^ S k)); [intros s; unfold Rdiv; ring|]. eapply lim_eq.
  - apply (derivable_pt_lim_scal (fun t => t ^ S k) (C / INR (S k)) t (INR (S k) * t ^ pred (S k))). apply derivable_pt_lim_pow.
  - cbn [pred]. assert (INR (S k) <> 0) by (apply not_0_INR; lia). field. assumption.
Qed.
(** A function that vanishes at 0 and whose derivative is at most C t^k. *)
Lemma grow (g g' : R -> R) (e C : R) (k : nat) : (forall t, 0 <= t <= e -> derivable_pt_lim g t (g' t)) -> g 0 = 0 ->
  (forall t, 0 <= t <= e -> Rabs (g' t) <= C * t ^ k) -> forall t, 0 <= t <= e -> Rabs (g t) <= C / INR (S k) * t ^ S k.
Proof.
  intros D G0 B t Ht. assert (Z : C * 0 ^ S k / INR (S k) = 0) by (rewrite pow_i by lia; unfold Rdiv; ring).
  replace (C / INR (S k) * t ^ S k) with (C * t ^ S k / INR (S k)) by (unfold Rdiv; ring).
  apply Rabs_le. split.
  - enough (- g t <= C * t ^ S k / INR (S k)) by lra.
    apply (mono (fun t => - g t) (fun t => C * t ^ S k / INR (S k)) (fun t => - g' t) (fun t => C * t ^ k) t); [lra| | | |rewrite G0, Z; lra].
    + intros s Hs. apply (derivable_pt_lim_opp g). apply D. lra.
    + intros s Hs. apply pow_lim.
    + intros s Hs. pose proof (B s ltac:(lra)) as Bs. unfold Rabs in Bs; destruct (Rcase_abs (g' s)); lra.
  - apply (mono g (fun t => C * t ^ S k / INR (S k)) g' (fun t => C * t ^ k) t); [lra| | | |rewrite G0, Z; lra].
    + intros s Hs. apply D. lra.
    + intros s Hs. apply pow_lim.
    + intros s Hs. pose proof (B s ltac:(lra)) as Bs. unfold Rabs in Bs; destruct (Rcase_abs (g' s)); lra.
Qed.
Lemma inner (f : R -> R) c t l : derivable_pt_lim f (c * t) l -> derivable_pt_lim (fun t => f (c * t)) t (c * l).
Proof.
  intros H. eapply lim_eq; [|rewrite Rmult_comm; reflexivity].
  apply (derivable_pt_lim_comp (fun t => c * t) f t c l); [|exact H].
  eapply lim_eq; [apply (derivable_pt_lim_scal id c t 1), derivable_pt_lim_id|ring].
Qed.
(** Four values around 0 with weights. *)
Definition four (f : R -> R) (a b c d t : R) : R := a * f (2 * t) + b * f (1 * t) + c * f ((-1) * t) + d * f ((-2) * t).
Lemma four_lim f f' a b c d t : (forall s, Rabs s <= 2 * Rabs t -> derivable_pt_lim f s (f' s)) -> derivable_pt_lim (four f a b c d) t (four f' (a * 2) (b * 1) (c * (-1)) (d * (-2)) t).
Proof.
  intros H. unfold four. assert (A : forall u, Rabs u <= 2 -> derivable_pt_lim f (u * t) (f' (u * t))) by (intros u Hu; apply H; rewrite Rabs_mult; apply Rmult_le_compat_r; [apply Rabs_pos|exact Hu]).
  assert (B : forall w u, Rabs u <= 2 -> derivable_pt_lim (fun t => w * f (u * t)) t (w * u * f' (u * t))).
  { intros w u Hu. eapply lim_eq; [apply (derivable_pt_lim_scal (fun t => f (u * t)) w t (u * f' (u * t))); apply inner; apply A; exact Hu|ring]. }
  assert (a2 : forall r, -2 <= r <= 2 -> Rabs r <= 2) by (intros; apply Rabs_le; assumption).
  apply (derivable_pt_lim_plus (fun t => a * f (2 * t) + b * f (1 * t) + c * f ((-1) * t))); [apply (derivable_pt_lim_plus (fun t => a * f (2 * t) + b * f (1 * t)));
    [apply (derivable_pt_lim_plus (fun t => a * f (2 * t)))|]|]; apply B; apply a2; lra.
Qed.
Lemma stencil_close phi e M slope : 0 < e -> smooth phi (2 * e) M slope -> within (stencil (phi e) (phi (- e)) (phi (2 * e)) (phi (-2 * e)) e) (M * e ^ 4 / 18) slope.
Proof.
  intros He (d1 & d2 & d3 & d4 & d5 & D & <-).
  assert (HM : 0 <= M) by (destruct (D 0 ltac:(rewrite Rabs_R0; lra)) as (_ & _ & _ & _ & _ & B); pose proof (Rabs_pos (d5 0)); lra).
  assert (N : forall t, 0 <= t <= e -> forall s, Rabs s <= 2 * Rabs t -> Rabs s <= 2 * e) by (intros t Ht s Hs; rewrite (Rabs_right t) in Hs by lra; lra).
  assert (B5 : forall t, 0 <= t <= e -> Rabs (four d5 (-32) 8 8 (-32) t) <= 80 * M * t ^ 0).
  { intros t Ht. unfold four. assert (Q : forall u, -2 <= u <= 2 -> Rabs (d5 (u * t)) <= M).
    { intros u Hu. apply D. apply (N t Ht). rewrite Rabs_mult. apply Rmult_le_compat_r; [apply Rabs_pos|]. apply Rabs_le. exact Hu. }
    pose proof (Q 2 ltac:(lra)) as q1. pose proof (Q 1 ltac:(lra)) as q2. pose proof (Q (-1) ltac:(lra)) as q3. pose proof (Q (-2) ltac:(lra)) as q4.
    apply Rabs_le. unfold Rabs in *. repeat destruct (Rcase_abs _) in *; cbn [pow]; lra. }
  assert (B4 : forall t, 0 <= t <= e -> Rabs (four d4 (-16) 8 (-8) 16 t) <= 80 * M / INR 1 * t ^ 1).
  { apply (grow _ (four d5 (-32) 8 8 (-32)) e (80 * M) 0); [|unfold four; rewrite !Rmult_0_r; ring|exact B5]. intros t Ht.
    eapply lim_eq; [apply (four_lim d4 d5); intros s Hs; apply D; apply (N t Ht s Hs)|unfold four; ring]. }
  assert (B3 : forall t, 0 <= t <= e -> Rabs (four d3 (-8) 8 8 (-8) t) <= 80 * M / INR 1 / INR 2 * t ^ 2).
  { apply (grow _ (four d4 (-16) 8 (-8) 16) e _ 1); [|unfold four; rewrite !Rmult_0_r; ring|exact B4]. intros t Ht.
    eapply lim_eq; [apply (four_lim d3 d4); intros s Hs; apply D; apply (N t Ht s Hs)|unfold four; ring]. }
  assert (B2 : forall t, 0 <= t <= e -> Rabs (four d2 (-4) 8 (-8) 4 t) <= 80 * M / INR 1 / INR 2 / INR 3 * t ^ 3).
  { apply (grow _ (four d3 (-8) 8 8 (-8)) e _ 2); [|unfold four; rewrite !Rmult_0_r; ring|exact B3]. intros t Ht.
    eapply lim_eq; [apply (four_lim d2 d3); intros s Hs; apply D; apply (N t Ht s Hs)|unfold four; ring]. }
  assert (B1 : forall t, 0 <= t <= e -> Rabs (four d1 (-2) 8 8 (-2) t - 12 * d1 0) <= 80 * M / INR 1 / INR 2 / INR 3 / INR 4 * t ^ 4).
  { apply (grow _ (four d2 (-4) 8 (-8) 4) e _ 3); [|unfold four; rewrite !Rmult_0_r; ring|exact B2]. intros t Ht.
    eapply lim_eq; [apply (derivable_pt_lim_minus (four d1 (-2) 8 8 (-2)) (fun _ => 12 * d1 0)); [apply (four_lim d1 d2); intros s Hs; apply D; apply (N t Ht s Hs)|apply derivable_pt_lim_const]|unfold four; ring]. }
  assert (B0 : forall t, 0 <= t <= e -> Rabs (four phi (-1) 8 (-8) 1 t - 12 * d1 0 * t) <= 80 * M / INR 1 / INR 2 / INR 3 / INR 4 / INR 5 * t ^ 5).
  { apply (grow _ (fun t => four d1 (-2) 8 8 (-2) t - 12 * d1 0) e _ 4); [|unfold four; rewrite !Rmult_0_r; ring|exact B1]. intros t Ht.
    eapply lim_eq; [apply (derivable_pt_lim_minus (four phi (-1) 8 (-8) 1) (fun t => 12 * d1 0 * t)); [apply (four_lim phi d1); intros s Hs; apply D; apply (N t Ht s Hs)|]|].
    - apply (derivable_pt_lim_scal id (12 * d1 0) t 1), derivable_pt_lim_id.
    - unfold four. ring. }
  specialize (B0 e ltac:(lra)). unfold within.
  replace (stencil (phi e) (phi (- e)) (phi (2 * e)) (phi (-2 * e)) e - d1 0) with ((four phi (-1) 8 (-8) 1 e - 12 * d1 0 * e) / (12 * e)).
  2:{ unfold stencil, four. replace (1 * e) with e by ring. replace (-1 * e) with (- e) by ring. field. lra. }
  unfold Rdiv at 1. rewrite Rabs_mult, (Rabs_right (/ (12 * e))) by (apply Rle_ge, Rlt_le, Rinv_0_lt_compat; lra).
  apply (Rmult_le_reg_r (12 * e)); [lra|]. rewrite Rmult_assoc, Rinv_l, Rmult_1_r by lra. eapply Rle_trans; [exact B0|]. right. cbn [INR pow]. field.
Qed.
Lemma trial_at x step c t i : trial x step c t i = x i + c * step i.
Proof. unfold trial, update. ring. Qed.
Lemma row_value n (F : (nat -> R) -> R) x step slope eps t : reads n F ->
  fst (check_row F x step slope eps t) = Rabs (stencil (F (fun i => x i + eps * step i)) (F (fun i => x i + - eps * step i)) (F (fun i => x i + 2 * eps * step i)) (F (fun i => x i + -2 * eps * step i)) eps - slope).
Proof.
  intros HF. unfold check_row. cbn [fst]. f_equal. f_equal.
  rewrite (HF (trial x step eps t) (fun i => x i + eps * step i)) by (intros; apply trial_at).
  rewrite (HF (trial x step (- eps) _) (fun i => x i + - eps * step i)) by (intros; apply trial_at).
  rewrite (HF (trial x step (2 * eps) _) (fun i => x i + 2 * eps * step i)) by (intros; apply trial_at).
  rewrite (HF (trial x step (-2 * eps) _) (fun i => x i + -2 * eps * step i)) by (intros; apply trial_at). reflexivity.
Qed.
Lemma abs_within a b c r : within a r b -> within (Rabs (a - c)) r (Rabs (b - c)).
Proof. unfold within. intros H. eapply Rle_trans; [apply Rabs_triang_inv2|]. replace (a - c - (b - c)) with (a - b) by ring. exact H. Qed.
Lemma epsilon_pos i : 0 < epsilon i.
Proof. unfold epsilon. apply Rdiv_lt_0_compat; [lra|]. apply pow_lt. lra. Qed.
Lemma row_close n F x step slope i t M true_slope : reads n F -> smooth (fun s => F (fun j => x j + s * step j)) (2 * epsilon i) M true_slope ->
  within (fst (check_row F x step slope (epsilon i) t)) (M * epsilon i ^ 4 / 18) (Rabs (true_slope - slope)).
Proof.
  intros HF HS. rewrite (row_value n) by exact HF. apply abs_within.
  apply (stencil_close (fun s => F (fun j => x j + s * step j)) (epsilon i) M true_slope (epsilon_pos i) HS).
Qed.
Lemma smooth_less phi b b' M s : b' <= b -> smooth phi b M s -> smooth phi b' M s.
Proof. intros H (d1 & d2 & d3 & d4 & d5 & D & E). exists d1, d2, d3, d4, d5. split; [|exact E]. intros t Ht. apply D. lra. Qed.
Lemma epsilon_le lo i : (lo <= i)%nat -> epsilon i <= epsilon lo.
Proof. intros H. unfold epsilon, Rdiv. rewrite !Rmult_1_l. apply Rinv_le_contravar; [apply pow_lt; lra|]. apply Rle_pow; [lra|exact H]. Qed.
Lemma check_rows_nth F x step slope : forall idx t k i, nth_error idx k = Some i -> exists t', nth_error (check_rows F x step slope idx t) k = Some (fst (check_row F x step slope (epsilon i) t')).
Proof.
  induction idx as [|j idx IH]; intros t [|k] i H; try discriminate H; cbn [check_rows nth_error].
  - injection H as <-. exists t. reflexivity.
  - apply IH. exact H.
Qed.
Lemma check_rows_length F x step slope : forall idx t, List.length (check_rows F x step slope idx t) = List.length idx.
Proof. induction idx as [|j idx IH]; intros t; cbn [check_rows List.length]; [reflexivity|]. f_equal. apply IH. Qed.
Lemma superscripts_nth lo hi k : (k <= hi - lo)%nat -> (lo <= hi)%nat -> nth_error (superscripts lo hi) k = Some (lo + k)%nat.
Proof.
  intros H H'. unfold superscripts. rewrite (nth_error_nth' _ 0%nat) by (rewrite seq_length; lia). rewrite seq_nth by lia. reflexivity.
Qed.

(** ** C154: checks of criteria *)
(** Every line of the table: the error printed is the distance between the derivative that the gradient predicts and the true one, up to the error of the formula. *)
Theorem C154_rows : forall lo hi n F g x step M slope, (lo <= hi)%nat -> reads n F -> smooth (fun s => F (fun j => x j + s * step j)) (2 / 10 ^ lo) M slope ->
  List.length (test_partial lo hi n F g x step) = S (hi - lo) /\
  forall i, (lo <= i <= hi)%nat -> exists e, nth_error (test_partial lo hi n F g x step) (i - lo) = Some e /\
    within e (M * (1 / 10 ^ i) ^ 4 / 18) (Rabs (slope - rs n (fun j => g j * step j))).
Proof.
  intros lo hi n F g x step M slope Hl HF HS. unfold test_partial. split.
  - rewrite check_rows_length. unfold superscripts. rewrite seq_length. lia.
  - intros i Hi. destruct (check_rows_nth F x step (predicted n g step) (superscripts lo hi) (fun _ => 0) (i - lo) i) as [t' E].
    + rewrite superscripts_nth by lia. f_equal. lia.
    + eexists. split; [exact E|]. apply (row_close n F x step (predicted n g step) i t' M slope HF).
      apply (smooth_less _ (2 / 10 ^ lo)); [|exact HS]. pose proof (epsilon_le lo i ltac:(lia)) as L. unfold epsilon in L at 2. unfold Rdiv in *. lra.
Qed.
Print Assumptions C154_rows.
Lemma min_element_spec : forall l e, exists m, min_element (e :: l) = Ok m /\ In m (e :: l) /\ forall y, In y (e :: l) -> m <= y.
Proof.
  intros l e. cbn [min_element]. revert e. induction l as [|a l IH]; intros e; cbn [fold_left].
  - exists e. split; [reflexivity|]. split; [left; reflexivity|]. intros y [<-|[]]. lra.
  - destruct (IH (if Rlt_dec a e then a else e)) as (m & E & I & L). exists m. split; [exact E|]. split.
    + destruct I as [<-|I]; [|right; right; exact I]. destruct (Rlt_dec a e); [right; left; reflexivity|left; reflexivity].
    + intros y [<-|[<-|I']]; [| |apply L; right; exact I'].
      * pose proof (L _ (or_introl eq_refl)) as Q. destruct (Rlt_dec a e); lra.
      * pose proof (L _ (or_introl eq_refl)) as Q. destruct (Rlt_dec a e); lra.
Qed.
(** The check of a total derivative returns the smallest of its six errors: small for a right gradient, and not small for a wrong one. *)
Theorem C154_total : forall S n (solution : (nat -> R) -> S) value gradient step M slope,
  reads n (fun y => value y (solution y)) -> smooth (fun s => let y := fun j => / 2 + s * step j in value y (solution y)) (2 / 10) M slope ->
  let wrong := Rabs (slope - rs n (fun j => gradient (fun _ => / 2) (solution (fun _ => / 2)) j * step j)) in
  exists e, test_criterion n solution value gradient step = Ok e /\ e <= wrong + M * (1 / 10 ^ 6) ^ 4 / 18 /\ wrong - M * (1 / 10) ^ 4 / 18 <= e.
Proof.
  intros S n solution value gradient step M slope HF HS wrong. unfold test_criterion. cbn zeta.
  set (F := fun y => value y (solution y)). set (p := predicted n (gradient (fun _ => / 2) (solution (fun _ => / 2))) step).
  assert (HM : 0 <= M) by (destruct HS as (d1 & d2 & d3 & d4 & d5 & D & _); destruct (D 0 ltac:(rewrite Rabs_R0; lra)) as (_ & _ & _ & _ & _ & B); pose proof (Rabs_pos (d5 0)); lra).
  assert (Rw : forall i t, (1 <= i)%nat -> within (fst (check_row F (fun _ => / 2) step p (epsilon i) t)) (M * epsilon i ^ 4 / 18) wrong).
  { intros i t Hi. apply (row_close n F (fun _ => / 2) step p i t M slope HF). apply (smooth_less _ (2 / 10)); [|exact HS].
    pose proof (epsilon_le 1 i Hi) as L. unfold epsilon in L at 2. cbn [pow] in L. lra. }
  set (l := check_rows F (fun _ => / 2) step p (superscripts 1 6) (fun _ => 0)).
  assert (A : forall k i, nth_error (superscripts 1 6) k = Some i -> exists t', nth_error l k = Some (fst (check_row F (fun _ => / 2) step p (epsilon i) t'))) by (intros; apply check_rows_nth; assumption).
  assert (Ll : List.length l = 6%nat) by apply check_rows_length.
  destruct l as [|e0 l0] eqn:El; [discriminate Ll|]. destruct (min_element_spec l0 e0) as (m & Em & Im & Lm). exists m. split; [exact Em|]. split.
  - destruct (A 5%nat 6%nat eq_refl) as (t' & E). pose proof (Lm _ (nth_error_In _ _ E)) as Q. pose proof (Rw 6%nat t' ltac:(lia)) as W. unfold within, epsilon in W.
    unfold epsilon in Q. unfold Rabs in W; destruct (Rcase_abs _) in W; lra.
  - apply In_nth_error in Im. destruct Im as [k Ek].
    assert (Hk : (k < 6)%nat) by (rewrite <- Ll; apply nth_error_Some; congruence).
    destruct (A k (1 + k)%nat) as (t' & E); [apply superscripts_nth; lia|]. rewrite E in Ek. assert (SI : forall a b : R, Some a = Some b -> a = b) by congruence. apply SI in Ek. pose proof (Rw (1 + k)%nat t' ltac:(lia)) as W. unfold within in W. rewrite Ek in W.
    assert (P : M * epsilon (1 + k) ^ 4 / 18 <= M * (1 / 10) ^ 4 / 18).
    { unfold Rdiv at 1 2. apply Rmult_le_compat_r; [lra|]. apply Rmult_le_compat_l; [exact HM|]. apply pow_incr. split; [apply Rlt_le, epsilon_pos|]. pose proof (epsilon_le 1 (1 + k) ltac:(lia)) as L. unfold epsilon in *. cbn [pow] in L. rewrite Rmult_1_r in L. exact L. }
    unfold Rabs in W; destruct (Rcase_abs _) in W; lra.
Qed.
Print Assumptions C154_total.
(** A table of zeros does not mean that the gradient is right: only its component along the step is seen. *)
Theorem C154_direction_refuted : ~ (forall lo hi n F g x step, (lo <= hi)%nat -> reads n F -> (forall i, 0 < step i) -> (forall e, In e (test_partial lo hi n F g x step) -> e = 0) ->
  forall k, (k < n)%nat -> derivable_pt_lim (fun t => F (fun j => if Nat.eqb j k then x j + t else x j)) 0 (g k)).
Proof.
  intros H.
  pose (F := fun y : nat -> R => y 0%nat + y 1%nat). pose (g := fun j : nat => if Nat.eqb j 0 then 2 else 0).
  assert (HF : reads 2 F) by (intros y y' E; unfold F; rewrite (E 0%nat), (E 1%nat) by lia; reflexivity).
  specialize (H 1%nat 1%nat 2%nat F g (fun _ => 0) (fun _ => 1) ltac:(lia) HF ltac:(intros; lra)).
  assert (Z : forall e, In e (test_partial 1 1 2 F g (fun _ => 0) (fun _ => 1)) -> e = 0).
  { intros e [<-|[]]. rewrite (row_value 2) by exact HF. unfold F, g, stencil, predicted, epsilon. cbn.
    match goal with |- Rabs ?a = 0 => replace a with 0 by field end. apply Rabs_R0. }
  specialize (H Z 0%nat ltac:(lia)). unfold F, g in H. cbn in H.
  assert (D : derivable_pt_lim (fun t : R => 0 + t + 0) 0 1).
  { apply (scal_ext id); [intros t; unfold id; ring|apply derivable_pt_lim_id]. }
  pose proof (uniqueness_limite _ _ _ _ H D) as E. lra.
Qed.
Print Assumptions C154_direction_refuted.
Example C154_nonvacuous : reads 1 (fun y : nat -> R => y 0%nat ^ 2) /\ smooth (fun s => (/ 2 + s * 1) ^ 2) (2 / 10) 0 1.
Proof.
  split; [intros y y' E; rewrite (E 0%nat) by lia; reflexivity|].
  exists (fun t => 1 + 2 * t), (fun _ => 2), (fun _ => 0), (fun _ => 0), (fun _ => 0). split; [|ring]. intros t _.
  assert (C : forall c, derivable_pt_lim (fun _ => c) t 0) by (intros c; apply derivable_pt_lim_const).
  assert (L : derivable_pt_lim (fun t => 2 * t) t 2) by (eapply lim_eq; [apply (derivable_pt_lim_scal id 2 t 1), derivable_pt_lim_id|ring]).
  repeat split; try apply C.
  - apply (scal_ext (fun s => / 4 + s + s ^ 2)); [intros s; field|]. eapply lim_eq.
    + apply (derivable_pt_lim_plus (fun s => / 4 + s) (fun s => s ^ 2)); [apply (derivable_pt_lim_plus (fun _ => / 4) id); [apply C|apply derivable_pt_lim_id]|apply derivable_pt_lim_pow].
    + cbn. ring.
  - eapply lim_eq; [apply (derivable_pt_lim_plus (fun _ => 1) (fun t => 2 * t)); [apply C|exact L]|ring].
  - rewrite Rabs_R0. lra.
Qed.

(** ** C155: checks of the vector functions of the cells *)
(** ** Specification *)
(** Entry [k] of the vector is entry [k mod m] of cell [k / m]; its predicted change is made of its derivatives and the steps of the inputs of that cell. *)
Definition prediction (m nad : nat) (ws : nat -> nat -> nat -> R) (input : nat -> nat -> nat) (step : nat -> R) (k : nat) : R :=
  rs nad (fun a => ws (k / m)%nat (k mod m) a * step (input (k / m)%nat a)).
(** A table with one line for each step size: the sum of the distances between prediction and truth of [count] entries, up to the error of the formula. *)
Definition reports (table : list R) (lo hi count : nat) (slope pred M : nat -> R) : Prop :=
  List.length table = S (hi - lo) /\
  forall i, (lo <= i <= hi)%nat -> exists e, nth_error table (i - lo) = Some e /\
    within e (rs count M * (1 / 10 ^ i) ^ 4 / 18) (rs count (fun k => Rabs (slope k - pred k))).
(** A vector function of [n] numbers with [L] entries. *)
Definition vector_function (n L : nat) (V : (nat -> R) -> list R) : Prop := reads n V /\ forall y, List.length (V y) = L.
Definition entry (V : (nat -> R) -> list R) (k : nat) (y : nat -> R) : R := nth k (V y) 0.
(** ** Lemmas *)
Lemma block_nth {A : Type} (f : nat -> nat -> A) rows : forall n s c r, (c < n)%nat -> (r < rows)%nat ->
  nth_error (flat_map (fun c => map (f c) (seq 0 rows)) (seq s n)) (c * rows + r) = Some (f (s + c)%nat r).
Proof.
  induction n as [|n IH]; intros s c r Hc Hr; [lia|]. cbn [seq flat_map]. destruct c as [|c].
  - rewrite nth_error_app1 by (rewrite map_length, seq_length; lia). cbn [Nat.mul Nat.add]. rewrite nth_error_map, (nth_error_nth' _ 0%nat) by (rewrite seq_length; lia).
    rewrite seq_nth by lia. cbn [option_map]. rewrite Nat.add_0_r. reflexivity.
  - rewrite nth_error_app2 by (rewrite map_length, seq_length; cbn [Nat.mul]; lia). rewrite map_length, seq_length. replace (S c * rows + r - rows)%nat with (c * rows + r)%nat by (cbn [Nat.mul]; lia).
    rewrite IH by lia. f_equal. f_equal. lia.
Qed.
Lemma block_length {A : Type} (f : nat -> nat -> A) rows : forall n s, List.length (flat_map (fun c => map (f c) (seq 0 rows)) (seq s n)) = (n * rows)%nat.
Proof. induction n as [|n IH]; intros s; cbn [seq flat_map]; [reflexivity|]. rewrite app_length, map_length, seq_length, IH. cbn [Nat.mul]. lia. Qed.
Lemma fold_rs (g : nat -> R) : forall n a, fold_left (fun acc j => acc + g j) (seq 0 n) a = a + rs n g.
Proof. induction n as [|n IH]; intros a; [cbn; ring|]. rewrite seq_S, fold_left_app, IH. cbn [fold_left Nat.add]. unfold rs. cbn [sum]. change (@radd R_ring) with Rplus. ring. Qed.
Lemma fold_pair (g : nat -> nat -> R) q : forall n a, fold_left (fun x d => (fst x + g (snd x) d, S (snd x))) (seq 0 n) (a, q) = (a + rs n (fun d => g (q + d)%nat d), (q + n)%nat).
Proof.
  induction n as [|n IH]; intros a; [cbn; f_equal; [ring|lia]|]. rewrite seq_S, fold_left_app, IH. cbn [fold_left fst snd Nat.add]. unfold rs. cbn [sum]. change (@radd R_ring) with Rplus. f_equal; [ring|lia].
Qed.
Lemma fold_nodes (g : nat -> nat -> nat -> R) dpn : forall n, fold_left (fun acc k => fold_left (fun x d => (fst x + g (snd x) k d, S (snd x))) (seq 0 dpn) acc) (seq 0 n) (0, 0%nat) =
  (rs n (fun k => rs dpn (fun d => g (k * dpn + d)%nat k d)), (n * dpn)%nat).
Proof.
  induction n as [|n IH]; [reflexivity|]. rewrite seq_S, fold_left_app, IH. cbn [fold_left Nat.add]. rewrite (fold_pair (fun q d => g q n d)). f_equal. cbn [Nat.mul]. lia.
Qed.
Lemma div_block m c r : (r < m)%nat -> ((c * m + r) / m = c /\ (c * m + r) mod m = r)%nat.
Proof. intros H. split; [rewrite Nat.div_add_l by lia; rewrite Nat.div_small by exact H; lia|rewrite Nat.add_comm, Nat.mod_add by lia; apply Nat.mod_small; exact H]. Qed.
Lemma split_index m n k : (k < n * m)%nat -> exists c r, (c < n)%nat /\ (r < m)%nat /\ k = (c * m + r)%nat.
Proof.
  intros H. exists (k / m)%nat, (k mod m). assert (m <> 0)%nat by lia. split; [apply Nat.div_lt_upper_bound; lia|]. split; [apply Nat.mod_upper_bound; assumption|]. rewrite (Nat.div_mod k m) at 1 by assumption. lia.
Qed.
Lemma local_mv_at n m ws v k : (k < n * m)%nat -> nth_error (local_mv n m ws v) k = Some (prediction m m ws (fun c j => c * m + j)%nat v k).
Proof.
  intros H. destruct (split_index m n k H) as (c & r & Hc & Hr & ->). unfold local_mv.
  rewrite (block_nth (fun c r => fold_left (fun acc j => acc + ws c r j * v (c * m + j)%nat) (seq 0 m) 0)) by assumption. cbn [Nat.add]. unfold prediction.
  destruct (div_block m c r Hr) as [-> ->]. rewrite (fold_rs (fun j => ws c r j * v (c * m + j)%nat)), Rplus_0_l. reflexivity.
Qed.
Lemma control_mv_at n m nad ws ord v k : (k < n * m)%nat -> nth_error (control_mv n m nad ws ord v) k = Some (prediction m nad ws ord v k).
Proof.
  intros H. destruct (split_index m n k H) as (c & r & Hc & Hr & ->). unfold control_mv.
  rewrite (block_nth (fun c r => fold_left (fun acc a => acc + ws c r a * v (ord c a)) (seq 0 nad) 0)) by assumption. cbn [Nat.add]. unfold prediction.
  destruct (div_block m c r Hr) as [-> ->]. rewrite (fold_rs (fun a => ws c r a * v (ord c a))), Rplus_0_l. reflexivity.
Qed.
Lemma global_mv_at n m nnodes dpn ws ord v k : (0 < dpn)%nat -> (k < n * m)%nat ->
  nth_error (global_mv n m nnodes dpn ws ord v) k = Some (prediction m (nnodes * dpn) ws (fun c a => ord c (a / dpn)%nat (a mod dpn)) v k).
Proof.
  intros Hd H. destruct (split_index m n k H) as (c & r & Hc & Hr & ->). unfold global_mv.
  rewrite (block_nth (fun c r => fst (fold_left (fun acc k => fold_left (fun a d => (fst a + ws c r (snd a) * v (ord c k d), S (snd a))) (seq 0 dpn) acc) (seq 0 nnodes) (0, 0%nat)))) by assumption.
  cbn [Nat.add]. unfold prediction. destruct (div_block m c r Hr) as [-> ->]. rewrite (fold_nodes (fun q k d => ws c r q * v (ord c k d))). cbn [fst]. f_equal.
  unfold rs. rewrite (sum_block (K := R_ring)). apply (sum_ext (K := R_ring)). intros i Hi. apply (sum_ext (K := R_ring)). intros d Hdd. destruct (div_block dpn i d Hdd) as [-> ->]. reflexivity.
Qed.
Lemma errors_ok p1 m1 p2 m2 slopes eps : forall count, (count <= List.length p1)%nat -> (count <= List.length m1)%nat -> (count <= List.length p2)%nat -> (count <= List.length m2)%nat -> (count <= List.length slopes)%nat ->
  exists es, errors count p1 m1 p2 m2 slopes eps = Ok es /\ List.length es = count /\
    fold_left Rplus es 0 = rs count (fun k => Rabs (stencil (nth k p1 0) (nth k m1 0) (nth k p2 0) (nth k m2 0) eps - nth k slopes 0)).
Proof.
  induction count as [|k IH]; intros H1 H2 H3 H4 H5; [exists []; repeat split|]. destruct IH as (es & E & L & F); [lia..|]. cbn [errors]. rewrite E. cbn [rbind].
  rewrite !(nth_error_nth' _ 0) by lia. eexists. split; [reflexivity|]. split; [rewrite app_length; cbn; lia|]. rewrite fold_left_app, F. reflexivity.
Qed.
Lemma errors_short p1 m1 p2 m2 slopes eps : forall count, (List.length p1 < count)%nat -> errors count p1 m1 p2 m2 slopes eps = UB \/ exists k es, errors k p1 m1 p2 m2 slopes eps = Ok es /\ (List.length p1 = k)%nat /\ errors count p1 m1 p2 m2 slopes eps = UB.
Proof.
  induction count as [|k IH]; intros H; [lia|]. destruct (Nat.eq_dec (List.length p1) k) as [E|E].
  - left. cbn [errors]. destruct (errors k p1 m1 p2 m2 slopes eps) as [es| |] eqn:Q; cbn [rbind]; [| |reflexivity].
    + rewrite (proj2 (nth_error_None p1 k)) by lia. reflexivity.
    + exfalso. clear -Q. revert Q. induction k as [|j IH]; [discriminate|]. cbn [errors]. destruct (errors j p1 m1 p2 m2 slopes eps); cbn [rbind]; [|intros _; apply IH; reflexivity|discriminate].
      repeat destruct (nth_error _ _); discriminate.
  - left. destruct IH as [U|(j & es & _ & _ & U)]; [lia| |]; cbn [errors]; rewrite U; reflexivity.
Qed.
Lemma within_sum n (f g r : nat -> R) : (forall k, (k < n)%nat -> within (f k) (r k) (g k)) -> within (rs n f) (rs n r) (rs n g).
Proof.
  unfold within, rs. induction n as [|n IH]; intros H; [cbn; rewrite Rminus_0_r, Rabs_R0; lra|]. cbn [sum]. change (@radd R_ring) with Rplus.
  pose proof (IH ltac:(intros k Hk; apply H; lia)) as A. pose proof (H n ltac:(lia)) as B.
  replace (sum (K := R_ring) n f + f n - (sum (K := R_ring) n g + g n)) with ((sum (K := R_ring) n f - sum (K := R_ring) n g) + (f n - g n)) by ring.
  eapply Rle_trans; [apply Rabs_triang|]. lra.
Qed.
Lemma vector_row_close n L V x step slopes count i t (M slope : nat -> R) : vector_function n L V -> List.length slopes = L -> (0 < count <= L)%nat ->
  (forall k, (k < count)%nat -> smooth (fun s => entry V k (fun j => x j + s * step j)) (2 * epsilon i) (M k) (slope k)) ->
  exists e t', vector_row V x step slopes count (epsilon i) t = Ok (e, t') /\ within e (rs count M * epsilon i ^ 4 / 18) (rs count (fun k => Rabs (slope k - nth k slopes 0))).
Proof.
  intros [HV HL] Ls Hc HS. unfold vector_row.
  set (t1 := trial x step (epsilon i) t). set (t2 := trial x step (- epsilon i) t1). set (t3 := trial x step (2 * epsilon i) t2). set (t4 := trial x step (-2 * epsilon i) t3).
  destruct (errors_ok (V t1) (V t2) (V t3) (V t4) slopes (epsilon i) count) as (es & E & Le & F); [rewrite ?HL; lia..|]. rewrite E. cbn [rbind]. unfold local_sum.
  destruct es as [|e0 es]; [cbn in Le; lia|]. cbn [rbind]. eexists. eexists. split; [reflexivity|]. rewrite F.
  replace (rs count M * epsilon i ^ 4 / 18) with (rs count (fun k => M k * epsilon i ^ 4 / 18)).
  2:{ unfold rs. rewrite (sum_ext (K := R_ring) _ _ (fun k => (epsilon i ^ 4 / 18) * M k)) by (intros; unfold Rdiv; req; ring). rewrite (sum_scal_l (K := R_ring)). change (@rmul R_ring) with Rmult. unfold Rdiv. ring. }
  apply within_sum. intros k Hk.
  assert (HF : reads n (entry V k)) by (intros y y' Ey; unfold entry; rewrite (HV y y' Ey); reflexivity).
  pose proof (row_close n (entry V k) x step (nth k slopes 0) i t (M k) (slope k) HF (HS k Hk)) as W. exact W.
Qed.
Lemma vector_rows_close n L V x step slopes count (M slope : nat -> R) lo : vector_function n L V -> List.length slopes = L -> (0 < count <= L)%nat ->
  (forall k, (k < count)%nat -> smooth (fun s => entry V k (fun j => x j + s * step j)) (2 / 10 ^ lo) (M k) (slope k)) ->
  forall idx t, (forall i, In i idx -> (lo <= i)%nat) -> exists table, vector_rows V x step slopes count idx t = Ok table /\ List.length table = List.length idx /\
    forall k i, nth_error idx k = Some i -> exists e, nth_error table k = Some e /\ within e (rs count M * epsilon i ^ 4 / 18) (rs count (fun k => Rabs (slope k - nth k slopes 0))).
Proof.
  intros HV Ls Hc HS. induction idx as [|i idx IH]; intros t Hi; cbn [vector_rows].
  - exists []. repeat split. intros [|k] i E; discriminate E.
  - destruct (vector_row_close n L V x step slopes count i t M slope HV Ls Hc) as (e & t' & E & W).
    { intros k Hk. apply (smooth_less _ (2 / 10 ^ lo)); [|apply HS; exact Hk]. pose proof (epsilon_le lo i (Hi i (or_introl eq_refl))) as Q. unfold epsilon in Q at 2. unfold Rdiv in *. lra. }
    destruct (IH t') as (table & Et & Lt & Ht); [intros j Hj; apply Hi; right; exact Hj|]. rewrite E. cbn [rbind snd fst]. rewrite Et. cbn [rbind]. eexists. split; [reflexivity|]. split; [cbn; congruence|].
    intros [|k] j Ej; [injection Ej as <-; exists e; split; [reflexivity|exact W]|]. apply Ht. exact Ej.
Qed.
Lemma vector_rows_reports n L V x step slopes count (M slope pred : nat -> R) lo hi : vector_function n L V -> List.length slopes = L -> (0 < count <= L)%nat -> (lo <= hi)%nat ->
  (forall k, (k < L)%nat -> nth_error slopes k = Some (pred k)) ->
  (forall k, (k < count)%nat -> smooth (fun s => entry V k (fun j => x j + s * step j)) (2 / 10 ^ lo) (M k) (slope k)) ->
  exists table, vector_rows V x step slopes count (superscripts lo hi) (fun _ => 0) = Ok table /\ reports table lo hi count slope pred M.
Proof.
  intros HV Ls Hc Hlh Hp HS.
  destruct (vector_rows_close n L V x step slopes count M slope lo HV Ls Hc HS (superscripts lo hi) (fun _ => 0)) as (table & E & Lt & Ht).
  - intros i Hi. unfold superscripts in Hi. apply in_seq in Hi. lia.
  - exists table. split; [exact E|]. split; [rewrite Lt; unfold superscripts; rewrite seq_length; lia|]. intros i Hi.
    destruct (Ht (i - lo)%nat i) as (e & Ee & W); [rewrite superscripts_nth by lia; f_equal; lia|]. exists e. split; [exact Ee|].
    assert (Q : rs count (fun k => Rabs (slope k - nth k slopes 0)) = rs count (fun k => Rabs (slope k - pred k))).
    { apply (sum_ext (K := R_ring)). intros k Hk. f_equal. f_equal. apply nth_error_nth. apply Hp. lia. }
    rewrite <- Q. exact W.
Qed.

(** The checks with respect to the local states, the previous local states and the controls compare every entry. *)
Theorem C155_local : forall z n V ws x step M slope, let L := (z_cells z * z_local z)%nat in
  vector_function n L V -> (0 < L)%nat -> (forall k, (k < L)%nat -> smooth (fun s => entry V k (fun j => x j + s * step j)) (2 / 10) (M k) (slope k)) ->
  exists table, test_local z V ws x step = Ok table /\ reports table 1 6 L slope (prediction (z_local z) (z_local z) ws (fun c j => c * z_local z + j)%nat step) M.
Proof.
  intros z n V ws x step M slope L HV HL HS. apply (vector_rows_reports n L); try assumption; try lia.
  - unfold local_mv. rewrite (block_length (fun c r => fold_left (fun acc j => acc + ws c r j * step (c * z_local z + j)%nat) (seq 0 (z_local z)) 0)). reflexivity.
  - intros k Hk. apply local_mv_at. exact Hk.
  - cbn [pow]. rewrite Rmult_1_r. exact HS.
Qed.
Print Assumptions C155_local.
Theorem C155_previous_local : forall z n V ws x step M slope, let L := (z_cells z * z_local z)%nat in
  vector_function n L V -> (0 < L)%nat -> (forall k, (k < L)%nat -> smooth (fun s => entry V k (fun j => x j + s * step j)) 2 (M k) (slope k)) ->
  exists table, test_prev_local z V ws x step = Ok table /\ reports table 0 4 L slope (prediction (z_local z) (z_local z) ws (fun c j => c * z_local z + j)%nat step) M.
Proof.
  intros z n V ws x step M slope L HV HL HS. apply (vector_rows_reports n L); try assumption; try lia.
  - unfold local_mv. rewrite (block_length (fun c r => fold_left (fun acc j => acc + ws c r j * step (c * z_local z + j)%nat) (seq 0 (z_local z)) 0)). reflexivity.
  - intros k Hk. apply local_mv_at. exact Hk.
  - cbn [pow]. unfold Rdiv. rewrite Rinv_1, Rmult_1_r. exact HS.
Qed.
Print Assumptions C155_previous_local.
Theorem C155_control : forall z n V ws ord x step M slope, let L := (z_cells z * z_local z)%nat in
  vector_function n L V -> (0 < L)%nat -> (forall k, (k < L)%nat -> smooth (fun s => entry V k (fun j => x j + s * step j)) (2 / 10) (M k) (slope k)) ->
  exists table, test_control z V ws ord x step = Ok table /\ reports table 1 6 L slope (prediction (z_local z) (z_nodes z) ws ord step) M.
Proof.
  intros z n V ws ord x step M slope L HV HL HS. apply (vector_rows_reports n L); try assumption; try lia.
  - unfold control_mv. rewrite (block_length (fun c r => fold_left (fun acc a => acc + ws c r a * step (ord c a)) (seq 0 (z_nodes z)) 0)). reflexivity.
  - intros k Hk. apply control_mv_at. exact Hk.
  - cbn [pow]. rewrite Rmult_1_r. exact HS.
Qed.
Print Assumptions C155_control.
(** The checks with respect to the global states compare as many entries as there are global degrees of freedom: *)
Definition global_inputs (z : sizes) (ord : nat -> nat -> nat -> nat) (c a : nat) : nat := ord c (a / z_dofs z)%nat (a mod z_dofs z).
Theorem C155_global_partial : forall z n V ws ord x step M slope, let L := (z_cells z * z_local z)%nat in let count := (z_verts z * z_dofs z)%nat in
  vector_function n L V -> (0 < count <= L)%nat -> (forall k, (k < count)%nat -> smooth (fun s => entry V k (fun j => x j + s * step j)) (2 / 10) (M k) (slope k)) ->
  exists table, test_global z V ws ord x step = Ok table /\ reports table 1 6 count slope (prediction (z_local z) (z_nodes z * z_dofs z) ws (global_inputs z ord) step) M.
Proof.
  intros z n V ws ord x step M slope L count HV HL HS. apply (vector_rows_reports n L); try assumption; try lia.
  - unfold global_mv. rewrite (block_length (fun c r => fst (fold_left (fun acc k => fold_left (fun a d => (fst a + ws c r (snd a) * step (ord c k d), S (snd a))) (seq 0 (z_dofs z)) acc) (seq 0 (z_nodes z)) (0, 0%nat)))). reflexivity.
  - intros k Hk. apply global_mv_at; [unfold count in HL; lia|exact Hk].
  - cbn [pow]. rewrite Rmult_1_r. exact HS.
Qed.
Print Assumptions C155_global_partial.
(** with fewer entries than that they read outside the vectors, *)
Theorem C155_global_undefined : forall z n V ws ord x step, vector_function n (z_cells z * z_local z) V -> (z_cells z * z_local z < z_verts z * z_dofs z)%nat -> test_global z V ws ord x step = UB.
Proof.
  intros z n V ws ord x step [_ HL] H. unfold test_global. change (superscripts 1 6) with (1%nat :: seq 2 5). cbn [vector_rows]. unfold vector_row.
  match goal with |- context [errors ?c ?a ?b ?p ?q ?s ?e] => destruct (errors_short a b p q s e c) as [U|(? & ? & _ & _ & U)] end; [rewrite HL; exact H|rewrite U; reflexivity..].
Qed.
Print Assumptions C155_global_undefined.
(** and with more they do not see the rest: on one triangle (plasticity, three global and ten local degrees of freedom) the last entry is not checked. *)
Definition one_triangle : sizes := mkSizes 1 3 3 10 3.
Theorem C155_global_refuted : ~ (forall z n V ws ord x step slope, let L := (z_cells z * z_local z)%nat in vector_function n L V ->
  (forall k, (k < L)%nat -> smooth (fun s => entry V k (fun j => x j + s * step j)) (2 / 10) 0 (slope k)) ->
  forall table, test_global z V ws ord x step = Ok table -> (forall e, In e table -> e = 0) ->
  forall k, (k < L)%nat -> prediction (z_local z) (z_nodes z * z_dofs z) ws (global_inputs z ord) step k = slope k).
Proof.
  intros H. pose (V := fun _ : nat -> R => repeat 0 10). pose (ws := fun _ r _ : nat => if Nat.eqb r 9 then 1 else 0). pose (ord := fun _ k d : nat => (k * 3 + d)%nat).
  assert (HV : vector_function 9 10 V) by (split; [intros y y' _; reflexivity|reflexivity]).
  assert (E0 : forall k y, entry V k y = 0) by (intros k y; unfold entry, V; do 11 (destruct k as [|k]; [reflexivity|]); reflexivity).
  assert (HS : forall k, smooth (fun s => entry V k (fun _ => 0 + s * 1)) (2 / 10) 0 0).
  { intros k. exists (fun _ => 0), (fun _ => 0), (fun _ => 0), (fun _ => 0), (fun _ => 0). split; [|reflexivity]. intros t _.
    assert (C : derivable_pt_lim (fun _ => 0) t 0) by apply derivable_pt_lim_const. repeat split; try exact C; [|rewrite Rabs_R0; lra].
    apply (scal_ext (fun _ => 0)); [intros s; symmetry; apply E0|exact C]. }
  destruct (C155_global_partial one_triangle 9 V ws ord (fun _ => 0) (fun _ => 1) (fun _ => 0) (fun _ => 0) HV ltac:(cbn; lia) (fun k _ => HS k)) as (table & E & Lt & Rt).
  assert (P : forall k, (k < 9)%nat -> prediction 10 9 ws (global_inputs one_triangle ord) (fun _ => 1) k = 0).
  { intros k Hk. unfold prediction. rewrite Nat.mod_small by lia. unfold ws. destruct (Nat.eqb_spec k 9) as [|_]; [lia|]. apply rsum_0. intros i _. ring. }
  specialize (H one_triangle 9%nat V ws ord (fun _ => 0) (fun _ => 1) (fun _ => 0) HV (fun k _ => HS k) table E).
  assert (Z : forall e, In e table -> e = 0).
  { intros e He. apply In_nth_error in He. destruct He as [j Ej]. assert (Hj : (j < 6)%nat) by (rewrite <- (Lt : _ = 6%nat); apply nth_error_Some; congruence).
    destruct (Rt (1 + j)%nat ltac:(lia)) as (e' & Ee & W). replace (1 + j - 1)%nat with j in Ee by lia. rewrite Ej in Ee. injection Ee as <-.
    assert (Q1 : rs 9 (fun _ => 0) = 0) by (apply (sum_0 (K := R_ring)); reflexivity).
    assert (Q2 : rs 9 (fun k => Rabs (0 - prediction 10 9 ws (global_inputs one_triangle ord) (fun _ => 1) k)) = 0).
    { apply (sum_0 (K := R_ring)). intros i Hi. rewrite P by exact Hi. req. rewrite Rminus_0_r. apply Rabs_R0. }
    unfold within in W. cbn [one_triangle z_verts z_dofs z_local z_nodes Nat.mul Nat.add] in W. rewrite Q1, Q2 in W. unfold Rdiv in W. rewrite !Rmult_0_l, Rminus_0_r in W.
    unfold Rabs in W. destruct (Rcase_abs e); lra. }
  specialize (H Z 9%nat ltac:(cbn; lia)).
  assert (Q : prediction 10 9 ws (global_inputs one_triangle ord) (fun _ => 1) 9 = 9).
  { unfold prediction, ws. cbn. ring. }
  cbn [one_triangle z_verts z_dofs z_local z_nodes Nat.mul Nat.add] in H. rewrite Q in H. lra.
Qed.
Print Assumptions C155_global_refuted.
Example C155_nonvacuous : let z := mkSizes 1 4 4 14 4 in (z_cells z * z_local z < z_verts z * z_dofs z)%nat /\ vector_function 1 2 (fun y => [y 0%nat; 3 * y 0%nat]).
Proof. split; [cbn; lia|]. split; [intros y y' E; rewrite (E 0%nat) by lia; reflexivity|reflexivity]. Qed.
