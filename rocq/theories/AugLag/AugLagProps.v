(** C93: augmented Lagrangian stress criteria. *)
From Coq Require Import Reals List Arith Lia Lra Psatz Permutation.
From Coquelicot Require Import Coquelicot.
From Verif Require Import Base.Field Base.Sums Penalty.PenaltyModel Penalty.PenaltyProps Element.ElementModel LevelSet.LevelSetProof AugLag.AugLagModel AugLag.AugLagSpec AugLag.AugLagProof.
Import ListNotations.
Local Open Scope R_scope.

(** C93, value: each cell contributes its mass term plus the textbook Lagrangian of its violation. *)
Theorem C93_value v p n lam mu w ws rho norm m z mass : sane p -> 0 < mu -> 0 <= lam ->
  cell_result plain v n (p_limit p) lam mu w ws rho norm m (simp (p_simp p) z) mass =
  match v with Stress => w * rho * mass / norm | General => w * (mass * rho / norm) | Quadratic => 0 end
  + match v with General => ws | _ => 1 end * (1 / INR n) * (lam * violation v p m z + mu / 2 * (violation v p m z) ^ 2).
Proof.
  intros Hs Hmu Hlam. unfold cell_result. cbv zeta. rewrite (constraint_violation v p m z) by apply Hs. pose proof (violation_nonneg v p m z Hs) as V.
  set (g := violation v p m z) in *. assert (NB : -1 * lam / mu <= 0) by (unfold Rdiv; pose proof (Rinv_0_lt_compat mu Hmu); nra).
  destruct v; cbn [sadd smul sc sdivc plain]; unfold lagrangian; cbn [sadd smul sc sdivc sgt plain]; [|unfold Rdiv; ring|unfold Rdiv; ring].
  unfold rgt. destruct (Rlt_dec (-1 * lam / mu) g) as [H|H]; [unfold Rdiv; ring|].
  assert (E : g = 0) by lra. assert (E2 : -1 * lam / mu = 0) by lra. rewrite E2, E. unfold Rdiv. ring.
Qed.
(** ... and a cell's constraint contribution vanishes exactly when the cell satisfies its limit; the quadratic criterion is never negative and is zero exactly for a feasible design. *)
Theorem C93_feasible p n s c : sane p -> started s ->
  0 <= quadratic_value p n s c /\ (quadratic_value p n s c = 0 <-> forall i, (i < n)%nat -> c_measure c i <= p_limit p).
Proof.
  intros Hs [Hmu Hlam]. unfold quadratic_value.
  set (t := fun i => (1 / INR n) * (s_lam s i * violation Quadratic p (c_measure c i) (c_density c i) + s_mu s / 2 * (violation Quadratic p (c_measure c i) (c_density c i)) ^ 2)).
  assert (E : sum (K := R_ring) n (fun i => cell_result plain Quadratic n (p_limit p) (s_lam s i) (s_mu s) 0 0 0 1 (c_measure c i) (simp (p_simp p) (c_density c i)) 0) = sum (K := R_ring) n t).
  { apply (sum_ext (K := R_ring)). intros i Hi. rewrite C93_value; [|exact Hs|exact Hmu|apply Hlam]. change (0 + 1 * (1 / INR n) * (s_lam s i * violation Quadratic p (c_measure c i) (c_density c i) + s_mu s / 2 * violation Quadratic p (c_measure c i) (c_density c i) ^ 2) = t i). unfold t. ring. }
  rewrite E.
  assert (P : forall i, (i < n)%nat -> 0 < 1 / INR n) by (intros i Hi; apply Rdiv_lt_0_compat; [lra|apply lt_0_INR; lia]).
  assert (T0 : forall i, (i < n)%nat -> 0 <= t i).
  { intros i Hi. unfold t. specialize (P i Hi). pose proof (violation_nonneg Quadratic p (c_measure c i) (c_density c i) Hs). specialize (Hlam i).
    set (g := violation Quadratic p (c_measure c i) (c_density c i)) in *. apply Rmult_le_pos; [lra|]. pose proof (pow2_ge_0 g). nra. }
  split; [apply rsum_nonneg; exact T0|]. split.
  - intros Z i Hi. pose proof (rsum_zero n t T0 Z i Hi) as Zi. unfold t in Zi. specialize (P i Hi). apply Rmult_integral in Zi. destruct Zi as [Zi|Zi]; [lra|].
    apply (violation_zero Quadratic p (c_measure c i) (c_density c i) Hs). pose proof (violation_nonneg Quadratic p (c_measure c i) (c_density c i) Hs). specialize (Hlam i).
    set (g := violation Quadratic p (c_measure c i) (c_density c i)) in *. destruct (Rle_lt_or_eq_dec 0 g H) as [G|G]; [|symmetry; exact G].
    exfalso. assert (0 < g * g) by nra. assert (0 <= s_lam s i * g) by nra. assert (0 < s_mu s * (g * g)) by nra. lra.
  - intros F. rewrite (sum_ext (K := R_ring) n t (fun _ => @r0 R_ring)); [apply (sum_0 (K := R_ring)); reflexivity|].
    intros i Hi. unfold t. rewrite (proj2 (violation_zero Quadratic p (c_measure c i) (c_density c i) Hs) (F i Hi)). change (1 / INR n * (s_lam s i * 0 + s_mu s / 2 * 0 ^ 2) = 0). ring.
Qed.

(** C93, updates: after any calls the penalty has grown geometrically up to its bound and each multiplier has accumulated penalty times violation; cells outside the block keep theirs. *)
Theorem C93_updates v p n s h : sane p -> started s ->
  s_mu (AugLagModel.updates v p n h s) = penalty_at p (s_mu s) (length h) /\
  (forall i, (i < n)%nat -> s_lam (AugLagModel.updates v p n h s) i =
     s_lam s i + sum (K := R_ring) (length h) (fun k => penalty_at p (s_mu s) k * violation v p (c_measure (call h k) i) (c_density (call h k) i))) /\
  (forall i, (n <= i)%nat -> s_lam (AugLagModel.updates v p n h s) i = s_lam s i).
Proof. intros Hp Hs. destruct (updates_spec v p n s Hp Hs h) as [A [B [C _]]]. split; [exact A|]. split; assumption. Qed.
(** ... so the data stay admissible, a multiplier never decreases, and it moves exactly when its cell violates the limit. *)
Theorem C93_monotone v p n s c : sane p -> started s -> s_mu s <= p_bound p ->
  started (AugLagModel.update v p n s c) /\ s_mu s <= s_mu (AugLagModel.update v p n s c) <= p_bound p /\
  (forall i, s_lam s i <= s_lam (AugLagModel.update v p n s c) i) /\
  (forall i, (i < n)%nat -> (s_lam (AugLagModel.update v p n s c) i = s_lam s i <-> c_measure c i <= p_limit p)).
Proof.
  intros Hp Hs HB. pose proof Hs as [Hmu Hl]. destruct Hp as [HL [H1 [H2 H3]]] eqn:EP. clear EP. assert (Hp' : sane p) by (repeat split; lra).
  assert (L : forall i, (i < n)%nat -> s_lam (AugLagModel.update v p n s c) i = s_lam s i + s_mu s * violation v p (c_measure c i) (c_density c i)).
  { intros i Hi. rewrite update_lam. apply Nat.ltb_lt in Hi. rewrite Hi. apply multiplier_step; [exact Hp'|exact Hmu|apply Hl]. }
  assert (O : forall i, (n <= i)%nat -> s_lam (AugLagModel.update v p n s c) i = s_lam s i).
  { intros i Hi. rewrite update_lam. replace (Nat.ltb i n) with false by (symmetry; apply Nat.ltb_ge; exact Hi). reflexivity. }
  assert (M : forall i, s_lam s i <= s_lam (AugLagModel.update v p n s c) i).
  { intros i. destruct (le_lt_dec n i) as [Hi|Hi]; [rewrite (O i Hi); lra|]. rewrite (L i Hi). pose proof (violation_nonneg v p (c_measure c i) (c_density c i) Hp'). nra. }
  assert (U : s_mu s <= s_mu (AugLagModel.update v p n s c) <= p_bound p).
  { rewrite update_mu. unfold update_penalty. split; [apply Rmin_glb; nra|apply Rmin_r]. }
  split; [split; [lra|intros i; specialize (M i); specialize (Hl i); lra]|]. split; [exact U|]. split; [exact M|].
  intros i Hi. rewrite (L i Hi). rewrite <- (violation_zero v p (c_measure c i) (c_density c i) Hp'). split; intros E; [apply (Rmult_eq_reg_l (s_mu s)); lra|rewrite E; ring].
Qed.

(** C93, gradients: run on automatic differentiation numbers, the cell function returns the derivative of the cell function, also at the limit where it switches branch. *)
Theorem C93_gradient v n limit lam mu w ws rho norm (m p mass : R -> R) dm dp dmass :
  0 < limit -> 0 < mu -> 0 <= lam -> norm <> 0 -> (forall e, 0 < p e) -> tracks m dm -> tracks p dp -> tracks mass dmass ->
  tracks (fun e => cell_result plain v n limit lam mu w ws rho norm (m e) (p e) (mass e)) (cell_result fad v n limit lam mu w ws rho norm dm dp dmass).
Proof. exact (tracks_result v n limit lam mu w ws rho norm m p mass dm dp dmass). Qed.

(** C93, mass multipliers of the first variant, with the default lower bound: they stay between zero and the bound used by the last call, which shrinks geometrically. *)
Theorem C93_mass_multipliers_partial p n s h c : p_mass_lower p = 0 -> 7 / 10 <= p_mass_reduce p <= 1 -> (forall i, 0 <= s_mass s i <= s_upper s) -> 0 <= s_upper s ->
  s_upper (AugLagModel.updates Stress p n (h ++ [c]) s) = s_upper s * p_mass_reduce p ^ S (length h) /\
  forall i, (i < n)%nat -> 0 <= s_mass (AugLagModel.updates Stress p n (h ++ [c]) s) i <= s_upper s * p_mass_reduce p ^ length h.
Proof. intros A B C D. destruct (mass_history p n s A B C D h c) as [E F]. split; [exact E|]. intros i Hi. destruct (F i) as [F1 F2]. split; [exact F1|exact (F2 Hi)]. Qed.
(** Nothing stops the upper bound at the lower bound: a multiplier can be driven below the user's lower bound. *)
Theorem C93_mass_lower_refuted :
  ~ forall p n s h, sane p -> started s -> 0 <= p_mass_lower p <= s_upper s -> 0 < p_mass_reduce p <= 1 -> (forall i, p_mass_lower p <= s_mass s i <= s_upper s) ->
      forall i, (i < n)%nat -> p_mass_lower p <= s_mass (AugLagModel.updates Stress p n h s) i.
Proof.
  intros H. set (p := mkParams 1 100 (105 / 100) (mkPenalty (1 / 10) 3 0 3 0) 1 (1 / 10)). set (s := mkState (1 / 10) (fun _ => 1 / 100) (fun _ => 1) 4).
  set (c := mkCells (fun _ => 0) (fun _ => 1)).
  specialize (H p 1%nat s [c; c]). assert (A : sane p) by (unfold sane, p; cbn; lra). assert (B : started s) by (split; unfold s; cbn; intros; lra).
  specialize (H A B). assert (X : 1 <= s_mass (AugLagModel.updates Stress p 1 [c; c] s) 0).
  { apply H; [unfold p, s; cbn; lra|unfold p; cbn; lra|intros i; unfold p, s; cbn; lra|lia]. }
  unfold AugLagModel.updates, AugLagModel.update in X. cbn [fold_left s_mass s_upper Nat.ltb Nat.leb] in X. unfold update_mass in X. cbn [p c s c_measure c_density p_limit p_mass_lower s_mass s_upper p_mass_reduce] in X.
  destruct (Rlt_dec 1 (0 / 1 * cpow 1 (1 / 2))) as [Y|Y]; [replace (0 / 1 * cpow 1 (1 / 2)) with 0 in Y by (unfold Rdiv; ring); lra|].
  match type of X with 1 <= Rmin ?a ?b => pose proof (Rmin_r a b) end. lra.
Qed.

(** C93, mass normalisation: for a block that is the whole mesh, the mass term of a fully dense design is exactly its weight. *)
Lemma mass_one d : (1 <= d <= 3)%nat -> cell_mass (d + 1) (cub_basis d) (fun _ => 1) = 1.
Proof.
  intros H. rewrite Nat.add_1_r, cell_mass_average by exact H. unfold cell_density. assert (d = 1 \/ d = 2 \/ d = 3)%nat as [E|[E|E]] by lia; rewrite E; cbn [sum]; change (@radd R_ring) with Rplus; change (@r0 R_ring) with 0; simpl INR; field.
Qed.
Theorem C93_mass_normalised_partial d ids weight rho vol : (1 <= d <= 3)%nat -> Permutation ids (seq 0 (length ids)) ->
  structural_mass d (length ids) rho vol <> 0 -> mass_term d ids weight rho (structural_mass d (length ids) rho vol) vol (fun _ _ => 1) = weight.
Proof.
  intros Hd P HN. set (N := structural_mass d (length ids) rho vol) in *. unfold mass_term.
  rewrite (lsum_perm (K := R_ring) _ _ (Permutation_map _ P)), (lsum_map_seq (K := R_ring)).
  transitivity (weight * / N * structural_mass d (length ids) rho vol); [|fold N; field; exact HN]. unfold structural_mass.
  pose proof (sum_scal_l (K := R_ring)) as SL. cbn [rmul R_ring rcar] in SL. rewrite <- SL. apply (sum_ext (K := R_ring)). intros i Hi.
  change (weight * (cell_mass (d + 1) (cub_basis d) (fun _ => 1) * rho * (vol i * cub_weight d) / N) = weight * / N * (cell_mass (d + 1) (cub_basis d) (fun _ => 1) * rho * vol i * cub_weight d)).
  unfold Rdiv. ring.
Qed.
(** For any other block the normalisation uses the volumes of the mesh's first cells instead of the block's. *)
Theorem C93_mass_normalised_refuted :
  ~ forall d ids weight rho vol, (1 <= d <= 3)%nat -> NoDup ids -> (forall c, 0 < vol c) -> 0 < rho ->
      mass_term d ids weight rho (structural_mass d (length ids) rho vol) vol (fun _ _ => 1) = weight.
Proof.
  intros H. specialize (H 2%nat [1%nat] 1 1 (fun c => if Nat.eqb c 0 then 1 else 2)).
  assert (X : mass_term 2 [1%nat] 1 1 (structural_mass 2 1 1 (fun c => if Nat.eqb c 0 then 1 else 2)) (fun c => if Nat.eqb c 0 then 1 else 2) (fun _ _ => 1) = 1).
  { apply H; [lia|repeat constructor; intros []|intros c; destruct (Nat.eqb c 0); lra|lra]. }
  unfold mass_term, structural_mass in X. cbn [map lsum sum Nat.eqb] in X. rewrite mass_one in X by lia. revert X. change (@radd R_ring) with Rplus. change (@r0 R_ring) with 0.
  change (cub_weight 2) with (1 / INR 2). simpl INR. intros X. 
  replace (1 * (1 * 1 * (2 * (1 / (1 + 1))) / (0 + 1 * 1 * 1 * (1 / (1 + 1)))) + 0) with 2 in X by field. lra.
Qed.

(** Instances. *)
Definition inst_params := mkParams 2 500 (3 / 2) (mkPenalty (1 / 10) 3 0 3 0) 0 (95 / 100).
Definition inst_state := mkState (1 / 4) (fun _ => 1 / 100) (fun _ => 1) 4.
Example C93_instance : sane inst_params /\ started inst_state /\ s_mu inst_state <= p_bound inst_params /\ p_mass_lower inst_params = 0 /\ 7 / 10 <= p_mass_reduce inst_params <= 1 /\
  (forall i, 0 <= s_mass inst_state i <= s_upper inst_state) /\ violation Quadratic inst_params 6 1 = 4.
Proof.
  unfold sane, started, inst_params, inst_state. cbn. split; [lra|]. split; [split; [lra|intros; lra]|]. split; [lra|]. split; [reflexivity|]. split; [lra|]. split; [intros; lra|].
  unfold violation, simp, cpow. cbn. rewrite Rmax_right by lra. destruct (Rle_dec 1 0); [lra|]. unfold Rpower. rewrite ln_1, Rmult_0_r, exp_0. field.
Qed.
Example C93_gradient_instance : tracks (fun e => 2 + e) (2, 1) /\ tracks (fun e => exp e) (1, 1) /\ forall e, 0 < exp e.
Proof.
  split; [|split; [|intros; apply exp_pos]].
  - split; [cbn; ring|]. auto_derive; [exact I|cbn; ring].
  - split; [cbn; symmetry; apply exp_0|]. auto_derive; [exact I|cbn; rewrite exp_0; ring].
Qed.
Example C93_mass_instance : Permutation [1; 0; 2]%nat (seq 0 3) /\ structural_mass 2 3 1 (fun _ => 1) <> 0.
Proof.
  split; [cbn; constructor; apply Permutation_refl || apply perm_swap|]. unfold structural_mass. cbn [sum]. rewrite mass_one by lia. change (@radd R_ring) with Rplus. change (@r0 R_ring) with 0. change (cub_weight 2) with (1 / INR 2). simpl INR. lra.
Qed.
Print Assumptions C93_value.
Print Assumptions C93_feasible.
Print Assumptions C93_updates.
Print Assumptions C93_monotone.
Print Assumptions C93_gradient.
Print Assumptions C93_mass_multipliers_partial.
Print Assumptions C93_mass_lower_refuted.
Print Assumptions C93_mass_normalised_partial.
Print Assumptions C93_mass_normalised_refuted.
