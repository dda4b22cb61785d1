(** C62, C63, C77: the algebraic rocket model and the branch-free conditional. *)
From Coq Require Import Reals List Arith ZArith Lia Lra.
From Coquelicot Require Import Coquelicot.
From Verif Require Import Rocket.RocketModel.
Import ListNotations.
Local Open Scope R_scope.

(** C62, first part.  The Jacobian is the derivative of the residual at every positive pressure. *)
Theorem C62_jacobian : forall i rate p, 0 < p -> derivable_pt_lim (residual i rate) p (jacobian i rate p).
Proof.
  intros i rate p Hp. apply is_derive_Reals. unfold residual, jacobian.
  assert (D : is_derive (fun p => Rpower p (alpha i)) p (alpha i * Rpower p (alpha i - 1))) by (apply is_derive_Reals; apply derivable_pt_lim_power; exact Hp).
  evar (l : R). replace (rate * alpha i * inv_pref_alpha i * Rpower p (alpha i - 1) - throat_area i / char_velocity i) with l.
  - apply (is_derive_minus (fun p => rate * inv_pref_alpha i * Rpower p (alpha i)) (fun p => throat_area i * p / char_velocity i)).
    + apply (is_derive_scal (fun p => Rpower p (alpha i))). exact D.
    + apply is_derive_Reals. unfold Rdiv. apply (derivable_pt_lim_ext (fun p => (throat_area i * / char_velocity i) * p)); [intros; ring|]. apply derivable_pt_lim_scal. apply derivable_pt_lim_id.
  - unfold l, minus, plus, opp, scal, mult; cbn. unfold mult; cbn. unfold Rdiv. ring.
Qed.
Print Assumptions C62_jacobian.

(** Second part.  The Newton loop makes at most max + 1 turns, and at least one. *)
Theorem C62_bounded : forall i rate p, (1 <= snd (newton i rate p) <= S (max_itr i))%nat.
Proof.
  intros i rate p. unfold newton. generalize (max_itr i). intros n. revert p. induction n as [|n IH]; intros p.
  - cbn. destruct p as [p|]; [|cbn; lia]. destruct (newton_step i rate p) as [[p' d]|]; [|cbn; lia]. destruct (Rlt_dec (Rabs d) (tol i)); cbn; lia.
  - remember (S n) as m eqn:Em. cbn [newton_loop]. destruct (match p with Some p => newton_step i rate p | None => None end) as [[p' d]|].
    + destruct (Rlt_dec (Rabs d) (tol i)); [cbn; lia|]. specialize (IH (Some p')). destruct (newton_loop i rate m (Some p')) as [q k]. cbn in *. lia.
    + specialize (IH None). destruct (newton_loop i rate m None) as [q k]. cbn in *. lia.
Qed.
Print Assumptions C62_bounded.
(** If it makes fewer turns, the last update was below the tolerance. *)
Theorem C62_converged : forall i rate p q n, newton i rate (Some p) = (q, n) -> (n <= max_itr i)%nat ->
  exists p' d, 0 < p' /\ d = - residual i rate p' / jacobian i rate p' /\ q = Some (p' + d) /\ Rabs d < tol i.
Proof.
  intros i rate p q n. unfold newton. 
  assert (H : forall left p q n, newton_loop i rate left p = (q, n) -> (n < left)%nat -> exists p' d, 0 < p' /\ d = - residual i rate p' / jacobian i rate p' /\ q = Some (p' + d) /\ Rabs d < tol i).
  { clear. intros left. induction left as [|left IH]; intros p q n E Hn; [lia|]. cbn [newton_loop] in E.
    destruct p as [p|].
    - destruct (newton_step i rate p) as [[p1 d]|] eqn:Es.
      + destruct (Rlt_dec (Rabs d) (tol i)) as [Hd|Hd].
        * injection E as <- <-. unfold newton_step in Es. destruct (Rlt_dec 0 p) as [Hp|]; [|discriminate]. destruct (Req_EM_T (jacobian i rate p) 0); [discriminate|]. injection Es as <- <-. exists p, (- residual i rate p / jacobian i rate p). repeat split; assumption.
        * destruct (newton_loop i rate left (Some p1)) as [q' n'] eqn:E'. injection E as <- <-. apply (IH _ _ _ E'). lia.
      + destruct (newton_loop i rate left None) as [q' n'] eqn:E'. injection E as <- <-. apply (IH _ _ _ E'). lia.
    - destruct (newton_loop i rate left None) as [q' n'] eqn:E'. injection E as <- <-. apply (IH _ _ _ E'). lia. }
  intros E Hn. apply (H _ _ _ _ E). lia.
Qed.
Print Assumptions C62_converged.

(** Third part.  With a positive time step the burn always ends, whatever the geometry does and whatever Newton returns; there is one entry per step from
    time 0 at spacing dt, the next step would pass the burn time (up to the tolerance), and no step before does.  Times, thrusts and pressures are the three
    columns of the rows, so they have the same length. *)
Lemma burn_times i G : forall fuel t th p g l, burn i G fuel t th p g = Some l ->
  exists n, length l = S n /\ map (fun r => fst (fst r)) l = map (fun k => t + INR k * dt i) (seq 0 (S n)) /\
    (forall k, (1 <= k <= n)%nat -> t + INR k * dt i + tol i < burn_time i) /\ burn_time i <= t + INR (S n) * dt i + tol i.
Proof.
  induction fuel as [|fuel IH]; intros t th p g l E; [discriminate|]. cbn [burn] in E. cbv zeta in E.
  match type of E with (if _ then match burn i G fuel ?a ?b ?c ?e with _ => _ end else _) = _ => set (B := burn i G fuel a b c e) in E; pose proof (IH a b c e) as IH' end. fold B in IH'. destruct (Rlt_dec (t + dt i + tol i) (burn_time i)) as [h|h].
  - destruct B as [l'|]; [|discriminate]. injection E as <-. destruct (IH' l' eq_refl) as (n & L & T & Hk & Hn). exists (S n). split; [cbn; rewrite L; reflexivity|]. split; [|split].
    + cbn [map fst]. rewrite T. change (seq 0 (S (S n))) with (0%nat :: seq 1 (S n)). rewrite <- seq_shift. cbn [map]. f_equal; [change (INR 0) with 0; ring|]. rewrite map_map. apply map_ext. intros k. rewrite S_INR. ring.
    + intros k Hk'. destruct k as [|k]; [lia|]. destruct k as [|k]; [cbn; lra|]. specialize (Hk (S k) ltac:(lia)). rewrite (S_INR (S k)). lra.
    + rewrite (S_INR (S n)). lra.
  - injection E as <-. exists 0%nat. split; [reflexivity|]. split; [cbn; f_equal; ring|]. split; [intros k Hk; lia|]. cbn. lra.
Qed.

Lemma INR_big r : exists n, r < INR n.
Proof. exists (Z.to_nat (up r)). destruct (archimed r) as [H _]. rewrite INR_IZR_INZ. destruct (Z.le_gt_cases 0 (up r)) as [h|h]; [rewrite Z2Nat.id by lia; lra|]. apply Rlt_le_trans with (IZR (up r)); [lra|]. apply IZR_le. lia. Qed.
Theorem C62_profiles : forall i G (g : geo G), 0 < dt i ->
  exists N rows, (forall fuel, (N <= fuel)%nat -> solve i G fuel g = Some rows) /\
    length rows = N /\ (1 <= N)%nat /\
    map (fun r => fst (fst r)) rows = map (fun k => INR k * dt i) (seq 0 N) /\
    (forall k, (1 <= k < N)%nat -> INR k * dt i + tol i < burn_time i) /\
    burn_time i <= INR N * dt i + tol i /\
    nth_error rows 0 = Some (0, Some 0, Some (ref_pressure i)).
Proof.
  intros i G g Hdt.
  assert (HN : exists N, forall t, 0 <= t -> burn_time i <= t + INR N * dt i + tol i).
  { destruct (INR_big ((burn_time i - tol i) / dt i)) as [N HN]. exists N. intros t Ht. assert (burn_time i - tol i < INR N * dt i); [|lra].
    apply Rmult_lt_reg_r with (/ dt i); [apply Rinv_0_lt_compat; exact Hdt|]. rewrite Rmult_assoc, Rinv_r, Rmult_1_r by lra. exact HN. }
  destruct HN as [M HM].
  assert (Hrun : forall fuel t th p gg, 0 <= t -> burn_time i <= t + INR fuel * dt i + tol i -> exists l, burn i G (S fuel) t th p gg = Some l).
  { induction fuel as [|fuel IH]; intros t th p gg Ht Hb.
    - cbn [burn]. destruct (Rlt_dec _ _) as [h|h]; [cbn in Hb; exfalso; lra|eexists; reflexivity].
    - remember (S fuel) as f eqn:Ef. cbn [burn]. cbv zeta. destruct (Rlt_dec _ _) as [h|h]; [|eexists; reflexivity].
      match goal with |- exists l, match burn i G f ?a ?b ?c ?e with _ => _ end = _ => destruct (IH a b c e) as [l El] end; [lra|rewrite Ef, S_INR in Hb; lra|]. rewrite El. eexists. reflexivity. }
  assert (Hmono : forall fuel t th p gg l, burn i G fuel t th p gg = Some l -> forall fuel', (length l <= fuel')%nat -> burn i G fuel' t th p gg = Some l).
  { induction fuel as [|fuel IH]; intros t th p gg l E fuel' Hf; [discriminate|]. cbn [burn] in E. cbv zeta in E. destruct fuel' as [|fuel']; [exfalso|].
    - destruct (Rlt_dec _ _); [|injection E as <-; cbn in Hf; lia]. match type of E with match ?B with _ => _ end = _ => destruct B; [|discriminate] end. injection E as <-. cbn in Hf. lia.
    - cbn [burn]. cbv zeta. destruct (Rlt_dec _ _); [|exact E]. match type of E with match ?B with _ => _ end = _ => destruct B as [l'|] eqn:EB; [|discriminate] end. injection E as <-. rewrite (IH _ _ _ _ _ EB fuel') by (cbn in Hf; lia). reflexivity. }
  destruct (Hrun M 0 (Some 0) (Some (ref_pressure i)) g (Rle_refl 0) (HM 0 (Rle_refl 0))) as [l El].
  destruct (burn_times i G _ _ _ _ _ _ El) as (n & L & T & Hk & Hn). exists (S n), l. split; [|split; [|split; [|split; [|split; [|split]]]]].
  - intros fuel Hf. unfold solve. apply (Hmono _ _ _ _ _ _ El). lia.
  - exact L.
  - lia.
  - rewrite T. apply map_ext. intros k. ring.
  - intros k Hk'. specialize (Hk k ltac:(lia)). lra.
  - rewrite Rplus_0_l in Hn. exact Hn.
  - cbn [burn] in El. cbv zeta in El. destruct (Rlt_dec _ _); [|injection El as <-; reflexivity]. match type of El with match ?B with _ => _ end = _ => destruct B; [|discriminate] end. injection El as <-. reflexivity.
Qed.
Print Assumptions C62_profiles.
(** Without a positive step nothing bounds the burn. *)
Theorem C62_zero_step_never_ends : forall i G (g : geo G), dt i <= 0 -> tol i < burn_time i -> forall fuel, solve i G fuel g = None.
Proof.
  intros i G g Hdt Hb fuel. unfold solve. assert (H : forall fuel t th p gg, t <= 0 -> burn i G fuel t th p gg = None); [|apply H; lra].
  clear g fuel. induction fuel as [|fuel IH]; intros t th p gg Ht; [reflexivity|]. cbn [burn]. cbv zeta. destruct (Rlt_dec _ _) as [h|h]; [|exfalso; lra]. rewrite IH by lra. reflexivity.
Qed.
Print Assumptions C62_zero_step_never_ends.

(** The default inputs (lines 88-99). *)
Definition default_inputs : inputs := mkIn (38 / 100) 3500000 (4 / 100) (15545 / 10) (101325 / 1000) (1 / 10) 10 (1 / 100000000) 1000.
Example C62_applies : 0 < dt default_inputs /\ 0 < ref_pressure default_inputs /\ tol default_inputs < burn_time default_inputs.
Proof. cbn. lra. Qed.

(** The cylinder's gradient is that of its area. *)
Theorem C62_cylinder : forall len r, cyl_gradient len r = [2 * PI * len; 2 * PI * r] /\
  derivable_pt_lim (fun r => cyl_area len r) r (nth 0 (cyl_gradient len r) 0) /\ derivable_pt_lim (fun l => cyl_area l r) len (nth 1 (cyl_gradient len r) 0).
Proof.
  intros len r. split; [reflexivity|]. cbn [nth cyl_gradient]. unfold cyl_area. split; apply is_derive_Reals; auto_derive; try exact I; ring.
Qed.
Print Assumptions C62_cylinder.
(** The balance Newton solves: mass produced by the propellant, at a burn rate scaled by (p / pref)^alpha, minus mass flow through a round throat of the given diameter.  Mass is produced at the rate the
    burning surface frees volume: evolving a cylinder over a time tau frees volume at the rate area times burn rate.  The thrust vanishes at ambient pressure and grows with the pressure. *)
Theorem C62_balance : forall i rate p, 0 < ref_pressure i -> 0 < p ->
  residual i rate p = rate * Rpower (p / ref_pressure i) (alpha i) - PI * (throat_diameter i / 2) ^ 2 * p / char_velocity i.
Proof.
  intros i rate p Hr Hp. unfold residual, inv_pref_alpha, throat_area. f_equal; [|unfold Rdiv; cbn [pow]; replace (/ 4) with (/ 2 * / 2) by field; ring].
  - rewrite Rmult_assoc. f_equal. unfold Rdiv. rewrite <- Rpower_mult_distr by (auto; apply Rinv_0_lt_compat; exact Hr). rewrite Rmult_1_l. unfold Rpower. rewrite ln_Rinv by exact Hr.
    replace (alpha i * - ln (ref_pressure i)) with (- (alpha i * ln (ref_pressure i))) by ring. rewrite exp_Ropp. ring.
Qed.
Print Assumptions C62_balance.
Theorem C62_mass_production : forall len burn density r m,
  let volume tau := match g_evolve (cylinder len burn density) (Some r) tau (Some m) with Some r' => PI * r' ^ 2 * len | None => 0 end in
  exists rate, derivable_pt_lim volume 0 rate /\ m * g_rate (cylinder len burn density) (Some r) = density * rate.
Proof.
  intros len burn density r m volume. exists (burn * m * cyl_area len r). split.
  - unfold volume. cbn [g_evolve cylinder]. apply is_derive_Reals. unfold cyl_area. auto_derive; [exact I|]. ring.
  - cbn [g_rate cylinder]. ring.
Qed.
Print Assumptions C62_mass_production.
Theorem C62_thrust : forall i p q, 0 < char_velocity i -> throat_diameter i <> 0 -> thrust i (ambient i) = 0 /\ (p < q -> thrust i p < thrust i q).
Proof.
  intros i p q Hc Hd. unfold thrust. split; [unfold Rdiv; ring|]. intros H.
  assert (A : 0 < throat_area i). { unfold throat_area. pose proof PI_RGT_0. assert (0 < throat_diameter i * throat_diameter i) by (apply Rsqr_pos_lt; exact Hd). rewrite Rmult_assoc. apply Rdiv_lt_0_compat; [apply Rmult_lt_0_compat; assumption|lra]. }
  apply Rmult_lt_compat_r; [apply Rinv_0_lt_compat; exact Hc|]. apply Rmult_lt_compat_l; [|lra]. apply Rmult_lt_0_compat; [lra|exact A].
Qed.
Print Assumptions C62_thrust.

(** C77.  Newton's iteration for the chamber pressure.  For 0 < alpha < 1 and positive data the equilibrium pressure is unique; from any start with negative Jacobian one turn lands at or
    above it, from there the iterates decrease and stay above it, and a turn with an update below the tolerance leaves at most tol / (1 - alpha) to it. *)
Record physical (i : inputs) (rate : R) : Prop := {
  ph_alpha : 0 < alpha i < 1; ph_rate : 0 < rate; ph_pref : 0 < ref_pressure i; ph_area : 0 < throat_area i; ph_vel : 0 < char_velocity i }.
Section Newton.
Variables (i : inputs) (rate : R).
Hypothesis Hph : physical i rate.
Let k : R := rate * inv_pref_alpha i.
Let m : R := throat_area i / char_velocity i.
Lemma k_pos : 0 < k.
Proof. destruct Hph as [? Hr ? ? ?]. apply Rmult_lt_0_compat; [exact Hr|]. unfold inv_pref_alpha. apply Rdiv_lt_0_compat; [lra|]. apply exp_pos. Qed.
Lemma m_pos : 0 < m.
Proof. destruct Hph. apply Rdiv_lt_0_compat; assumption. Qed.
Lemma res_form p : residual i rate p = k * Rpower p (alpha i) - m * p.
Proof. unfold residual, k, m, Rdiv. ring. Qed.
Lemma jac_form p : jacobian i rate p = k * (alpha i * Rpower p (alpha i - 1)) - m.
Proof. unfold jacobian, k, m, Rdiv. ring. Qed.
Lemma pow_split p : 0 < p -> Rpower p (alpha i) = Rpower p (alpha i - 1) * p.
Proof. intros Hp. rewrite <- (Rpower_1 p Hp) at 3. rewrite <- Rpower_plus. f_equal. ring. Qed.
Lemma bernoulli x : 0 < x -> Rpower x (alpha i) <= alpha i * x + (1 - alpha i).
Proof.
  intros Hx. destruct Hph as [Ha _ _ _ _]. unfold Rpower. set (a := alpha i) in *. set (y := ln x). replace x with (exp y) by (apply exp_ln; exact Hx).
  pose proof (exp_ineq1_le ((1 - a) * y)) as E1. pose proof (exp_ineq1_le (- (a * y))) as E2. pose proof (exp_pos (a * y)) as P.
  assert (F1 : exp y = exp (a * y) * exp ((1 - a) * y)) by (rewrite <- exp_plus; f_equal; ring).
  assert (F2 : 1 = exp (a * y) * exp (- (a * y))) by (rewrite <- exp_plus; replace (a * y + - (a * y)) with 0 by ring; symmetry; apply exp_0).
  set (e := exp (a * y)) in *. assert (G1 : e * (1 + (1 - a) * y) <= exp y) by (rewrite F1; apply Rmult_le_compat_l; lra).
  assert (G2 : e * (1 - a * y) <= 1) by (rewrite F2 at 2; apply Rmult_le_compat_l; lra).
  assert (a * (e * (1 + (1 - a) * y)) <= a * exp y) by (apply Rmult_le_compat_l; lra).
  assert ((1 - a) * (e * (1 - a * y)) <= (1 - a) * 1) by (apply Rmult_le_compat_l; lra).
  replace e with (a * (e * (1 + (1 - a) * y)) + (1 - a) * (e * (1 - a * y))) by ring. lra.
Qed.
Lemma tangent p q : 0 < p -> 0 < q -> residual i rate q <= residual i rate p + jacobian i rate p * (q - p).
Proof.
  intros Hp Hq. rewrite !res_form, jac_form. pose proof k_pos as HK.
  assert (B := bernoulli (q / p) (Rdiv_lt_0_compat _ _ Hq Hp)).
  assert (E : Rpower q (alpha i) = Rpower p (alpha i) * Rpower (q / p) (alpha i)) by (rewrite Rpower_mult_distr; [f_equal; field; lra|exact Hp|apply Rdiv_lt_0_compat; assumption]).
  assert (HP : 0 < Rpower p (alpha i)) by apply exp_pos.
  assert (C : Rpower q (alpha i) <= Rpower p (alpha i) + alpha i * Rpower p (alpha i - 1) * (q - p)).
  { rewrite E. apply Rle_trans with (Rpower p (alpha i) * (alpha i * (q / p) + (1 - alpha i))); [apply Rmult_le_compat_l; lra|]. rewrite (pow_split p Hp). right. field. lra. }
  assert (k * Rpower q (alpha i) <= k * (Rpower p (alpha i) + alpha i * Rpower p (alpha i - 1) * (q - p))) by (apply Rmult_le_compat_l; lra). lra.
Qed.
(** The equilibrium pressure. *)
Definition equilibrium : R := Rpower (k / m) (/ (1 - alpha i)).
Lemma eq_pos : 0 < equilibrium. Proof. apply exp_pos. Qed.
Lemma eq_slope : k * Rpower equilibrium (alpha i - 1) = m.
Proof.
  pose proof k_pos. pose proof m_pos. destruct Hph as [Ha _ _ _ _]. unfold equilibrium. rewrite Rpower_mult. replace (/ (1 - alpha i) * (alpha i - 1)) with (- (1)) by (field; lra). rewrite Rpower_Ropp, Rpower_1 by (apply Rdiv_lt_0_compat; lra). field. lra.
Qed.
Lemma res_eq : residual i rate equilibrium = 0.
Proof. rewrite res_form, (pow_split _ eq_pos), <- Rmult_assoc, eq_slope. ring. Qed.
Lemma slope_decr p q : 0 < p -> p <= q -> Rpower q (alpha i - 1) <= Rpower p (alpha i - 1).
Proof.
  intros Hp Hpq. destruct Hph as [Ha _ _ _ _]. unfold Rpower. assert (L : ln p <= ln q) by (destruct (Req_dec p q) as [->|]; [lra|left; apply ln_increasing; lra]).
  destruct (Req_dec (ln p) (ln q)) as [->|]; [lra|]. left. apply exp_increasing. nra.
Qed.
Lemma jac_above p : equilibrium <= p -> jacobian i rate p <= - (1 - alpha i) * m.
Proof.
  intros H. rewrite jac_form. pose proof eq_pos. pose proof (slope_decr equilibrium p eq_pos H) as S. pose proof eq_slope as E. pose proof k_pos. destruct Hph as [Ha _ _ _ _].
  assert (k * Rpower p (alpha i - 1) <= m) by (rewrite <- E; apply Rmult_le_compat_l; lra). assert (alpha i * (k * Rpower p (alpha i - 1)) <= alpha i * m) by (apply Rmult_le_compat_l; lra). lra.
Qed.
Lemma res_above p : equilibrium <= p -> residual i rate p <= 0.
Proof.
  intros H. pose proof eq_pos. assert (Hp : 0 < p) by lra. rewrite res_form, (pow_split p Hp). pose proof (slope_decr equilibrium p eq_pos H) as S. pose proof eq_slope as E. pose proof k_pos.
  assert (k * Rpower p (alpha i - 1) <= m) by (rewrite <- E; apply Rmult_le_compat_l; lra). nra.
Qed.
Lemma unique_root p : 0 < p -> residual i rate p = 0 -> p = equilibrium.
Proof.
  intros Hp H. pose proof eq_pos as He. rewrite res_form, (pow_split p Hp) in H. assert (E : k * Rpower p (alpha i - 1) = m) by (apply Rmult_eq_reg_r with p; lra).
  rewrite <- eq_slope in E. pose proof k_pos. apply Rmult_eq_reg_l in E; [|lra]. unfold Rpower in E. apply exp_inv in E. destruct Hph as [Ha _ _ _ _]. apply Rmult_eq_reg_l in E; [|lra]. apply ln_inv; assumption.
Qed.
Lemma lands_above p : 0 < p -> jacobian i rate p < 0 -> equilibrium <= p + - residual i rate p / jacobian i rate p.
Proof.
  intros Hp HJ. pose proof (tangent p equilibrium Hp eq_pos) as T. rewrite res_eq in T. set (J := jacobian i rate p) in *. set (Rr := residual i rate p) in *.
  apply Rmult_le_reg_l with (- J); [lra|]. replace (- J * (p + - Rr / J)) with (- J * p + Rr) by (field; lra). lra.
Qed.
Lemma near p : equilibrium <= p -> (1 - alpha i) * (p - equilibrium) <= Rabs (- residual i rate p / jacobian i rate p).
Proof.
  intros H. pose proof (jac_above p H) as HJ. pose proof (res_above p H) as HR. pose proof m_pos as Hm. pose proof eq_pos as He. destruct Hph as [Ha _ _ _ _].
  pose proof (tangent equilibrium p He ltac:(lra)) as T. rewrite res_eq, Rplus_0_l in T. pose proof (jac_above equilibrium (Rle_refl _)) as HJe.
  assert (Hlow : - m <= jacobian i rate p).
  { rewrite jac_form. assert (0 <= k * (alpha i * Rpower p (alpha i - 1))); [|lra]. pose proof k_pos. apply Rmult_le_pos; [lra|]. apply Rmult_le_pos; [lra|left; apply exp_pos]. }
  set (J := jacobian i rate p) in *. set (Rr := residual i rate p) in *. assert (HJ0 : J < 0) by nra.
  rewrite Rabs_left1.
  - apply Rmult_le_reg_r with (- J); [lra|]. replace (- (- Rr / J) * - J) with (- Rr) by (field; lra).
    apply Rle_trans with ((1 - alpha i) * (p - equilibrium) * m); [apply Rmult_le_compat_l; [apply Rmult_le_pos; lra|lra]|].
    assert (jacobian i rate equilibrium * (p - equilibrium) <= - (1 - alpha i) * m * (p - equilibrium)) by (apply Rmult_le_compat_r; lra). lra.
  - replace (- Rr / J) with (- (Rr / J)) by (field; lra). assert (0 <= Rr / J); [|lra]. unfold Rdiv. replace (Rr * / J) with ((- Rr) * / (- J)) by (field; lra). apply Rmult_le_pos; [lra|]. left. apply Rinv_0_lt_compat. lra.
Qed.
Lemma step_above p : equilibrium <= p -> exists p' d, newton_step i rate p = Some (p', d) /\ equilibrium <= p' <= p /\ (1 - alpha i) * (p - equilibrium) <= Rabs d.
Proof.
  intros H. pose proof eq_pos as He. pose proof (jac_above p H) as HJ. pose proof (res_above p H) as HR. pose proof m_pos as Hm. destruct Hph as [Ha _ _ _ _].
  assert (HJ0 : jacobian i rate p < 0) by nra. unfold newton_step. destruct (Rlt_dec 0 p) as [_|h]; [|exfalso; lra]. destruct (Req_EM_T (jacobian i rate p) 0) as [h|_]; [exfalso; lra|].
  eexists. eexists. split; [reflexivity|]. split; [split|apply near; exact H].
  - apply lands_above; lra.
  - assert (0 <= residual i rate p / jacobian i rate p); [|replace (- residual i rate p / jacobian i rate p) with (- (residual i rate p / jacobian i rate p)) by (field; lra); lra].
    replace (residual i rate p / jacobian i rate p) with ((- residual i rate p) * / (- jacobian i rate p)) by (field; lra). apply Rmult_le_pos; [lra|]. left. apply Rinv_0_lt_compat. lra.
Qed.
Lemma loop_above : forall left p, equilibrium <= p -> exists q n, newton_loop i rate left (Some p) = (Some q, n) /\ equilibrium <= q <= p /\ ((n < left)%nat -> q - equilibrium <= tol i / (1 - alpha i)).
Proof.
  induction left as [|left IH]; intros p H.
  - exists p, 0%nat. split; [reflexivity|]. split; [lra|lia].
  - destruct (step_above p H) as (p' & d & E & Hp' & Hd). cbn [newton_loop]. rewrite E. destruct (Rlt_dec (Rabs d) (tol i)) as [h|h].
    + exists p', 1%nat. split; [reflexivity|]. split; [exact Hp'|]. intros _. destruct Hph as [Ha _ _ _ _]. apply Rmult_le_reg_l with (1 - alpha i); [lra|]. replace ((1 - alpha i) * (tol i / (1 - alpha i))) with (tol i) by (field; lra).
      apply Rle_trans with ((1 - alpha i) * (p - equilibrium)); [apply Rmult_le_compat_l; lra|lra].
    + destruct (IH p' (proj1 Hp')) as (q & n & E' & Hq & Hn). rewrite E'. exists q, (S n). split; [reflexivity|]. split; [lra|]. intros Hlt. apply Hn. lia.
Qed.
End Newton.

Theorem C77_pressure : forall i rate, physical i rate ->
  exists P, 0 < P /\ residual i rate P = 0 /\ (forall p, 0 < p -> residual i rate p = 0 -> p = P) /\
    (forall p q n, P <= p -> newton i rate (Some p) = (q, n) -> exists q', q = Some q' /\ P <= q' <= p /\ ((n <= max_itr i)%nat -> q' - P <= tol i / (1 - alpha i))) /\
    (forall p p' d, 0 < p -> jacobian i rate p < 0 -> newton_step i rate p = Some (p', d) -> P <= p').
Proof.
  intros i rate H. exists (equilibrium i rate). split; [apply exp_pos|]. split; [apply res_eq; exact H|]. split; [intros p; apply unique_root; exact H|]. split.
  - intros p q n Hp E. destruct (loop_above i rate H (S (max_itr i)) p Hp) as (q' & n' & E' & Hq & Hn). unfold newton in E. rewrite E' in E. injection E as <- <-. exists q'. split; [reflexivity|]. split; [exact Hq|]. intros Hle. apply Hn. lia.
  - intros p p' d Hp HJ E. unfold newton_step in E. destruct (Rlt_dec 0 p); [|contradiction]. destruct (Req_EM_T (jacobian i rate p) 0); [discriminate|]. injection E as <- <-. apply lands_above; assumption.
Qed.
Print Assumptions C77_pressure.
Example C77_applies : physical default_inputs 5.
Proof. split; cbn; try lra. unfold throat_area. cbn. pose proof PI_RGT_0. lra. Qed.

Lemma Int_part_spec r z : r - 1 < IZR z <= r -> z = Int_part r.
Proof. intros H. unfold Int_part. rewrite <- (tech_up r (z + 1)); [lia|rewrite plus_IZR; lra|rewrite plus_IZR; lra]. Qed.
Lemma exp_lt_1 x : x < 0 -> exp x < 1.
Proof. intros H. apply Rlt_le_trans with (exp 0); [apply exp_increasing; exact H|rewrite exp_0; lra]. Qed.
(** C63.  Violated: for differences between zero and one the other alternative is returned. *)
Theorem C63_small_difference_refuted : ~ (forall x y a b, x > y -> conditional_expression x y a b = b).
Proof.
  intros H. specialize (H (1 / 2) 0 0 1 ltac:(lra)). unfold conditional_expression in H.
  assert (E : Int_part (Rmin 1 (exp (1 / 2 - 0 - 1))) = 0%Z).
  { rewrite Rmin_right by (left; apply exp_lt_1; lra). symmetry. apply Int_part_spec. pose proof (exp_pos (1 / 2 - 0 - 1)). assert (exp (1 / 2 - 0 - 1) < 1) by (apply exp_lt_1; lra). lra. }
  rewrite E in H. lra.
Qed.
Print Assumptions C63_small_difference_refuted.
(** What holds: the last argument exactly if the first exceeds the second by at least one. *)
Theorem C63_partial : forall x y a b,
  (x >= y + 1 -> conditional_expression x y a b = b) /\ (x < y + 1 -> conditional_expression x y a b = a).
Proof.
  intros x y a b. unfold conditional_expression. split; intros H.
  - rewrite Rmin_left by (pose proof (exp_ineq1_le (x - y - 1)); lra).
    assert (E : Int_part 1 = 1%Z) by (symmetry; apply Int_part_spec; lra). rewrite E. ring.
  - assert (L : exp (x - y - 1) < 1) by (apply exp_lt_1; lra). rewrite Rmin_right by lra.
    assert (E : Int_part (exp (x - y - 1)) = 0%Z) by (symmetry; apply Int_part_spec; pose proof (exp_pos (x - y - 1)); lra). rewrite E. ring.
Qed.
Print Assumptions C63_partial.
Example C63_applies : conditional_expression 3 1 10 20 = 20 /\ conditional_expression 1 3 10 20 = 10.
Proof. split; apply C63_partial; lra. Qed.
