(** Lemmas for the augmented Lagrangian criteria. *)
From Coq Require Import Reals List Arith Lia Lra Psatz Permutation.
From Coquelicot Require Import Coquelicot.
From Verif Require Import Base.Field Base.Sums Penalty.PenaltyModel Element.ElementModel AugLag.AugLagModel AugLag.AugLagSpec.
Import ListNotations.
Local Open Scope R_scope.

Lemma cpow_nonneg x p : 0 <= cpow x p.
Proof. unfold cpow. destruct (Rle_dec x 0); [destruct (Req_EM_T p 0); lra|]. unfold Rpower. left. apply exp_pos. Qed.
Lemma simp_pos f z : 0 < pn_min f <= 1 -> 0 < simp f z.
Proof. intros H. unfold simp. pose proof (cpow_nonneg z (pn_exp f)). nra. Qed.

Lemma constraint_violation v p m z : 0 < p_limit p -> constraint plain v (p_limit p) m (simp (p_simp p) z) = violation v p m z.
Proof.
  intros HL. unfold constraint, violation, plain, rgt. cbn [sc sdivc ssub smul sgt sadd].
  destruct (Rlt_dec 1 (m / p_limit p)) as [H|H].
  - rewrite Rmax_right by lra. destruct v; unfold excess; cbn [smul sadd]; ring.
  - rewrite Rmax_left by lra. destruct v; ring.
Qed.
Lemma violation_nonneg v p m z : sane p -> 0 <= violation v p m z.
Proof.
  intros [_ [_ [_ H]]]. unfold violation. pose proof (simp_pos (p_simp p) z H) as P. set (e := Rmax 0 (m / p_limit p - 1)).
  assert (E : 0 <= e) by apply Rmax_l. apply Rmult_le_pos; [lra|]. pose proof (pow_le e 4 E). pose proof (pow_le e 2 E). destruct v; lra.
Qed.
Lemma violation_zero v p m z : sane p -> (violation v p m z = 0 <-> m <= p_limit p).
Proof.
  intros [HL [_ [_ H]]]. unfold violation. pose proof (simp_pos (p_simp p) z H) as P.
  destruct (Rle_dec m (p_limit p)) as [X|X].
  - split; [intros _; exact X|intros _]. assert (Y : m / p_limit p <= 1) by (apply Rmult_le_reg_r with (p_limit p); [exact HL|]; field_simplify; lra).
    rewrite Rmax_left by lra. destruct v; ring.
  - split; [|lra]. intros E. exfalso. assert (Y : 1 < m / p_limit p) by (apply Rmult_lt_reg_r with (p_limit p); [exact HL|]; field_simplify; lra).
    rewrite Rmax_right in E by lra. set (e := m / p_limit p - 1) in *. assert (0 < e) by (unfold e; lra).
    pose proof (pow_lt e 4 H0). pose proof (pow_lt e 2 H0). destruct v; nra.
Qed.
Lemma multiplier_step v p mu lam m z : sane p -> 0 < mu -> 0 <= lam -> update_multiplier v p mu lam m z = lam + mu * violation v p m z.
Proof.
  intros Hs Hm Hl. unfold update_multiplier. rewrite constraint_violation by apply Hs. pose proof (violation_nonneg v p m z Hs) as V.
  assert (X : -1 * lam / mu <= violation v p m z).
  { apply Rle_trans with 0; [|exact V]. unfold Rdiv. rewrite Rmult_assoc. pose proof (Rinv_0_lt_compat mu Hm). nra. }
  destruct v; try rewrite (Rmax_left _ _ X); apply Rmax_left; nra.
Qed.
Lemma penalty_step p mu0 k : sane p -> update_penalty p (penalty_at p mu0 k) = penalty_at p mu0 (S k).
Proof.
  intros [_ [H1 [H2 _]]]. unfold update_penalty. destruct k as [|k]; unfold penalty_at; [rewrite pow_1; reflexivity|].
  change (p_expand p ^ S (S k)) with (p_expand p * p_expand p ^ S k). set (a := p_expand p ^ S k * mu0).
  replace (p_expand p * p_expand p ^ S k * mu0) with (p_expand p * a) by (unfold a; ring).
  unfold Rmin at 2. destruct (Rle_dec a (p_bound p)); [reflexivity|]. rewrite !Rmin_right; nra.
Qed.
Lemma penalty_at_pos p mu0 k : sane p -> 0 < mu0 -> 0 < penalty_at p mu0 k.
Proof.
  intros [_ [H1 [H2 _]]] H. destruct k as [|k]; [exact H|]. unfold penalty_at. apply Rmin_glb_lt; [|exact H2].
  apply Rmult_lt_0_compat; [apply pow_lt; lra|exact H].
Qed.

(** The history of one criterion. *)
Lemma updates_snoc v p n h c s : AugLagModel.updates v p n (h ++ [c]) s = AugLagModel.update v p n (AugLagModel.updates v p n h s) c.
Proof. unfold AugLagModel.updates. rewrite fold_left_app. reflexivity. Qed.
Lemma update_mu v p n s c : s_mu (AugLagModel.update v p n s c) = update_penalty p (s_mu s).
Proof. destruct v; reflexivity. Qed.
Lemma update_lam v p n s c i : s_lam (AugLagModel.update v p n s c) i = if Nat.ltb i n then update_multiplier v p (s_mu s) (s_lam s i) (c_measure c i) (c_density c i) else s_lam s i.
Proof. destruct v; reflexivity. Qed.
Definition call (h : list cells) (k : nat) : cells := nth k h (mkCells (fun _ => 0) (fun _ => 0)).
Lemma updates_spec v p n s : sane p -> started s -> forall h,
  s_mu (AugLagModel.updates v p n h s) = penalty_at p (s_mu s) (length h) /\
  (forall i, (i < n)%nat -> s_lam (AugLagModel.updates v p n h s) i = s_lam s i + sum (K := R_ring) (length h) (fun k => penalty_at p (s_mu s) k * violation v p (c_measure (call h k) i) (c_density (call h k) i))) /\
  (forall i, (n <= i)%nat -> s_lam (AugLagModel.updates v p n h s) i = s_lam s i) /\ (forall i, 0 <= s_lam (AugLagModel.updates v p n h s) i).
Proof.
  intros Hp [Hmu Hl] h. induction h as [|c h IH] using rev_ind.
  - split; [reflexivity|]. split; [intros i _; change (s_lam s i = s_lam s i + 0); ring|]. split; [reflexivity|exact Hl].
  - destruct IH as [M [L1 [L2 L3]]]. rewrite updates_snoc, app_length. cbn [length]. rewrite Nat.add_1_r.
    rewrite update_mu, M. split; [apply penalty_step; exact Hp|].
    assert (P : 0 < penalty_at p (s_mu s) (length h)) by (apply penalty_at_pos; assumption).
    split.
    + intros i Hi. rewrite update_lam. apply Nat.ltb_lt in Hi. rewrite Hi. apply Nat.ltb_lt in Hi.
      rewrite multiplier_step; [|exact Hp|rewrite M; exact P|apply L3]. rewrite M, (L1 i Hi).
      cbn [sum]. change (@radd R_ring) with Rplus. 
      assert (A : call (h ++ [c]) (length h) = c) by (unfold call; rewrite app_nth2 by lia; rewrite Nat.sub_diag; reflexivity).
      rewrite A. rewrite <- Rplus_assoc. f_equal. f_equal. apply (sum_ext (K := R_ring)). intros k Hk.
      assert (B : call (h ++ [c]) k = call h k) by (unfold call; apply app_nth1; exact Hk). rewrite B. reflexivity.
    + split.
      * intros i Hi. rewrite update_lam. replace (Nat.ltb i n) with false by (symmetry; apply Nat.ltb_ge; exact Hi). apply L2; exact Hi.
      * intros i. rewrite update_lam. destruct (Nat.ltb i n); [|apply L3]. unfold update_multiplier. apply Rmax_r.
Qed.

(** Derivatives. *)
Definition q (v : variant) (x : R) : R := match v with General => (Rmax 0 (x - 1)) ^ 4 + (Rmax 0 (x - 1)) ^ 2 | _ => (Rmax 0 (x - 1)) ^ 2 end.
Definition q' (v : variant) (x : R) : R := match v with General => 4 * (Rmax 0 (x - 1)) ^ 3 + 2 * Rmax 0 (x - 1) | _ => 2 * Rmax 0 (x - 1) end.
Lemma relu_pow n x : is_derive (fun x => Rmax 0 (x - 1) ^ S (S n)) x (INR (S (S n)) * Rmax 0 (x - 1) ^ S n).
Proof.
  destruct (Rtotal_order x 1) as [H|[->|H]].
  - apply (is_derive_ext_loc (fun _ => 0)).
    + exists (mkposreal (1 - x) ltac:(lra)). intros y Hy. unfold ball in Hy; simpl in Hy; unfold AbsRing_ball, abs, minus, plus, opp in Hy; simpl in Hy. apply Rabs_def2 in Hy.
      rewrite Rmax_left by lra. symmetry. apply pow_i. lia.
    + rewrite Rmax_left by lra. rewrite pow_i by lia. rewrite Rmult_0_r. apply (is_derive_const (K := R_AbsRing) (V := R_NormedModule) 0 x).
  - replace (1 - 1) with 0 by ring. rewrite Rmax_left by lra. rewrite pow_i by lia. rewrite Rmult_0_r.
    apply is_derive_Reals. intros eps He. exists (mkposreal (Rmin 1 eps) ltac:(apply Rmin_pos; lra)). intros h Hh Hd. simpl in Hd.
    replace (1 + h - 1) with h by ring. replace (1 - 1) with 0 by ring. rewrite (Rmax_left 0 0) by lra. rewrite (pow_i (S (S n))) by lia.
    replace ((Rmax 0 h ^ S (S n) - 0) / h - 0) with (Rmax 0 h * Rmax 0 h ^ n * (Rmax 0 h / h)) by (cbn [pow]; field; exact Hh).
    pose proof (Rmin_l 1 eps). pose proof (Rmin_r 1 eps).
    destruct (Rle_dec h 0).
    + rewrite Rmax_left by lra. rewrite Rmult_0_l, Rmult_0_l, Rabs_R0. exact He.
    + rewrite Rmax_right by lra. replace (h / h) with 1 by (field; exact Hh). rewrite Rmult_1_r.
      rewrite Rabs_right in Hd by lra. rewrite Rabs_right; [|pose proof (pow_le h n); nra].
      assert (K : h ^ n <= 1) by (rewrite <- (pow1 n); apply pow_incr; lra). pose proof (pow_le h n). nra.
  - apply (is_derive_ext_loc (fun x => (x - 1) ^ S (S n))).
    + exists (mkposreal (x - 1) ltac:(lra)). intros y Hy. unfold ball in Hy; simpl in Hy; unfold AbsRing_ball, abs, minus, plus, opp in Hy; simpl in Hy. apply Rabs_def2 in Hy.
      rewrite Rmax_right by lra. reflexivity.
    + rewrite Rmax_right by lra. auto_derive; [exact I|]. change (match n with 0%nat => 1 | S _ => INR n + 1 end) with (INR (S n)). rewrite !S_INR. cbn [pow]. unfold Rminus. ring.
Qed.
Lemma q_derive v x : is_derive (q v) x (q' v x).
Proof.
  destruct v; unfold q, q'.
  - pose proof (relu_pow 0 x) as H. cbn [INR] in H. replace (2 * Rmax 0 (x - 1)) with ((1 + 1) * Rmax 0 (x - 1) ^ 1) by ring. exact H.
  - pose proof (relu_pow 0 x) as H. pose proof (relu_pow 2 x) as H'.
    apply (is_derive_plus (K := R_AbsRing) (V := R_NormedModule) _ _ x _ _) with (1 := H') (2 := H) || idtac.
    replace (4 * Rmax 0 (x - 1) ^ 3 + 2 * Rmax 0 (x - 1)) with (INR 4 * Rmax 0 (x - 1) ^ 3 + INR 2 * Rmax 0 (x - 1) ^ 1) by (simpl; ring).
    exact (is_derive_plus (K := R_AbsRing) (V := R_NormedModule) _ _ x _ _ H' H).
  - pose proof (relu_pow 0 x) as H. cbn [INR] in H. replace (2 * Rmax 0 (x - 1)) with ((1 + 1) * Rmax 0 (x - 1) ^ 1) by ring. exact H.
Qed.
(** Propagation through the scalar operations. *)
Lemma tracks_const c : tracks (fun _ => c) (sc fad c).
Proof. split; [reflexivity|]. exact (is_derive_const (K := R_AbsRing) (V := R_NormedModule) c 0). Qed.
Lemma tracks_add f g a b : tracks f a -> tracks g b -> tracks (fun e => f e + g e) (sadd fad a b).
Proof. intros [A1 A2] [B1 B2]. split; [cbn; rewrite A1, B1; reflexivity|]. exact (is_derive_plus (K := R_AbsRing) (V := R_NormedModule) f g 0 _ _ A2 B2). Qed.
Lemma tracks_mul f g a b : tracks f a -> tracks g b -> tracks (fun e => f e * g e) (smul fad a b).
Proof.
  intros [A1 A2] [B1 B2]. split; [cbn; rewrite A1, B1; reflexivity|]. cbn [smul fad snd].
  replace (fst a * snd b + snd a * fst b) with (snd a * g 0 + f 0 * snd b) by (rewrite A1, B1; ring).
  apply (is_derive_mult f g 0 (snd a) (snd b) A2 B2). intros; apply Rmult_comm.
Qed.
Lemma tracks_divc f a r : r <> 0 -> tracks f a -> tracks (fun e => f e / r) (sdivc fad a r).
Proof.
  intros Hr [A1 A2]. split; [cbn; rewrite A1; reflexivity|]. cbn [sdivc fad snd].
  apply (is_derive_ext (fun e => / r * f e)); [intros t; unfold Rdiv; exact (Rmult_comm (/ r) (f t))|]. replace (snd a / r) with (/ r * snd a) by (unfold Rdiv; ring).
  exact (is_derive_scal f 0 (/ r) (snd a) A2).
Qed.
Lemma tracks_ext f g a : (forall e, f e = g e) -> tracks f a -> tracks g a.
Proof. intros E [A1 A2]. split; [rewrite A1; apply E|]. exact (is_derive_ext f g 0 _ E A2). Qed.
Lemma tracks_constraint v limit m p dm dp : 0 < limit -> tracks m dm -> tracks p dp ->
  tracks (fun e => constraint plain v limit (m e) (p e)) (constraint fad v limit dm dp).
Proof.
  intros HL Hm Hp. pose proof (tracks_divc m dm limit (Rgt_not_eq _ _ HL) Hm) as Hx.
  apply (tracks_ext (fun e => p e * q v (m e / limit))).
  { intros e. unfold constraint, plain, rgt, q. cbn [sc sdivc ssub smul sgt sadd]. destruct (Rlt_dec 1 (m e / limit)) as [H|H].
    - rewrite Rmax_right by lra. destruct v; unfold excess; cbn [smul sadd]; ring.
    - rewrite Rmax_left by lra. destruct v; ring. }
  destruct Hx as [X1 X2]. cbn [sdivc fad fst snd] in X1, X2. destruct Hp as [P1 P2].
  assert (D : is_derive (fun e => q v (m e / limit)) 0 (snd dm / limit * q' v (m 0 / limit))).
  { exact (is_derive_comp (q v) (fun e => m e / limit) 0 (q' v (m 0 / limit)) (snd dm / limit) (q_derive v _) X2). }
  assert (TT : tracks (fun e => p e * q v (m e / limit)) (fst dp * q v (m 0 / limit), fst dp * (snd dm / limit * q' v (m 0 / limit)) + snd dp * q v (m 0 / limit))).
  { exact (tracks_mul p (fun e => q v (m e / limit)) dp (q v (m 0 / limit), snd dm / limit * q' v (m 0 / limit)) (conj P1 P2) (conj eq_refl D)). }
  match goal with |- tracks _ ?t => replace t with (fst dp * q v (m 0 / limit), fst dp * (snd dm / limit * q' v (m 0 / limit)) + snd dp * q v (m 0 / limit)) end; [exact TT|].
  unfold constraint. cbv zeta. cbn [sgt sc sdivc smul ssub fad fst snd]. unfold rgt. rewrite X1.
  destruct (Rlt_dec 1 (m 0 / limit)) as [H|H]; unfold q, q'.
  - rewrite Rmax_right by lra. destruct v; unfold excess; cbn [smul ssub sadd sc fad fst snd]; (apply f_equal2; ring).
  - rewrite Rmax_left by lra. destruct v; apply f_equal2; ring.
Qed.
Lemma tracks_lagrangian v lam mu limit m p dm dp : 0 < limit -> 0 < mu -> 0 <= lam -> (forall e, 0 < p e) -> tracks m dm -> tracks p dp ->
  tracks (fun e => lagrangian plain v lam mu (constraint plain v limit (m e) (p e))) (lagrangian fad v lam mu (constraint fad v limit dm dp)).
Proof.
  intros HL Hmu Hlam Hpos Hm Hp. pose proof (tracks_constraint v limit m p dm dp HL Hm Hp) as Hg.
  assert (G0 : forall e, 0 <= constraint plain v limit (m e) (p e)).
  { intros e. unfold constraint, plain, rgt. cbn [sc sdivc ssub smul sgt sadd]. destruct (Rlt_dec 1 (m e / limit)) as [H|H]; [|lra].
    apply Rmult_le_pos; [left; apply Hpos|]. set (x := m e / limit - 1). assert (0 < x) by (unfold x; lra). destruct v; unfold excess; cbn [smul sadd]; nra. }
  assert (GZ : fst (constraint fad v limit dm dp) = 0 -> snd (constraint fad v limit dm dp) = 0).
  { unfold constraint. cbv zeta. cbn [sgt sc sdivc smul ssub fad fst snd]. unfold rgt. destruct (Rlt_dec 1 (fst dm / limit)) as [H|H]; [|reflexivity].
    intros E. exfalso. destruct Hp as [P1 _]. pose proof (Hpos 0) as P0. rewrite <- P1 in P0. set (x := fst dm / limit) in *.
    destruct v; unfold excess in E; cbn [smul ssub sadd sc fad fst snd] in E; set (y := x - 1) in *; assert (Y : 0 < y) by (unfold y; lra); assert (Y2 : 0 < y * y) by nra; assert (Y4 : 0 < (y * y) * (y * y)) by nra; apply Rmult_integral in E; (destruct E as [E|E]; [lra|lra || nra]). }
  set (g := fun e => constraint plain v limit (m e) (p e)) in *. set (dg := constraint fad v limit dm dp) in *.
  assert (TT : tracks (fun e => lam * g e + 1 / 2 * mu * g e * g e) (lagrangian fad Quadratic lam mu dg)).
  { unfold lagrangian. apply tracks_add; [apply tracks_mul; [apply tracks_const|exact Hg]|]. apply tracks_mul; [apply tracks_mul; [|exact Hg]|exact Hg].
    apply (tracks_mul (fun _ => 1 / 2) (fun _ => mu)); apply tracks_const. }
  destruct v; [|exact TT|exact TT].
  assert (NB : -1 * lam / mu <= 0) by (unfold Rdiv; pose proof (Rinv_0_lt_compat mu Hmu); nra).
  match goal with |- tracks _ ?t => replace t with (lagrangian fad Quadratic lam mu dg) end.
  - apply (tracks_ext (fun e => lam * g e + 1 / 2 * mu * g e * g e)); [|exact TT]. intros e. unfold lagrangian. cbn [sc sadd smul sgt plain]. unfold rgt. fold (g e). specialize (G0 e). fold (g e) in G0.
    destruct (Rlt_dec (-1 * lam / mu) (g e)) as [H|H]; [ring|].
    assert (E : g e = 0) by lra. assert (E2 : -1 * lam / mu = 0) by lra. rewrite E2, E. ring.
  - unfold lagrangian. cbv zeta. cbn [sgt sc fad fst snd]. unfold rgt.
    assert (G1 : 0 <= fst dg) by (destruct Hg as [-> _]; apply G0).
    destruct (Rlt_dec (-1 * lam / mu) (fst dg)) as [H|H]; cbn [sadd smul sc fad fst snd]; [apply f_equal2; ring|].
    assert (E : fst dg = 0) by lra. assert (E2 : -1 * lam / mu = 0) by lra. rewrite E2, E, (GZ E). apply f_equal2; ring.
Qed.
Lemma tracks_result v n limit lam mu w ws rho norm m p mass dm dp dmass :
  0 < limit -> 0 < mu -> 0 <= lam -> norm <> 0 -> (forall e, 0 < p e) -> tracks m dm -> tracks p dp -> tracks mass dmass ->
  tracks (fun e => cell_result plain v n limit lam mu w ws rho norm (m e) (p e) (mass e)) (cell_result fad v n limit lam mu w ws rho norm dm dp dmass).
Proof.
  intros HL Hmu Hlam Hn Hpos Hm Hp Hs. pose proof (tracks_lagrangian v lam mu limit m p dm dp HL Hmu Hlam Hpos Hm Hp) as L.
  pose proof (tracks_mul (fun _ => 1 / INR n) _ _ _ (tracks_const (1 / INR n)) L) as L'. unfold cell_result. cbv zeta. destruct v.
  - apply tracks_add; [|exact L']. apply (tracks_divc (fun e => w * rho * mass e)); [exact Hn|]. exact (tracks_mul (fun _ => w * rho) mass _ _ (tracks_const _) Hs).
  - apply tracks_add; [|exact (tracks_mul (fun _ => ws) _ _ _ (tracks_const ws) L')]. apply (tracks_mul (fun _ => w) _ _ _ (tracks_const w)).
    apply (tracks_divc (fun e => mass e * rho)); [exact Hn|]. exact (tracks_mul mass (fun _ => rho) _ _ Hs (tracks_const _)).
  - exact L'.
Qed.

(** Mass multipliers. *)
Lemma mass_history p n s : p_mass_lower p = 0 -> 7 / 10 <= p_mass_reduce p <= 1 -> (forall i, 0 <= s_mass s i <= s_upper s) -> 0 <= s_upper s -> forall h c,
  s_upper (AugLagModel.updates Stress p n (h ++ [c]) s) = s_upper s * p_mass_reduce p ^ S (length h) /\
  forall i, 0 <= s_mass (AugLagModel.updates Stress p n (h ++ [c]) s) i /\ ((i < n)%nat -> s_mass (AugLagModel.updates Stress p n (h ++ [c]) s) i <= s_upper s * p_mass_reduce p ^ length h).
Proof.
  intros Hl Hr Hm HU.
  assert (ST : forall st c i B, 0 <= s_upper st -> 0 <= s_mass st i -> ((i < n)%nat -> s_mass st i <= B) -> 7 / 10 * B <= s_upper st ->
    0 <= s_mass (AugLagModel.update Stress p n st c) i /\ ((i < n)%nat -> s_mass (AugLagModel.update Stress p n st c) i <= s_upper st)).
  { intros st c i B Hu H0 HB HBu. unfold AugLagModel.update. cbn [s_mass]. destruct (Nat.ltb_spec i n) as [Hi|Hi]; [|split; [exact H0|intros; lia]].
    specialize (HB Hi). unfold update_mass. rewrite Hl. 
    destruct (Rlt_dec 1 (c_measure c i / p_limit p * cpow (c_density c i) (1 / 2))).
    - split; [apply Rmax_r|]. intros _. apply Rmax_lub; lra.
    - split; [apply Rmin_glb; lra|]. intros _. apply Rmin_r. }
  assert (SU : forall st c, s_upper (AugLagModel.update Stress p n st c) = s_upper st * p_mass_reduce p) by reflexivity.
  induction h as [|c0 h IH] using rev_ind; intros c.
  - cbn [app length AugLagModel.updates fold_left pow]. unfold AugLagModel.updates. cbn [fold_left]. split; [rewrite SU; ring|]. intros i.
    destruct (ST s c i (s_upper s) HU (proj1 (Hm i)) (fun _ => proj2 (Hm i))) as [A B]; [lra|]. split; [exact A|]. rewrite Rmult_1_r. exact B.
  - rewrite updates_snoc. destruct (IH c0) as [U M]. rewrite SU, U, app_length. cbn [length]. rewrite Nat.add_1_r. split; [cbn [pow]; ring|]. intros i. destruct (M i) as [M1 M2].
    set (st := AugLagModel.updates Stress p n (h ++ [c0]) s) in *. pose proof (pow_le (p_mass_reduce p) (length h)) as PW.
    assert (P0 : 0 <= s_upper s * p_mass_reduce p ^ length h) by (apply Rmult_le_pos; [exact HU|apply PW; lra]).
    destruct (ST st c i (s_upper s * p_mass_reduce p ^ length h)) as [A B].
    + rewrite U. cbn [pow]. nra.
    + exact M1.
    + exact M2.
    + rewrite U. cbn [pow]. nra.
    + split; [exact A|]. rewrite <- U. exact B.
Qed.
