(** Lemmas on mesh residuals. *)
From Coq Require Import Reals List Arith Bool Lia Lra.
From Verif Require Import Base.Field Base.Sums Base.Res Element.ElementModel Element.ElementSpec Element.ElementProof Element.ElementProps
  Penalty.PenaltyModel Residual.ResidualModel Residual.ResidualSpec.
Import ListNotations.
Local Open Scope R_scope.

Definition pick (k p : nat) (v : R) : R := if Nat.eqb k p then v else 0.

Lemma scatter_entry {M} npc ndof (c : cell M) r out k :
  scatter npc ndof c r out k = out k + rsum npc (fun a => rsum ndof (fun i => pick k (c_node c a * ndof + i) (r (a * ndof + i)%nat))).
Proof.
  unfold scatter. rewrite (fold_add npc _ (fun a k => rsum ndof (fun i => pick k (c_node c a * ndof + i) (r (a * ndof + i)%nat)))); [reflexivity|].
  intros o a k'. rewrite (fold_add ndof _ (fun i k => pick k (c_node c a * ndof + i) (r (a * ndof + i)%nat))); [reflexivity|].
  intros o' i k''. unfold pick. destruct (Nat.eqb k'' _); ring.
Qed.
Lemma sum_over_fold {A} (l : list A) (f : A -> R) b : fold_left (fun t c => t + f c) l b = b + sum_over l f.
Proof. revert b. induction l as [|x l IH]; intros b; cbn [fold_left sum_over]; [ring|]. rewrite IH. ring. Qed.
Lemma total_sum {M} v (cells : list (cell M)) : total v cells = sum_over cells v.
Proof. unfold total. rewrite sum_over_fold. ring. Qed.
Lemma sum_over_ext {A} (l : list A) f g : (forall x, In x l -> f x = g x) -> sum_over l f = sum_over l g.
Proof. intros H. induction l as [|x l IH]; [reflexivity|]. cbn. rewrite (H x) by (left; reflexivity). rewrite IH by (intros; apply H; right; assumption). reflexivity. Qed.
Lemma sum_over_scal {A} (l : list A) c f : sum_over l (fun x => c * f x) = c * sum_over l f.
Proof. induction l as [|x l IH]; cbn; [ring|]. rewrite IH. ring. Qed.
Lemma sum_over_add {A} (l : list A) f g : sum_over l (fun x => f x + g x) = sum_over l f + sum_over l g.
Proof. induction l as [|x l IH]; cbn; [ring|]. rewrite IH. ring. Qed.
Lemma sum_over_0 {A} (l : list A) f : (forall x, In x l -> f x = 0) -> sum_over l f = 0.
Proof. intros H. induction l as [|x l IH]; [reflexivity|]. cbn. rewrite (H x) by (left; reflexivity). rewrite IH by (intros; apply H; right; assumption). ring. Qed.
Lemma sum_over_nonneg {A} (l : list A) f : (forall x, In x l -> 0 <= f x) -> 0 <= sum_over l f.
Proof. intros H. induction l as [|x l IH]; [cbn; lra|]. cbn. pose proof (H x (or_introl eq_refl)). pose proof (IH (fun y Hy => H y (or_intror Hy))). lra. Qed.

Lemma assemble_entry {M} npc ndof (r : cell M -> nat -> R) cells k :
  assemble npc ndof r cells k = sum_over cells (fun c => rsum npc (fun a => rsum ndof (fun i => pick k (c_node c a * ndof + i) (r c (a * ndof + i)%nat)))).
Proof.
  unfold assemble.
  enough (H : forall o, fold_left (fun o c => scatter npc ndof c (r c) o) cells o k =
                        o k + sum_over cells (fun c => rsum npc (fun a => rsum ndof (fun i => pick k (c_node c a * ndof + i) (r c (a * ndof + i)%nat))))).
  { rewrite H. ring. }
  induction cells as [|c cells IH]; intros o; cbn [fold_left sum_over]; [ring|]. rewrite IH, scatter_entry. ring.
Qed.

(** The local work of a cell. *)
Definition cell_work (npc ndof : nat) (r w : nat -> R) : R := rsum npc (fun a => rsum ndof (fun i => r (a * ndof + i)%nat * w (a * ndof + i)%nat)).

Lemma gather_at {M} ndof U (c : cell M) a i : (i < ndof)%nat -> gather ndof U c (a * ndof + i) = U (c_node c a * ndof + i)%nat.
Proof.
  intros Hi. unfold gather. rewrite Nat.div_add_l by lia. rewrite Nat.div_small by lia. rewrite Nat.add_0_r.
  replace (a * ndof + i)%nat with (i + a * ndof)%nat by lia. rewrite Nat.mod_add by lia. rewrite Nat.mod_small by lia. reflexivity.
Qed.
Lemma sum_over_swap {A} (l : list A) n (f : A -> nat -> R) : rsum n (fun k => sum_over l (fun c => f c k)) = sum_over l (fun c => rsum n (f c)).
Proof. induction l as [|x l IH]; cbn [sum_over]; [apply rsum_0; reflexivity|]. rewrite rsum_add, IH. reflexivity. Qed.
Lemma sum_over_scal_r {A} (l : list A) c f : sum_over l f * c = sum_over l (fun x => f x * c).
Proof. induction l as [|x l IH]; cbn; [ring|]. rewrite <- IH. ring. Qed.
Lemma rsum_scal_r n c f : rsum n f * c = rsum n (fun i => f i * c).
Proof. rewrite Rmult_comm. rewrite <- rsum_scal_l. apply rsum_ext. intros. req. ring. Qed.
Lemma pick_sum n p v W : (p < n)%nat -> rsum n (fun k => pick k p v * W k) = v * W p.
Proof.
  intros Hp. rewrite (rsum_single n p); [unfold pick; rewrite Nat.eqb_refl; reflexivity|exact Hp|].
  intros j _ Hj. unfold pick. destruct (Nat.eqb_spec j p); [contradiction|req; ring].
Qed.

Lemma assemble_work {M} nn npc ndof (r : cell M -> nat -> R) cells W :
  (forall c a, In c cells -> (a < npc)%nat -> (c_node c a < nn)%nat) ->
  work (nn * ndof) (assemble npc ndof r cells) W = sum_over cells (fun c => cell_work npc ndof (r c) (gather ndof W c)).
Proof.
  intros Hc. unfold work, rs.
  rewrite (rsum_ext _ _ (fun k => sum_over cells (fun c => rsum npc (fun a => rsum ndof (fun i => pick k (c_node c a * ndof + i) (r c (a * ndof + i)%nat) * W k))))).
  2: { intros k _. rewrite assemble_entry, sum_over_scal_r. apply sum_over_ext. intros c _. rewrite rsum_scal_r. apply rsum_ext. intros a _.
       rewrite rsum_scal_r. reflexivity. }
  rewrite (sum_over_swap cells (nn * ndof) (fun c k => rsum npc (fun a => rsum ndof (fun i => pick k (c_node c a * ndof + i) (r c (a * ndof + i)%nat) * W k)))).
  apply sum_over_ext. intros c Hin. unfold cell_work. rewrite rsum_swap. apply rsum_ext. intros a Ha. rewrite rsum_swap. apply rsum_ext. intros i Hi.
  rewrite pick_sum. { rewrite gather_at by exact Hi. reflexivity. }
  pose proof (Hc c a Hin Ha). nia.
Qed.

Lemma assemble_ext {M} npc ndof (r s : cell M -> nat -> R) cells :
  (forall c k, In c cells -> (k < npc * ndof)%nat -> r c k = s c k) -> forall k, assemble npc ndof r cells k = assemble npc ndof s cells k.
Proof.
  intros H k. rewrite !assemble_entry. apply sum_over_ext. intros c Hin. apply rsum_ext. intros a Ha. apply rsum_ext. intros i Hi.
  f_equal. apply H; [exact Hin|]. nia.
Qed.
Lemma assemble_0 {M} npc ndof (r : cell M -> nat -> R) cells :
  (forall c k, In c cells -> (k < npc * ndof)%nat -> r c k = 0) -> forall k, assemble npc ndof r cells k = 0.
Proof.
  intros H k. rewrite assemble_entry. apply sum_over_0. intros c Hin. apply rsum_0. intros a Ha. apply rsum_0. intros i Hi.
  rewrite H; [unfold pick; destruct (Nat.eqb _ _); reflexivity|exact Hin|nia].
Qed.
Lemma assembleR_ok {M} npc ndof (r : cell M -> res (nat -> R)) (f : cell M -> nat -> R) cells :
  (forall c, In c cells -> r c = Ok (f c)) -> assembleR npc ndof r cells = Ok (assemble npc ndof f cells).
Proof.
  unfold assembleR, assemble. generalize (fun _ : nat => 0) as o. induction cells as [|c cells IH]; intros o H; [reflexivity|].
  cbn [foldR fold_left]. rewrite (H c (or_introl eq_refl)). cbn [rbind]. apply IH. intros; apply H; right; assumption.
Qed.
Lemma totalR_ok {M} (v : cell M -> res R) (f : cell M -> R) cells :
  (forall c, In c cells -> v c = Ok (f c)) -> totalR v cells = Ok (sum_over cells f).
Proof.
  intros H. enough (E : forall b, foldR (fun c t => let! x := v c in Ok (t + x)) cells b = Ok (b + sum_over cells f)).
  { unfold totalR. rewrite E. f_equal. ring. }
  induction cells as [|c cells IH]; intros b; cbn [foldR sum_over]; [f_equal; ring|]. rewrite (H c (or_introl eq_refl)). cbn [rbind].
  rewrite IH by (intros; apply H; right; assumption). f_equal. ring.
Qed.
Lemma assembleR_ub {M} npc ndof (r : cell M -> res (nat -> R)) c cells : r c = UB -> (forall c', In c' cells -> exists x, r c' = Ok x \/ r c' = UB) ->
  In c cells -> assembleR npc ndof r cells = UB.
Proof.
  intros E H. unfold assembleR. generalize (fun _ : nat => 0) as o. induction cells as [|c' cells IH]; intros o Hin; [contradiction|].
  cbn [foldR]. destruct (H c' (or_introl eq_refl)) as [x [E'|E']]; rewrite E'; cbn [rbind]; [|reflexivity].
  destruct Hin as [->|Hin]; [congruence|]. apply IH; [intros; apply H; right; assumption|exact Hin].
Qed.

(** ** Cell works *)
Lemma stress_work d ndof scale vol s g out w : (1 <= d <= 3)%nat -> (d <= ndof)%nat ->
  cell_work (S d) ndof (stress_divergence d ndof 0 scale vol s g out) w =
  cell_work (S d) ndof out w + scale * vol * rsum (num_voigt d) (fun v => s v * strain d ndof (fun _ => 0) w g v).
Proof.
  intros Hd Hn. pose proof (C32_virtual_work d ndof 0 scale vol s g out Hd ltac:(lia)) as [H1 H2]. cbv zeta in H1, H2. unfold rs in H1. rewrite <- H1.
  unfold cell_work. rewrite <- rsum_add. apply rsum_ext. intros a Ha.
  assert (E : rsum ndof (fun i => (stress_divergence d ndof 0 scale vol s g out (a * ndof + i)%nat - out (a * ndof + i)%nat) * w (a * ndof + i)%nat) =
              rsum d (fun i => (stress_divergence d ndof 0 scale vol s g out (a * ndof + i + 0)%nat - out (a * ndof + i + 0)%nat) * w (a * ndof + i)%nat)).
  { replace ndof with (d + (ndof - d))%nat at 1 by lia. rewrite (sum_split (K := R_ring)).
    rewrite (rsum_0 (ndof - d)).
    2: { intros i Hi. rewrite H2; [req; ring|]. intros a' i' Hi' Ha' E.
         assert (a = a') by nia. subst a'. lia. }
    change (@radd R_ring) with Rplus. rewrite Rplus_0_r. apply rsum_ext. intros i Hi. rewrite Nat.add_0_r. reflexivity. }
  rewrite <- E, <- rsum_add. apply rsum_ext. intros i _. req. ring.
Qed.
Lemma flux_work d ndof off scale vol q g out w : (off < ndof)%nat ->
  cell_work (S d) ndof (flux_divergence d ndof off scale vol q g out) w =
  cell_work (S d) ndof out w + scale * vol * rsum d (fun k => q k * scalar_gradient d ndof off w g k).
Proof.
  intros Ho. pose proof (C69_divergence d ndof off scale vol q g out Ho) as [H1 H2]. cbv zeta in H1, H2. unfold rs in H1. rewrite <- H1.
  unfold cell_work. rewrite <- rsum_add. apply rsum_ext. intros a Ha.
  assert (E : rsum ndof (fun i => (flux_divergence d ndof off scale vol q g out (a * ndof + i)%nat - out (a * ndof + i)%nat) * w (a * ndof + i)%nat) =
              (flux_divergence d ndof off scale vol q g out (a * ndof + off)%nat - out (a * ndof + off)%nat) * w (a * ndof + off)%nat).
  { rewrite (rsum_single ndof off); [reflexivity|exact Ho|]. intros i Hi Hne. rewrite H2; [req; ring|]. intros a' Ha' E. assert (a = a') by nia. lia. }
  rewrite <- E, <- rsum_add. apply rsum_ext. intros i _. req. ring.
Qed.
Lemma project_entry d ndof off vol q out k :
  project_to_node d ndof off vol q out k = out k + rsum (S d) (fun a => pick k (a * ndof + off) (cub_basis d a * q * vol)).
Proof.
  unfold project_to_node. rewrite (fold_add (S d) _ (fun a k => pick k (a * ndof + off) (cub_basis d a * q * vol))); [reflexivity|].
  intros o a k'. unfold pick. destruct (Nat.eqb k' _); ring.
Qed.
Lemma project_work d ndof off vol q out w : (off < ndof)%nat ->
  cell_work (S d) ndof (project_to_node d ndof off vol q out) w = cell_work (S d) ndof out w + vol * q * interpolate d ndof off w.
Proof.
  intros Ho. unfold cell_work, interpolate. rewrite <- rsum_scal_l, <- rsum_add. apply rsum_ext. intros a Ha.
  assert (E : forall i, (i < ndof)%nat -> project_to_node d ndof off vol q out (a * ndof + i)%nat =
            out (a * ndof + i)%nat + if Nat.eqb i off then cub_basis d a * q * vol else 0).
  { intros i Hi. rewrite project_entry. f_equal. rewrite (rsum_single (S d) a); [|exact Ha|].
    - unfold pick. destruct (Nat.eqb_spec (a * ndof + i) (a * ndof + off)), (Nat.eqb_spec i off); try lia; reflexivity.
    - intros j Hj Hne. unfold pick. destruct (Nat.eqb_spec (a * ndof + i) (j * ndof + off)) as [E|]; [|reflexivity]. exfalso. apply Hne. nia. }
  rewrite (rsum_ext _ _ (fun i => out (a * ndof + i)%nat * w (a * ndof + i)%nat + (if Nat.eqb i off then cub_basis d a * q * vol else 0) * w (a * ndof + i)%nat)).
  2: { intros i Hi. rewrite E by exact Hi. req. ring. }
  rewrite rsum_add. f_equal. rewrite (rsum_single ndof off); [rewrite Nat.eqb_refl; req; ring|exact Ho|].
  intros i _ Hne. destruct (Nat.eqb_spec i off); [contradiction|req; ring].
Qed.
Lemma cell_work_0 npc ndof w : cell_work npc ndof (fun _ => 0) w = 0.
Proof. unfold cell_work. apply rsum_0. intros. apply rsum_0. intros. req. ring. Qed.
Lemma strain_ext d ndof u v g k : (1 <= d <= 3)%nat -> (d <= ndof)%nat -> (forall j, (j < S d * ndof)%nat -> u j = v j) ->
  strain d ndof (fun _ => 0) u g k = strain d ndof (fun _ => 0) v g k.
Proof.
  intros Hd Hn H. unfold strain. destruct (nth_error (voigt_pairs d) k) as [[i j]|] eqn:E; [|reflexivity].
  assert (Hij : (i < d)%nat /\ (j < d)%nat).
  { apply nth_error_In in E. dims d; cbn in E; repeat (destruct E as [E|E]; [injection E as <- <-; lia|]); contradiction. }
  destruct (Nat.eqb i j).
  - apply rsum_ext. intros a Ha. rewrite (H (a * ndof + i)%nat) by nia. reflexivity.
  - f_equal. apply rsum_ext. intros a Ha. rewrite (H (a * ndof + i)%nat), (H (a * ndof + j)%nat) by nia. reflexivity.
Qed.
Lemma scalar_gradient_ext d ndof off u v g k : (off < ndof)%nat -> (forall j, (j < S d * ndof)%nat -> u j = v j) ->
  scalar_gradient d ndof off u g k = scalar_gradient d ndof off v g k.
Proof. intros Ho H. unfold scalar_gradient. apply rsum_ext. intros a Ha. rewrite H by nia. reflexivity. Qed.

(** Linearity in the state. *)
Lemma strain_lin d ndof u v c g k : (k < num_voigt d)%nat -> (1 <= d <= 3)%nat ->
  strain d ndof (fun _ => 0) (fun j => u j + c * v j) g k = strain d ndof (fun _ => 0) u g k + c * strain d ndof (fun _ => 0) v g k.
Proof.
  intros Hk Hd. unfold strain. destruct (nth_error (voigt_pairs d) k) as [[i j]|] eqn:E.
  2: { exfalso. apply nth_error_None in E. dims d; cbn in E, Hk; lia. }
  destruct (Nat.eqb i j); rewrite <- ?rsum_scal_l.
  - rewrite <- rsum_add. apply rsum_ext. intros. req. ring.
  - rewrite !Rplus_0_l. rewrite <- rsum_scal_l, <- rsum_add. apply rsum_ext. intros. req. ring.
Qed.
Lemma voigt_lt d i j : (1 <= d <= 3)%nat -> (i < d)%nat -> (j < d)%nat -> (voigt d i j < num_voigt d)%nat.
Proof.
  intros Hd Hi Hj. dims d; destruct i as [|[|[|i]]]; try lia; destruct j as [|[|[|j]]]; try lia; cbv; lia.
Qed.
Lemma divergence_ext d ndof off scale vol s s' g out k : (1 <= d <= 3)%nat -> (forall v, (v < num_voigt d)%nat -> s v = s' v) ->
  stress_divergence d ndof off scale vol s g out k = stress_divergence d ndof off scale vol s' g out k.
Proof.
  intros Hd H. rewrite !divergence_entry. f_equal. apply rsum_ext. intros i Hi. apply rsum_ext. intros a Ha.
  destruct (Nat.eqb k _); [|reflexivity]. f_equal. apply rsum_ext. intros j Hj. rewrite H by (apply voigt_lt; assumption). reflexivity.
Qed.
Lemma divergence_0 d ndof off scale vol s g out k : (1 <= d <= 3)%nat -> (forall v, (v < num_voigt d)%nat -> s v = 0) ->
  stress_divergence d ndof off scale vol s g out k = out k.
Proof.
  intros Hd H. rewrite divergence_entry. rewrite (rsum_0 d); [ring|]. intros i Hi. apply rsum_0. intros a Ha.
  destruct (Nat.eqb k _); [|reflexivity]. rewrite rsum_0; [req; ring|]. intros j Hj. rewrite H by (apply voigt_lt; assumption). req. ring.
Qed.
Lemma flux_ext d ndof off scale vol q q' g out k : (forall v, (v < d)%nat -> q v = q' v) ->
  flux_divergence d ndof off scale vol q g out k = flux_divergence d ndof off scale vol q' g out k.
Proof.
  intros H. rewrite !flux_entry. f_equal. apply rsum_ext. intros a Ha. destruct (Nat.eqb k _); [|reflexivity]. f_equal. apply rsum_ext.
  intros j Hj. rewrite H by exact Hj. reflexivity.
Qed.
Lemma flux_0 d ndof off scale vol q g out k : (forall v, (v < d)%nat -> q v = 0) -> flux_divergence d ndof off scale vol q g out k = out k.
Proof.
  intros H. rewrite flux_entry. rewrite (rsum_0 (S d)); [ring|]. intros a Ha. destruct (Nat.eqb k _); [|reflexivity]. rewrite rsum_0; [req; ring|].
  intros j Hj. rewrite H by exact Hj. req. ring.
Qed.
Lemma basis_sum d : (1 <= d <= 3)%nat -> rsum (S d) (cub_basis d) = 1.
Proof. intros Hd. dims d; rsums; unfold cub_basis, cub_point; cbn; field. Qed.
Lemma interpolate_const d ndof off u T : (1 <= d <= 3)%nat -> (forall a, (a <= d)%nat -> u (a * ndof + off)%nat = T) -> interpolate d ndof off u = T.
Proof.
  intros Hd H. unfold interpolate. rewrite (rsum_ext _ _ (fun a => T * cub_basis d a)) by (intros a Ha; rewrite H by lia; req; ring).
  rewrite rsum_scal_l, basis_sum by exact Hd. ring.
Qed.
Lemma gather_moves {M} d nn ndof X t A U (c : cell M) : (d <= ndof)%nat -> (forall a, (a <= d)%nat -> (c_node c a < nn)%nat) ->
  moves d nn ndof X t A U -> affine_displacement d ndof (gather_coords X c) t A (gather ndof U c).
Proof. intros Hn Hc H a i Ha Hi. rewrite gather_at by lia. rewrite (H (c_node c a) i (Hc a Ha) Hi). reflexivity. Qed.
Lemma gather_scalar {M} d nn ndof off X b0 b U (c : cell M) : (off < ndof)%nat -> (forall a, (a <= d)%nat -> (c_node c a < nn)%nat) ->
  scalar_field d nn ndof off X b0 b U -> forall a, (a <= d)%nat -> gather ndof U c (a * ndof + off) = affine d b0 b (gather_coords X c) a.
Proof. intros Hn Hc H a Ha. rewrite gather_at by lia. rewrite (H (c_node c a) (Hc a Ha)). reflexivity. Qed.
Lemma scalar_gradient_affine d ndof off x b0 b u : (1 <= d <= 3)%nat -> simplex_measure d x <> 0 ->
  (forall a, (a <= d)%nat -> u (a * ndof + off)%nat = affine d b0 b x a) -> forall k, (k < d)%nat -> scalar_gradient d ndof off u (cell_gradient d x) k = b k.
Proof.
  intros Hd Hm H k Hk. unfold scalar_gradient. rewrite <- (proj1 (C31_gradients d x Hd Hm) b0 b k Hk). unfold rs. apply rsum_ext.
  intros a Ha. rewrite H by lia. reflexivity.
Qed.
Lemma affine_const d b0 x a : affine d b0 (fun _ => 0) x a = b0.
Proof. unfold affine, rs. rewrite rsum_0; [ring|]. intros. req. ring. Qed.
Lemma gather_lin {M} ndof U V c (cl : cell M) k : gather ndof (fun j => U j + c * V j) cl k = gather ndof U cl k + c * gather ndof V cl k.
Proof. reflexivity. Qed.

Definition thermal_strain_value (d : nat) (m : thermoelastic) (T : R) (v : nat) : R := if Nat.ltb v d then m_scale m * m_alpha m T v v * (T - m_tref m) else 0.
Lemma thermal_strain_ok d m T : (2 <= d <= 3)%nat -> exists ts, thermal_strain d m T = Ok ts /\ forall v, ts v = thermal_strain_value d m T v.
Proof.
  intros Hd. unfold thermal_strain, thermal_strain_value. destruct d as [|[|[|[|d]]]]; try lia; cbn; eexists; (split; [reflexivity|]);
    intros [|[|[|[|v]]]]; reflexivity.
Qed.
Lemma thermal_strain_1 m T : thermal_strain 1 m T = UB. Proof. reflexivity. Qed.

Definition tm_stress (d : nat) (m : thermoelastic) (e : nat -> R) (T : R) (i : nat) : R :=
  rsum (num_voigt d) (fun j => (e j - thermal_strain_value d m T j) * m_stiff m T i j).
Definition tm_flux (d : nat) (m : thermoelastic) (tg : nat -> R) (T : R) (i : nat) : R := rsum d (fun j => m_scale m * m_scale m * tg j * m_cond m T i j).
Definition tm_cell_value (d : nat) (pen : R -> R) (m : thermoelastic) (x : coords) (u z : nat -> R) : nat -> R :=
  let g := cell_gradient d x in
  let T := interpolate d (S d) d u in
  flux_divergence d (S d) d 1 (cell_measure d x) (weigh d pen z (tm_flux d m (scalar_gradient d (S d) d u g) T)) g
    (stress_divergence d (S d) 0 1 (cell_measure d x) (weigh d pen z (tm_stress d m (strain d (S d) (fun _ => 0) u g) T)) g (fun _ => 0)).
Lemma tm_kinetics_ok d m e tg T : (2 <= d <= 3)%nat -> exists s, tm_kinetics d m e tg T = Ok (s, tm_flux d m tg T) /\ forall i, s i = tm_stress d m e T i.
Proof.
  intros Hd. destruct (thermal_strain_ok d m T Hd) as (ts & E & H). unfold tm_kinetics. rewrite E. cbn [rbind]. eexists. split; [reflexivity|].
  intros i. unfold tm_stress. apply rsum_ext. intros j _. rewrite H. reflexivity.
Qed.
Lemma tm_cell_ok d pen m x u z : (2 <= d <= 3)%nat -> exists r, tm_cell d pen m x u z = Ok r /\ forall k, r k = tm_cell_value d pen m x u z k.
Proof.
  intros Hd. unfold tm_cell, tm_cell_value.
  destruct (tm_kinetics_ok d m (strain d (S d) (fun _ => 0) u (cell_gradient d x)) (scalar_gradient d (S d) d u (cell_gradient d x)) (interpolate d (S d) d u) Hd) as (s & E & H).
  cbv zeta. rewrite E. cbn [rbind fst snd]. eexists. split; [reflexivity|]. intros k. rewrite !flux_entry. f_equal. apply divergence_ext; [lia|].
  intros v _. unfold weigh. rewrite H. reflexivity.
Qed.
(** The mesh residual is the sum of the cell values. *)
Lemma tm_ok d pen X U Z cells : (2 <= d <= 3)%nat -> exists r, thermoelastostatic d pen X U Z cells = Ok r /\
  forall k, r k = assemble (S d) (S d) (fun c => tm_cell_value d pen (c_mat c) (gather_coords X c) (gather (S d) U c) (gather_control Z c)) cells k.
Proof.
  intros Hd. unfold thermoelastostatic.
  set (f := fun c : cell thermoelastic => match tm_cell d pen (c_mat c) (gather_coords X c) (gather (S d) U c) (gather_control Z c) with Ok r => r | _ => fun _ => 0 end).
  exists (assemble (S d) (S d) f cells). split.
  - apply assembleR_ok. intros c _. unfold f. destruct (tm_cell_ok d pen (c_mat c) (gather_coords X c) (gather (S d) U c) (gather_control Z c) Hd) as (r & E & _).
    rewrite E. reflexivity.
  - apply assemble_ext. intros c k _ _. unfold f. destruct (tm_cell_ok d pen (c_mat c) (gather_coords X c) (gather (S d) U c) (gather_control Z c) Hd) as (r & E & H).
    rewrite E. apply H.
Qed.
Lemma tm_work d pen m x u z w : (1 <= d <= 3)%nat ->
  cell_work (S d) (S d) (tm_cell_value d pen m x u z) w =
  cell_measure d x * pen (cell_density (S d) z) *
    (rsum (num_voigt d) (fun v => tm_stress d m (strain d (S d) (fun _ => 0) u (cell_gradient d x)) (interpolate d (S d) d u) v * strain d (S d) (fun _ => 0) w (cell_gradient d x) v)
     + rsum d (fun k => tm_flux d m (scalar_gradient d (S d) d u (cell_gradient d x)) (interpolate d (S d) d u) k * scalar_gradient d (S d) d w (cell_gradient d x) k)).
Proof.
  intros Hd. unfold tm_cell_value. cbv zeta. rewrite flux_work by lia. rewrite stress_work by lia. rewrite cell_work_0. unfold weigh.
  set (P := pen (cell_density (S d) z)). set (V := cell_measure d x). set (e := strain d (S d) (fun _ => 0) w (cell_gradient d x)).
  set (tg := scalar_gradient d (S d) d w (cell_gradient d x)).
  rewrite Rmult_plus_distr_l. rewrite <- !rsum_scal_l. rewrite Rplus_0_l. f_equal; apply rsum_ext; intros; req; ring.
Qed.

(** ** Works of the other residuals *)
Lemma elastic_work d pen m col x u z w : (1 <= d <= 3)%nat ->
  cell_work (S d) d (elastostatic_cell d pen m col x u z) w =
  cell_measure d x * pen (cell_density (S d) z) * rsum (num_voigt d) (fun v => elastic_stress d m col x u v * strain d d (fun _ => 0) w (cell_gradient d x) v).
Proof.
  intros Hd. unfold elastostatic_cell. rewrite stress_work by lia. rewrite cell_work_0. unfold weigh. rewrite <- !rsum_scal_l, Rplus_0_l.
  apply rsum_ext; intros; req; ring.
Qed.
Lemma thermostatic_work d pen m x u z w :
  cell_work (S d) 1 (thermostatic_cell d pen m x u z) w =
  - (cell_measure d x * pen (cell_density (S d) z) *
     rsum d (fun k => flux_at d m (scalar_gradient d 1 0 u (cell_gradient d x)) (interpolate d 1 0 u) k * scalar_gradient d 1 0 w (cell_gradient d x) k)).
Proof.
  unfold thermostatic_cell. cbv zeta. rewrite flux_work by lia. rewrite cell_work_0. unfold weigh. rewrite Rplus_0_l, <- Ropp_mult_distr_l_reverse, <- !rsum_scal_l.
  apply rsum_ext; intros; req; ring.
Qed.
Lemma heat_work d pen m x u udot z w :
  cell_work (S d) 1 (heat_cell d pen m x u udot z) w =
  - (cell_measure d x * pen (cell_density (S d) z) *
     rsum d (fun k => flux_no_temperature d m (scalar_gradient d 1 0 u (cell_gradient d x)) k * scalar_gradient d 1 0 w (cell_gradient d x) k))
  + cell_measure d x * pen (cell_density (S d) z) * thermal_content m (interpolate d 1 0 u) (interpolate d 1 0 udot) * interpolate d 1 0 w.
Proof.
  unfold heat_cell. cbv zeta. rewrite project_work, flux_work by lia. rewrite cell_work_0. unfold weigh. rewrite Rplus_0_l. f_equal.
  - rewrite <- Ropp_mult_distr_l_reverse, <- !rsum_scal_l. apply rsum_ext; intros; req; ring.
  - ring.
Qed.
Lemma em_field_gradient d u g i : em_field d u g i = - scalar_gradient d (S d) d u g i.
Proof. unfold em_field, scalar_gradient. ring. Qed.
Lemma em_work d pen m x u z w : (1 <= d <= 3)%nat ->
  cell_work (S d) (S d) (em_cell d pen m x u z) w =
  cell_measure d x * pen (cell_density (S d) z) *
  (rsum (num_voigt d) (fun v => em_stress d m (strain d (S d) (fun _ => 0) u (cell_gradient d x)) (em_field d u (cell_gradient d x)) v * strain d (S d) (fun _ => 0) w (cell_gradient d x) v)
   - rsum d (fun k => em_displacement d m (strain d (S d) (fun _ => 0) u (cell_gradient d x)) (em_field d u (cell_gradient d x)) k * em_field d w (cell_gradient d x) k)).
Proof.
  intros Hd. unfold em_cell. cbv zeta. rewrite flux_work by lia. rewrite stress_work by lia. rewrite cell_work_0. unfold weigh.
  unfold Rminus. rewrite Rmult_plus_distr_l, Rplus_0_l. f_equal.
  - rewrite <- !rsum_scal_l. apply rsum_ext; intros; req; ring.
  - rewrite <- Ropp_mult_distr_r, Ropp_mult_distr_l, <- !rsum_scal_l. apply rsum_ext; intros k Hk. rewrite em_field_gradient. req. ring.
Qed.
Lemma measure_simplex d x : (1 <= d <= 3)%nat -> simplex_measure d x <> 0 -> cell_measure d x = simplex_measure d x /\ 0 < cell_measure d x.
Proof.
  intros Hd Hm. destruct (C31_gradients d x Hd Hm) as (_ & _ & H & P). unfold cell_measure. rewrite Rmult_comm. split; [exact H|]. rewrite H. exact P.
Qed.
Lemma rsum_opp n f : rsum n (fun i => - f i) = - rsum n f.
Proof. rewrite <- (Rmult_1_l (rsum n f)), Ropp_mult_distr_l, <- rsum_scal_l. apply rsum_ext. intros. req. ring. Qed.
Lemma rsum_sub n f g : rsum n (fun i => f i - g i) = rsum n f - rsum n g.
Proof. unfold Rminus. rewrite rsum_add, rsum_opp. reflexivity. Qed.
(** A symmetric form. *)
Lemma form_sym n C e f : symmetric n C -> rsum n (fun i => rsum n (fun j => e j * C i j) * f i) = rsum n (fun i => rsum n (fun j => f j * C i j) * e i).
Proof.
  intros H.
  rewrite (rsum_ext n (fun i => rsum n (fun j => e j * C i j) * f i) (fun i => rsum n (fun j => e j * C i j * f i))) by (intros i _; apply rsum_scal_r).
  rewrite rsum_swap. apply rsum_ext. intros j Hj. rewrite rsum_scal_r. apply rsum_ext. intros i Hi. rewrite (H i j Hi Hj). req. ring.
Qed.
