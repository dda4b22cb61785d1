(** Proofs about the dynamics problem. *)
From Coq Require Import Arith Lia List Bool Ring Field.
From Verif Require Import Base.Field Base.Sums Base.Res BC.ConstraintsSpec BC.ConstraintsProof BC.ConstraintsMain
  Problem.DenseBC Problem.EllipticProof Problem.HyperbolicModel Problem.HyperbolicSpec.
Import ListNotations.

Section K.
Context {K : CField} {Z : Type}.
Add Field KfieldHP : (f_th K).
Local Open Scope K_scope.

Lemma htang_form (a c m g b dt : K) : b <> 0 -> dt <> 0 ->
  a + g / (b * dt) * c + 1 / (b * dt * dt) * m = a + (- nv_grad_u g b dt) * c + (- na_grad_u g b dt) * m.
Proof. intros H1 H2. unfold nv_grad_u, na_grad_u. field. auto. Qed.
Lemma hzero_add (x : K) (d : nat) : hu (@hzero K) d + 1 * x = x.
Proof. simpl. ring. Qed.
Lemma quarter_nz : @two K <> 0 -> 1 / (two * two) <> (0 : K).
Proof.
  intros H2 E. apply (F_1_neq_0 (f_th K)). transitivity (1 / (two * two) * (two * two) : K); [field; exact H2|]. rewrite E. ring.
Qed.
Lemma avg_tang (a m dt : K) : @two K <> 0 -> dt <> 0 ->
  a + (two * two) / (dt * dt) * m = a + 1 / two / (1 / (two * two) * dt) * 0 + 1 / (1 / (two * two) * dt * dt) * m.
Proof. intros H1 H2. field. auto. Qed.
Lemma zero_pairs (dofs : list nat) d : In d dofs -> In (d, (0 : K)) (combine dofs (map (fun _ => 0) dofs)).
Proof. induction dofs as [|a l IH]; simpl; [intros []|]. intros [->|H]; [left; reflexivity|right; apply IH; exact H]. Qed.
Lemma add_mv0 n (M A : matr K) x y w i : mv n M x i + mv n (fun _ _ => 0) y i + mv n A w i = mv n M x i + mv n A w i.
Proof. unfold mv at 2. rewrite sum_0 by (intros; ring). ring. Qed.
Lemma energy_zero (e c d : K) : d = 0 -> e + c * d = e.
Proof. intros ->. ring. Qed.
Lemma mul_0_l_h (x : K) : 0 * x = 0.
Proof. ring. Qed.
Lemma mul_00_h (x : K) : x * (0 + 0) = 0.
Proof. ring. Qed.
Lemma add_0_r_h (x : K) : x + 0 = x.
Proof. ring. Qed.
Lemma avg_velocity (n : nat) (dt : K) (p s : hstate K) :
  @two K <> 0 -> dt <> 0 -> newmark n (1 / two) (1 / (two * two)) dt p s ->
  forall i, i < n -> hu s i = hu p i -> hv s i + hv p i = 0.
Proof.
  intros H2 Hdt HN i Hi E. destruct (HN i Hi) as [EU EV]. rewrite E in EU.
  transitivity (two / dt * ((hu p i + dt * hv p i + dt * dt / two * ((1 - two * (1 / (two * two))) * ha p i + two * (1 / (two * two)) * ha s i)) - hu p i)).
  - rewrite EV. transitivity (two * hv p i + dt * ((1 - 1 / two) * ha p i + 1 / two * ha s i)); [assert (T : two * hv p i = hv p i + hv p i) by (unfold two; ring); rewrite T; ring|]. field. split; assumption.
  - rewrite <- EU. ring.
Qed.

Section Step.
Variables (p : hproblem K Z) (z : Z) (t : K) (prev s : hstate K).
Notation n := (hq_n p). Notation gamma := (hq_gamma p). Notation beta := (hq_beta p). Notation dt := (hq_dt p). Notation pde := (hq_pde p).
Notation dofs := (fst (hq_bcs p t)). Notation vals := (snd (hq_bcs p t)).
Hypothesis Hb : beta <> 0.
Hypothesis Hdt : dt <> 0.
Hypothesis H2 : @two K <> 0.

Definition htang : matr K := fun i j =>
  hp_gradient_u pde s z t i j + (- nv_grad_u gamma beta dt) * hp_gradient_v pde s z t i j
    + (- na_grad_u gamma beta dt) * hp_gradient_a pde s z t i j.
Definition hres : vect K := fun i => (- (1)) * hp_value pde s z t i
   + mv n (hp_gradient_v pde s z t) (nv_value gamma beta dt s prev) i + mv n (hp_gradient_a pde s z t) (na_value gamma beta dt s prev) i.
Definition hinc : vect K := hq_solve p (bc_matrix dofs htang) (bc_rhs 1 dofs vals htang hres).
Definition hupd (d : vect K) : hstate K :=
  mkH (fun i => hu s i + 1 * d i) (fun i => hv s i + (- (1)) * (nv_value gamma beta dt s prev i + nv_grad_u gamma beta dt * d i))
      (fun i => ha s i + (- (1)) * (na_value gamma beta dt s prev i + na_grad_u gamma beta dt * d i)).

Lemma hstep_eq : hstep p z t prev s = hupd hinc.
Proof. unfold hstep, hinc. destruct (hq_bcs p t) as [ds vs]. reflexivity. Qed.

Lemma hupd_newmark d : newmark n gamma beta dt prev (hupd d).
Proof.
  intros i Hi. unfold hupd, nv_value, na_value, nv_grad_u, na_grad_u. cbn [hu hv ha]. split; field; repeat split; assumption.
Qed.

Hypothesis Hlen : List.length vals = List.length dofs.
Hypothesis Hc : compatible 1 dofs vals.
Hypothesis Hd : forall d, In d dofs -> d < n.
Hypothesis Hs : solver_ok n (hq_solve p).
Hypothesis Hns : nonsingular n (bc_matrix dofs htang).

Lemma hinc_values d w : In (d, w) (combine dofs vals) -> hinc d = w.
Proof.
  intros Hin. pose proof (in_combine_l _ _ _ _ Hin) as Hdin.
  assert (E : solves n (bc_matrix dofs htang) (bc_rhs 1 dofs vals htang hres) hinc) by (apply Hs, Hns).
  specialize (E d (Hd d Hdin)). rewrite bc_row_fixed in E; [|apply Hd; exact Hdin|apply constrained_in; exact Hdin].
  unfold bc_rhs in E. rewrite (prescribed_all 1 dofs vals Hc d (1 * w)) in E.
  - rewrite E. ring.
  - unfold bcs_of. apply in_map_iff. exists (d, w). split; [reflexivity|exact Hin].
Qed.

Variables (A C M : matr K) (F : K -> vect K).
Hypothesis Hlin : linear_hpde n pde z A C M F.
Hypothesis HA : symmetric n A. Hypothesis HC : symmetric n C. Hypothesis HM : symmetric n M.

Lemma hupd_free i : i < n -> ~ In i dofs ->
  mv n M (ha (hupd hinc)) i + mv n C (hv (hupd hinc)) i + mv n A (hu (hupd hinc)) i = F t i.
Proof.
  intros Hi Hni. destruct (Hlin s t) as [Hval [HgA [HgC HgM]]].
  assert (Eq : mv n htang hinc i = hres i).
  { assert (E : solves n (bc_matrix dofs htang) (bc_rhs 1 dofs vals htang hres) hinc) by (apply Hs, Hns).
    apply bc_system in E; auto.
    - apply E; [exact Hi|]. destruct (constrained dofs i) eqn:Ec; [|reflexivity]. apply constrained_in in Ec. contradiction.
    - intros d0 v0 j Hin Hj. f_equal. unfold htang. apply in_combine_l in Hin. apply Hd in Hin.
      rewrite !HgA, !HgC, !HgM by assumption. rewrite (HA d0 j), (HC d0 j), (HM d0 j) by assumption. reflexivity. }
  assert (ET : mv n htang hinc i = mv n A hinc i - nv_grad_u gamma beta dt * mv n C hinc i - na_grad_u gamma beta dt * mv n M hinc i).
  { unfold mv. rewrite <- !sum_scal_l, <- !sum_sub. apply sum_ext. intros j Hj. unfold htang. rewrite HgA, HgC, HgM by assumption. ring. }
  set (rv := nv_value gamma beta dt s prev) in *. set (ra := na_value gamma beta dt s prev) in *.
  assert (ER : hres i = F t i - mv n M (ha s) i - mv n C (hv s) i - mv n A (hu s) i + mv n C rv i + mv n M ra i).
  { unfold hres. rewrite Hval by exact Hi.
    rewrite (mv_ext n (hp_gradient_v pde s z t) C _ rv i); [|intros; apply HgC; assumption|reflexivity].
    rewrite (mv_ext n (hp_gradient_a pde s z t) M _ ra i); [|intros; apply HgM; assumption|reflexivity]. ring. }
  rewrite ET, ER in Eq. unfold hupd. cbn [hu hv ha]. fold rv ra.
  rewrite !mv_add, !mv_scal, !mv_add, !mv_scal.
  assert (E3 : mv n A hinc i = F t i - mv n M (ha s) i - mv n C (hv s) i - mv n A (hu s) i + mv n C rv i + mv n M ra i
     + nv_grad_u gamma beta dt * mv n C hinc i + na_grad_u gamma beta dt * mv n M hinc i) by (rewrite <- Eq; ring).
  rewrite E3. ring.
Qed.
End Step.

Lemma hmarch_spec (p : hproblem K Z) (z : Z) todo : forall h k, 1 <= k ->
  (forall j, j < k \/ k + todo <= j -> hmarch p z h (times (k - 1) (hq_dt p)) todo k j = h j) /\
  (forall j, k <= j < k + todo ->
     hmarch p z h (times (k - 1) (hq_dt p)) todo k j = hstep p z (times j (hq_dt p)) (hmarch p z h (times (k - 1) (hq_dt p)) todo k (j - 1)%nat) (h j)).
Proof.
  induction todo as [|todo IH]; intros h k Hk; [split; intros; [reflexivity|lia]|]. cbn [hmarch].
  assert (Et : times (k - 1) (hq_dt p) + hq_dt p = times (S k - 1) (hq_dt p)).
  { replace (S k - 1)%nat with (S (k - 1)) by lia. reflexivity. }
  rewrite Et. set (s := hstep p z (times (S k - 1) (hq_dt p)) (h (k - 1)%nat) (h k)).
  set (h' := fun j => if Nat.eqb j k then s else h j).
  destruct (IH h' (S k) ltac:(lia)) as [I1 I2]. split.
  - intros j Hj. rewrite I1 by lia. unfold h'. destruct (Nat.eqb_spec j k); [lia|reflexivity].
  - intros j Hj. destruct (Nat.eq_dec j k) as [->|Hne].
    + rewrite (I1 k) by lia. rewrite (I1 (k - 1)%nat) by lia. unfold h'. rewrite Nat.eqb_refl.
      destruct (Nat.eqb_spec (k - 1) k); [lia|]. unfold s. replace (S k - 1)%nat with k by lia. reflexivity.
    + rewrite I2 by lia. unfold h'. destruct (Nat.eqb_spec j k); [lia|]. reflexivity.
Qed.
Lemma hsolution_step (p : hproblem K Z) (z : Z) h k : 1 <= k < hq_steps p ->
  hsolution p z h k = hstep p z (times k (hq_dt p)) (hsolution p z h (k - 1)%nat) hzero.
Proof.
  intros Hk. unfold hsolution. change (0 : K) with (times (1 - 1) (hq_dt p)).
  rewrite (proj2 (hmarch_spec p z (hq_steps p - 1) _ 1 ltac:(lia)) k) by lia.
  destruct (Nat.eqb_spec k 0); [lia|]. reflexivity.
Qed.
Lemma hsolution_init (p : hproblem K Z) (z : Z) h : hsolution p z h 0%nat = mkH (hq_init_u p) (hq_init_v p) (hq_init_a p).
Proof.
  unfold hsolution. change (0 : K) with (times (1 - 1) (hq_dt p)).
  rewrite (proj1 (hmarch_spec p z (hq_steps p - 1) _ 1 ltac:(lia)) 0%nat) by lia. reflexivity.
Qed.

(** Energy balance of one average-acceleration step. *)
Lemma energy_step (n : nat) (A M : matr K) (dt : K) (p s : hstate K) :
  @two K <> 0 -> symmetric n A -> symmetric n M ->
  newmark n (1 / two) (1 / (two * two)) dt p s ->
  energy2 n A M s = energy2 n A M p +
    dt / two * dot n (fun i => hv s i + hv p i) (fun i => (mv n M (ha s) i + mv n A (hu s) i) + (mv n M (ha p) i + mv n A (hu p) i)).
Proof.
  intros H2 HA HM HN.
  assert (Quad : forall (B : matr K) x y, symmetric n B -> dot n x (mv n B x) = dot n y (mv n B y) + dot n (fun i => x i + y i) (mv n B (fun i => x i - y i))).
  { intros B x y HB.
    assert (Hxy : dot n y (mv n B x) = dot n x (mv n B y)).
    { rewrite dot_mv_tr, dot_comm. apply dot_ext; [reflexivity|]. intros i Hi. apply mv_ext; [|reflexivity]. intros j Hj. apply HB; assumption. }
    rewrite (dot_ext n (fun i => x i + y i) (fun i => x i + y i) _ (fun i => mv n B x i - mv n B y i)); [|reflexivity|intros; apply mv_sub].
    rewrite dot_sub_r, !dot_add_l, Hxy. ring. }
  assert (Tw : forall x : K, x + x = two * x) by (intros; unfold two; ring).
  assert (Half : 1 - 1 / two = 1 / @two K).
  { transitivity ((two - 1) / @two K); [field; exact H2|]. f_equal. unfold two. ring. }
  assert (DU : forall i, i < n -> hu s i - hu p i = dt / two * (hv s i + hv p i)).
  { intros i Hi. destruct (HN i Hi) as [-> ->].
    transitivity (dt / two * (two * hv p i + dt * ((1 - 1 / two) * ha p i + 1 / two * ha s i))); [field; exact H2|].
    rewrite <- Tw. f_equal. ring. }
  assert (DV : forall i, i < n -> hv s i - hv p i = dt / two * (ha s i + ha p i)).
  { intros i Hi. destruct (HN i Hi) as [_ ->]. rewrite Half. field. exact H2. }
  unfold energy2. rewrite (Quad M (hv s) (hv p) HM), (Quad A (hu s) (hu p) HA).
  rewrite (dot_ext n (fun i => hv s i + hv p i) (fun i => hv s i + hv p i) (mv n M (fun i => hv s i - hv p i)) (fun i => dt / two * mv n M (fun j => ha s j + ha p j) i));
    [|reflexivity|intros i Hi; rewrite <- mv_scal; apply mv_ext; [reflexivity|exact DV]].
  assert (EA : dot n (fun i => hu s i + hu p i) (mv n A (fun i => hu s i - hu p i)) =
               dt / two * dot n (fun i => hv s i + hv p i) (mv n A (fun i => hu s i + hu p i))).
  { rewrite dot_mv_tr. rewrite dot_comm. rewrite <- dot_scal_l. apply dot_ext; [intros i Hi; apply DU; exact Hi|].
    intros i Hi. apply mv_ext; [|reflexivity]. intros j Hj. apply HA; assumption. }
  rewrite EA. rewrite dot_scal_r.
  rewrite (dot_ext n (fun i => hv s i + hv p i) (fun i => hv s i + hv p i)
     (fun i => mv n M (ha s) i + mv n A (hu s) i + (mv n M (ha p) i + mv n A (hu p) i))
     (fun i => mv n M (fun j => ha s j + ha p j) i + mv n A (fun j => hu s j + hu p j) i));
    [|reflexivity|intros i Hi; rewrite !mv_add; ring].
  rewrite dot_add_r. change (fun i => mv n M (fun j => ha s j + ha p j) i) with (mv n M (fun j => ha s j + ha p j)).
  change (fun i => mv n A (fun j => hu s j + hu p j) i) with (mv n A (fun j => hu s j + hu p j)). ring.
Qed.

(** The adjoint sweep. *)
Section Adjoint.
Variables (p : hproblem K Z) (z : Z) (h : hhistory K) (bc : list nat * list K) (fu fv fa : nat -> vect K) (dRdp : hstate K -> Z -> K -> matr K).
Notation n := (hq_n p). Notation dofs := (fst bc). Notation vals := (snd bc).
Notation gamma := (hq_gamma p). Notation beta := (hq_beta p). Notation dt := (hq_dt p). Notation pde := (hq_pde p).
Variables (N np : nat) (JU JV JA RP : nat -> matr K) (ds : nat -> hstate K) (dp : vect K).
Hypothesis Hb : beta <> 0.
Hypothesis Hdt : dt <> 0.
Hypothesis H2 : @two K <> 0.
Hypothesis Hlen : List.length vals = List.length dofs.
Hypothesis Hd : forall d, In d dofs -> d < n.
Hypothesis Hz : forall w, In w vals -> w = 0.
Hypothesis Hs : solver_ok n (hq_solve p).
Hypothesis HU : forall k i j, 1 <= k < N -> i < n -> j < n -> hp_gradient_u pde (h k) z (times (S k) dt) i j = JU k i j.
Hypothesis HV : forall k i j, 1 <= k < N -> i < n -> j < n -> hp_gradient_v pde (h k) z (times (S k) dt) i j = JV k i j.
Hypothesis HA : forall k i j, 1 <= k < N -> i < n -> j < n -> hp_gradient_a pde (h k) z (times (S k) dt) i j = JA k i j.
Hypothesis HP : forall k c i, 1 <= k < N -> c < np -> i < n -> dRdp (h k) z (times (S k) dt) c i = RP k i c.
Hypothesis HUs : forall k, 1 <= k < N -> symmetric n (JU k).
Hypothesis HVs : forall k, 1 <= k < N -> symmetric n (JV k).
Hypothesis HAs : forall k, 1 <= k < N -> symmetric n (JA k).
Hypothesis Hns : forall k, 1 <= k < N -> nonsingular n (bc_matrix dofs (htang p z (times (S k) dt) (h k))).
Hypothesis Htan : hhistory_tangent N n np dofs gamma beta dt JU JV JA RP ds dp.

Definition hcarry (next : option (vect K * vect K)) (k : nat) : K :=
  match next with None => 0
  | Some (lv, la) =>
     nv_grad_u_prev gamma beta dt * dot n lv (hu (ds k)) + na_grad_u_prev gamma beta dt * dot n la (hu (ds k))
     + (nv_grad_v_prev gamma beta dt * dot n lv (hv (ds k)) + na_grad_v_prev gamma beta dt * dot n la (hv (ds k)))
     + (nv_grad_a_prev gamma beta dt * dot n lv (ha (ds k)) + na_grad_a_prev gamma beta dt * dot n la (ha (ds k))) end.

Lemma hbackward_ok : forall k next t g, k < N -> t = times (S k) dt ->
  dot np (hbackward p z h bc fu fv fa dRdp t k next g) dp =
  dot np g dp + hcarry next k
   + lsum (map (fun k => dot n (fu k) (hu (ds k)) + dot n (fv k) (hv (ds k)) + dot n (fa k) (ha (ds k))) (seq 1 k)).
Proof.
  induction k as [|k IH]; intros next t g Hk Et.
  - simpl. destruct Htan as [H0 _]. destruct next as [[lv la]|]; simpl; [|ring].
    assert (Hx : forall l, dot n l (hu (ds 0%nat)) = 0 /\ dot n l (hv (ds 0%nat)) = 0 /\ dot n l (ha (ds 0%nat)) = 0).
    { intros l. repeat split; (rewrite <- (dot_0_r n l); apply dot_ext; [reflexivity|intros i Hi; apply H0; exact Hi]). }
    destruct (Hx lv) as [-> [-> ->]]. destruct (Hx la) as [-> [-> ->]]. ring.
  - cbn [hbackward].
    set (s := h (S k)). set (rvu := nv_grad_u gamma beta dt). set (rau := na_grad_u gamma beta dt).
    set (fu1 := match next with None => fu (S k) | Some (lv, la) => _ end).
    set (fv1 := match next with None => fv (S k) | Some (lv, la) => _ end).
    set (fa1 := match next with None => fa (S k) | Some (lv, la) => _ end).
    set (b := fun i => (- (1)) * fu1 i + rvu * fv1 i + rau * fa1 i).
    change (fun i j => hp_gradient_u pde s z t i j + (- rvu) * hp_gradient_v pde s z t i j + (- rau) * hp_gradient_a pde s z t i j) with (htang p z t s).
    set (lu := hq_solve p (bc_matrix dofs (htang p z t s)) (bc_rhs 1 dofs vals (htang p z t s) b)).
    set (lv := fun i => 0 + (- (1)) * (fv1 i + mv n (hp_gradient_v pde s z t) lu i)).
    set (la := fun i => 0 + (- (1)) * (fa1 i + mv n (hp_gradient_a pde s z t) lu i)).
    rewrite IH by (try lia; rewrite Et; cbn [times]; ring). rewrite seq_S, map_app, lsum_app. cbn [map plus]. unfold lsum at 3. cbn [fold_right].
    destruct Htan as [_ Ht]. destruct (Ht (S k) ltac:(lia)) as [T1 [T2 T3]].
    assert (Hsol : solves n (bc_matrix dofs (htang p z t s)) (bc_rhs 1 dofs vals (htang p z t s) b) lu) by (apply Hs; rewrite Et; apply Hns; lia).
    apply (bc_zero n 1 dofs vals _ _ _ Hlen Hd) in Hsol; [|intros w Hw; rewrite (Hz w Hw); ring].
    destruct Hsol as [L1 L2].
    set (U := hu (ds (S k))) in *. set (V := hv (ds (S k))) in *. set (W := ha (ds (S k))) in *.
    assert (E1 : dot np (fun c => g c + mv n (dRdp s z t) lu c) dp = dot np g dp + dot n lu (mv np (RP (S k)) dp)).
    { rewrite dot_add_l. f_equal. rewrite dot_mv_tr. apply dot_ext; [|reflexivity]. intros c Hc. apply mv_ext; [|reflexivity].
      intros i Hi. unfold tr, s. rewrite Et. apply HP; lia. }
    assert (E2 : dot n lu (mv np (RP (S k)) dp) = - (dot n (mv n (JU (S k)) lu) U + dot n (mv n (JV (S k)) lu) V + dot n (mv n (JA (S k)) lu) W)).
    { transitivity (- (dot n lu (mv n (JU (S k)) U) + dot n lu (mv n (JV (S k)) V) + dot n lu (mv n (JA (S k)) W))).
      - rewrite <- !dot_add_r, <- dot_opp_r. apply sum_ext. intros i Hi. destruct (in_dec Nat.eq_dec i dofs) as [Hin|Hni].
        + rewrite L1 by exact Hin. ring.
        + pose proof (T2 i Hi Hni) as E. f_equal.
          transitivity (mv n (JU (S k)) U i + mv n (JV (S k)) V i + mv n (JA (S k)) W i + mv np (RP (S k)) dp i
            - (mv n (JU (S k)) U i + mv n (JV (S k)) V i + mv n (JA (S k)) W i)); [ring|rewrite E; ring].
      - f_equal. rewrite !dot_mv_tr. f_equal; [f_equal|]; (apply dot_ext; [|reflexivity]; intros i Hi; apply mv_ext; [|reflexivity]; intros j Hj; unfold tr).
        + apply HUs; lia.
        + apply HVs; lia.
        + apply HAs; lia. }
    assert (E3 : forall i, i < n -> mv n (JV (S k)) lu i = - lv i - fv1 i).
    { intros i Hi. unfold lv. rewrite (mv_ext n (hp_gradient_v pde s z t) (JV (S k)) lu lu i); [ring|intros; unfold s; rewrite Et; apply HV; lia|reflexivity]. }
    assert (E3a : forall i, i < n -> mv n (JA (S k)) lu i = - la i - fa1 i).
    { intros i Hi. unfold la. rewrite (mv_ext n (hp_gradient_a pde s z t) (JA (S k)) lu lu i); [ring|intros; unfold s; rewrite Et; apply HA; lia|reflexivity]. }
    assert (E4 : dot n (mv n (JU (S k)) lu) U = - (rvu * dot n lv U) - rau * dot n la U - dot n fu1 U).
    { rewrite <- !dot_scal_l, <- dot_opp_l, <- !dot_sub_l. apply sum_ext. intros i Hi. destruct (in_dec Nat.eq_dec i dofs) as [Hin|Hni].
      - rewrite T1 by exact Hin. ring.
      - f_equal. pose proof (L2 i Hi Hni) as E.
        assert (ET : mv n (htang p z t s) lu i = mv n (JU (S k)) lu i - rvu * mv n (JV (S k)) lu i - rau * mv n (JA (S k)) lu i).
        { unfold mv. rewrite <- !sum_scal_l, <- !sum_sub. apply sum_ext. intros j Hj. unfold htang, s. rewrite Et, HU, HV, HA by lia. fold rvu rau. ring. }
        rewrite ET, E3, E3a in E by exact Hi. unfold b in E.
        transitivity (mv n (JU (S k)) lu i - rvu * (- lv i - fv1 i) - rau * (- la i - fa1 i) + rvu * (- lv i - fv1 i) + rau * (- la i - fa1 i)); [ring|].
        rewrite E. ring. }
    assert (E5 : dot n (mv n (JV (S k)) lu) V = - dot n lv V - dot n fv1 V).
    { rewrite <- dot_opp_l, <- dot_sub_l. apply dot_ext; [|reflexivity]. exact E3. }
    assert (E5a : dot n (mv n (JA (S k)) lu) W = - dot n la W - dot n fa1 W).
    { rewrite <- dot_opp_l, <- dot_sub_l. apply dot_ext; [|reflexivity]. exact E3a. }
    assert (T3' : forall i, i < n -> rvu * U i + V i = - (nv_grad_u_prev gamma beta dt * hu (ds k) i + nv_grad_v_prev gamma beta dt * hv (ds k) i + nv_grad_a_prev gamma beta dt * ha (ds k) i)
                       /\ rau * U i + W i = - (na_grad_u_prev gamma beta dt * hu (ds k) i + na_grad_v_prev gamma beta dt * hv (ds k) i + na_grad_a_prev gamma beta dt * ha (ds k) i)).
    { intros i Hi. specialize (T3 i Hi). replace (S k - 1)%nat with k in T3 by lia. destruct T3 as [TU TV]. fold U in TU. fold V in TV. fold W in TU, TV.
      rewrite TU, TV. unfold rvu, rau, nv_grad_u, na_grad_u, nv_grad_u_prev, nv_grad_v_prev, nv_grad_a_prev, na_grad_u_prev, na_grad_v_prev, na_grad_a_prev.
      split; field; repeat split; assumption. }
    assert (E6 : rvu * dot n lv U + dot n lv V =
       - (nv_grad_u_prev gamma beta dt * dot n lv (hu (ds k)) + nv_grad_v_prev gamma beta dt * dot n lv (hv (ds k)) + nv_grad_a_prev gamma beta dt * dot n lv (ha (ds k)))).
    { rewrite <- !dot_scal_r, <- !dot_add_r, <- dot_opp_r. apply dot_ext; [reflexivity|]. intros i Hi. apply T3'. exact Hi. }
    assert (E6a : rau * dot n la U + dot n la W =
       - (na_grad_u_prev gamma beta dt * dot n la (hu (ds k)) + na_grad_v_prev gamma beta dt * dot n la (hv (ds k)) + na_grad_a_prev gamma beta dt * dot n la (ha (ds k)))).
    { rewrite <- !dot_scal_r, <- !dot_add_r, <- dot_opp_r. apply dot_ext; [reflexivity|]. intros i Hi. apply T3'. exact Hi. }
    assert (E7 : dot n fu1 U + dot n fv1 V + dot n fa1 W = dot n (fu (S k)) U + dot n (fv (S k)) V + dot n (fa (S k)) W + hcarry next (S k)).
    { unfold fu1, fv1, fa1, hcarry. destruct next as [[l1 l2]|]; [|ring]. rewrite !dot_add_l, !dot_scal_l. fold U V W. ring. }
    rewrite E1, E2, E4, E5, E5a. unfold hcarry at 1.
    transitivity (dot np g dp + (rvu * dot n lv U + dot n lv V) + (rau * dot n la U + dot n la W) + (dot n fu1 U + dot n fv1 V + dot n fa1 W)
       + (nv_grad_u_prev gamma beta dt * dot n lv (hu (ds k)) + na_grad_u_prev gamma beta dt * dot n la (hu (ds k))
     + (nv_grad_v_prev gamma beta dt * dot n lv (hv (ds k)) + na_grad_v_prev gamma beta dt * dot n la (hv (ds k)))
     + (nv_grad_a_prev gamma beta dt * dot n lv (ha (ds k)) + na_grad_a_prev gamma beta dt * dot n la (ha (ds k))))
       + lsum (map (fun k => dot n (fu k) (hu (ds k)) + dot n (fv k) (hv (ds k)) + dot n (fa k) (ha (ds k))) (seq 1 k))); [ring|].
    rewrite E6, E6a, E7. ring.
Qed.
End Adjoint.
End K.
