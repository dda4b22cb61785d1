(** C164: the patch test: affine fields of a homogeneous body are in equilibrium at every interior node. *)
From Coq Require Import Reals List Arith Bool Permutation Lia Lra.
From Verif Require Import Base.Field Base.Sums Base.Res Element.ElementModel Element.ElementSpec Element.ElementProof Element.ElementProps
  Element.MaterialModel Element.MaterialSpec Element.MaterialProps
  Penalty.PenaltyModel Residual.ResidualModel Residual.ResidualSpec Residual.ResidualProof Residual.ResidualProps Residual.ResidualEnergyProps
  Residual.FrameSpec Residual.FrameProof Residual.NumberProps Residual.SupportSpec Residual.SupportProof Residual.SupportProps Residual.PotentialProps Residual.PatchSpec.
Import ListNotations.
Local Open Scope R_scope.

(** ** One facet *)
(** Determinant times gradient at a corner does not depend on the place of that corner. *)
Lemma cofactor d x z b k : (1 <= d <= 3)%nat -> (b <= d)%nat -> (k < d)%nat -> (forall a i, (a <= d)%nat -> (i < d)%nat -> a <> b -> z a i = x a i) ->
  cell_det d x <> 0 -> cell_det d z <> 0 -> cell_det d z * cell_gradient d z b k = cell_det d x * cell_gradient d x b k.
Proof.
  intros Hd Hb Hk H Hx Hz. dims d; cbn [cell_det cell_gradient] in *.
  - unfold gradient1. cbv zeta. generalize dependent (det1 z). generalize dependent (det1 x). intros.
    assert (k = 0%nat) by lia. subst. destruct b as [|[|b]]; try lia; field; split; assumption.
  - unfold gradient2. cbv zeta. generalize dependent (det2 z). generalize dependent (det2 x). intros.
    destruct b as [|[|[|b]]]; try lia; rewrite ?(H 0%nat 0%nat), ?(H 0%nat 1%nat), ?(H 1%nat 0%nat), ?(H 1%nat 1%nat), ?(H 2%nat 0%nat), ?(H 2%nat 1%nat) by lia;
      destruct k as [|[|k]]; try lia; field; split; assumption.
  - unfold gradient3. cbv zeta. generalize dependent (det3 z). generalize dependent (det3 x). intros.
    destruct b as [|[|[|[|b]]]]; try lia;
      rewrite ?(H 0%nat 0%nat), ?(H 0%nat 1%nat), ?(H 0%nat 2%nat), ?(H 1%nat 0%nat), ?(H 1%nat 1%nat), ?(H 1%nat 2%nat),
        ?(H 2%nat 0%nat), ?(H 2%nat 1%nat), ?(H 2%nat 2%nat), ?(H 3%nat 0%nat), ?(H 3%nat 1%nat), ?(H 3%nat 2%nat) by lia;
      destruct k as [|[|[|k]]]; try lia; field; split; assumption.
Qed.
(** An affine function that vanishes on a facet has the gradient of the shape function of the opposite corner. *)
Lemma facet_gradient d x b b0 g k : (1 <= d <= 3)%nat -> cell_det d x <> 0 -> (b <= d)%nat -> (k < d)%nat ->
  (forall a, (a <= d)%nat -> a <> b -> affine d b0 g x a = 0) -> affine d b0 g x b * cell_gradient d x b k = g k.
Proof.
  intros Hd Hx Hb Hk H. rewrite <- (linear_field d x b0 g k Hd Hx Hk). rewrite (rsum_single (S d) b); [reflexivity|lia|].
  intros a Ha Na. change (b0 + rsum d (fun l => g l * x a l)) with (affine d b0 g x a). rewrite H by (assumption || lia). req. ring.
Qed.
Lemma sides_cancel d x z b b0 g k : (1 <= d <= 3)%nat -> (b <= d)%nat -> (k < d)%nat -> (forall a i, (a <= d)%nat -> (i < d)%nat -> a <> b -> z a i = x a i) ->
  cell_det d x <> 0 -> cell_det d z <> 0 -> (forall a, (a <= d)%nat -> a <> b -> affine d b0 g x a = 0) -> 0 < affine d b0 g x b -> affine d b0 g z b < 0 ->
  cell_measure d x * cell_gradient d x b k + cell_measure d z * cell_gradient d z b k = 0.
Proof.
  intros Hd Hb Hk H Hx Hz H0 Hp Hn.
  assert (H0' : forall a, (a <= d)%nat -> a <> b -> affine d b0 g z a = 0).
  { intros a Ha Na. rewrite <- (H0 a Ha Na). unfold affine, rs. f_equal. apply rsum_ext. intros l Hl. rewrite H by assumption. reflexivity. }
  destruct (gradient_nonzero d x b Hd Hx Hb) as (l & Hl & Nl).
  pose proof (cofactor d x z b l Hd Hb Hl H Hx Hz) as E. pose proof (facet_gradient d x b b0 g l Hd Hx Hb Hl H0) as Gx. pose proof (facet_gradient d z b b0 g l Hd Hz Hb Hl H0') as Gz.
  pose proof (cofactor d x z b k Hd Hb Hk H Hx Hz) as Ek.
  set (p := affine d b0 g x b) in *. set (q := affine d b0 g z b) in *. set (gx := cell_gradient d x b l) in *. set (gz := cell_gradient d z b l) in *.
  (* q gz = p gx, det z gz = det x gx, so det z p = det x q *)
  assert (S : cell_det d z * p = cell_det d x * q).
  { assert (gz = p * gx / q) as -> by (apply Rmult_eq_reg_l with q; [|lra]; field_simplify; lra).
    apply Rmult_eq_reg_r with (gx / q); [|intros Z; apply Rmult_integral in Z; destruct Z as [Z|Z]; [contradiction|apply Rinv_neq_0_compat in Z; lra]].
    transitivity (cell_det d z * (p * gx / q)); [field; lra|]. rewrite E. field. lra. }
  unfold cell_measure, cell_volume.
  destruct (Rdichotomy _ _ Hx) as [Lx|Lx].
  - assert (Lz : 0 < cell_det d z) by nra. rewrite (Rabs_left _ Lx), (Rabs_pos_eq (cell_det d z)) by lra.
    transitivity (cub_weight d * (cell_det d z * cell_gradient d z b k - cell_det d x * cell_gradient d x b k)); [ring|]. rewrite Ek. ring.
  - assert (Lz : cell_det d z < 0) by nra. rewrite (Rabs_left _ Lz), (Rabs_pos_eq (cell_det d x)) by lra.
    transitivity (cub_weight d * (cell_det d x * cell_gradient d x b k - cell_det d z * cell_gradient d z b k)); [ring|]. rewrite Ek. ring.
Qed.
Definition at_nodes (X : nat -> nat -> R) (c : nat -> nat) : coords := fun a i => X (c a) i.
Lemma facet_cancels d X p q k : (1 <= d <= 3)%nat -> (snd p <= d)%nat -> (k < d)%nat -> simplex_measure d (at_nodes X (fst p)) <> 0 -> simplex_measure d (at_nodes X (fst q)) <> 0 ->
  same_facet d p q -> two_sides d X p q ->
  cell_measure d (at_nodes X (fst p)) * cell_gradient d (at_nodes X (fst p)) (snd p) k + cell_measure d (at_nodes X (fst q)) * cell_gradient d (at_nodes X (fst q)) (snd q) k = 0.
Proof.
  destruct p as [c b], q as [c' b']. cbn [fst snd]. intros Hd Hb Hk Hc Hc' (s & s' & Hs & Sb & Sf) (b0 & g & H0 & Hp & Hn). cbn [fst snd] in *.
  set (z := fun a i => at_nodes X c' (s a) i).
  assert (Hx' : cell_det d (at_nodes X c') <> 0) by (apply det_measure; assumption).
  pose proof (volume_corners d s s' (at_nodes X c') z Hd Hs (fun _ _ _ _ => eq_refl)) as V.
  pose proof (gradient_corners d s s' (at_nodes X c') z Hd Hs (fun _ _ _ _ => eq_refl) Hx' b k Hb Hk) as G. rewrite Sb in G. rewrite <- G, <- (measure_of_volume d _ _ V).
  apply (sides_cancel d (at_nodes X c) z b b0 g k); try assumption.
  - intros a i Ha Hi Na. unfold z, at_nodes. rewrite Sf by assumption. reflexivity.
  - apply det_measure; assumption.
  - apply (det_of_volume d (at_nodes X c')); assumption.
  - unfold affine, z, at_nodes in *. rewrite Sb. exact Hn.
Qed.

(** ** One node *)
Lemma sum_over_flat {A B} (f : A -> list B) (h : B -> R) l : sum_over (flat_map f l) h = sum_over l (fun x => sum_over (f x) h).
Proof.
  induction l as [|x l IH]; [reflexivity|]. cbn [flat_map sum_over]. rewrite <- IH.
  generalize (f x). intros m. induction m as [|y m IHm]; cbn; [ring|]. rewrite IHm. ring.
Qed.
Lemma sum_over_map {A B} (f : A -> B) (h : B -> R) l : sum_over (map f l) h = sum_over l (fun x => h (f x)).
Proof. induction l as [|x l IH]; [reflexivity|]. cbn. rewrite IH. reflexivity. Qed.
Lemma sum_over_filter {A} (p : A -> bool) (h : A -> R) l : sum_over (filter p l) h = sum_over l (fun x => if p x then h x else 0).
Proof. induction l as [|x l IH]; [reflexivity|]. cbn. destruct (p x); cbn; rewrite IH; ring. Qed.
Lemma sum_over_app {A} (h : A -> R) l l' : sum_over (l ++ l') h = sum_over l h + sum_over l' h.
Proof. induction l as [|x l IH]; cbn; [ring|]. rewrite IH. ring. Qed.
Lemma sum_over_seq n h : sum_over (seq 0 n) h = rsum n h.
Proof.
  induction n as [|n IH]; [reflexivity|]. rewrite seq_S, sum_over_app, IH. cbn. req. ring.
Qed.
(** The corners of a cell with volume are different nodes. *)
Lemma distinct_corners d X c a b : (1 <= d <= 3)%nat -> simplex_measure d (at_nodes X c) <> 0 -> (a <= d)%nat -> (b <= d)%nat -> c a = c b -> a = b.
Proof.
  intros Hd Hm Ha Hb E. pose proof (det_measure d _ Hd Hm) as Hn. destruct (Nat.eq_dec a b) as [|N]; [assumption|exfalso].
  pose proof (gradient_dual d _ a a Hd Hn Ha Ha) as Ga. pose proof (gradient_dual d _ a b Hd Hn Ha Hb) as Gb. unfold at_nodes in Ga, Gb. rewrite E in Ga. fold (at_nodes X c) in Ga, Gb.
  rewrite Ga in Gb. unfold delta in Gb. rewrite Nat.eqb_refl in Gb. apply Nat.eqb_neq in N. rewrite N in Gb. lra.
Qed.
(** What a cell puts on a node is minus what it puts on the corners opposite to the facets at the node. *)
Lemma around d X c n q : (1 <= d <= 3)%nat -> simplex_measure d (at_nodes X c) <> 0 ->
  rsum (S d) (fun a => if Nat.eqb (c a) n then rsum d (fun j => q j * cell_gradient d (at_nodes X c) a j) else 0) =
  - rsum (S d) (fun b => if existsb (fun a => Nat.eqb (c a) n) (seq 0 (S d)) && negb (Nat.eqb (c b) n) then rsum d (fun j => q j * cell_gradient d (at_nodes X c) b j) else 0).
Proof.
  intros Hd Hm. destruct (existsb (fun a => Nat.eqb (c a) n) (seq 0 (S d))) eqn:E; cbn [andb].
  - rewrite <- rsum_opp.
    assert (T : rsum (S d) (fun a => rsum d (fun j => q j * cell_gradient d (at_nodes X c) a j)) = 0).
    { rewrite rsum_swap. apply rsum_0. intros j Hj. rewrite rsum_scal_l, gradient_sum by exact Hd. req. ring. }
    apply Rminus_diag_uniq. rewrite <- rsum_sub. etransitivity; [|exact T]. apply rsum_ext. intros a _. destruct (Nat.eqb (c a) n); cbn [negb]; req; ring.
  - transitivity 0; [apply rsum_0|symmetry; etransitivity; [apply f_equal; apply rsum_0; reflexivity|apply Ropp_0]]. intros a Ha. destruct (Nat.eqb (c a) n) eqn:Ea; [|reflexivity].
    assert (existsb (fun a => Nat.eqb (c a) n) (seq 0 (S d)) = true) as T by (apply existsb_exists; exists a; split; [apply in_seq; lia|exact Ea]). congruence.
Qed.
Lemma interior_sum d X conn n q : (1 <= d <= 3)%nat -> (forall c, In c conn -> simplex_measure d (at_nodes X c) <> 0) -> interior d X conn n ->
  sum_over conn (fun c => cell_measure d (at_nodes X c) * rsum (S d) (fun a => if Nat.eqb (c a) n then rsum d (fun j => q j * cell_gradient d (at_nodes X c) a j) else 0)) = 0.
Proof.
  intros Hd Hm (ps & HP & HF).
  set (h := fun p : (nat -> nat) * nat => cell_measure d (at_nodes X (fst p)) * rsum d (fun j => q j * cell_gradient d (at_nodes X (fst p)) (snd p) j)).
  assert (B : forall p, In p (facets d conn n) -> In (fst p) conn /\ (snd p <= d)%nat).
  { intros p Hp. unfold facets in Hp. apply in_flat_map in Hp. destruct Hp as (c & Hc & Hp). apply in_map_iff in Hp. destruct Hp as (b & <- & Hb). apply filter_In in Hb. destruct Hb as [Hb _]. apply in_seq in Hb.
    split; [exact Hc|cbn; lia]. }
  assert (Z : sum_over (facets d conn n) h = 0).
  { rewrite (sum_over_permuted _ _ h HP), sum_over_flat. apply sum_over_0. intros pq Hpq. rewrite Forall_forall in HF. destruct (HF pq Hpq) as [SF TS]. cbn [sum_over].
    assert (I : forall r, In r [fst pq; snd pq] -> In r (facets d conn n)).
    { intros r Hr. apply (Permutation_in r (Permutation_sym HP)). apply in_flat_map. exists pq. split; assumption. }
    destruct (B (fst pq) (I _ (or_introl eq_refl))) as [I1 B1]. destruct (B (snd pq) (I _ (or_intror (or_introl eq_refl)))) as [I2 B2].
    rewrite Rplus_0_r. unfold h. rewrite <- !rsum_scal_l, <- rsum_add. apply rsum_0. intros j Hj.
    pose proof (facet_cancels d X (fst pq) (snd pq) j Hd B1 Hj (Hm _ I1) (Hm _ I2) SF TS) as F.
    set (u := cell_measure d (at_nodes X (fst (fst pq))) * _) in F. req. unfold u in F.
    match goal with |- ?l = 0 => replace l with (q j * (cell_measure d (at_nodes X (fst (fst pq))) * cell_gradient d (at_nodes X (fst (fst pq))) (snd (fst pq)) j +
      cell_measure d (at_nodes X (fst (snd pq))) * cell_gradient d (at_nodes X (fst (snd pq))) (snd (snd pq)) j)) by ring end. rewrite F. ring. }
  etransitivity; [|exact (eq_trans (f_equal (fun r => -1 * r) Z) (Rmult_0_r (-1)))]. unfold facets. rewrite sum_over_flat, <- sum_over_scal.
  apply sum_over_ext. intros c Hc. rewrite sum_over_map, sum_over_filter. unfold h. cbn [fst snd]. rewrite sum_over_seq, around by (try apply Hm; assumption).
  transitivity (-1 * (cell_measure d (at_nodes X c) * rsum (S d) (fun b => if existsb (fun a => Nat.eqb (c a) n) (seq 0 (S d)) && negb (Nat.eqb (c b) n) then rsum d (fun j => q j * cell_gradient d (at_nodes X c) b j) else 0))); [ring|].
  f_equal. rewrite <- rsum_scal_l. apply rsum_ext. intros b _. destruct (_ && _); req; ring.
Qed.
Lemma node_entry {M} d ndof (r : cell M -> nat -> R) cells n i : (i < ndof)%nat ->
  assemble (S d) ndof r cells (n * ndof + i) = sum_over cells (fun c => rsum (S d) (fun a => if Nat.eqb (c_node c a) n then r c (a * ndof + i)%nat else 0)).
Proof.
  intros Hi. rewrite assemble_entry. apply sum_over_ext. intros c _. apply rsum_ext. intros a _. rewrite (rsum_single ndof i).
  - unfold pick. destruct (Nat.eqb_spec (c_node c a) n) as [E|N].
    + rewrite E, Nat.eqb_refl. reflexivity.
    + destruct (Nat.eqb_spec (n * ndof + i) (c_node c a * ndof + i)) as [E|]; [exfalso; apply N; nia|reflexivity].
  - exact Hi.
  - intros j Hj Nj. unfold pick. destruct (Nat.eqb_spec (n * ndof + i) (c_node c a * ndof + j)) as [E|]; [exfalso|reflexivity].
    assert (n = c_node c a) by nia. subst. lia.
Qed.
(** Cells that carry the same flux q leave nothing at an interior node. *)
Lemma patch {M} d nn ndof X (cells : list (cell M)) (r : cell M -> nat -> R) n i q : (1 <= d <= 3)%nat -> (i < ndof)%nat -> mesh_ok d nn X cells -> interior d X (map c_node cells) n ->
  (forall c a, In c cells -> (a <= d)%nat -> r c (a * ndof + i)%nat = cell_measure d (gather_coords X c) * rsum d (fun j => q j * cell_gradient d (gather_coords X c) a j)) ->
  assemble (S d) ndof r cells (n * ndof + i) = 0.
Proof.
  intros Hd Hi Hm HI HR. rewrite node_entry by exact Hi.
  etransitivity; [|apply (interior_sum d X (map c_node cells) n q Hd); [intros c Hc; apply in_map_iff in Hc; destruct Hc as (c0 & <- & Hc0); apply (mesh_cell _ _ _ _ _ Hm Hc0)|exact HI]].
  rewrite sum_over_map. apply sum_over_ext. intros c Hc. cbn beta. rewrite <- rsum_scal_l. apply rsum_ext. intros a Ha. destruct (Nat.eqb (c_node c a) n); [|symmetry; apply Rmult_0_r]. rewrite HR by (assumption || lia). reflexivity.
Qed.

(** ** The residuals *)
Lemma uniform_density {M} d nn Z z (c : cell M) : (forall a, (a <= d)%nat -> (c_node c a < nn)%nat) -> (forall n, (n < nn)%nat -> Z n = z) -> cell_density (S d) (gather_control Z c) = z.
Proof.
  intros Hn HZ. transitivity (rs (S d) (fun _ => z) / INR (S d)).
  - unfold cell_density, rs. f_equal. apply rsum_ext. intros a Ha. apply HZ, Hn. lia.
  - assert (E : forall k, rs k (fun _ => z) = INR k * z).
    { intros k. induction k as [|k IH]; [cbn; ring|]. change (rs k (fun _ => z) + z = INR (S k) * z). rewrite IH, S_INR. ring. }
    rewrite E. field. apply not_0_INR. lia.
Qed.

(** A homogeneous elastic body (with any reference strain and forcing) under an affine displacement carries no force at interior nodes. *)
Theorem C164_elastic : forall d nn pen col m X U Z z cells t A, (1 <= d <= 3)%nat -> mesh_ok d nn X cells -> (forall c, In c cells -> c_mat c = m) ->
  (forall n, (n < nn)%nat -> Z n = z) -> moves d nn d X t A U ->
  forall n i, (i < d)%nat -> interior d X (map c_node cells) n -> elastostatic d pen col X U Z cells (n * d + i) = 0.
Proof.
  intros d nn pen col m X U Z z cells t A Hd Hm Hmat HZ HU n i Hi HI.
  set (s := fun v => add_forcing (e_stiff m) col (linear_stress (num_voigt d) (e_stiff m) (e_ref m) (engineering_strain d A)) v).
  apply (patch d nn d X cells _ n i (fun j => pen z * s (voigt d i j)) Hd Hi Hm HI). intros c a Hc Ha. destruct (mesh_cell _ _ _ _ _ Hm Hc) as [Hn Hv].
  unfold elastostatic_cell. pose proof (divergence_at d d 0 1 (cell_measure d (gather_coords X c)) (weigh d pen (gather_control Z c) (elastic_stress d (c_mat c) col (gather_coords X c) (gather d U c)))
    (cell_gradient d (gather_coords X c)) (fun _ => 0) a i Hi ltac:(lia) ltac:(lia)) as E. rewrite Nat.add_0_r in E. rewrite E. rewrite Rplus_0_l, Rmult_1_l. f_equal. apply rsum_ext. intros j Hj. req.
  f_equal. unfold weigh. rewrite (uniform_density d nn Z z c Hn HZ), Rmult_comm. f_equal. rewrite (Hmat c Hc). unfold elastic_stress, s, add_forcing, linear_stress.
  assert (F : rsum (num_voigt d) (fun w => (strain d d (fun _ => 0) (gather d U c) (cell_gradient d (gather_coords X c)) w - e_ref m w) * e_stiff m (voigt d i j) w)
    = rsum (num_voigt d) (fun w => (engineering_strain d A w - e_ref m w) * e_stiff m (voigt d i j) w)).
  { apply rsum_ext. intros w Hw. rewrite (proj1 (C32_strain d d _ t A _ Hd (le_n d) Hv (gather_moves d nn d X t A U c (le_n d) Hn HU)) w Hw). reflexivity. }
  destruct col; [f_equal|]; exact F.
Qed.
Print Assumptions C164_elastic.
Theorem C164_heat : forall d nn pen m X T Z z cells b0 b, (1 <= d <= 3)%nat -> mesh_ok d nn X cells -> (forall c, In c cells -> c_mat c = m) -> t_nonlinear m = false ->
  (forall n, (n < nn)%nat -> Z n = z) -> scalar_field d nn 1 0 X b0 b T ->
  forall n, interior d X (map c_node cells) n -> thermostatic d pen X T Z cells n = 0.
Proof.
  intros d nn pen m X T Z z cells b0 b Hd Hm Hmat Hl HZ HT n HI. replace n with (n * 1 + 0)%nat by lia.
  apply (patch d nn 1 X cells _ n 0 (fun j => - pen z * thermal_flux d (t_cond_const m) b j) Hd ltac:(lia) Hm HI). intros c a Hc Ha. destruct (mesh_cell _ _ _ _ _ Hm Hc) as [Hn Hv].
  unfold thermostatic_cell. cbv zeta. rewrite flux_entry, Rplus_0_l. rewrite (rsum_single (S d) a).
  - rewrite Nat.eqb_refl. transitivity (cell_measure d (gather_coords X c) * (-1 * rsum d (fun j => weigh d pen (gather_control Z c) (flux_at d (c_mat c) (scalar_gradient d 1 0 (gather 1 T c) (cell_gradient d (gather_coords X c))) (interpolate d 1 0 (gather 1 T c))) j * cell_gradient d (gather_coords X c) a j))); [req; ring|].
    f_equal. rewrite <- rsum_scal_l. apply rsum_ext. intros j Hj. unfold weigh. rewrite (uniform_density d nn Z z c Hn HZ). unfold flux_at. rewrite (Hmat c Hc), Hl.
    assert (F : thermal_flux d (t_cond_const m) (scalar_gradient d 1 0 (gather 1 T c) (cell_gradient d (gather_coords X c))) j = thermal_flux d (t_cond_const m) b j).
    { unfold thermal_flux. f_equal. apply rsum_ext. intros k Hk. rewrite (scalar_gradient_affine d 1 0 _ b0 b _ Hd Hv (gather_scalar d nn 1 0 X b0 _ T c ltac:(lia) Hn HT) k Hk). reflexivity. }
    rewrite F. req. ring.
  - lia.
  - intros a' Ha' Na. destruct (Nat.eqb_spec (a * 1 + 0) (a' * 1 + 0)); [lia|reflexivity].
Qed.
Print Assumptions C164_heat.

Lemma slot n a b i j : (i < n)%nat -> (j < n)%nat -> (a * n + i = b * n + j)%nat -> a = b /\ i = j.
Proof.
  intros Hi Hj E. assert (a = b); [|split; [assumption|subst; lia]].
  assert (A : ((a * n + i) / n = a)%nat) by (rewrite Nat.div_add_l by lia; rewrite Nat.div_small by lia; lia).
  assert (B : ((b * n + j) / n = b)%nat) by (rewrite Nat.div_add_l by lia; rewrite Nat.div_small by lia; lia).
  rewrite E in A. congruence.
Qed.

(** Affine displacements and an affine potential in a homogeneous piezoelectric body: no force and no charge at interior nodes. *)
Theorem C164_electroelastic : forall d nn pen m X U Z z cells t A b0 b, (1 <= d <= 3)%nat -> mesh_ok d nn X cells -> (forall c, In c cells -> c_mat c = m) ->
  (forall n, (n < nn)%nat -> Z n = z) -> moves d nn (S d) X t A U -> scalar_field d nn (S d) d X b0 b U ->
  forall n i, (i <= d)%nat -> interior d X (map c_node cells) n -> electroelastostatic d pen X U Z cells (n * S d + i) = 0.
Proof.
  intros d nn pen m X U Z z cells t A b0 b Hd Hm Hmat HZ HU HV n i Hi HI. unfold electroelastostatic.
  set (ef := fun j => 0 - b j). set (e := engineering_strain d A).
  set (q := fun j => pen z * (if Nat.ltb i d then em_stress d m e ef (voigt d i j) else em_displacement d m e ef j)).
  apply (patch d nn (S d) X cells _ n i q Hd ltac:(lia) Hm HI). intros c a Hc Ha. destruct (mesh_cell _ _ _ _ _ Hm Hc) as [Hn Hv].
  unfold em_cell. cbv zeta. set (g := cell_gradient d (gather_coords X c)). set (vol := cell_measure d (gather_coords X c)).
  assert (Ee : forall w, (w < num_voigt d)%nat -> strain d (S d) (fun _ => 0) (gather (S d) U c) g w = e w).
  { intros w Hw. exact (proj1 (C32_strain d (S d) _ t A _ Hd ltac:(lia) Hv (gather_moves d nn (S d) X t A U c ltac:(lia) Hn HU)) w Hw). }
  assert (Ef : forall k, (k < d)%nat -> em_field d (gather (S d) U c) g k = ef k).
  { intros k Hk. unfold em_field, ef. f_equal. exact (scalar_gradient_affine d (S d) d _ b0 b _ Hd Hv (gather_scalar d nn (S d) d X b0 _ U c ltac:(lia) Hn HV) k Hk). }
  assert (Es : forall v, (v < num_voigt d)%nat -> em_stress d (c_mat c) (strain d (S d) (fun _ => 0) (gather (S d) U c) g) (em_field d (gather (S d) U c) g) v = em_stress d m e ef v).
  { intros v Hv'. rewrite (Hmat c Hc). unfold em_stress. f_equal; apply rsum_ext; intros j Hj; [rewrite Ee by exact Hj|rewrite Ef by exact Hj]; reflexivity. }
  assert (Ed : forall v, em_displacement d (c_mat c) (strain d (S d) (fun _ => 0) (gather (S d) U c) g) (em_field d (gather (S d) U c) g) v = em_displacement d m e ef v).
  { intros v. rewrite (Hmat c Hc). unfold em_displacement. f_equal; apply rsum_ext; intros j Hj; [rewrite Ef by exact Hj|rewrite Ee by exact Hj]; reflexivity. }
  rewrite flux_entry. unfold q. destruct (Nat.ltb_spec i d) as [L|L].
  - rewrite (rsum_0 (S d)) by (intros a' Ha'; destruct (Nat.eqb_spec (a * S d + i) (a' * S d + d)) as [E|]; [exfalso; apply slot in E; lia|reflexivity]). rewrite Rplus_0_r.
    pose proof (divergence_at d (S d) 0 1 vol (weigh d pen (gather_control Z c) (em_stress d (c_mat c) (strain d (S d) (fun _ => 0) (gather (S d) U c) g) (em_field d (gather (S d) U c) g))) g (fun _ => 0) a i L ltac:(lia) ltac:(lia)) as E.
    rewrite Nat.add_0_r in E. rewrite E, Rplus_0_l, Rmult_1_l. f_equal. apply rsum_ext. intros j Hj. unfold weigh. rewrite (uniform_density d nn Z z c Hn HZ), Es by (apply voigt_lt; lia). req. ring.
  - assert (i = d) by lia. subst i. rewrite divergence_other by (intros a' i' Hi' Ha' E; rewrite Nat.add_0_r in E; apply slot in E; lia). rewrite Rplus_0_l. rewrite (rsum_single (S d) a).
    + rewrite Nat.eqb_refl, Rmult_1_l. f_equal. apply rsum_ext. intros j Hj. unfold weigh. rewrite (uniform_density d nn Z z c Hn HZ), Ed. req. ring.
    + lia.
    + intros a' Ha' Na. destruct (Nat.eqb_spec (a * S d + d) (a' * S d + d)) as [E|]; [exfalso; apply slot in E; lia|reflexivity].
Qed.
Print Assumptions C164_electroelastic.
(** Affine displacements and one temperature everywhere in a homogeneous thermoelastic body, whose constants may depend on the temperature. *)
Theorem C164_thermoelastic : forall d nn pen m X U Z z cells t A T, (2 <= d <= 3)%nat -> mesh_ok d nn X cells -> (forall c, In c cells -> c_mat c = m) ->
  (forall n, (n < nn)%nat -> Z n = z) -> moves d nn (S d) X t A U -> scalar_field d nn (S d) d X T (fun _ => 0) U ->
  exists r, thermoelastostatic d pen X U Z cells = Ok r /\ forall n i, (i <= d)%nat -> interior d X (map c_node cells) n -> r (n * S d + i)%nat = 0.
Proof.
  intros d nn pen m X U Z z cells t A T Hd' Hm Hmat HZ HU HV. assert (Hd : (1 <= d <= 3)%nat) by lia. destruct (tm_ok d pen X U Z cells Hd') as (r & E & Hr). exists r. split; [exact E|].
  intros n i Hi HI. rewrite Hr. set (e := engineering_strain d A).
  set (q := fun j => pen z * (if Nat.ltb i d then tm_stress d m e T (voigt d i j) else 0)).
  apply (patch d nn (S d) X cells _ n i q Hd ltac:(lia) Hm HI). intros c a Hc Ha. destruct (mesh_cell _ _ _ _ _ Hm Hc) as [Hn Hv].
  unfold tm_cell_value. cbv zeta. set (g := cell_gradient d (gather_coords X c)). set (vol := cell_measure d (gather_coords X c)).
  assert (Et : interpolate d (S d) d (gather (S d) U c) = T).
  { rewrite interpolate_average by lia. unfold average. transitivity (rs (S d) (fun _ => T) / INR (S d)).
    - unfold Rdiv. f_equal. unfold rs. apply rsum_ext. intros a' Ha'. rewrite (HV (c_node c a')) by (apply Hn; lia). unfold affine, rs. rewrite rsum_0 by (intros; req; ring). req. ring.
    - assert (EE : forall k, rs k (fun _ => T) = INR k * T). { intros k. induction k as [|k IH]; [cbn; ring|]. change (rs k (fun _ => T) + T = INR (S k) * T). rewrite IH, S_INR. ring. }
      rewrite EE. field. apply not_0_INR. lia. }
  rewrite Et.
  assert (Ee : forall w, (w < num_voigt d)%nat -> strain d (S d) (fun _ => 0) (gather (S d) U c) g w = e w).
  { intros w Hw. exact (proj1 (C32_strain d (S d) _ t A _ Hd ltac:(lia) Hv (gather_moves d nn (S d) X t A U c ltac:(lia) Hn HU)) w Hw). }
  assert (Eg : forall k, (k < d)%nat -> scalar_gradient d (S d) d (gather (S d) U c) g k = 0) by (intros k Hk; apply (uniform_gradient d nn (S d) d X T U c k Hd ltac:(lia) Hn Hv HV Hk)).
  assert (Es : forall v, tm_stress d (c_mat c) (strain d (S d) (fun _ => 0) (gather (S d) U c) g) T v = tm_stress d m e T v).
  { intros v. rewrite (Hmat c Hc). unfold tm_stress. apply rsum_ext; intros j Hj. rewrite Ee by exact Hj. reflexivity. }
  rewrite flux_entry. rewrite (rsum_0 (S d)).
  2: { intros a' Ha'. destruct (Nat.eqb _ _); [|reflexivity]. rewrite rsum_0; [req; ring|]. intros j Hj. unfold weigh, tm_flux. rewrite rsum_0; [req; ring|]. intros k Hk. rewrite Eg by exact Hk. req. ring. }
  rewrite Rplus_0_r. unfold q. destruct (Nat.ltb_spec i d) as [L|L].
  - pose proof (divergence_at d (S d) 0 1 vol (weigh d pen (gather_control Z c) (tm_stress d (c_mat c) (strain d (S d) (fun _ => 0) (gather (S d) U c) g) T)) g (fun _ => 0) a i L ltac:(lia) ltac:(lia)) as F.
    rewrite Nat.add_0_r in F. rewrite F, Rplus_0_l, Rmult_1_l. f_equal. apply rsum_ext. intros j Hj. unfold weigh. rewrite (uniform_density d nn Z z c Hn HZ), Es. req. ring.
  - rewrite divergence_other by (intros a' i' Hi' Ha' F; rewrite Nat.add_0_r in F; apply slot in F; lia). rewrite rsum_0; [ring|]. intros. req. ring.
Qed.
Print Assumptions C164_thermoelastic.

(** Together with C162: if the displacements of all nodes that are not interior are given by an affine field and the others are in equilibrium without loads,
    the whole body follows the affine field. *)
Theorem C164_exact : forall d nn pen m X U Z z cells t A held, (1 <= d <= 3)%nat -> mesh_ok d nn X cells -> one_piece d nn (map c_node cells) -> restrains d nn d X held ->
  (forall c, In c cells -> c_mat c = m) -> positive_form (num_voigt d) (e_stiff m) -> (forall n, (n < nn)%nat -> Z n = z) -> 0 < pen z ->
  (forall n i, (n < nn)%nat -> (i < d)%nat -> held (n * d + i)%nat = false -> interior d X (map c_node cells) n) ->
  (forall n i, (n < nn)%nat -> (i < d)%nat -> held (n * d + i)%nat = true -> U (n * d + i)%nat = affine d (t i) (A i) X n) ->
  (forall k, (k < nn * d)%nat -> held k = false -> elastostatic d pen None X U Z cells k = 0) ->
  moves d nn d X t A U.
Proof.
  intros d nn pen m X U Z z cells t A held Hd Hm Ho Hr Hmat Hp HZ Hz HI HB HE n i Hn Hi.
  set (V := rigid_field d d X t A).
  assert (HV : moves d nn d X t A V) by (intros n' i' _ Hi'; apply rigid_field_at; exact Hi').
  rewrite <- (HV n i Hn Hi). apply (C162_elastic d nn pen None X U V Z cells held Hd Hm Ho Hr); [| |nia].
  - intros c Hc. rewrite (Hmat c Hc). split; [exact Hp|]. unfold solid. destruct (mesh_cell _ _ _ _ _ Hm Hc) as [Hcn _]. pose proof (uniform_density d nn Z z c Hcn HZ) as E. unfold cell_density in E.
    replace (rs (S d) (fun a => Z (c_node c a)) / INR (S d)) with z by (symmetry; exact E). exact Hz.
  - intros k Hk. assert (Hkd : (k / d < nn)%nat) by (apply Nat.div_lt_upper_bound; lia). assert (Hkm : (k mod d < d)%nat) by (apply Nat.mod_upper_bound; lia).
    assert (Ek : k = (k / d * d + k mod d)%nat) by (rewrite Nat.mul_comm; apply Nat.div_mod; lia).
    destruct (held k) eqn:Eh; rewrite Ek in Eh.
    + rewrite Ek. rewrite (HB _ _ Hkd Hkm Eh), (HV _ _ Hkd Hkm). reflexivity.
    + rewrite HE by (try assumption; rewrite Ek; exact Eh). rewrite Ek. symmetry. apply (C164_elastic d nn pen None m X V Z z cells t A Hd Hm Hmat HZ HV _ _ Hkm). apply (HI _ _ Hkd Hkm Eh).
Qed.
Print Assumptions C164_exact.

(** The hypotheses met: a square with a node off its centre and four triangles around it. *)
Definition fan_X (n i : nat) : R := match n, i with 1%nat, 0%nat => 2 | 2%nat, _ => 2 | 3%nat, 1%nat => 2 | 4%nat, 0%nat => 1 / 2 | 4%nat, _ => 1 | _, _ => 0 end.
Definition fan_cell (p q a : nat) : nat := match a with 0%nat => 4%nat | 1%nat => p | _ => q end.
Definition fan {M} (m : M) : list (cell M) := [mkCell (fan_cell 0 1) m; mkCell (fan_cell 1 2) m; mkCell (fan_cell 2 3) m; mkCell (fan_cell 3 0) m].
Lemma fan_ok {M} (m : M) : mesh_ok 2 5 fan_X (fan m).
Proof.
  intros c [E|[E|[E|[E|[]]]]]; subst c; (split; [intros [|[|[|a]]] Ha; cbn; lia|]); unfold simplex_measure; cbn;
    match goal with |- Rabs ?q / 2 <> 0 => assert (0 < q) by lra; rewrite Rabs_pos_eq by lra; lra end.
Qed.
Lemma shared_edge p q r : same_facet 2 (fan_cell p q, 1%nat) (fan_cell q r, 2%nat).
Proof.
  exists (fun a => match a with 0%nat => 0%nat | 1%nat => 2%nat | _ => 1%nat end), (fun a => match a with 0%nat => 0%nat | 1%nat => 2%nat | _ => 1%nat end). split; [|split; [reflexivity|]].
  - intros [|[|[|a]]] Ha; try lia; repeat split; lia.
  - cbn [fst snd]. intros [|[|[|a]]] Ha Na; try lia; reflexivity.
Qed.
Example C164_case : interior 2 fan_X (map c_node (fan tt)) 4.
Proof.
  set (f := fun k : nat => match k with 0 => (fan_cell 0 1, 1) | 1 => (fan_cell 0 1, 2) | 2 => (fan_cell 1 2, 1) | 3 => (fan_cell 1 2, 2) | 4 => (fan_cell 2 3, 1) | 5 => (fan_cell 2 3, 2) | 6 => (fan_cell 3 0, 1) | _ => (fan_cell 3 0, 2) end%nat).
  exists [(f 0, f 3); (f 2, f 5); (f 4, f 7); (f 6, f 1)]%nat. split.
  - change (Permutation (map f [0; 1; 2; 3; 4; 5; 6; 7]%nat) (map f [0; 3; 2; 5; 4; 7; 6; 1]%nat)). apply Permutation_map.
    apply NoDup_Permutation; [repeat constructor; cbn; lia|repeat constructor; cbn; lia|]. intros k. cbn. lia.
  - assert (T : forall p q r b0 b, affine 2 b0 b fan_X 4 = 0 -> affine 2 b0 b fan_X q = 0 -> 0 < affine 2 b0 b fan_X p -> affine 2 b0 b fan_X r < 0 -> two_sides 2 fan_X (fan_cell p q, 1%nat) (fan_cell q r, 2%nat)).
    { intros p q r b0 b H4 Hq Hp Hr. exists b0, b. cbn [fst snd]. split; [|split; assumption]. intros [|[|[|a]]] Ha Na; try lia; assumption. }
    constructor; [split; [apply shared_edge|]|constructor; [split; [apply shared_edge|]|constructor; [split; [apply shared_edge|]|constructor; [split; [apply shared_edge|]|constructor]]]].
    + apply (T 0%nat 1%nat 2%nat 2 (fun k => match k with 0%nat => -1 | _ => - (3 / 2) end)); unfold affine, rs; rsums; cbn; lra.
    + apply (T 1%nat 2%nat 3%nat 1 (fun k => match k with 0%nat => 1 | _ => - (3 / 2) end)); unfold affine, rs; rsums; cbn; lra.
    + apply (T 2%nat 3%nat 0%nat (-2) (fun k => match k with 0%nat => 2 | _ => 1 end)); unfold affine, rs; rsums; cbn; lra.
    + apply (T 3%nat 0%nat 1%nat 0 (fun k => match k with 0%nat => -2 | _ => 1 end)); unfold affine, rs; rsums; cbn; lra.
Qed.

(** The node must be interior: one at the end of a bar carries the force of the bar. *)
Theorem C164_needs_interior : ~ (forall d nn pen m X U Z z cells t A, (1 <= d <= 3)%nat -> mesh_ok d nn X cells -> (forall c, In c cells -> c_mat c = m) ->
  (forall n, (n < nn)%nat -> Z n = z) -> moves d nn d X t A U -> forall n i, (n < nn)%nat -> (i < d)%nat -> elastostatic d pen None X U Z cells (n * d + i) = 0).
Proof.
  intros H. assert (E : elastostatic 1 (fun _ => 1) None bar_X pull (fun _ => 1) (bar rod) (1 * 1 + 0) = 0).
  { apply (H 1%nat 2%nat (fun _ => 1) rod bar_X pull (fun _ => 1) 1 (bar rod) (fun _ => 0) (fun _ _ => 1) ltac:(lia) (bar_ok rod)); try lia.
    - intros c [<-|[]]. reflexivity.
    - reflexivity.
    - intros n i Hn Hi. assert (i = 0%nat) by lia. subst. unfold affine, rs. rsums. destruct n as [|[|n]]; try lia; cbn; lra. }
  change (1 * 1 + 0)%nat with 1%nat in E. rewrite bar_loaded in E by lia. cbn in E. lra.
Qed.
Print Assumptions C164_needs_interior.
