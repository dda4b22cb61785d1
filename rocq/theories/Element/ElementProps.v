(** C31, C32, C68, C69: element gradients, volumes, strain and internal forces of linear simplices. *)
From Coq Require Import Reals List Arith Bool Lia Lra.
From Verif Require Import Base.Field Base.Sums Element.ElementModel Element.ElementProof Element.ElementSpec.
Import ListNotations.
Local Open Scope R_scope.

(** ** C31: the gradients are exact for every affine field on every simplex with distinct volume, sum to zero, and the weight times
    the returned volume is the measure of the simplex. *)
Theorem C31_gradients : forall d x, (1 <= d <= 3)%nat -> simplex_measure d x <> 0 ->
  (forall b0 b k, (k < d)%nat -> rs (S d) (fun a => affine d b0 b x a * cell_gradient d x a k) = b k) /\
  (forall k, rs (S d) (fun a => cell_gradient d x a k) = 0) /\
  cub_weight d * cell_volume d x = simplex_measure d x /\ 0 < simplex_measure d x.
Proof.
  intros d x Hd Hm.
  assert (V : cub_weight d * cell_volume d x = simplex_measure d x).
  { unfold cell_volume, simplex_measure. dims d; cbn [cell_det cub_weight]; cbv zeta.
    - unfold det1. rewrite Rmult_1_l, <- Rabs_Ropp. f_equal. ring.
    - unfold det2. cbv zeta. replace (1 / INR 2) with (/ 2) by (cbn; lra). unfold Rdiv. rewrite Rmult_comm. f_equal. f_equal. ring.
    - unfold det3. cbv zeta. replace (1 / INR 2 / INR 3) with (/ 6) by (cbn; field). unfold Rdiv. rewrite Rmult_comm. f_equal.
      rewrite <- Rabs_Ropp. f_equal. ring. }
  assert (D : cell_det d x <> 0).
  { intros E. apply Hm. rewrite <- V. unfold cell_volume. rewrite E, Rabs_R0. ring. }
  split; [|split; [|split]].
  - intros b0 b k Hk. exact (linear_field d x b0 b k Hd D Hk).
  - intros k. exact (gradient_sum d x k Hd).
  - exact V.
  - assert (0 <= simplex_measure d x); [|lra].
    unfold simplex_measure. cbv zeta. dims d; [apply Rabs_pos| |]; (apply Rmult_le_pos; [apply Rabs_pos|lra]).
Qed.
Print Assumptions C31_gradients.
Definition tri (a k : nat) : R := match a, k with 1%nat, 0%nat => 2 | 2%nat, 0%nat => 1 | 2%nat, 1%nat => 3 | _, _ => 0 end.
Example C31_case : simplex_measure 2 tri = 3 /\ cell_gradient 2 tri 2 1 = / 3.
Proof.
  split.
  - unfold simplex_measure. cbn. replace ((2 - 0) * (3 - 0) - (0 - 0) * (1 - 0)) with 6 by ring. rewrite Rabs_pos_eq; lra.
  - cbn. unfold gradient2, det2. cbn. field.
Qed.

(** ** C32: strain of an affine displacement is its engineering strain, zero for rigid motions; the stress divergence is its dual. *)
Theorem C32_strain : forall d ndof x t A u, (1 <= d <= 3)%nat -> (d <= ndof)%nat -> simplex_measure d x <> 0 ->
  affine_displacement d ndof x t A u ->
  (forall v, (v < num_voigt d)%nat -> strain d ndof (fun _ => 0) u (cell_gradient d x) v = engineering_strain d A v) /\
  (antisymmetric d A -> forall v, (v < num_voigt d)%nat -> strain d ndof (fun _ => 0) u (cell_gradient d x) v = 0).
Proof.
  intros d ndof x t A u Hd Hn Hm Hu.
  assert (L : forall i k, (i < d)%nat -> (k < d)%nat -> rsum (S d) (fun a => u (a * ndof + i)%nat * cell_gradient d x a k) = A i k).
  { intros i k Hi Hk. rewrite <- (proj1 (C31_gradients d x Hd Hm) (t i) (A i) k Hk). unfold rs. apply rsum_ext.
    intros a Ha. rewrite (Hu a i) by lia. reflexivity. }
  assert (E : forall v, (v < num_voigt d)%nat -> strain d ndof (fun _ => 0) u (cell_gradient d x) v = engineering_strain d A v).
  { intros v Hv. unfold strain. dims d; cbn in Hv;
      destruct v as [|[|[|[|[|[|v]]]]]]; try lia; cbn [nth_error voigt_pairs shear_pairs map seq app rev flat_map Nat.sub Nat.eqb engineering_strain];
      rewrite ?rsum_add, ?L by lia; ring. }
  split; [exact E|]. intros W v Hv. rewrite E by exact Hv. dims d; cbn in Hv;
    destruct v as [|[|[|[|[|[|v]]]]]]; try lia; cbn [engineering_strain];
    match goal with |- A ?i ?j = 0 => pose proof (W i j ltac:(lia) ltac:(lia)); lra
                  | |- A ?i ?j + _ = 0 => pose proof (W i j ltac:(lia) ltac:(lia)); lra end.
Qed.
Print Assumptions C32_strain.

(** Every virtual displacement w, every stress s and any number of extra degrees of freedom per node: the work of the accumulated
    nodal forces is scale * volume * stress : strain(w); entries that belong to no displacement are left as they were; and the two
    Strain operators agree. *)
Theorem C32_virtual_work : forall d ndof off scale vol s g out, (1 <= d <= 3)%nat -> (d + off <= ndof)%nat ->
  let f k := stress_divergence d ndof off scale vol s g out k - out k in
  (forall w, rs (S d) (fun a => rs d (fun i => f (a * ndof + i + off)%nat * w (a * ndof + i)%nat))
             = scale * vol * rs (num_voigt d) (fun v => s v * strain d ndof (fun _ => 0) w g v)) /\
  (forall k, (forall a i, (i < d)%nat -> (a <= d)%nat -> k <> (a * ndof + i + off)%nat) -> f k = 0).
Proof.
  intros d ndof off scale vol s g out Hd Hn f. split.
  - intros w. unfold rs. rewrite <- (duality d ndof s g w Hd), <- rsum_scal_l. apply rsum_ext. intros a Ha. rewrite <- rsum_scal_l.
    apply rsum_ext. intros i Hi. unfold f. rewrite divergence_at by assumption. req. ring.
  - intros k Hk. unfold f. rewrite divergence_other; [ring|]. intros a i Hi Ha. apply Hk; lia.
Qed.
Print Assumptions C32_virtual_work.

Theorem C32_operators_agree : forall d g u v, (1 <= d <= 3)%nat -> (v < num_voigt d)%nat ->
  strain_matrix d u (gradient_matrix d g) v = strain d d (fun _ => 0) u g v.
Proof.
  intros d g u v Hd Hv. unfold strain_matrix, strain, gradient_matrix. dims d; cbn in Hv;
    destruct v as [|[|[|[|[|[|v]]]]]]; try lia; cbn -[Rplus Rmult]; change (@radd R_ring) with Rplus; change (@r0 R_ring) with 0; req; ring.
Qed.
Print Assumptions C32_operators_agree.

(** The internal nodal forces of any stress on any simplex do no work in a rigid motion: no net force, no net moment. *)
Theorem C32_equilibrium : forall d ndof off scale vol s out x t A w, (1 <= d <= 3)%nat -> (d + off <= ndof)%nat -> simplex_measure d x <> 0 ->
  affine_displacement d ndof x t A w -> antisymmetric d A ->
  rs (S d) (fun a => rs d (fun i => (stress_divergence d ndof off scale vol s (cell_gradient d x) out (a * ndof + i + off)%nat
                                      - out (a * ndof + i + off)%nat) * w (a * ndof + i)%nat)) = 0.
Proof.
  intros d ndof off scale vol s out x t A w Hd Hn Hm Hu HA.
  rewrite (proj1 (C32_virtual_work d ndof off scale vol s (cell_gradient d x) out Hd Hn) w). unfold rs.
  rewrite rsum_0; [ring|]. intros v Hv. rewrite (proj2 (C32_strain d ndof x t A w Hd ltac:(lia) Hm Hu) HA v Hv). req. ring.
Qed.
Print Assumptions C32_equilibrium.
(** A rotation of the triangle with an extra temperature per node. *)
Definition rot (i j : nat) : R := match i, j with 0%nat, 1%nat => -1 | 1%nat, 0%nat => 1 | _, _ => 0 end.
Definition rotated (k : nat) : R := match k with 0%nat => 5 | 3%nat => 5 | 4%nat => 2 | 6%nat => 2 | 7%nat => 1 | 2%nat => 300 | _ => 0 end.
Example C32_case : affine_displacement 2 3 tri (fun i => match i with 0%nat => 5 | _ => 0 end) rot rotated /\ antisymmetric 2 rot /\ simplex_measure 2 tri <> 0.
Proof.
  split; [|split].
  - intros a i Ha Hi. unfold affine, rs. destruct a as [|[|[|a]]]; try lia; destruct i as [|[|i]]; try lia; cbn; change (@radd R_ring) with Rplus; change (@r0 R_ring) with 0; ring.
  - intros i j Hi Hj. destruct i as [|[|i]]; try lia; destruct j as [|[|j]]; try lia; cbn; ring.
  - rewrite (proj1 C31_case). lra.
Qed.

(** The shear components are accumulated: called on an output that is not zero the kernel does not return the strain. *)
Theorem C32_dirty_output_refuted : ~ (forall d ndof old u g v, (1 <= d <= 3)%nat -> (d <= ndof)%nat -> (v < num_voigt d)%nat ->
  strain d ndof old u g v = strain d ndof (fun _ => 0) u g v).
Proof.
  intros H. specialize (H 2%nat 2%nat (fun _ => 1) (fun _ => 0) (fun _ _ => 0) 2%nat ltac:(lia) ltac:(lia) ltac:(cbn; lia)).
  unfold strain in H. cbn in H. lra.
Qed.
Print Assumptions C32_dirty_output_refuted.

(** ** C68: the two volume kernels and the face area. *)
Theorem C68_volume_partial : forall d x, (2 <= d <= 3)%nat -> compute_volume d x = simplex_measure d x.
Proof.
  intros d x Hd. unfold compute_volume, simplex_measure. destruct d as [|[|[|[|d]]]]; try lia; cbn [Nat.eqb cell_det]; cbv zeta.
  - unfold det2. cbv zeta. unfold Rdiv. rewrite Rmult_1_l, Rmult_comm. f_equal. f_equal. ring.
  - unfold det3. cbv zeta. unfold Rdiv. rewrite Rmult_1_l, Rmult_comm. f_equal. rewrite <- Rabs_Ropp. f_equal. ring.
Qed.
Print Assumptions C68_volume_partial.
Theorem C68_volume_refuted : ~ (forall d x, (1 <= d <= 3)%nat -> compute_volume d x = simplex_measure d x).
Proof.
  intros H. specialize (H 1%nat (fun a _ => INR a) ltac:(lia)). unfold compute_volume, simplex_measure in H. cbn in H.
  unfold det1 in H. cbn in H. replace (0 - 1) with (-1) in H by ring. replace (1 - 0) with 1 in H by ring.
  rewrite Rabs_R1 in H. replace (-1) with (- (1)) in H by ring. rewrite Rabs_Ropp, Rabs_R1 in H. lra.
Qed.
Print Assumptions C68_volume_refuted.
(** Area squared is a quarter of Lagrange's |u|^2 |v|^2 - (u.v)^2 for the two edges leaving the first corner. *)
Theorem C68_face_area : forall x n0 n1 n2,
  let u := fun k => x n1 k - x n0 k in let v := fun k => x n2 k - x n0 k in
  0 <= surface_area3 x n0 n1 n2 /\
  surface_area3 x n0 n1 n2 * surface_area3 x n0 n1 n2 = (dot3 u u * dot3 v v - dot3 u v * dot3 u v) / 4.
Proof.
  intros x n0 n1 n2 u v. unfold surface_area3. cbv zeta. split.
  - apply Rmult_le_pos; [apply sqrt_pos|lra].
  - match goal with |- sqrt ?q / 2 * _ = _ => assert (Hq : 0 <= q) end.
    { repeat apply Rplus_le_le_0_compat; apply Rle_0_sqr. }
    match goal with |- sqrt ?q / 2 * _ = _ => replace (sqrt q / 2 * (sqrt q / 2)) with (sqrt q * sqrt q / 4) by field; rewrite (sqrt_sqrt q Hq) end.
    unfold dot3, u, v. field.
Qed.
Print Assumptions C68_face_area.

(** ** C69: heat flux.  A linear temperature gives minus conductivity times its slope; the flux divergence is the dual of the
    gradient, leaves other entries alone and puts no net heat into the element. *)
Theorem C69_heat_flux : forall d ndof off x T b0 b cond, (1 <= d <= 3)%nat -> (off < ndof)%nat -> simplex_measure d x <> 0 ->
  (forall a, (a <= d)%nat -> T (a * ndof + off)%nat = affine d b0 b x a) ->
  forall i, thermal_flux d cond (scalar_gradient d ndof off T (cell_gradient d x)) i = - rs d (fun j => cond i j * b j).
Proof.
  intros d ndof off x T b0 b cond Hd Ho Hm HT i. unfold thermal_flux, rs.
  replace (rsum d (fun j => scalar_gradient d ndof off T (cell_gradient d x) j * cond i j)) with (rsum d (fun j => cond i j * b j)); [req; ring|].
  apply rsum_ext. intros j Hj. rewrite Rmult_comm. f_equal. unfold scalar_gradient.
  rewrite <- (proj1 (C31_gradients d x Hd Hm) b0 b j Hj). unfold rs. apply rsum_ext. intros a Ha. rewrite HT by lia. reflexivity.
Qed.
Print Assumptions C69_heat_flux.
Theorem C69_divergence : forall d ndof off scale vol q g out, (off < ndof)%nat ->
  let f k := flux_divergence d ndof off scale vol q g out k - out k in
  (forall w, rs (S d) (fun a => f (a * ndof + off)%nat * w (a * ndof + off)%nat)
             = scale * vol * rs d (fun k => q k * scalar_gradient d ndof off w g k)) /\
  (forall k, (forall a, (a <= d)%nat -> k <> (a * ndof + off)%nat) -> f k = 0).
Proof.
  intros d ndof off scale vol q g out Ho f.
  assert (A : forall a, (a < S d)%nat -> f (a * ndof + off)%nat = scale * vol * rsum d (fun j => q j * g a j)).
  { intros a Ha. unfold f. rewrite flux_entry. rewrite (rsum_single (S d) a); [|exact Ha|].
    - rewrite Nat.eqb_refl. req. ring.
    - intros a' Ha' Hne. destruct (Nat.eqb_spec (a * ndof + off) (a' * ndof + off)) as [E|]; [|reflexivity].
      exfalso. apply Hne. assert (a * ndof = a' * ndof)%nat by lia. apply Nat.mul_cancel_r in H; lia. }
  split.
  - intros w. unfold rs, scalar_gradient.
    transitivity (scale * vol * rsum (S d) (fun a => rsum d (fun k => q k * (w (a * ndof + off)%nat * g a k)))).
    + rewrite <- rsum_scal_l. apply rsum_ext. intros a Ha. rewrite (A a Ha). rewrite Rmult_assoc. f_equal. rewrite Rmult_comm, <- rsum_scal_l.
      apply rsum_ext. intros. req. ring.
    + f_equal. rewrite rsum_swap. apply rsum_ext. intros k Hk. rewrite rsum_scal_l. reflexivity.
  - intros k Hk. unfold f. rewrite flux_entry, rsum_0; [ring|]. intros a Ha.
    destruct (Nat.eqb_spec k (a * ndof + off)) as [E|]; [exfalso; apply (Hk a); [lia|exact E]|reflexivity].
Qed.
Print Assumptions C69_divergence.
Theorem C69_conservation : forall d ndof off scale vol q x out, (1 <= d <= 3)%nat -> (off < ndof)%nat ->
  rs (S d) (fun a => flux_divergence d ndof off scale vol q (cell_gradient d x) out (a * ndof + off)%nat - out (a * ndof + off)%nat) = 0.
Proof.
  intros d ndof off scale vol q x out Hd Ho.
  pose proof (proj1 (C69_divergence d ndof off scale vol q (cell_gradient d x) out Ho) (fun _ => 1)) as H. cbv zeta in H.
  transitivity (scale * vol * rs d (fun k => q k * scalar_gradient d ndof off (fun _ => 1) (cell_gradient d x) k)).
  - rewrite <- H. unfold rs. apply rsum_ext. intros. req. ring.
  - unfold rs, scalar_gradient. rewrite rsum_0; [ring|]. intros k Hk.
    rewrite (rsum_ext _ _ (fun a => cell_gradient d x a k)) by (intros; req; ring). rewrite gradient_sum by exact Hd. req. ring.
Qed.
Print Assumptions C69_conservation.
(** The projection of a cell vector to the nodes: node a, component c receives scale times the basis value of node a, the component and the volume; a partition of unity distributes each component exactly. *)
Theorem C69_projection : forall nn ndof scale vol N s out,
  let f := projection_workset nn ndof scale vol N s out in
  (forall a c, (a < nn)%nat -> (c < ndof)%nat -> f (ndof * a + c)%nat = out (ndof * a + c)%nat + scale * vol * (N a * s c)) /\
  (forall k, (nn * ndof <= k)%nat -> f k = out k) /\
  (rs nn N = 1 -> forall c, (c < ndof)%nat -> rs nn (fun a => f (ndof * a + c)%nat - out (ndof * a + c)%nat) = scale * vol * s c).
Proof.
  intros nn ndof scale vol N s out f.
  assert (In_ : forall a n o k, fold_left (fun o c => fun e => if Nat.eqb e (ndof * a + c) then o e + scale * N a * s c * vol else o e) (seq 0 n) o k =
     o k + (if (Nat.leb (ndof * a) k && Nat.ltb k (ndof * a + n))%bool then scale * N a * s (k - ndof * a)%nat * vol else 0)).
  { intros a. induction n as [|n IH]; intros o k.
    - cbn [seq fold_left]. destruct (Nat.leb_spec (ndof * a) k); destruct (Nat.ltb_spec k (ndof * a + 0)); try lia; cbn [andb]; ring.
    - rewrite seq_S, fold_left_app. cbn [fold_left]. rewrite IH. rewrite Nat.add_0_l. destruct (Nat.eqb_spec k (ndof * a + n)) as [->|Hne].
      + destruct (Nat.ltb_spec (ndof * a + n) (ndof * a + n)); [lia|]. destruct (Nat.leb_spec (ndof * a) (ndof * a + n)); [|lia]. destruct (Nat.ltb_spec (ndof * a + n) (ndof * a + S n)); [|lia]. cbn [andb].
        replace (ndof * a + n - ndof * a)%nat with n by lia. ring.
      + destruct (Nat.leb_spec (ndof * a) k); cbn [andb]; [|ring]. destruct (Nat.ltb_spec k (ndof * a + n)); destruct (Nat.ltb_spec k (ndof * a + S n)); try lia; ring. }
  assert (Out_ : forall m o k, fold_left (fun o a => fold_left (fun o c => fun e => if Nat.eqb e (ndof * a + c) then o e + scale * N a * s c * vol else o e) (seq 0 ndof) o) (seq 0 m) o k =
     o k + (if Nat.ltb k (m * ndof) then scale * N (k / ndof)%nat * s (k mod ndof)%nat * vol else 0)).
  { induction m as [|m IH]; intros o k; [cbn; ring|]. rewrite seq_S, fold_left_app. cbn [fold_left]. rewrite In_, IH. rewrite Nat.add_0_l.
    destruct (Nat.ltb_spec k (m * ndof)); destruct (Nat.ltb_spec k (S m * ndof)); try lia.
    - destruct (Nat.leb_spec (ndof * m) k); [lia|]. cbn. ring.
    - destruct (Nat.leb_spec (ndof * m) k); [|lia]. destruct (Nat.ltb_spec k (ndof * m + ndof)); [|lia]. cbn [andb].
      replace (k / ndof)%nat with m by (apply (Nat.div_unique k ndof m (k - ndof * m)); lia).
      replace (k mod ndof)%nat with (k - ndof * m)%nat by (apply (Nat.mod_unique k ndof m (k - ndof * m)); lia). ring.
    - destruct (Nat.leb_spec (ndof * m) k); cbn [andb]; [|ring]. destruct (Nat.ltb_spec k (ndof * m + ndof)); [lia|]. ring. }
  assert (A : forall a c, (a < nn)%nat -> (c < ndof)%nat -> f (ndof * a + c)%nat = out (ndof * a + c)%nat + scale * vol * (N a * s c)).
  { intros a c Ha Hc. unfold f, projection_workset. rewrite Out_. destruct (Nat.ltb_spec (ndof * a + c) (nn * ndof)) as [L|L]; [|nia].
    replace ((ndof * a + c) / ndof)%nat with a by (apply (Nat.div_unique _ ndof a c); lia). replace ((ndof * a + c) mod ndof)%nat with c by (apply (Nat.mod_unique _ ndof a c); lia). ring. }
  split; [exact A|]. split.
  - intros k Hk. unfold f, projection_workset. rewrite Out_. destruct (Nat.ltb_spec k (nn * ndof)); [lia|ring].
  - intros H1 c Hc. transitivity (scale * vol * s c * rs nn N); [|rewrite H1; ring]. unfold rs. rewrite <- rsum_scal_l. apply rsum_ext. intros a Ha. rewrite A by assumption. req. ring.
Qed.
Print Assumptions C69_projection.
Example C69_projection_case : rs 3 (fun _ => 1 / 3) = 1 /\ projection_workset 3 2 2 6 (fun _ => 1 / 3) (fun c => match c with 0%nat => 5 | _ => 7 end) (fun _ => 1) 3%nat = 29.
Proof. split; [unfold rs; cbn; change (@radd R_ring) with Rplus; change (@r0 R_ring) with 0; field|]. cbn. field. Qed.
Example C69_case : forall a, (a <= 2)%nat -> (fun k => match k with 2%nat => 1 | 5%nat => 5 | 8%nat => 12 | _ => 0 end) (a * 3 + 2)%nat = affine 2 1 (fun l => match l with 0%nat => 2 | _ => 3 end) tri a.
Proof. intros a Ha. unfold affine, rs. destruct a as [|[|[|a]]]; try lia; cbn; change (@radd R_ring) with Rplus; change (@r0 R_ring) with 0; ring. Qed.
