(** C160: the numbering of nodes, cells and corners. *)
From Coq Require Import Reals List Arith Bool Lia Lra Permutation.
From Verif Require Import Base.Field Base.Sums Base.Res Element.ElementModel Element.ElementSpec Element.ElementProof Element.ElementProps
  Penalty.PenaltyModel Residual.ResidualModel Residual.ResidualSpec Residual.ResidualProof
  Residual.ResidualProps Residual.FrameSpec Residual.FrameProof Residual.FrameProps.
Import ListNotations.
Local Open Scope R_scope.

(** ** Specification *)
(** s and s' are inverse numberings of the corners 0..d. *)
Definition corner_bijection (d : nat) (s s' : nat -> nat) : Prop := forall a, (a <= d)%nat -> (s a <= d)%nat /\ (s' a <= d)%nat /\ s' (s a) = a /\ s (s' a) = a.
(** p gives the nodes 0..nn-1 other numbers in the same range. *)
Definition node_bijection (nn : nat) (p : nat -> nat) : Prop := (forall n, (n < nn)%nat -> (p n < nn)%nat) /\ (forall n m, (n < nn)%nat -> (m < nn)%nat -> p n = p m -> n = m).
(** The same cells in another order, with other node numbers, each listing its corners in another order. *)
Definition renumbered {M} (d : nat) (p : nat -> nat) (cells cells' : list (cell M)) : Prop := exists mid, Permutation cells mid /\
  Forall2 (fun c c' => c_mat c' = c_mat c /\ exists s s', corner_bijection d s s' /\ forall a, (a <= d)%nat -> c_node c' a = p (c_node c (s a))) mid cells'.
(** The same numbers at the same nodes: coordinates, and ndof numbers per node. *)
Definition same_places (nn d : nat) (p : nat -> nat) (X X' : nat -> nat -> R) : Prop := forall n i, (n < nn)%nat -> (i < d)%nat -> X' (p n) i = X n i.
Definition same_values (nn ndof : nat) (p : nat -> nat) (U U' : nat -> R) : Prop := forall n i, (n < nn)%nat -> (i < ndof)%nat -> U' (p n * ndof + i)%nat = U (n * ndof + i)%nat.

(** ** One cell *)
Lemma corner_sum d s s' f : corner_bijection d s s' -> rsum (S d) (fun a => f (s a)) = rsum (S d) f.
Proof.
  intros Hs. rewrite (rsum_ext (S d) _ (fun a => rsum (S d) (fun b => delta (s a) b * f b))).
  2: { intros a Ha. symmetry. apply rsum_delta. destruct (Hs a ltac:(lia)). lia. }
  rewrite rsum_swap. apply rsum_ext. intros b Hb.
  rewrite (rsum_ext (S d) _ (fun a => delta (s' b) a * f b)).
  2: { intros a Ha. f_equal. unfold delta. destruct (Hs a ltac:(lia)) as (_ & _ & E & _). destruct (Hs b ltac:(lia)) as (_ & _ & _ & E').
       destruct (Nat.eqb_spec (s a) b), (Nat.eqb_spec (s' b) a); try reflexivity; exfalso; congruence. }
  apply (rsum_delta (S d) (s' b) (fun _ => f b)). destruct (Hs b ltac:(lia)). lia.
Qed.
Lemma volume_corners d s s' x x' : (1 <= d <= 3)%nat -> corner_bijection d s s' -> (forall a i, (a <= d)%nat -> (i < d)%nat -> x' a i = x (s a) i) -> cell_volume d x' = cell_volume d x.
Proof.
  intros Hd Hs HX. unfold cell_volume.
  assert (E : cell_det d x' = cell_det d x \/ cell_det d x' = - cell_det d x).
  2: { destruct E as [->| ->]; [reflexivity|apply Rabs_Ropp]. }
  assert (I : forall a b, (a <= d)%nat -> (b <= d)%nat -> s a = s b -> a = b).
  { intros a b Ha Hb E. destruct (Hs a Ha) as (_ & _ & E1 & _). destruct (Hs b Hb) as (_ & _ & E2 & _). congruence. }
  assert (B : forall a, (a <= d)%nat -> (s a <= d)%nat) by (intros a Ha; exact (proj1 (Hs a Ha))). clear Hs.
  dims d; cbn [cell_det]; unfold det1, det2, det3; cbv zeta; rewrite !HX by lia; clear HX.
  - pose proof (B 0%nat ltac:(lia)). pose proof (B 1%nat ltac:(lia)). pose proof (I 0%nat 1%nat ltac:(lia) ltac:(lia)). clear B I.
    destruct (s 0%nat) as [|[|s0]]; try lia; destruct (s 1%nat) as [|[|s1]]; try lia; (left; ring) || (right; ring).
  - pose proof (B 0%nat ltac:(lia)). pose proof (B 1%nat ltac:(lia)). pose proof (B 2%nat ltac:(lia)).
    pose proof (I 0%nat 1%nat ltac:(lia) ltac:(lia)). pose proof (I 0%nat 2%nat ltac:(lia) ltac:(lia)). pose proof (I 1%nat 2%nat ltac:(lia) ltac:(lia)). clear B I.
    destruct (s 0%nat) as [|[|[|s0]]]; try lia; destruct (s 1%nat) as [|[|[|s1]]]; try lia; destruct (s 2%nat) as [|[|[|s2]]]; try lia; (left; ring) || (right; ring).
  - pose proof (B 0%nat ltac:(lia)). pose proof (B 1%nat ltac:(lia)). pose proof (B 2%nat ltac:(lia)). pose proof (B 3%nat ltac:(lia)).
    pose proof (I 0%nat 1%nat ltac:(lia) ltac:(lia)). pose proof (I 0%nat 2%nat ltac:(lia) ltac:(lia)). pose proof (I 1%nat 2%nat ltac:(lia) ltac:(lia)).
    pose proof (I 0%nat 3%nat ltac:(lia) ltac:(lia)). pose proof (I 1%nat 3%nat ltac:(lia) ltac:(lia)). pose proof (I 2%nat 3%nat ltac:(lia) ltac:(lia)). clear B I.
    destruct (s 0%nat) as [|[|[|[|s0]]]]; try lia; destruct (s 1%nat) as [|[|[|[|s1]]]]; try lia; destruct (s 2%nat) as [|[|[|[|s2]]]]; try lia; destruct (s 3%nat) as [|[|[|[|s3]]]]; try lia;
      (left; ring) || (right; ring).
Qed.
Lemma gradient_corners d s s' x x' : (1 <= d <= 3)%nat -> corner_bijection d s s' -> (forall a i, (a <= d)%nat -> (i < d)%nat -> x' a i = x (s a) i) -> cell_det d x <> 0 ->
  forall a k, (a <= d)%nat -> (k < d)%nat -> cell_gradient d x' a k = cell_gradient d x (s a) k.
Proof.
  intros Hd Hs HX Hn a k Ha Hk.
  assert (Hn' : cell_det d x' <> 0) by (apply (det_of_volume d x); [exact (volume_corners d s s' x x' Hd Hs HX)|exact Hn]).
  pose proof (linear_field d x' (delta (s a) d - rsum d (fun l => cell_gradient d x (s a) l * x d l)) (cell_gradient d x (s a)) k Hd Hn' Hk) as E.
  rewrite <- E. rewrite (rsum_ext (S d) _ (fun b => delta a b * cell_gradient d x' b k)).
  { symmetry. apply (rsum_delta (S d) a (fun b => cell_gradient d x' b k)). lia. }
  intros b Hb. f_equal. pose proof (gradient_dual d x (s a) (s b) Hd Hn (proj1 (Hs a Ha)) (proj1 (Hs b ltac:(lia)))) as G.
  rewrite (rsum_ext d _ (fun l => cell_gradient d x (s a) l * x (s b) l - cell_gradient d x (s a) l * x d l)) in G by (intros; req; ring).
  rewrite rsum_sub in G.
  rewrite (rsum_ext d (fun l => cell_gradient d x (s a) l * x' b l) (fun l => cell_gradient d x (s a) l * x (s b) l)) by (intros l Hl; rewrite HX by lia; reflexivity).
  assert (D : delta (s a) (s b) = delta a b).
  { unfold delta. destruct (Hs a Ha) as (_ & _ & E1 & _). destruct (Hs b ltac:(lia)) as (_ & _ & E2 & _).
    destruct (Nat.eqb_spec (s a) (s b)), (Nat.eqb_spec a b); try reflexivity; exfalso; congruence. }
  rewrite <- D. lra.
Qed.
(** Cell values under corner renumbering. *)
Definition same_corners (d ndof : nat) (s : nat -> nat) (u u' : nat -> R) : Prop := forall a i, (a <= d)%nat -> (i < ndof)%nat -> u' (a * ndof + i)%nat = u (s a * ndof + i)%nat.
Lemma sum_corners d s s' (f g : nat -> R) : corner_bijection d s s' -> (forall a, (a <= d)%nat -> g a = f (s a)) -> rsum (S d) g = rsum (S d) f.
Proof. intros Hs H. rewrite <- (corner_sum d s s' f Hs). apply rsum_ext. intros a Ha. apply H. lia. Qed.
Lemma strain_corners d ndof s s' u u' g g' v : (1 <= d <= 3)%nat -> (d <= ndof)%nat -> corner_bijection d s s' -> same_corners d ndof s u u' ->
  (forall a k, (a <= d)%nat -> (k < d)%nat -> g' a k = g (s a) k) -> strain d ndof (fun _ => 0) u' g' v = strain d ndof (fun _ => 0) u g v.
Proof.
  intros Hd Hn Hs HU HG. unfold strain. destruct (nth_error (voigt_pairs d) v) as [[i j]|] eqn:E; [|reflexivity].
  assert (B : (i < d)%nat /\ (j < d)%nat).
  { apply nth_error_In in E. dims d; cbn in E; repeat (destruct E as [E|E]; [injection E as <- <-; lia|]); contradiction. }
  destruct B as [Hi Hj]. destruct (Nat.eqb i j).
  - apply (sum_corners d s s' (fun a => u (a * ndof + i)%nat * g a i)); [exact Hs|]. intros a Ha. rewrite HU, HG by lia. reflexivity.
  - f_equal. apply (sum_corners d s s' (fun a => u (a * ndof + j)%nat * g a i + u (a * ndof + i)%nat * g a j)); [exact Hs|]. intros a Ha. rewrite !HU, !HG by lia. reflexivity.
Qed.
Lemma scalar_corners d ndof off s s' u u' g g' k : (off < ndof)%nat -> (k < d)%nat -> corner_bijection d s s' -> same_corners d ndof s u u' ->
  (forall a k, (a <= d)%nat -> (k < d)%nat -> g' a k = g (s a) k) -> scalar_gradient d ndof off u' g' k = scalar_gradient d ndof off u g k.
Proof.
  intros Ho Hk Hs HU HG. unfold scalar_gradient. apply (sum_corners d s s' (fun a => u (a * ndof + off)%nat * g a k)); [exact Hs|]. intros a Ha. rewrite HU, HG by lia. reflexivity.
Qed.
Lemma basis_corners d a b : (1 <= d <= 3)%nat -> (a <= d)%nat -> (b <= d)%nat -> cub_basis d a = cub_basis d b.
Proof. intros Hd Ha Hb. unfold cub_basis, cub_point. dims d; destruct a as [|[|[|[|a]]]]; try lia; destruct b as [|[|[|[|b]]]]; try lia; cbn; try reflexivity; lra. Qed.
Lemma interpolate_corners d ndof off s s' u u' : (1 <= d <= 3)%nat -> (off < ndof)%nat -> corner_bijection d s s' -> same_corners d ndof s u u' -> interpolate d ndof off u' = interpolate d ndof off u.
Proof.
  intros Hd Ho Hs HU. unfold interpolate. apply (sum_corners d s s' (fun a => cub_basis d a * u (a * ndof + off)%nat)); [exact Hs|]. intros a Ha. rewrite HU by lia.
  rewrite (basis_corners d a (s a)) by (try assumption; apply Hs; exact Ha). reflexivity.
Qed.
Lemma density_corners d s s' z z' : corner_bijection d s s' -> (forall a, (a <= d)%nat -> z' a = z (s a)) -> cell_density (S d) z' = cell_density (S d) z.
Proof. intros Hs H. unfold cell_density. f_equal. exact (sum_corners d s s' z z' Hs H). Qed.

(** ** The mesh *)
Lemma sum_over_permuted {A} (l l' : list A) f : Permutation l l' -> sum_over l f = sum_over l' f.
Proof. induction 1; cbn; lra. Qed.
Lemma rows_of_work_numbered nn ndof p F F' : node_bijection nn p ->
  (forall W W', same_values nn ndof p W W' -> work (nn * ndof) F' W' = work (nn * ndof) F W) -> same_values nn ndof p F F'.
Proof.
  intros [Hp Ip] H n i Hn Hi.
  assert (E : forall G k, (k < nn * ndof)%nat -> work (nn * ndof) G (fun j => delta j k) = G k).
  { intros G k Hk. unfold work, rs. apply (rsum_delta_r (nn * ndof) k G Hk). }
  pose proof (Hp n Hn) as Hpn.
  rewrite <- (E F') by nia. rewrite <- (E F (n * ndof + i)%nat) by nia. apply H.
  intros m j Hm Hj. unfold delta. destruct (Nat.eqb_spec (p m * ndof + j) (p n * ndof + i)) as [A|A], (Nat.eqb_spec (m * ndof + j) (n * ndof + i)) as [B|B]; try reflexivity; exfalso.
  - assert (p m = p n) by nia. apply Ip in H0; try assumption. subst m. apply B. nia.
  - assert (m = n) by nia. subst m. apply A. nia.
Qed.
(** Any kernel whose cell work does not see the corner numbering. *)
Definition blind {M} (d ndof : nat) (K : M -> coords -> (nat -> R) -> (nat -> R) -> (nat -> R) -> nat -> R) : Prop :=
  forall m s s' x x' u u' v v' z z' w w', corner_bijection d s s' -> (forall a i, (a <= d)%nat -> (i < d)%nat -> x' a i = x (s a) i) -> cell_det d x <> 0 ->
    same_corners d ndof s u u' -> same_corners d ndof s v v' -> (forall a, (a <= d)%nat -> z' a = z (s a)) -> same_corners d ndof s w w' ->
    cell_work (S d) ndof (K m x' u' v' z') w' = cell_work (S d) ndof (K m x u v z) w.
Section Mesh.
  Context {M : Type}.
  Variables (d nn ndof : nat) (p : nat -> nat) (X X' : nat -> nat -> R) (Z Z' : nat -> R) (cells cells' : list (cell M)).
  Hypothesis Hd : (1 <= d <= 3)%nat.
  Hypothesis Hp : node_bijection nn p.
  Hypothesis Hm : mesh_ok d nn X cells.
  Hypothesis HX : same_places nn d p X X'.
  Hypothesis HZ : same_values nn 1 p Z Z'.
  Hypothesis HC : renumbered d p cells cells'.
  Lemma renumbered_mesh : mesh_ok d nn X' cells'.
  Proof.
    destruct HC as (mid & HP & F). intros f Hf. apply in_map_iff in Hf. destruct Hf as (c' & <- & Hc').
    assert (E : exists c s s', In c cells /\ corner_bijection d s s' /\ forall a, (a <= d)%nat -> c_node c' a = p (c_node c (s a))).
    { assert (G : exists c s s', In c mid /\ corner_bijection d s s' /\ forall a, (a <= d)%nat -> c_node c' a = p (c_node c (s a))).
      { clear HP HC. induction F as [|x y l l' (_ & s & s' & Hs & HN) F IH]; [contradiction|]. destruct Hc' as [->|Hc'].
        - exists x, s, s'. split; [left; reflexivity|]. split; assumption.
        - destruct (IH Hc') as (c & t & t' & Hin & H1 & H2). exists c, t, t'. split; [right; exact Hin|]. split; assumption. }
      destruct G as (c & s & s' & Hin & Hs & HN). exists c, s, s'. split; [|split; assumption]. apply (Permutation_in _ (Permutation_sym HP)). exact Hin. }
    destruct E as (c & s & s' & Hc & Hs & HN). destruct (mesh_cell _ _ _ _ _ Hm Hc) as [Hn Hv]. split.
    - intros a Ha. rewrite HN by exact Ha. apply (proj1 Hp). apply Hn. apply Hs. exact Ha.
    - apply det_measure_iff; [exact Hd|]. apply (det_of_volume d (gather_coords X c)); [|apply det_measure; assumption].
      apply (volume_corners d s s'); [exact Hd|exact Hs|]. intros a i Ha Hi. rewrite HN by exact Ha. apply HX; [|exact Hi]. apply Hn. apply Hs. exact Ha.
  Qed.
  Lemma renumbered_cell (c c' : cell M) s s' : In c cells -> corner_bijection d s s' -> (forall a, (a <= d)%nat -> c_node c' a = p (c_node c (s a))) ->
    (forall a i, (a <= d)%nat -> (i < d)%nat -> gather_coords X' c' a i = gather_coords X c (s a) i) /\ (forall a, (a <= d)%nat -> gather_control Z' c' a = gather_control Z c (s a)) /\
    (forall n W W', same_values nn n p W W' -> same_corners d n s (gather n W c) (gather n W' c')).
  Proof.
    intros Hc Hs HN. destruct (mesh_cell _ _ _ _ _ Hm Hc) as [Hn _].
    assert (N : forall a, (a <= d)%nat -> (c_node c (s a) < nn)%nat) by (intros a Ha; apply Hn; apply Hs; exact Ha). split; [|split].
    - intros a i Ha Hi. unfold gather_coords. rewrite HN by exact Ha. apply HX; [apply N; exact Ha|exact Hi].
    - intros a Ha. unfold gather_control. rewrite HN by exact Ha. pose proof (HZ (c_node c (s a)) 0%nat (N a Ha) ltac:(lia)) as E. rewrite !Nat.mul_1_r, !Nat.add_0_r in E. exact E.
    - intros n W W' HW a i Ha Hi. rewrite !gather_at by exact Hi. rewrite HN by exact Ha. apply HW; [apply N; exact Ha|exact Hi].
  Qed.
  Lemma blind_rows K (U U' V V' : nat -> R) : blind d ndof K -> same_values nn ndof p U U' -> same_values nn ndof p V V' ->
    same_values nn ndof p
      (assemble (S d) ndof (fun c => K (c_mat c) (gather_coords X c) (gather ndof U c) (gather ndof V c) (gather_control Z c)) cells)
      (assemble (S d) ndof (fun c => K (c_mat c) (gather_coords X' c) (gather ndof U' c) (gather ndof V' c) (gather_control Z' c)) cells').
  Proof.
    intros HK HU HV. apply rows_of_work_numbered; [exact Hp|]. intros W W' HW.
    rewrite (assemble_work nn (S d) ndof _ cells') by exact (mesh_nodes d nn X' cells' renumbered_mesh). rewrite (assemble_work nn (S d) ndof _ cells) by exact (mesh_nodes d nn X cells Hm).
    destruct HC as (mid & HP & F). rewrite (sum_over_permuted cells mid _ HP). apply (sum_over_pairs _ _ _ _ _ F).
    intros c c' Hc (EM & s & s' & Hs & HN). apply (Permutation_in _ (Permutation_sym HP)) in Hc. rewrite EM.
    destruct (renumbered_cell c c' s s' Hc Hs HN) as (A1 & A2 & A3). destruct (mesh_cell _ _ _ _ _ Hm Hc) as [_ Hv].
    apply (HK _ s s'); try assumption; try (apply A3; assumption). apply det_measure; assumption.
  Qed.
  Lemma blind_total (E : M -> coords -> (nat -> R) -> (nat -> R) -> R) (U U' : nat -> R) : same_values nn ndof p U U' ->
    (forall m s s' x x' u u' z z', corner_bijection d s s' -> (forall a i, (a <= d)%nat -> (i < d)%nat -> x' a i = x (s a) i) -> cell_det d x <> 0 ->
       same_corners d ndof s u u' -> (forall a, (a <= d)%nat -> z' a = z (s a)) -> E m x' u' z' = E m x u z) ->
    sum_over cells' (fun c => E (c_mat c) (gather_coords X' c) (gather ndof U' c) (gather_control Z' c)) =
    sum_over cells (fun c => E (c_mat c) (gather_coords X c) (gather ndof U c) (gather_control Z c)).
  Proof.
    intros HU HE. destruct HC as (mid & HP & F). rewrite (sum_over_permuted cells mid _ HP). apply (sum_over_pairs _ _ _ _ _ F).
    intros c c' Hc (EM & s & s' & Hs & HN). apply (Permutation_in _ (Permutation_sym HP)) in Hc. rewrite EM.
    destruct (renumbered_cell c c' s s' Hc Hs HN) as (A1 & A2 & A3). destruct (mesh_cell _ _ _ _ _ Hm Hc) as [_ Hv].
    apply (HE _ s s'); try assumption; try (apply A3; assumption). apply det_measure; assumption.
  Qed.
End Mesh.

(** ** C160 *)
Definition renumbered_problem {M} (d nn : nat) (p : nat -> nat) (X X' : nat -> nat -> R) (Z Z' : nat -> R) (cells cells' : list (cell M)) : Prop :=
  node_bijection nn p /\ same_places nn d p X X' /\ same_values nn 1 p Z Z' /\ renumbered d p cells cells'.
Ltac corners Hd := match goal with Hs : corner_bijection ?d ?s ?s', HX : forall a i, _ -> _ -> ?x' a i = ?x (?s a) i, Hn : cell_det ?d ?x <> 0 |- _ =>
  pose proof (measure_of_volume d x x' (volume_corners d s s' x x' Hd Hs HX)) as EM; pose proof (gradient_corners d s s' x x' Hd Hs HX Hn) as EG end.

Lemma blind_elastic d pen col : (1 <= d <= 3)%nat -> blind d d (fun m x u (_ : nat -> R) z => elastostatic_cell d pen m col x u z).
Proof.
  intros Hd m s s' x x' u u' v v' z z' w w' Hs HX Hn HU _ HZ HW. corners Hd. rewrite !elastic_work by exact Hd. rewrite EM, (density_corners d s s' z z' Hs HZ). f_equal.
  apply rsum_ext. intros k Hk. rewrite (strain_corners d d s s' w w' _ _ k Hd (le_n d) Hs HW EG). f_equal. unfold elastic_stress, add_forcing, linear_stress.
  assert (E : rsum (num_voigt d) (fun j => (strain d d (fun _ => 0) u' (cell_gradient d x') j - e_ref m j) * e_stiff m k j) =
              rsum (num_voigt d) (fun j => (strain d d (fun _ => 0) u (cell_gradient d x) j - e_ref m j) * e_stiff m k j)).
  { apply rsum_ext. intros j _. rewrite (strain_corners d d s s' u u' _ _ j Hd (le_n d) Hs HU EG). reflexivity. }
  destruct col; rewrite E; reflexivity.
Qed.
Theorem C160_elastic : forall d nn pen col p X X' U U' Z Z' cells cells', (1 <= d <= 3)%nat -> mesh_ok d nn X cells ->
  renumbered_problem d nn p X X' Z Z' cells cells' -> same_values nn d p U U' ->
  mesh_ok d nn X' cells' /\
  same_values nn d p (elastostatic d pen col X U Z cells) (elastostatic d pen col X' U' Z' cells') /\
  elastic_energy d pen X' U' Z' cells' = elastic_energy d pen X U Z cells.
Proof.
  intros d nn pen col p X X' U U' Z Z' cells cells' Hd Hm (Hp & HX & HZ & HC) HU. split; [exact (renumbered_mesh d nn p X X' cells cells' Hd Hp Hm HX HC)|]. split.
  - exact (blind_rows d nn d p X X' Z Z' cells cells' Hd Hp Hm HX HZ HC _ U U' U U' (blind_elastic d pen col Hd) HU HU).
  - unfold elastic_energy. rewrite !total_sum. apply (blind_total d nn d p X X' Z Z' cells cells' Hd Hm HX HZ HC (elastic_energy_cell d pen) U U' HU).
    intros m s s' x x' u u' z z' Hs Hx Hn Hu Hz. corners Hd. unfold elastic_energy_cell, scalar_product, weigh. rewrite EM, (density_corners d s s' z z' Hs Hz). f_equal. f_equal.
    apply rsum_ext. intros k Hk. rewrite (strain_corners d d s s' u u' _ _ k Hd (le_n d) Hs Hu EG). f_equal. f_equal. unfold elastic_stress, add_forcing, linear_stress.
    apply rsum_ext. intros j _. rewrite (strain_corners d d s s' u u' _ _ j Hd (le_n d) Hs Hu EG). reflexivity.
Qed.
Print Assumptions C160_elastic.

Lemma flux_corners d cond ndof off s s' u u' x x' k : (off < ndof)%nat -> corner_bijection d s s' -> same_corners d ndof s u u' ->
  (forall a k, (a <= d)%nat -> (k < d)%nat -> cell_gradient d x' a k = cell_gradient d x (s a) k) ->
  thermal_flux d cond (scalar_gradient d ndof off u' (cell_gradient d x')) k = thermal_flux d cond (scalar_gradient d ndof off u (cell_gradient d x)) k.
Proof. intros Ho Hs HU EG. unfold thermal_flux. f_equal. apply rsum_ext. intros j Hj. rewrite (scalar_corners d ndof off s s' u u' _ _ j Ho Hj Hs HU EG). reflexivity. Qed.
Theorem C160_heat : forall d nn pen p X X' T T' V V' Z Z' cells cells', (1 <= d <= 3)%nat -> mesh_ok d nn X cells ->
  renumbered_problem d nn p X X' Z Z' cells cells' -> same_values nn 1 p T T' -> same_values nn 1 p V V' ->
  same_values nn 1 p (thermostatic d pen X T Z cells) (thermostatic d pen X' T' Z' cells') /\
  same_values nn 1 p (heat_equation d pen X T V Z cells) (heat_equation d pen X' T' V' Z' cells') /\
  thermal_energy d pen X' T' Z' cells' = thermal_energy d pen X T Z cells.
Proof.
  intros d nn pen p X X' T T' V V' Z Z' cells cells' Hd Hm (Hp & HX & HZ & HC) HT HV. split; [|split].
  - refine (blind_rows d nn 1 p X X' Z Z' cells cells' Hd Hp Hm HX HZ HC (fun m x u _ z => thermostatic_cell d pen m x u z) T T' T T' _ HT HT).
    intros m s s' x x' u u' v v' z z' w w' Hs Hx Hn Hu _ Hz Hw. corners Hd. rewrite !thermostatic_work, EM, (density_corners d s s' z z' Hs Hz). f_equal. f_equal.
    apply rsum_ext. intros k Hk. rewrite (scalar_corners d 1 0 s s' w w' _ _ k ltac:(lia) Hk Hs Hw EG). f_equal. unfold flux_at.
    rewrite (interpolate_corners d 1 0 s s' u u' Hd ltac:(lia) Hs Hu). apply (flux_corners d _ 1 0 s s'); try assumption. lia.
  - refine (blind_rows d nn 1 p X X' Z Z' cells cells' Hd Hp Hm HX HZ HC (fun m x u v z => heat_cell d pen m x u v z) T T' V V' _ HT HV).
    intros m s s' x x' u u' v v' z z' w w' Hs Hx Hn Hu Hv Hz Hw. corners Hd. rewrite !heat_work, EM, (density_corners d s s' z z' Hs Hz).
    rewrite (interpolate_corners d 1 0 s s' u u' Hd ltac:(lia) Hs Hu), (interpolate_corners d 1 0 s s' v v' Hd ltac:(lia) Hs Hv), (interpolate_corners d 1 0 s s' w w' Hd ltac:(lia) Hs Hw).
    f_equal. f_equal. f_equal.
    apply rsum_ext. intros k Hk. rewrite (scalar_corners d 1 0 s s' w w' _ _ k ltac:(lia) Hk Hs Hw EG). f_equal. unfold flux_no_temperature.
    apply (flux_corners d _ 1 0 s s'); try assumption. lia.
  - unfold thermal_energy. rewrite !total_sum. apply (blind_total d nn 1 p X X' Z Z' cells cells' Hd Hm HX HZ HC (thermal_energy_cell d pen) T T' HT).
    intros m s s' x x' u u' z z' Hs Hx Hn Hu Hz. corners Hd. unfold thermal_energy_cell, scalar_product, weigh. cbv zeta. rewrite EM, (density_corners d s s' z z' Hs Hz). f_equal. f_equal.
    apply rsum_ext. intros k Hk. rewrite (scalar_corners d 1 0 s s' u u' _ _ k ltac:(lia) Hk Hs Hu EG). f_equal. f_equal. unfold flux_no_temperature.
    apply (flux_corners d _ 1 0 s s'); try assumption. lia.
Qed.
Print Assumptions C160_heat.

Lemma tm_stress_corners d m s s' u u' x x' T v : (1 <= d <= 3)%nat -> corner_bijection d s s' -> same_corners d (S d) s u u' ->
  (forall a k, (a <= d)%nat -> (k < d)%nat -> cell_gradient d x' a k = cell_gradient d x (s a) k) ->
  tm_stress d m (strain d (S d) (fun _ => 0) u' (cell_gradient d x')) T v = tm_stress d m (strain d (S d) (fun _ => 0) u (cell_gradient d x)) T v.
Proof. intros Hd Hs HU EG. unfold tm_stress. apply rsum_ext. intros j _. rewrite (strain_corners d (S d) s s' u u' _ _ j Hd ltac:(lia) Hs HU EG). reflexivity. Qed.
Lemma tm_flux_corners d m s s' u u' x x' T v : corner_bijection d s s' -> same_corners d (S d) s u u' ->
  (forall a k, (a <= d)%nat -> (k < d)%nat -> cell_gradient d x' a k = cell_gradient d x (s a) k) ->
  tm_flux d m (scalar_gradient d (S d) d u' (cell_gradient d x')) T v = tm_flux d m (scalar_gradient d (S d) d u (cell_gradient d x)) T v.
Proof. intros Hs HU EG. unfold tm_flux. apply rsum_ext. intros j Hj. rewrite (scalar_corners d (S d) d s s' u u' _ _ j ltac:(lia) Hj Hs HU EG). reflexivity. Qed.
Lemma blind_tm d pen : (1 <= d <= 3)%nat -> blind d (S d) (fun m x u (_ : nat -> R) z => tm_cell_value d pen m x u z).
Proof.
  intros Hd m s s' x x' u u' v v' z z' w w' Hs Hx Hn Hu _ Hz Hw. corners Hd. rewrite !tm_work by exact Hd. rewrite EM, (density_corners d s s' z z' Hs Hz).
  rewrite (interpolate_corners d (S d) d s s' u u' Hd ltac:(lia) Hs Hu). f_equal. f_equal; apply rsum_ext; intros k Hk.
  - rewrite (strain_corners d (S d) s s' w w' _ _ k Hd ltac:(lia) Hs Hw EG), (tm_stress_corners d m s s' u u' x x' _ _ Hd Hs Hu EG). reflexivity.
  - rewrite (scalar_corners d (S d) d s s' w w' _ _ k ltac:(lia) Hk Hs Hw EG), (tm_flux_corners d m s s' u u' x x' _ _ Hs Hu EG). reflexivity.
Qed.
Theorem C160_thermoelastic : forall d nn pen p X X' U U' Z Z' cells cells', (2 <= d <= 3)%nat -> mesh_ok d nn X cells ->
  renumbered_problem d nn p X X' Z Z' cells cells' -> same_values nn (S d) p U U' ->
  exists r r' w, thermoelastostatic d pen X U Z cells = Ok r /\ thermoelastostatic d pen X' U' Z' cells' = Ok r' /\ same_values nn (S d) p r r' /\
    tm_energy d pen X U Z cells = Ok w /\ tm_energy d pen X' U' Z' cells' = Ok w.
Proof.
  intros d nn pen p X X' U U' Z Z' cells cells' Hd2 Hm (Hp & HX & HZ & HC) HU. assert (Hd : (1 <= d <= 3)%nat) by lia.
  destruct (tm_ok d pen X U Z cells Hd2) as (r & Er & Hr). destruct (tm_ok d pen X' U' Z' cells' Hd2) as (r' & Er' & Hr').
  exists r, r', (sum_over cells (fun c => tm_energy_value d pen (c_mat c) (gather_coords X c) (gather (S d) U c) (gather_control Z c))).
  split; [exact Er|]. split; [exact Er'|]. split; [|split].
  - intros n i Hn Hi. rewrite Hr, Hr'. exact (blind_rows d nn (S d) p X X' Z Z' cells cells' Hd Hp Hm HX HZ HC _ U U' U U' (blind_tm d pen Hd) HU HU n i Hn Hi).
  - unfold tm_energy. apply totalR_ok. intros c Hc. apply tm_energy_ok. exact Hd2.
  - unfold tm_energy. rewrite (totalR_ok _ (fun c => tm_energy_value d pen (c_mat c) (gather_coords X' c) (gather (S d) U' c) (gather_control Z' c))) by (intros c Hc; apply tm_energy_ok; exact Hd2).
    f_equal. apply (blind_total d nn (S d) p X X' Z Z' cells cells' Hd Hm HX HZ HC (tm_energy_value d pen) U U' HU).
    intros m s s' x x' u u' z z' Hs Hx Hn Hu Hz. corners Hd. unfold tm_energy_value. cbv zeta. rewrite EM, (density_corners d s s' z z' Hs Hz).
    rewrite (interpolate_corners d (S d) d s s' u u' Hd ltac:(lia) Hs Hu). f_equal. f_equal; apply rsum_ext; intros k Hk.
    + rewrite (strain_corners d (S d) s s' u u' _ _ k Hd ltac:(lia) Hs Hu EG), (tm_stress_corners d m s s' u u' x x' _ _ Hd Hs Hu EG). reflexivity.
    + rewrite (scalar_corners d (S d) d s s' u u' _ _ k ltac:(lia) Hk Hs Hu EG), (tm_flux_corners d m s s' u u' x x' _ _ Hs Hu EG). reflexivity.
Qed.
Print Assumptions C160_thermoelastic.

Lemma em_field_corners d s s' u u' x x' k : (k < d)%nat -> corner_bijection d s s' -> same_corners d (S d) s u u' ->
  (forall a k, (a <= d)%nat -> (k < d)%nat -> cell_gradient d x' a k = cell_gradient d x (s a) k) -> em_field d u' (cell_gradient d x') k = em_field d u (cell_gradient d x) k.
Proof. intros Hk Hs HU EG. rewrite !em_field_gradient. f_equal. apply (scalar_corners d (S d) d s s'); try assumption. lia. Qed.
Lemma em_laws_corners d m s s' u u' x x' k : (1 <= d <= 3)%nat -> corner_bijection d s s' -> same_corners d (S d) s u u' ->
  (forall a k, (a <= d)%nat -> (k < d)%nat -> cell_gradient d x' a k = cell_gradient d x (s a) k) ->
  em_stress d m (strain d (S d) (fun _ => 0) u' (cell_gradient d x')) (em_field d u' (cell_gradient d x')) k = em_stress d m (strain d (S d) (fun _ => 0) u (cell_gradient d x)) (em_field d u (cell_gradient d x)) k /\
  em_displacement d m (strain d (S d) (fun _ => 0) u' (cell_gradient d x')) (em_field d u' (cell_gradient d x')) k = em_displacement d m (strain d (S d) (fun _ => 0) u (cell_gradient d x)) (em_field d u (cell_gradient d x)) k.
Proof.
  intros Hd Hs HU EG. unfold em_stress, em_displacement. split; f_equal; apply rsum_ext; intros j Hj.
  - rewrite (strain_corners d (S d) s s' u u' _ _ j Hd ltac:(lia) Hs HU EG). reflexivity.
  - rewrite (em_field_corners d s s' u u' x x' j Hj Hs HU EG). reflexivity.
  - rewrite (em_field_corners d s s' u u' x x' j Hj Hs HU EG). reflexivity.
  - rewrite (strain_corners d (S d) s s' u u' _ _ j Hd ltac:(lia) Hs HU EG). reflexivity.
Qed.
Theorem C160_electroelastic : forall d nn pen p X X' U U' Z Z' cells cells', (1 <= d <= 3)%nat -> mesh_ok d nn X cells ->
  renumbered_problem d nn p X X' Z Z' cells cells' -> same_values nn (S d) p U U' ->
  same_values nn (S d) p (electroelastostatic d pen X U Z cells) (electroelastostatic d pen X' U' Z' cells') /\
  em_energy d pen X' U' Z' cells' = em_energy d pen X U Z cells.
Proof.
  intros d nn pen p X X' U U' Z Z' cells cells' Hd Hm (Hp & HX & HZ & HC) HU. split.
  - refine (blind_rows d nn (S d) p X X' Z Z' cells cells' Hd Hp Hm HX HZ HC (fun m x u _ z => em_cell d pen m x u z) U U' U U' _ HU HU).
    intros m s s' x x' u u' v v' z z' w w' Hs Hx Hn Hu _ Hz Hw. corners Hd. rewrite !em_work by exact Hd. rewrite EM, (density_corners d s s' z z' Hs Hz). f_equal.
    f_equal; apply rsum_ext; intros k Hk.
    + rewrite (strain_corners d (S d) s s' w w' _ _ k Hd ltac:(lia) Hs Hw EG). f_equal. apply (em_laws_corners d m s s' u u' x x' k Hd Hs Hu EG).
    + rewrite (em_field_corners d s s' w w' x x' k Hk Hs Hw EG). f_equal. apply (em_laws_corners d m s s' u u' x x' k Hd Hs Hu EG).
  - unfold em_energy. rewrite !total_sum. apply (blind_total d nn (S d) p X X' Z Z' cells cells' Hd Hm HX HZ HC (em_energy_cell d pen) U U' HU).
    intros m s s' x x' u u' z z' Hs Hx Hn Hu Hz. corners Hd. unfold em_energy_cell, scalar_product, weigh. cbv zeta. rewrite EM, (density_corners d s s' z z' Hs Hz).
    f_equal; f_equal; f_equal; apply rsum_ext; intros k Hk.
    + rewrite (strain_corners d (S d) s s' u u' _ _ k Hd ltac:(lia) Hs Hu EG). f_equal. f_equal. apply (em_laws_corners d m s s' u u' x x' k Hd Hs Hu EG).
    + rewrite (em_field_corners d s s' u u' x x' k Hk Hs Hu EG). f_equal. f_equal. apply (em_laws_corners d m s s' u u' x x' k Hd Hs Hu EG).
Qed.
Print Assumptions C160_electroelastic.

(** The square with its nodes shifted by one, its cells swapped and the corners of one of them reversed. *)
Definition shift4 (n : nat) : nat := match n with 0%nat => 1%nat | 1%nat => 2%nat | 2%nat => 3%nat | _ => 0%nat end.
Definition shifted_X (n i : nat) : R := match n with 1%nat => square_X 0 i | 2%nat => square_X 1 i | 3%nat => square_X 2 i | _ => square_X 3 i end.
Definition shifted_square {M} (m : M) : list (cell M) :=
  [mkCell (fun a => match a with 0%nat => 0%nat | 1%nat => 3%nat | _ => 2%nat end) m; mkCell (fun a => match a with 0%nat => 3%nat | 1%nat => 2%nat | _ => 1%nat end) m].
Example C160_case {M} (m : M) : mesh_ok 2 4 square_X (square m) /\ renumbered_problem 2 4 shift4 square_X shifted_X (fun _ => 1) (fun _ => 1) (square m) (shifted_square m).
Proof.
  split; [apply square_ok|]. split.
  { split; [intros [|[|[|[|n]]]] H; cbn; lia|]. intros [|[|[|[|n]]]] [|[|[|[|k]]]] H1 H2; cbn; lia. }
  split; [intros [|[|[|[|n]]]] i H1 H2; try lia; reflexivity|]. split; [intros n i _ _; reflexivity|].
  unfold square, shifted_square. eexists. split; [apply perm_swap|].
  repeat constructor.
  - exists (fun a => a), (fun a => a). split; [intros a Ha; auto|]. intros [|[|[|a]]] Ha; try lia; reflexivity.
  - exists (fun a => 2 - a)%nat, (fun a => 2 - a)%nat. split; [intros a Ha; lia|]. intros [|[|[|a]]] Ha; try lia; reflexivity.
Qed.
