(** C159: the body moved as a whole. *)
From Coq Require Import Reals List Arith Bool Lia Lra.
From Verif Require Import Base.Field Base.Sums Base.Res Element.ElementModel Element.ElementSpec Element.ElementProof Element.ElementProps
  Element.MaterialModel Element.MaterialSpec Element.MaterialProps Penalty.PenaltyModel Residual.ResidualModel Residual.ResidualSpec Residual.ResidualProof
  Residual.ResidualProps Residual.FrameSpec Residual.FrameProof.
Import ListNotations.
Local Open Scope R_scope.

(** ** One cell *)
Definition cell_placed (d : nat) (t : nat -> R) (Q : nat -> nat -> R) (x x' : coords) : Prop :=
  forall a i, (a <= d)%nat -> (i < d)%nat -> x' a i = t i + turn d Q (x a) i.
Definition cell_carried (d ndof : nat) (Q : nat -> nat -> R) (u u' : nat -> R) : Prop :=
  forall a i, (a <= d)%nat -> (i < d)%nat -> u' (a * ndof + i)%nat = turn d Q (fun j => u (a * ndof + j)%nat) i.
Lemma gradient_turned d t Q x x' : (1 <= d <= 3)%nat -> orthogonal d Q -> cell_placed d t Q x x' -> cell_det d x <> 0 ->
  forall a k, (a <= d)%nat -> (k < d)%nat -> cell_gradient d x' a k = turn d Q (cell_gradient d x a) k.
Proof.
  intros Hd HQ HX Hn a k Ha Hk. apply (gradient_affine d x x' t Q (fun i j => Q j i) Hd HX); try assumption.
  - intros i j Hi Hj. exact (proj1 (HQ i j Hi Hj)).
  - apply (det_of_volume d x); [|exact Hn]. exact (volume_turned d Q t x x' Hd HQ HX).
Qed.
Definition slope (d ndof : nat) (u : nat -> R) (g : coords) (i j : nat) : R := rsum (S d) (fun a => u (a * ndof + i)%nat * g a j).
Lemma strain_slope d ndof u g i j : (1 <= d <= 3)%nat -> (i < d)%nat -> (j < d)%nat ->
  as_strain d (strain d ndof (fun _ => 0) u g) i j = (slope d ndof u g i j + slope d ndof u g j i) / 2.
Proof.
  intros Hd Hi Hj. unfold as_strain, position, slope.
  dims d; destruct i as [|[|[|i]]]; try lia; destruct j as [|[|[|j]]]; try lia; unfold strain; cbn -[Rplus Rmult Rdiv Nat.mul Nat.add sum]; rsums; field.
Qed.
Lemma tensor_ext d Q S T i j : (forall k l, (k < d)%nat -> (l < d)%nat -> S k l = T k l) -> turn_tensor d Q S i j = turn_tensor d Q T i j.
Proof. intros H. unfold turn_tensor, rs. apply rsum_ext. intros k Hk. apply rsum_ext. intros l Hl. rewrite H by assumption. reflexivity. Qed.
Lemma tensor_lin d Q c S m T i j : turn_tensor d Q (fun i j => c * S i j + m * T i j) i j = c * turn_tensor d Q S i j + m * turn_tensor d Q T i j.
Proof.
  unfold turn_tensor, rs. rewrite <- !rsum_scal_l, <- rsum_add. apply rsum_ext. intros k _. rewrite <- !rsum_scal_l, <- rsum_add.
  apply rsum_ext. intros l _. req. ring.
Qed.
Lemma tensor_transpose d Q T i j : turn_tensor d Q (fun i j => T j i) i j = turn_tensor d Q T j i.
Proof. unfold turn_tensor, rs. rewrite rsum_swap. apply rsum_ext. intros k _. apply rsum_ext. intros l _. req. ring. Qed.
Lemma tensor_delta d Q i j : orthogonal d Q -> (i < d)%nat -> (j < d)%nat -> turn_tensor d Q delta i j = delta i j.
Proof.
  intros HQ Hi Hj. rewrite <- (proj2 (HQ i j Hi Hj)). unfold turn_tensor, rs. apply rsum_ext. intros k Hk.
  rewrite (rsum_ext d _ (fun l => delta k l * (Q i k * Q j l))) by (intros; req; ring). apply (rsum_delta d k (fun l => Q i k * Q j l) Hk).
Qed.
Lemma tensor_trace d Q T : orthogonal d Q -> rsum d (fun i => turn_tensor d Q T i i) = rsum d (fun i => T i i).
Proof.
  intros HQ. unfold turn_tensor, rs. rewrite rsum_swap. apply rsum_ext. intros k Hk. rewrite rsum_swap.
  rewrite (rsum_ext d _ (fun l => delta k l * T k l)).
  2: { intros l Hl. rewrite <- (proj1 (HQ k l Hk Hl)). unfold rs. rewrite rsum_scal_r. apply rsum_ext. intros. req. ring. }
  apply (rsum_delta d k (T k) Hk).
Qed.
Lemma slope_turned d ndof t Q x x' u u' i j : (1 <= d <= 3)%nat -> orthogonal d Q -> cell_placed d t Q x x' -> cell_det d x <> 0 -> cell_carried d ndof Q u u' ->
  (i < d)%nat -> (j < d)%nat -> slope d ndof u' (cell_gradient d x') i j = turn_tensor d Q (slope d ndof u (cell_gradient d x)) i j.
Proof.
  intros Hd HQ HX Hn HU Hi Hj. unfold slope, turn_tensor, rs.
  rewrite (rsum_ext (S d) _ (fun a => rsum d (fun k => rsum d (fun l => Q i k * (u (a * ndof + k)%nat * cell_gradient d x a l) * Q j l)))).
  2: { intros a Ha. rewrite HU, (gradient_turned d t Q x x') by (try assumption; lia). unfold turn, rs. rewrite rsum_scal_r. apply rsum_ext. intros k _.
       rewrite <- rsum_scal_l. apply rsum_ext. intros. req. ring. }
  rewrite rsum_swap. apply rsum_ext. intros k _. rewrite rsum_swap. apply rsum_ext. intros l _.
  rewrite <- rsum_scal_l. rewrite rsum_scal_r. reflexivity.
Qed.
Lemma strain_turned d ndof t Q x x' u u' i j : (1 <= d <= 3)%nat -> orthogonal d Q -> cell_placed d t Q x x' -> cell_det d x <> 0 -> cell_carried d ndof Q u u' ->
  (i < d)%nat -> (j < d)%nat ->
  as_strain d (strain d ndof (fun _ => 0) u' (cell_gradient d x')) i j = turn_tensor d Q (as_strain d (strain d ndof (fun _ => 0) u (cell_gradient d x))) i j.
Proof.
  intros Hd HQ HX Hn HU Hi Hj. rewrite strain_slope by assumption.
  rewrite (tensor_ext d Q _ (fun i j => / 2 * slope d ndof u (cell_gradient d x) i j + / 2 * slope d ndof u (cell_gradient d x) j i)).
  2: { intros k l Hk Hl. rewrite strain_slope by assumption. field. }
  rewrite (tensor_lin d Q (/ 2) (slope d ndof u (cell_gradient d x)) (/ 2) (fun i j => slope d ndof u (cell_gradient d x) j i)), (tensor_transpose d Q (slope d ndof u (cell_gradient d x)) i j).
  rewrite !(slope_turned d ndof t Q x x' u u') by assumption. field.
Qed.
Lemma contraction d s e : (1 <= d <= 3)%nat ->
  rsum (num_voigt d) (fun v => s v * e v) = rsum d (fun i => rsum d (fun j => as_stress d s i j * as_strain d e i j)).
Proof. intros Hd. dims d; unfold as_stress, as_strain, position; cbn [num_voigt]; rsums; cbn [Nat.eqb Nat.sub]; field. Qed.
Lemma contraction_turned d Q s e s' e' : (1 <= d <= 3)%nat -> orthogonal d Q ->
  (forall i j, (i < d)%nat -> (j < d)%nat -> as_stress d s' i j = turn_tensor d Q (as_stress d s) i j) ->
  (forall i j, (i < d)%nat -> (j < d)%nat -> as_strain d e' i j = turn_tensor d Q (as_strain d e) i j) ->
  rsum (num_voigt d) (fun v => s' v * e' v) = rsum (num_voigt d) (fun v => s v * e v).
Proof.
  intros Hd HQ Hs He. rewrite !contraction by exact Hd. rewrite <- (tensor_dot d Q (as_stress d s) (as_strain d e) HQ). apply rsum_ext. intros i Hi. apply rsum_ext. intros j Hj.
  rewrite Hs, He by assumption. reflexivity.
Qed.
Lemma components_voigt d : (1 <= d <= 3)%nat -> components d = num_voigt d. Proof. intros Hd. dims d; reflexivity. Qed.
Lemma law_stress d C ref e v : (1 <= d <= 3)%nat -> linear_stress (num_voigt d) C ref e v = law d C ref e v.
Proof. intros Hd. unfold law, linear_stress, rs. rewrite components_voigt by exact Hd. apply rsum_ext. intros. req. ring. Qed.
(** Temperature gradient. *)
Lemma scalar_turned d ndof off t Q x x' u u' k : (1 <= d <= 3)%nat -> orthogonal d Q -> cell_placed d t Q x x' -> cell_det d x <> 0 ->
  (forall a, (a <= d)%nat -> u' (a * ndof + off)%nat = u (a * ndof + off)%nat) -> (k < d)%nat ->
  scalar_gradient d ndof off u' (cell_gradient d x') k = turn d Q (scalar_gradient d ndof off u (cell_gradient d x)) k.
Proof.
  intros Hd HQ HX Hn HU Hk. unfold scalar_gradient, turn, rs.
  rewrite (rsum_ext (S d) _ (fun a => rsum d (fun l => Q k l * (u (a * ndof + off)%nat * cell_gradient d x a l)))).
  2: { intros a Ha. rewrite HU, (gradient_turned d t Q x x') by (try assumption; lia). unfold turn, rs. rewrite <- rsum_scal_l. apply rsum_ext. intros. req. ring. }
  rewrite rsum_swap. apply rsum_ext. intros l _. symmetry. symmetry. apply rsum_scal_l.
Qed.
Lemma interpolate_kept d ndof off u u' : (forall a, (a <= d)%nat -> u' (a * ndof + off)%nat = u (a * ndof + off)%nat) -> interpolate d ndof off u' = interpolate d ndof off u.
Proof. intros H. unfold interpolate. apply rsum_ext. intros a Ha. rewrite H by lia. reflexivity. Qed.

(** ** The mesh *)
Lemma sum_over_pairs {A B} (P : A -> B -> Prop) l l' f f' : Forall2 P l l' -> (forall x y, In x l -> P x y -> f' y = f x) -> sum_over l' f' = sum_over l f.
Proof. intros F. induction F as [|x y l l' H F IH]; intros G; [reflexivity|]. cbn. rewrite (G x y) by (try left; auto). rewrite IH by (intros; apply G; [right|]; assumption). reflexivity. Qed.
Lemma rows_of_work d nn ndof Q F F' : (d <= ndof)%nat -> orthogonal d Q ->
  (forall W W', carried d nn ndof Q W W' -> (forall off, (d <= off < ndof)%nat -> kept nn ndof off W W') -> work (nn * ndof) F' W' = work (nn * ndof) F W) ->
  carried d nn ndof Q F F' /\ (forall off, (d <= off < ndof)%nat -> kept nn ndof off F F').
Proof.
  intros Hd HQ H.
  assert (E : forall G w n, (n < nn)%nat -> work (nn * ndof) G (fun k => delta n (k / ndof) * w (k mod ndof)%nat) = rsum ndof (fun j => G (n * ndof + j)%nat * w j)).
  { intros G w n Hn. unfold work, rs. rewrite (sum_block (K := R_ring)).
    rewrite (rsum_ext nn _ (fun m => delta n m * rsum ndof (fun j => G (m * ndof + j)%nat * w j))).
    2: { intros m _. rewrite <- rsum_scal_l. apply rsum_ext. intros j Hj. rewrite Nat.div_add_l by lia. rewrite Nat.div_small, Nat.add_0_r by lia.
         replace (m * ndof + j)%nat with (j + m * ndof)%nat at 2 by lia. rewrite Nat.mod_add, Nat.mod_small by lia. req. ring. }
    apply (rsum_delta nn n (fun m => rsum ndof (fun j => G (m * ndof + j)%nat * w j)) Hn). }
  assert (At : forall n w m j, (j < ndof)%nat -> (fun k => delta n (k / ndof) * w (k mod ndof)%nat) (m * ndof + j)%nat = delta n m * w j).
  { intros n w m j Hj. cbv beta. rewrite Nat.div_add_l by lia. rewrite Nat.div_small, Nat.add_0_r by lia.
    replace (m * ndof + j)%nat with (j + m * ndof)%nat by lia. rewrite Nat.mod_add, Nat.mod_small by lia. reflexivity. }
  split.
  - intros n i Hn Hi.
    set (w := fun j => if Nat.ltb j d then Q i j else 0). set (w' := fun j => delta j i).
    pose proof (H (fun k => delta n (k / ndof) * w (k mod ndof)%nat) (fun k => delta n (k / ndof) * w' (k mod ndof)%nat)) as S. rewrite !E in S by exact Hn.
    unfold w' in S at 3. rewrite (rsum_delta_r ndof i (fun j => F' (n * ndof + j)%nat)) in S by lia. rewrite S.
    + replace ndof with (d + (ndof - d))%nat at 1 by lia. rewrite (sum_split (K := R_ring)). rewrite (rsum_0 (ndof - d)).
      2: { intros j Hj. unfold w. destruct (Nat.ltb_spec (d + j) d); [lia|req; ring]. }
      change (@radd R_ring) with Rplus. rewrite Rplus_0_r. unfold turn, rs. apply rsum_ext. intros j Hj. unfold w. destruct (Nat.ltb_spec j d); [req; ring|lia].
    + intros m j Hm Hj. rewrite (At n w' m j) by lia. unfold turn. unfold rs.
      rewrite (rsum_ext d _ (fun k => delta n m * (Q j k * Q i k))).
      2: { intros k Hk. rewrite (At n w m k) by lia. unfold w. destruct (Nat.ltb_spec k d); [req; ring|lia]. }
      rewrite rsum_scal_l. f_equal. symmetry. exact (proj2 (HQ j i Hj Hi)).
    + intros off Ho m Hm. rewrite (At n w' m off), (At n w m off) by lia. unfold w, w', delta at 2. destruct (Nat.ltb_spec off d); [lia|].
      destruct (Nat.eqb_spec off i); [lia|]. reflexivity.
  - intros off Ho n Hn. set (w := fun j => delta j off).
    pose proof (H (fun k => delta n (k / ndof) * w (k mod ndof)%nat) (fun k => delta n (k / ndof) * w (k mod ndof)%nat)) as S. rewrite !E in S by exact Hn.
    assert (D : forall G : nat -> R, rsum ndof (fun j => G (n * ndof + j)%nat * w j) = G (n * ndof + off)%nat) by (intros G; apply (rsum_delta_r ndof off (fun j => G (n * ndof + j)%nat)); lia).
    rewrite !D in S. apply S.
    + assert (N : forall j, (j < d)%nat -> w j = 0) by (intros j Hj; unfold w, delta; destruct (Nat.eqb_spec j off); [lia|reflexivity]).
      intros m j Hm Hj. rewrite (At n w m j) by lia. unfold turn, rs. rewrite N by exact Hj. symmetry. rewrite Rmult_0_r. apply rsum_0.
      intros k Hk. rewrite (At n w m k) by lia. rewrite N by exact Hk. req. ring.
    + intros off' _ m _. reflexivity.
Qed.

Lemma mesh_placed {M} d nn t Q X X' (cells : list (cell M)) c : mesh_ok d nn X cells -> placed d nn t Q X X' -> In c cells ->
  cell_placed d t Q (gather_coords X c) (gather_coords X' c).
Proof. intros Hm HP Hc a i Ha Hi. destruct (mesh_cell _ _ _ _ _ Hm Hc) as [Hn _]. unfold gather_coords. rewrite HP by (try apply Hn; assumption). reflexivity. Qed.
Lemma mesh_carried {M} d nn ndof Q U U' X (cells : list (cell M)) c : (d <= ndof)%nat -> mesh_ok d nn X cells -> carried d nn ndof Q U U' -> In c cells ->
  cell_carried d ndof Q (gather ndof U c) (gather ndof U' c).
Proof.
  intros Hn Hm HU Hc a i Ha Hi. destruct (mesh_cell _ _ _ _ _ Hm Hc) as [Hk _]. rewrite gather_at by lia. rewrite HU by (try apply Hk; assumption).
  apply turn_ext. intros j Hj. rewrite gather_at by lia. reflexivity.
Qed.
Lemma mesh_kept {M} d nn ndof off U U' X (cells : list (cell M)) c : (off < ndof)%nat -> mesh_ok d nn X cells -> kept nn ndof off U U' -> In c cells ->
  forall a, (a <= d)%nat -> gather ndof U' c (a * ndof + off)%nat = gather ndof U c (a * ndof + off)%nat.
Proof. intros Hn Hm HU Hc a Ha. destruct (mesh_cell _ _ _ _ _ Hm Hc) as [Hk _]. rewrite !gather_at by lia. apply HU. apply Hk. exact Ha. Qed.

(** The mesh of the moved body: the same cells with other materials. *)
Definition moved_cells {M} (P : M -> M -> Prop) : list (cell M) -> list (cell M) -> Prop :=
  Forall2 (fun c c' => c_node c' = c_node c /\ P (c_mat c) (c_mat c')).
Lemma moved_nodes {M} (P : M -> M -> Prop) cells cells' : moved_cells P cells cells' -> map c_node cells' = map c_node cells.
Proof. intros F. induction F as [|x y l l' [H _] F IH]; [reflexivity|]. cbn. rewrite H, IH. reflexivity. Qed.
Lemma moved_mesh {M} d nn t Q X X' (P : M -> M -> Prop) cells cells' : (1 <= d <= 3)%nat -> orthogonal d Q -> mesh_ok d nn X cells -> placed d nn t Q X X' ->
  moved_cells P cells cells' -> mesh_ok d nn X' cells'.
Proof.
  intros Hd HQ Hm HP HC. unfold mesh_ok in *. rewrite (moved_nodes P cells cells' HC). intros f Hf. destruct (Hm f Hf) as [Hn Hv]. split; [exact Hn|].
  apply det_measure_iff; [exact Hd|]. apply (det_of_volume d (fun a i => X (f a) i)); [|apply det_measure; assumption].
  apply (volume_turned d Q t); [exact Hd|exact HQ|]. intros a i Ha Hi. apply HP; [apply Hn; exact Ha|exact Hi].
Qed.

(** ** C159: elasticity *)
Theorem C159_elastic : forall d nn pen t Q X X' U U' Z cells cells', (1 <= d <= 3)%nat -> orthogonal d Q -> mesh_ok d nn X cells ->
  placed d nn t Q X X' -> carried d nn d Q U U' ->
  moved_cells (fun m m' => turned_law d Q (e_stiff m) (e_ref m) (e_stiff m') (e_ref m')) cells cells' ->
  mesh_ok d nn X' cells' /\
  carried d nn d Q (elastostatic d pen None X U Z cells) (elastostatic d pen None X' U' Z cells') /\
  elastic_energy d pen X' U' Z cells' = elastic_energy d pen X U Z cells.
Proof.
  intros d nn pen t Q X X' U U' Z cells cells' Hd HQ Hm HP HU HC. pose proof (moved_mesh d nn t Q X X' _ cells cells' Hd HQ Hm HP HC) as Hm'.
  split; [exact Hm'|].
  assert (CW : forall W W' c m', carried d nn d Q W W' -> In c cells -> turned_law d Q (e_stiff (c_mat c)) (e_ref (c_mat c)) (e_stiff m') (e_ref m') ->
    cell_measure d (gather_coords X' c) = cell_measure d (gather_coords X c) /\
    rsum (num_voigt d) (fun v => elastic_stress d m' None (gather_coords X' c) (gather d U' c) v * strain d d (fun _ => 0) (gather d W' c) (cell_gradient d (gather_coords X' c)) v) =
    rsum (num_voigt d) (fun v => elastic_stress d (c_mat c) None (gather_coords X c) (gather d U c) v * strain d d (fun _ => 0) (gather d W c) (cell_gradient d (gather_coords X c)) v)).
  { intros W W' c m' HW Hc HT. destruct (mesh_cell _ _ _ _ _ Hm Hc) as [_ Hv]. pose proof (det_measure _ _ Hd Hv) as Hn.
    pose proof (mesh_placed _ _ _ _ _ _ _ _ Hm HP Hc) as Px. split; [apply measure_of_volume; exact (volume_turned d Q t _ _ Hd HQ Px)|].
    apply (contraction_turned d Q _ _ _ _ Hd HQ).
    - intros i j Hi Hj. unfold elastic_stress, add_forcing.
      assert (L : forall m x u, as_stress d (linear_stress (num_voigt d) (e_stiff m) (e_ref m) (strain d d (fun _ => 0) u (cell_gradient d x))) =
                  as_stress d (fun v => linear_stress (num_voigt d) (e_stiff m) (e_ref m) (strain d d (fun _ => 0) u (cell_gradient d x)) v)) by reflexivity.
      transitivity (as_stress d (law d (e_stiff m') (e_ref m') (strain d d (fun _ => 0) (gather d U' c) (cell_gradient d (gather_coords X' c)))) i j).
      { unfold as_stress. apply law_stress. exact Hd. }
      rewrite (HT (strain d d (fun _ => 0) (gather d U c) (cell_gradient d (gather_coords X c)))); [|intros k l Hk Hl|assumption|assumption].
      + apply tensor_ext. intros k l _ _. unfold as_stress. symmetry. apply law_stress. exact Hd.
      + apply (strain_turned d d t Q); try assumption. exact (mesh_carried d nn d Q U U' X cells c (le_n d) Hm HU Hc).
    - intros i j Hi Hj. apply (strain_turned d d t Q); try assumption. exact (mesh_carried d nn d Q W W' X cells c (le_n d) Hm HW Hc). }
  split.
  - apply (rows_of_work d nn d Q); [lia|exact HQ|]. intros W W' HW _. unfold elastostatic.
    rewrite (assemble_work nn (S d) d _ cells') by exact (mesh_nodes d nn X' cells' Hm'). rewrite (assemble_work nn (S d) d _ cells) by exact (mesh_nodes d nn X cells Hm).
    apply (sum_over_pairs _ _ _ _ _ HC). intros c c' Hc [EN HT]. destruct c' as [nd m']. cbn [c_node] in EN. subst nd. cbn [c_mat] in HT |- *.
    rewrite !elastic_work by exact Hd. destruct (CW W W' c m' HW Hc HT) as [E1 E2].
    change (gather_coords X' (mkCell (c_node c) m')) with (gather_coords X' c). change (gather d U' (mkCell (c_node c) m')) with (gather d U' c).
    change (gather d W' (mkCell (c_node c) m')) with (gather d W' c). change (gather_control Z (mkCell (c_node c) m')) with (gather_control Z c).
    rewrite E1, E2. reflexivity.
  - unfold elastic_energy. rewrite !total_sum. apply (sum_over_pairs _ _ _ _ _ HC). intros c c' Hc [EN HT]. destruct c' as [nd m']. cbn [c_node] in EN. subst nd. cbn [c_mat] in HT |- *.
    destruct (CW U U' c m' HU Hc HT) as [E1 E2].
    change (gather_coords X' (mkCell (c_node c) m')) with (gather_coords X' c). change (gather d U' (mkCell (c_node c) m')) with (gather d U' c).
    change (gather_control Z (mkCell (c_node c) m')) with (gather_control Z c).
    unfold elastic_energy_cell, scalar_product, weigh. rewrite E1. f_equal. f_equal.
    rewrite (rsum_ext _ _ (fun i => pen (cell_density (S d) (gather_control Z c)) * (elastic_stress d m' None (gather_coords X' c) (gather d U' c) i * strain d d (fun _ => 0) (gather d U' c) (cell_gradient d (gather_coords X' c)) i))) by (intros; req; ring).
    rewrite rsum_scal_l, E2, <- rsum_scal_l. apply rsum_ext. intros. req. ring.
Qed.
Print Assumptions C159_elastic.

(** Isotropic materials are their own turned version. *)
Definition isotropic_stiffness (d : nat) (C : nat -> nat -> R) : Prop := exists lam mu, forall e v, (v < components d)%nat -> rs (components d) (fun w => C v w * e w) = hooke d lam mu e v.
Definition even_strain (d : nat) (ref : nat -> R) : Prop := exists p, forall v, (v < components d)%nat -> ref v = if Nat.ltb v d then p else 0.
Lemma position_lt d i j : (1 <= d <= 3)%nat -> (i < d)%nat -> (j < d)%nat -> (position d i j < components d)%nat.
Proof. intros Hd Hi Hj. dims d; unfold position; destruct i as [|[|[|i]]]; try lia; destruct j as [|[|[|j]]]; try lia; cbn; lia. Qed.
Lemma isotropic_law d C ref : (1 <= d <= 3)%nat -> isotropic_stiffness d C -> even_strain d ref ->
  exists c m q, forall e i j, (i < d)%nat -> (j < d)%nat -> as_stress d (law d C ref e) i j = (c * rsum d (fun k => as_strain d e k k) + q) * delta i j + m * as_strain d e i j.
Proof.
  intros Hd (lam & mu & HC) (p & Hp). exists lam, (2 * mu), (- (lam * INR d * p + 2 * mu * p)). intros e i j Hi Hj.
  unfold as_stress, law. rewrite (HC (fun w => e w - ref w)) by (apply position_lt; assumption).
  unfold hooke, as_strain, delta, position, rs in *. rewrite components_voigt in Hp by exact Hd.
  dims d; cbn in Hp; destruct i as [|[|[|i]]]; try lia; destruct j as [|[|[|j]]]; try lia; cbn [Nat.eqb Nat.ltb Nat.leb Nat.sub]; rsums; cbn [Nat.eqb];
    repeat match goal with |- context [ref ?k] => rewrite (Hp k) by lia end; cbn [Nat.ltb Nat.leb]; cbn [INR]; field.
Qed.
Lemma isotropic_turned d Q C ref : (1 <= d <= 3)%nat -> orthogonal d Q -> isotropic_stiffness d C -> even_strain d ref -> turned_law d Q C ref C ref.
Proof.
  intros Hd HQ HC Hr e e' He i j Hi Hj. destruct (isotropic_law d C ref Hd HC Hr) as (c & m & q & H).
  rewrite H, He by assumption.
  rewrite (rsum_ext d (fun k => as_strain d e' k k) (fun k => turn_tensor d Q (as_strain d e) k k)) by (intros k Hk; apply He; exact Hk).
  rewrite tensor_trace by exact HQ.
  rewrite (tensor_ext d Q (as_stress d (law d C ref e)) (fun i j => (c * rsum d (fun k => as_strain d e k k) + q) * delta i j + m * as_strain d e i j)) by (intros; apply H; assumption).
  rewrite (tensor_lin d Q (c * rsum d (fun k => as_strain d e k k) + q) delta m (as_strain d e)). rewrite (tensor_delta d Q i j HQ Hi Hj). reflexivity.
Qed.

Lemma pattern_isotropic d a b c : (1 <= d <= 3)%nat -> a = b + 2 * c -> isotropic_stiffness d (voigt_pattern d a b c).
Proof.
  intros Hd Ha. exists b, c. intros e v Hv. rewrite components_voigt in * by exact Hd. rewrite <- (hooke_pattern d a b c b c Hd Ha eq_refl eq_refl e v Hv).
  unfold rs. apply rsum_ext. intros. req. ring.
Qed.
Lemma code_isotropic d E v : (1 <= d <= 3)%nat -> isotropic_stiffness d (isotropic_material d E v) /\ isotropic_stiffness d (isotropic_constant d E v).
Proof.
  intros Hd. split; apply pattern_isotropic; try exact Hd.
  - generalize (E / ((1 + v) * (1 - 2 * v))). intros q. field.
  - generalize (1 / ((1 + v) * (1 - 2 * v))). intros q. field.
Qed.
Lemma same_cells {M} (P : M -> M -> Prop) (cells : list (cell M)) : (forall c, In c cells -> P (c_mat c) (c_mat c)) -> moved_cells P cells cells.
Proof. intros H. induction cells as [|c cells IH]; constructor; [split; [reflexivity|apply H; left; reflexivity]|apply IH; intros; apply H; right; assumption]. Qed.

Theorem C159_isotropic : forall d nn pen t Q X X' U U' Z cells, (1 <= d <= 3)%nat -> orthogonal d Q -> mesh_ok d nn X cells ->
  placed d nn t Q X X' -> carried d nn d Q U U' ->
  (forall c, In c cells -> (exists E v, e_stiff (c_mat c) = isotropic_material d E v \/ e_stiff (c_mat c) = isotropic_constant d E v) /\ even_strain d (e_ref (c_mat c))) ->
  carried d nn d Q (elastostatic d pen None X U Z cells) (elastostatic d pen None X' U' Z cells) /\
  elastic_energy d pen X' U' Z cells = elastic_energy d pen X U Z cells.
Proof.
  intros d nn pen t Q X X' U U' Z cells Hd HQ Hm HP HU HI. apply (C159_elastic d nn pen t Q X X' U U' Z cells cells Hd HQ Hm HP HU).
  apply same_cells. intros c Hc. destruct (HI c Hc) as [(E & v & HE) Hr]. apply isotropic_turned; try assumption.
  destruct (code_isotropic d E v Hd) as [H1 H2]. destruct HE as [-> | ->]; assumption.
Qed.
Print Assumptions C159_isotropic.

(** ** Heat *)
Lemma turn_back d Q v l : orthogonal d Q -> (l < d)%nat -> rsum d (fun j => Q j l * turn d Q v j) = v l.
Proof.
  intros HQ Hl. unfold turn, rs.
  rewrite (rsum_ext d _ (fun j => rsum d (fun m => Q j l * Q j m * v m))).
  2: { intros j _. rewrite <- rsum_scal_l. apply rsum_ext. intros. req. ring. }
  rewrite rsum_swap. rewrite (rsum_ext d _ (fun m => delta l m * v m)).
  2: { intros m Hm. rewrite <- (proj1 (HQ l m Hl Hm)). symmetry. unfold rs. apply rsum_scal_r. }
  apply rsum_delta. exact Hl.
Qed.
Lemma tensor_turn d Q T v i : orthogonal d Q -> rsum d (fun j => turn d Q v j * turn_tensor d Q T i j) = turn d Q (fun k => rsum d (fun l => v l * T k l)) i.
Proof.
  intros HQ. unfold turn_tensor. unfold turn at 2. unfold rs.
  rewrite (rsum_ext d _ (fun j => rsum d (fun k => rsum d (fun l => Q i k * T k l * (Q j l * turn d Q v j))))).
  2: { intros j _. rewrite <- rsum_scal_l. apply rsum_ext. intros k _. rewrite <- rsum_scal_l. apply rsum_ext. intros. req. ring. }
  rewrite rsum_swap. apply rsum_ext. intros k _. rewrite rsum_swap. rewrite <- rsum_scal_l. apply rsum_ext. intros l Hl.
  rewrite rsum_scal_l, (turn_back d Q v l HQ Hl). req. ring.
Qed.
Lemma flux_turned d Q cond cond' tg tg' i : orthogonal d Q -> (forall j, (j < d)%nat -> tg' j = turn d Q tg j) ->
  (forall j, (j < d)%nat -> cond' i j = turn_tensor d Q cond i j) -> thermal_flux d cond' tg' i = turn d Q (thermal_flux d cond tg) i.
Proof.
  intros HQ Ht Hc. unfold thermal_flux.
  rewrite (rsum_ext d _ (fun j => turn d Q tg j * turn_tensor d Q cond i j)) by (intros j Hj; rewrite Ht, Hc by exact Hj; reflexivity).
  rewrite tensor_turn by exact HQ. unfold turn, rs. rewrite Rminus_0_l, <- rsum_opp. apply rsum_ext. intros. req. ring.
Qed.
(** The second conductor is the first one turned by Q; an isotropic one is its own turned version. *)
Definition turned_conductor (d : nat) (Q : nat -> nat -> R) (m m' : thermal) : Prop :=
  t_nonlinear m' = t_nonlinear m /\ t_rho_const m' = t_rho_const m /\ t_cp_const m' = t_cp_const m /\
  (forall T, t_rho_fun m' T = t_rho_fun m T /\ t_cp_fun m' T = t_cp_fun m T) /\
  (forall i j, (i < d)%nat -> (j < d)%nat -> t_cond_const m' i j = turn_tensor d Q (t_cond_const m) i j /\
     forall T, t_cond_fun m' T i j = turn_tensor d Q (t_cond_fun m T) i j).
Definition isotropic_conductor (d : nat) (m : thermal) : Prop :=
  exists k0 k, forall i j T, (i < d)%nat -> (j < d)%nat -> t_cond_const m i j = k0 * delta i j /\ t_cond_fun m T i j = k T * delta i j.
Lemma scaled_delta d Q k T i j : orthogonal d Q -> (i < d)%nat -> (j < d)%nat -> (forall i j, (i < d)%nat -> (j < d)%nat -> T i j = k * delta i j) -> T i j = turn_tensor d Q T i j.
Proof.
  intros HQ Hi Hj HT. rewrite (tensor_ext d Q T (fun i j => k * delta i j + 0 * delta i j)) by (intros a b Ha Hb; rewrite HT by assumption; ring).
  rewrite (tensor_lin d Q k delta 0 delta), !tensor_delta, HT by assumption. ring.
Qed.
Lemma isotropic_conductor_turned d Q m : orthogonal d Q -> isotropic_conductor d m -> turned_conductor d Q m m.
Proof.
  intros HQ (k0 & k & H). repeat (split; try reflexivity).
  - apply (scaled_delta d Q k0); try assumption. intros a b Ha Hb. exact (proj1 (H a b 0 Ha Hb)).
  - intros T. apply (scaled_delta d Q (k T)); try assumption. intros a b Ha Hb. exact (proj2 (H a b T Ha Hb)).
Qed.
Theorem C159_heat : forall d nn pen t Q X X' T T' V V' Z cells cells', (1 <= d <= 3)%nat -> orthogonal d Q -> mesh_ok d nn X cells ->
  placed d nn t Q X X' -> kept nn 1 0 T T' -> kept nn 1 0 V V' -> moved_cells (turned_conductor d Q) cells cells' ->
  mesh_ok d nn X' cells' /\
  kept nn 1 0 (thermostatic d pen X T Z cells) (thermostatic d pen X' T' Z cells') /\
  kept nn 1 0 (heat_equation d pen X T V Z cells) (heat_equation d pen X' T' V' Z cells') /\
  thermal_energy d pen X' T' Z cells' = thermal_energy d pen X T Z cells.
Proof.
  intros d nn pen t Q X X' T T' V V' Z cells cells' Hd HQ Hm HP HT HV HC. pose proof (moved_mesh d nn t Q X X' _ cells cells' Hd HQ Hm HP HC) as Hm'.
  split; [exact Hm'|].
  assert (CM : forall c, In c cells -> cell_measure d (gather_coords X' c) = cell_measure d (gather_coords X c)).
  { intros c Hc. pose proof (mesh_placed _ _ _ _ _ _ _ _ Hm HP Hc) as Px. apply measure_of_volume; exact (volume_turned d Q t _ _ Hd HQ Px). }
  assert (CG : forall W W' c k, kept nn 1 0 W W' -> In c cells -> (k < d)%nat -> scalar_gradient d 1 0 (gather 1 W' c) (cell_gradient d (gather_coords X' c)) k =
                       turn d Q (scalar_gradient d 1 0 (gather 1 W c) (cell_gradient d (gather_coords X c))) k).
  { intros W W' c k HW Hc Hk. destruct (mesh_cell _ _ _ _ _ Hm Hc) as [_ Hv]. apply (scalar_turned d 1 0 t Q); try assumption.
    - exact (mesh_placed _ _ _ _ _ _ _ _ Hm HP Hc).
    - exact (det_measure _ _ Hd Hv).
    - exact (mesh_kept d nn 1 0 W W' X cells c ltac:(lia) Hm HW Hc). }
  assert (CI : forall W W' c, kept nn 1 0 W W' -> In c cells -> interpolate d 1 0 (gather 1 W' c) = interpolate d 1 0 (gather 1 W c)).
  { intros W W' c HW Hc. apply interpolate_kept. exact (mesh_kept d nn 1 0 W W' X cells c ltac:(lia) Hm HW Hc). }
  assert (CF : forall W W' c cond cond', kept nn 1 0 W W' -> In c cells -> (forall i j, (i < d)%nat -> (j < d)%nat -> cond' i j = turn_tensor d Q cond i j) ->
    rsum d (fun k => thermal_flux d cond' (scalar_gradient d 1 0 (gather 1 T' c) (cell_gradient d (gather_coords X' c))) k * scalar_gradient d 1 0 (gather 1 W' c) (cell_gradient d (gather_coords X' c)) k) =
    rsum d (fun k => thermal_flux d cond (scalar_gradient d 1 0 (gather 1 T c) (cell_gradient d (gather_coords X c))) k * scalar_gradient d 1 0 (gather 1 W c) (cell_gradient d (gather_coords X c)) k)).
  { intros W W' c cond cond' HW Hc Hcond. rewrite <- (turn_dot d Q (thermal_flux d cond (scalar_gradient d 1 0 (gather 1 T c) (cell_gradient d (gather_coords X c)))) _ HQ).
    apply rsum_ext. intros k Hk. rewrite (CG W W') by assumption. f_equal. apply flux_turned; [exact HQ| |].
    - intros j Hj. apply CG; assumption.
    - intros j Hj. apply Hcond; assumption. }
  assert (Z0 : orthogonal 0 Q) by (intros i j Hi; lia).
  split; [|split].
  - destruct (rows_of_work 0 nn 1 Q (thermostatic d pen X T Z cells) (thermostatic d pen X' T' Z cells') ltac:(lia) Z0) as [_ K]; [|apply K; lia].
    intros W W' _ HW. specialize (HW 0%nat ltac:(lia)). unfold thermostatic.
    rewrite (assemble_work nn (S d) 1 _ cells') by exact (mesh_nodes d nn X' cells' Hm'). rewrite (assemble_work nn (S d) 1 _ cells) by exact (mesh_nodes d nn X cells Hm).
    apply (sum_over_pairs _ _ _ _ _ HC). intros c c' Hc [EN HM]. destruct c' as [nd m']. cbn [c_node] in EN. subst nd. cbn [c_mat] in HM |- *.
    rewrite !thermostatic_work.
    change (gather_coords X' (mkCell (c_node c) m')) with (gather_coords X' c). change (gather 1 T' (mkCell (c_node c) m')) with (gather 1 T' c).
    change (gather 1 W' (mkCell (c_node c) m')) with (gather 1 W' c). change (gather_control Z (mkCell (c_node c) m')) with (gather_control Z c).
    rewrite (CM c Hc), (CI T T' c HT Hc). destruct HM as (Mn & _ & _ & _ & Mc). unfold flux_at. rewrite Mn. f_equal. f_equal.
    destruct (t_nonlinear (c_mat c)); apply CF; try assumption; intros i j Hi Hj; apply (Mc i j Hi Hj).
  - destruct (rows_of_work 0 nn 1 Q (heat_equation d pen X T V Z cells) (heat_equation d pen X' T' V' Z cells') ltac:(lia) Z0) as [_ K]; [|apply K; lia].
    intros W W' _ HW. specialize (HW 0%nat ltac:(lia)). unfold heat_equation.
    rewrite (assemble_work nn (S d) 1 _ cells') by exact (mesh_nodes d nn X' cells' Hm'). rewrite (assemble_work nn (S d) 1 _ cells) by exact (mesh_nodes d nn X cells Hm).
    apply (sum_over_pairs _ _ _ _ _ HC). intros c c' Hc [EN HM]. destruct c' as [nd m']. cbn [c_node] in EN. subst nd. cbn [c_mat] in HM |- *.
    rewrite !heat_work.
    change (gather_coords X' (mkCell (c_node c) m')) with (gather_coords X' c). change (gather 1 T' (mkCell (c_node c) m')) with (gather 1 T' c).
    change (gather 1 V' (mkCell (c_node c) m')) with (gather 1 V' c).
    change (gather 1 W' (mkCell (c_node c) m')) with (gather 1 W' c). change (gather_control Z (mkCell (c_node c) m')) with (gather_control Z c).
    rewrite (CM c Hc), (CI T T' c HT Hc), (CI V V' c HV Hc), (CI W W' c HW Hc). destruct HM as (Mn & Mr & Mp & Mf & Mc). unfold thermal_content, flux_no_temperature.
    rewrite Mn, Mr, Mp, !(proj1 (Mf _)), !(proj2 (Mf _)). f_equal. f_equal. f_equal.
    destruct (t_nonlinear (c_mat c)).
    + apply CF; try assumption. intros i j Hi Hj. unfold turn_tensor, rs. symmetry. apply rsum_0. intros. apply rsum_0. intros. req. ring.
    + apply CF; try assumption. intros i j Hi Hj. apply (Mc i j Hi Hj).
  - unfold thermal_energy. rewrite !total_sum. apply (sum_over_pairs _ _ _ _ _ HC). intros c c' Hc [EN HM]. destruct c' as [nd m']. cbn [c_node] in EN. subst nd. cbn [c_mat] in HM |- *.
    change (gather_coords X' (mkCell (c_node c) m')) with (gather_coords X' c). change (gather 1 T' (mkCell (c_node c) m')) with (gather 1 T' c).
    change (gather_control Z (mkCell (c_node c) m')) with (gather_control Z c).
    unfold thermal_energy_cell, scalar_product, weigh. cbv zeta. rewrite (CM c Hc). f_equal. f_equal.
    assert (PF : forall q g : nat -> R, rsum d (fun i => q i * pen (cell_density (S d) (gather_control Z c)) * g i) = pen (cell_density (S d) (gather_control Z c)) * rsum d (fun i => q i * g i)).
    { intros q g. rewrite <- rsum_scal_l. apply rsum_ext. intros. req. ring. }
    rewrite !PF. f_equal. destruct HM as (Mn & Mr & Mp & Mf & Mc). unfold flux_no_temperature. rewrite Mn.
    destruct (t_nonlinear (c_mat c)).
    + apply CF; try assumption. intros i j Hi Hj. unfold turn_tensor, rs. symmetry. apply rsum_0. intros. apply rsum_0. intros. req. ring.
    + apply CF; try assumption. intros i j Hi Hj. apply (Mc i j Hi Hj).
Qed.
Print Assumptions C159_heat.

(** ** Thermomechanics *)
Definition isotropic_thermoelastic (d : nat) (m : thermoelastic) : Prop := forall T, isotropic_stiffness d (m_stiff m T) /\
  exists a k, forall i j, (i < d)%nat -> (j < d)%nat -> m_alpha m T i j = a * delta i j /\ m_cond m T i j = k * delta i j.
Lemma tm_stress_turned d Q m e e' T i j : (1 <= d <= 3)%nat -> orthogonal d Q -> isotropic_thermoelastic d m ->
  (forall i j, (i < d)%nat -> (j < d)%nat -> as_strain d e' i j = turn_tensor d Q (as_strain d e) i j) -> (i < d)%nat -> (j < d)%nat ->
  as_stress d (tm_stress d m e' T) i j = turn_tensor d Q (as_stress d (tm_stress d m e T)) i j.
Proof.
  intros Hd HQ HI He Hi Hj. destruct (HI T) as (HC & a & k & Ha).
  assert (HE : even_strain d (thermal_strain_value d m T)).
  { exists (m_scale m * a * (T - m_tref m)). intros v Hv. unfold thermal_strain_value. destruct (Nat.ltb_spec v d); [|reflexivity].
    rewrite (proj1 (Ha v v ltac:(lia) ltac:(lia))). unfold delta. rewrite Nat.eqb_refl. ring. }
  assert (L : forall e v, tm_stress d m e T v = law d (m_stiff m T) (thermal_strain_value d m T) e v).
  { intros f v. unfold tm_stress, law, rs. rewrite components_voigt by exact Hd. apply rsum_ext. intros. req. ring. }
  unfold as_stress at 1. rewrite L. rewrite (tensor_ext d Q _ (as_stress d (law d (m_stiff m T) (thermal_strain_value d m T) e))) by (intros; apply L).
  exact (isotropic_turned d Q _ _ Hd HQ HC HE e e' He i j Hi Hj).
Qed.
Lemma tm_flux_turned d Q m tg tg' T i : (1 <= d <= 3)%nat -> orthogonal d Q -> isotropic_thermoelastic d m ->
  (forall j, (j < d)%nat -> tg' j = turn d Q tg j) -> (i < d)%nat -> tm_flux d m tg' T i = turn d Q (tm_flux d m tg T) i.
Proof.
  intros Hd HQ HI Ht Hi. destruct (HI T) as (_ & a & k & Ha).
  assert (L : forall tg i, (i < d)%nat -> tm_flux d m tg T i = m_scale m * m_scale m * k * tg i).
  { intros g l Hl. unfold tm_flux. rewrite (rsum_ext d _ (fun j => delta l j * (m_scale m * m_scale m * k * g j))).
    - apply (rsum_delta d l (fun j => m_scale m * m_scale m * k * g j) Hl).
    - intros j Hj. rewrite (proj2 (Ha l j Hl Hj)). req. ring. }
  rewrite L, Ht by exact Hi. rewrite (turn_ext d Q (tm_flux d m tg T) (fun j => m_scale m * m_scale m * k * tg j)) by (intros; apply L; assumption).
  unfold turn, rs. rewrite <- rsum_scal_l. apply rsum_ext. intros. req. ring.
Qed.
Definition tm_energy_value (d : nat) (pen : R -> R) (m : thermoelastic) (x : coords) (u z : nat -> R) : R :=
  let g := cell_gradient d x in let e := strain d (S d) (fun _ => 0) u g in let tg := scalar_gradient d (S d) d u g in let T := interpolate d (S d) d u in
  cell_measure d x * pen (cell_density (S d) z) * (rsum (num_voigt d) (fun v => tm_stress d m e T v * e v) + rsum d (fun k => tm_flux d m tg T k * tg k)).
Lemma tm_energy_ok d pen m x u z : (2 <= d <= 3)%nat -> tm_energy_cell d pen m x u z = Ok (tm_energy_value d pen m x u z).
Proof.
  intros Hd. unfold tm_energy_cell, tm_energy_value.
  destruct (tm_kinetics_ok d m (strain d (S d) (fun _ => 0) u (cell_gradient d x)) (scalar_gradient d (S d) d u (cell_gradient d x)) (interpolate d (S d) d u) Hd) as (s & E & H).
  cbv zeta. rewrite E. cbn [rbind fst snd]. f_equal. unfold scalar_product, weigh. rewrite Rmult_plus_distr_l.
  assert (PF : forall n (q g : nat -> R), 1 * rsum n (fun i => q i * pen (cell_density (S d) z) * g i) * cell_measure d x = cell_measure d x * pen (cell_density (S d) z) * rsum n (fun i => q i * g i)).
  { intros n q g. rewrite (rsum_ext n _ (fun i => pen (cell_density (S d) z) * (q i * g i))) by (intros; req; ring). rewrite rsum_scal_l. ring. }
  rewrite !PF. f_equal. f_equal. apply rsum_ext. intros i _. rewrite H. reflexivity.
Qed.
Theorem C159_thermoelastic : forall d nn pen t Q X X' U U' Z cells, (2 <= d <= 3)%nat -> orthogonal d Q -> mesh_ok d nn X cells ->
  placed d nn t Q X X' -> carried d nn (S d) Q U U' -> kept nn (S d) d U U' -> (forall c, In c cells -> isotropic_thermoelastic d (c_mat c)) ->
  exists r r' w, thermoelastostatic d pen X U Z cells = Ok r /\ thermoelastostatic d pen X' U' Z cells = Ok r' /\
    carried d nn (S d) Q r r' /\ kept nn (S d) d r r' /\
    tm_energy d pen X U Z cells = Ok w /\ tm_energy d pen X' U' Z cells = Ok w.
Proof.
  intros d nn pen t Q X X' U U' Z cells Hd2 HQ Hm HP HU HT HI. assert (Hd : (1 <= d <= 3)%nat) by lia.
  assert (Hm' : mesh_ok d nn X' cells).
  { apply (moved_mesh d nn t Q X X' (fun _ _ => True) cells cells Hd HQ Hm HP). apply same_cells. trivial. }
  assert (CW : forall W W' c, carried d nn (S d) Q W W' -> kept nn (S d) d W W' -> In c cells ->
    cell_measure d (gather_coords X' c) = cell_measure d (gather_coords X c) /\ interpolate d (S d) d (gather (S d) U' c) = interpolate d (S d) d (gather (S d) U c) /\
    rsum (num_voigt d) (fun v => tm_stress d (c_mat c) (strain d (S d) (fun _ => 0) (gather (S d) U' c) (cell_gradient d (gather_coords X' c))) (interpolate d (S d) d (gather (S d) U c)) v
                               * strain d (S d) (fun _ => 0) (gather (S d) W' c) (cell_gradient d (gather_coords X' c)) v) =
    rsum (num_voigt d) (fun v => tm_stress d (c_mat c) (strain d (S d) (fun _ => 0) (gather (S d) U c) (cell_gradient d (gather_coords X c))) (interpolate d (S d) d (gather (S d) U c)) v
                               * strain d (S d) (fun _ => 0) (gather (S d) W c) (cell_gradient d (gather_coords X c)) v) /\
    rsum d (fun k => tm_flux d (c_mat c) (scalar_gradient d (S d) d (gather (S d) U' c) (cell_gradient d (gather_coords X' c))) (interpolate d (S d) d (gather (S d) U c)) k
                   * scalar_gradient d (S d) d (gather (S d) W' c) (cell_gradient d (gather_coords X' c)) k) =
    rsum d (fun k => tm_flux d (c_mat c) (scalar_gradient d (S d) d (gather (S d) U c) (cell_gradient d (gather_coords X c))) (interpolate d (S d) d (gather (S d) U c)) k
                   * scalar_gradient d (S d) d (gather (S d) W c) (cell_gradient d (gather_coords X c)) k)).
  { intros W W' c HW KW Hc. destruct (mesh_cell _ _ _ _ _ Hm Hc) as [_ Hv]. pose proof (det_measure _ _ Hd Hv) as Hn.
    pose proof (mesh_placed _ _ _ _ _ _ _ _ Hm HP Hc) as Px. split; [apply measure_of_volume; exact (volume_turned d Q t _ _ Hd HQ Px)|].
    split; [apply interpolate_kept; exact (mesh_kept d nn (S d) d U U' X cells c ltac:(lia) Hm HT Hc)|].
    assert (ST : forall V V', carried d nn (S d) Q V V' -> forall i j, (i < d)%nat -> (j < d)%nat ->
      as_strain d (strain d (S d) (fun _ => 0) (gather (S d) V' c) (cell_gradient d (gather_coords X' c))) i j =
      turn_tensor d Q (as_strain d (strain d (S d) (fun _ => 0) (gather (S d) V c) (cell_gradient d (gather_coords X c)))) i j).
    { intros V V' HV i j Hi Hj. apply (strain_turned d (S d) t Q); try assumption. exact (mesh_carried d nn (S d) Q V V' X cells c ltac:(lia) Hm HV Hc). }
    assert (SG : forall V V', kept nn (S d) d V V' -> forall k, (k < d)%nat -> scalar_gradient d (S d) d (gather (S d) V' c) (cell_gradient d (gather_coords X' c)) k =
      turn d Q (scalar_gradient d (S d) d (gather (S d) V c) (cell_gradient d (gather_coords X c))) k).
    { intros V V' HV k Hk. apply (scalar_turned d (S d) d t Q); try assumption. exact (mesh_kept d nn (S d) d V V' X cells c ltac:(lia) Hm HV Hc). }
    split.
    - apply (contraction_turned d Q _ _ _ _ Hd HQ); [|exact (ST W W' HW)]. intros i j Hi Hj. apply tm_stress_turned; try assumption; [exact (HI c Hc)|exact (ST U U' HU)].
    - rewrite <- (turn_dot d Q (tm_flux d (c_mat c) (scalar_gradient d (S d) d (gather (S d) U c) (cell_gradient d (gather_coords X c))) (interpolate d (S d) d (gather (S d) U c))) _ HQ).
      apply rsum_ext. intros k Hk. rewrite (SG W W' KW k Hk). f_equal. apply tm_flux_turned; try assumption; [exact (HI c Hc)|exact (SG U U' HT)]. }
  destruct (tm_ok d pen X U Z cells Hd2) as (r & Er & Hr). destruct (tm_ok d pen X' U' Z cells Hd2) as (r' & Er' & Hr').
  exists r, r', (sum_over cells (fun c => tm_energy_value d pen (c_mat c) (gather_coords X c) (gather (S d) U c) (gather_control Z c))).
  split; [exact Er|]. split; [exact Er'|].
  assert (K : carried d nn (S d) Q r r' /\ (forall off, (d <= off < S d)%nat -> kept nn (S d) off r r')).
  { apply rows_of_work; [lia|exact HQ|]. intros W W' HW KW. specialize (KW d ltac:(lia)).
    unfold work. unfold rs. rewrite (rsum_ext _ _ _ (fun k _ => f_equal (fun y => y * W' k) (Hr' k))), (rsum_ext _ _ _ (fun k _ => f_equal (fun y => y * W k) (Hr k))).
    change (work (nn * S d) (assemble (S d) (S d) (fun c => tm_cell_value d pen (c_mat c) (gather_coords X' c) (gather (S d) U' c) (gather_control Z c)) cells) W' =
            work (nn * S d) (assemble (S d) (S d) (fun c => tm_cell_value d pen (c_mat c) (gather_coords X c) (gather (S d) U c) (gather_control Z c)) cells) W).
    rewrite !(assemble_work nn) by exact (mesh_nodes d nn X cells Hm). apply sum_over_ext. intros c Hc. rewrite !tm_work by exact Hd.
    destruct (CW W W' c HW KW Hc) as (E1 & E2 & E3 & E4). rewrite E1, E2, E3, E4. reflexivity. }
  split; [exact (proj1 K)|]. split; [apply K; lia|]. split.
  - unfold tm_energy. apply totalR_ok. intros c Hc. apply tm_energy_ok. exact Hd2.
  - unfold tm_energy. rewrite (totalR_ok _ (fun c => tm_energy_value d pen (c_mat c) (gather_coords X' c) (gather (S d) U' c) (gather_control Z c))) by (intros c Hc; apply tm_energy_ok; exact Hd2).
    f_equal. apply sum_over_ext. intros c Hc. unfold tm_energy_value. cbv zeta. destruct (CW U U' c HU HT Hc) as (E1 & E2 & E3 & E4). rewrite E1, E2, E3, E4. reflexivity.
Qed.
Print Assumptions C159_thermoelastic.

(** ** Examples *)
Definition turn34 (i j : nat) : R := match i, j with 0%nat, 0%nat => 3 / 5 | 0%nat, 1%nat => - (4 / 5) | 1%nat, 0%nat => 4 / 5 | 1%nat, 1%nat => 3 / 5 | _, _ => 0 end.
Lemma turn34_orthogonal : orthogonal 2 turn34.
Proof. intros [|[|i]] [|[|j]] Hi Hj; try lia; unfold rs, delta; rsums; cbn; lra. Qed.
Definition turned_square (n i : nat) : R := (if Nat.eqb i 0 then 7 else -2) + turn 2 turn34 (square_X n) i.
Definition bent (k : nat) : R := if Nat.eqb k 6 then 1 else if Nat.eqb k 3 then 2 else 0.
Definition bent_turned (k : nat) : R := turn 2 turn34 (fun j => bent (k / 2 * 2 + j)%nat) (k mod 2).
Example C159_case : orthogonal 2 turn34 /\ mesh_ok 2 4 square_X (square (mkElastic (isotropic_material 2 200 (3 / 10)) (fun _ => 0))) /\
  placed 2 4 (fun i => if Nat.eqb i 0 then 7 else -2) turn34 square_X turned_square /\ carried 2 4 2 turn34 bent bent_turned /\ bent_turned 6 = 3 / 5 /\ bent_turned 7 = 4 / 5.
Proof.
  split; [exact turn34_orthogonal|]. split; [apply square_ok|]. split; [intros n i _ _; reflexivity|]. split.
  - intros n i Hn Hi. unfold bent_turned. rewrite Nat.div_add_l by lia. rewrite Nat.div_small, Nat.add_0_r by lia.
    replace (n * 2 + i)%nat with (i + n * 2)%nat by lia. rewrite Nat.mod_add, Nat.mod_small by lia. reflexivity.
  - unfold bent_turned, turn, rs. rsums. cbn. lra.
Qed.
(** A material with cubic axes along the coordinates is not its own turned version: stretching the turned body stores another energy. *)
Definition one_triangle {M} (m : M) : list (cell M) := [mkCell (fun a => a) m].
Definition triangle_X (n i : nat) : R := match n, i with 1%nat, 0%nat => 1 | 2%nat, 1%nat => 1 | _, _ => 0 end.
Definition stretch (k : nat) : R := if Nat.eqb k 2 then 1 else 0.
Theorem C159_needs_isotropy : ~ (forall d nn pen t Q X X' U U' Z cells, (1 <= d <= 3)%nat -> orthogonal d Q -> mesh_ok d nn X cells ->
  placed d nn t Q X X' -> carried d nn d Q U U' ->
  (forall c, In c cells -> (exists C11 C12 C44, 0 < C12 < C11 /\ 0 < C44 /\ e_stiff (c_mat c) = cubic_material d C11 C12 C44) /\ forall v, e_ref (c_mat c) v = 0) ->
  elastic_energy d pen X' U' Z cells = elastic_energy d pen X U Z cells).
Proof.
  intros H. set (m := mkElastic (cubic_material 2 2 1 1) (fun _ => 0)).
  specialize (H 2%nat 3%nat (fun _ => 1) (fun _ => 0) turn34 triangle_X (fun n => turn 2 turn34 (triangle_X n)) stretch (fun k => turn 2 turn34 (fun j => stretch (k / 2 * 2 + j)%nat) (k mod 2)) (fun _ => 1) (one_triangle m) ltac:(lia) turn34_orthogonal).
  assert (E : elastic_energy 2 (fun _ => 1) (fun n => turn 2 turn34 (triangle_X n)) (fun k => turn 2 turn34 (fun j => stretch (k / 2 * 2 + j)%nat) (k mod 2)) (fun _ => 1) (one_triangle m) =
              elastic_energy 2 (fun _ => 1) triangle_X stretch (fun _ => 1) (one_triangle m)).
  { apply H; clear H.
    - intros c [<-|[]]. split; [intros a Ha; cbn; lia|]. unfold simplex_measure. cbn. replace ((1 - 0) * (1 - 0) - (0 - 0) * (0 - 0)) with 1 by ring. rewrite Rabs_R1. lra.
    - intros n i _ _. ring.
    - intros n i Hn Hi. rewrite Nat.div_add_l by lia. rewrite Nat.div_small, Nat.add_0_r by lia.
      replace (n * 2 + i)%nat with (i + n * 2)%nat by lia. rewrite Nat.mod_add, Nat.mod_small by lia. reflexivity.
    - intros c [<-|[]]. split; [exists 2, 1, 1; repeat split; lra|reflexivity]. }
  clear H. unfold elastic_energy, total, elastic_energy_cell, scalar_product, cell_measure, weigh, elastic_stress, linear_stress, strain, add_forcing in E.
  cbn [one_triangle fold_left c_mat c_node] in E.
  assert (V : cell_volume 2 (gather_coords (fun n => turn 2 turn34 (triangle_X n)) (mkCell (fun a => a) m)) = 1).
  { unfold cell_volume. cbn [cell_det]. unfold det2, gather_coords, turn, rs. cbv zeta. rsums. cbn. match goal with |- Rabs ?q = 1 => replace q with 1 by field end. apply Rabs_R1. }
  assert (V' : cell_volume 2 (gather_coords triangle_X (mkCell (fun a => a) m)) = 1).
  { unfold cell_volume. cbn [cell_det]. unfold det2, gather_coords. cbv zeta. cbn. match goal with |- Rabs ?q = 1 => replace q with 1 by ring end. apply Rabs_R1. }
  rewrite V, V' in E. clear V V'.
  revert E. cbn [num_voigt sum]. change (@radd R_ring) with Rplus. change (@r0 R_ring) with 0. unfold gather, gather_coords, turn, rs. cbn -[Rplus Rmult Rdiv Ropp Rminus Rinv gradient2]. unfold gradient2, det2. cbv zeta. cbn -[Rplus Rmult Rdiv Ropp Rminus Rinv].
  change (@radd R_ring) with Rplus. change (@r0 R_ring) with 0. intros E.
  repeat match type of E with context [_ / (?b * ?c - ?e * ?f)] => replace (b * c - e * f) with 1 in E by field end.
  lra.
Qed.
Print Assumptions C159_needs_isotropy.
