(** C172, continued: displacements and potentials of a piezoelectric body come in the new units of length, force and voltage. *)
From Coq Require Import Reals List Arith Bool Lia Lra Permutation.
From Verif Require Import Base.Field Base.Sums Base.Res BC.ConstraintsSpec BC.ConstraintsMain Problem.DenseBC Problem.EllipticModel Problem.EllipticSpec Problem.EllipticProof
  Element.ElementModel Element.ElementSpec Element.ElementProof Element.ElementProps Penalty.PenaltyModel Residual.Kernel
  Residual.ResidualModel Residual.ResidualSpec Residual.ResidualProof Residual.ResidualProps Residual.ResidualEnergyProps Residual.FrameSpec Residual.FrameProof Residual.FrameProps
  Residual.SupportSpec Residual.SupportProof Residual.SupportProps Residual.PotentialProps Residual.SolveSpec Residual.SolveProof Residual.SolveProps Residual.Gauss
  Residual.UnitProps Residual.FollowProps.
Import ListNotations.
Local Open Scope R_scope.

(** ** Specification *)
(** Each node has d displacements and then a potential: the factor f for a displacement, h for a potential. *)
Definition by_field (d : nat) (f h : R) (j : nat) : R := if Nat.eqb (j mod S d) d then h else f.
Definition rescaled (n : nat) (f : nat -> R) (U U' : nat -> R) : Prop := forall j, (j < n)%nat -> U' j = f j * U j.
(** Moduli k times larger, with lengths s times and potentials v times larger: piezoelectric constants k s / v times and permittivities k s^2 / v^2 times larger. *)
Definition similar_piezo (d : nat) (k s v : R) (m m' : electroelastic) : Prop :=
  (forall i j, (i < num_voigt d)%nat -> (j < num_voigt d)%nat -> p_stiff m' i j = k * p_stiff m i j) /\
  (forall i j, (i < d)%nat -> (j < num_voigt d)%nat -> p_piezo m' i j = k * s / v * p_piezo m i j) /\
  (forall i j, (i < d)%nat -> (j < d)%nat -> p_perm m' i j = k * (s * s) / (v * v) * p_perm m i j) /\ p_alpha m' = p_alpha m.
Definition conditions_rescaled {Y Y'} (n : nat) (f : nat -> R) (p : problem R_ring Y) (p' : problem R_ring Y') : Prop :=
  (forall j, (j < n)%nat -> (In j (bc_dofs p) <-> In j (bc_dofs p'))) /\
  exists V V', takes (bc_dofs p) (bc_vals p) V /\ takes (bc_dofs p') (bc_vals p') V' /\ rescaled n f V V'.

Lemma rescaling_corresponds n f h dofs dofs' : (forall j, f j <> 0) -> (forall j, h j <> 0) -> (forall j, (j < n)%nat -> (In j dofs <-> In j dofs')) ->
  corresponds n (rescaled n f) (rescaled n h) dofs dofs'.
Proof.
  intros Hf Hh Hin. split.
  - intros U'. exists (fun j => U' j / f j). intros j Hj. field. apply Hf.
  - intros U W U' H E j Hj. rewrite (H j Hj), (E j Hj). reflexivity.
  - intros U W U' W' HU HW E j Hj. rewrite (HU j Hj), (HW j Hj), (E j Hj). reflexivity.
  - intros U W U' W' HU HW A j Hj Hj'. apply (Rmult_eq_reg_l (f j)); [|apply Hf]. rewrite <- (HU j Hj), <- (HW j Hj). apply A; [exact Hj|]. apply Hin; assumption.
  - intros U W U' W' HU HW A j Hj Hj'. apply (Rmult_eq_reg_l (h j)); [|apply Hh]. rewrite <- (HU j Hj), <- (HW j Hj). apply A; [exact Hj|]. intros I. apply Hj'. apply Hin; assumption.
Qed.
Lemma by_field_u d f h a i : (i < d)%nat -> by_field d f h (a * S d + i) = f.
Proof. intros Hi. unfold by_field. rewrite Nat.add_comm, Nat.mod_add, Nat.mod_small by lia. destruct (Nat.eqb_spec i d); [lia|reflexivity]. Qed.
Lemma by_field_p d f h a : by_field d f h (a * S d + d) = h.
Proof. unfold by_field. rewrite Nat.add_comm, Nat.mod_add, Nat.mod_small by lia. rewrite Nat.eqb_refl. reflexivity. Qed.
Section Forms.
Variables (d nn : nat) (pen : R -> R) (s k v : R) (X X' : nat -> nat -> R) (Z : nat -> R) (cells cells' : list (cell electroelastic)).
Hypotheses (Hd : (1 <= d <= 3)%nat) (Hs : 0 < s) (Hk : 0 < k) (Hv : 0 < v) (Hm : mesh_ok d nn X cells) (HX : scaled_places d nn s X X') (HC : moved_cells (similar_piezo d k s v) cells cells').
Lemma e_coords c : In c cells -> forall a i, (a <= d)%nat -> (i < d)%nat -> gather_coords X' c a i = s * gather_coords X c a i.
Proof. intros Hc a i Ha Hi. destruct (mesh_cell _ _ _ _ _ Hm Hc) as [Hn _]. apply HX; [apply Hn; exact Ha|exact Hi]. Qed.
Lemma e_measure c : In c cells -> cell_measure d (gather_coords X' c) = s ^ d * cell_measure d (gather_coords X c).
Proof. intros Hc. unfold cell_measure. rewrite (volume_scaled d s (gather_coords X c) _ Hd Hs (e_coords c Hc)). ring. Qed.
Lemma e_gradient c : In c cells -> forall a l, (a <= d)%nat -> (l < d)%nat -> cell_gradient d (gather_coords X' c) a l = cell_gradient d (gather_coords X c) a l / s.
Proof. intros Hc. destruct (mesh_cell _ _ _ _ _ Hm Hc) as [_ Hw]. apply gradient_scaled; try assumption; [exact (e_coords c Hc)|exact (det_measure _ _ Hd Hw)]. Qed.
Lemma e_strain c W W' q : In c cells -> rescaled (nn * S d) (by_field d s v) W W' -> (q < num_voigt d)%nat ->
  strain d (S d) (fun _ => 0) (gather (S d) W' c) (cell_gradient d (gather_coords X' c)) q = strain d (S d) (fun _ => 0) (gather (S d) W c) (cell_gradient d (gather_coords X c)) q.
Proof.
  intros Hc HW Hq. destruct (mesh_cell _ _ _ _ _ Hm Hc) as [Hn _]. rewrite (strain_of_gradient d (S d) 1 (gather (S d) W c) (gather (S d) W' c) (cell_gradient d (gather_coords X c))); try assumption; [ring|lia|].
  intros a i l Ha Hi Hl. rewrite (e_gradient c Hc) by assumption. rewrite !gather_at by lia. pose proof (Hn a Ha). rewrite HW by nia. rewrite by_field_u by exact Hi. field. lra.
Qed.
Lemma e_field c W W' l : In c cells -> rescaled (nn * S d) (by_field d s v) W W' -> (l < d)%nat ->
  em_field d (gather (S d) W' c) (cell_gradient d (gather_coords X' c)) l = v / s * em_field d (gather (S d) W c) (cell_gradient d (gather_coords X c)) l.
Proof.
  intros Hc HW Hl. destruct (mesh_cell _ _ _ _ _ Hm Hc) as [Hn _]. unfold em_field.
  rewrite (rsum_ext (S d) (fun a => gather (S d) W' c (a * S d + d)%nat * cell_gradient d (gather_coords X' c) a l) (fun a => v / s * (gather (S d) W c (a * S d + d)%nat * cell_gradient d (gather_coords X c) a l))).
  - rewrite rsum_scal_l. ring.
  - intros a Ha. rewrite (e_gradient c Hc) by (try exact Hl; lia). rewrite !gather_at by lia. pose proof (Hn a ltac:(lia)). rewrite HW by nia. rewrite by_field_p. req. field. lra.
Qed.
Lemma piezo_work U U' W W' : rescaled (nn * S d) (by_field d s v) U U' -> rescaled (nn * S d) (by_field d s v) W W' ->
  work (nn * S d) (electroelastostatic d pen X' U' Z cells') W' = k * s ^ d * work (nn * S d) (electroelastostatic d pen X U Z cells) W.
Proof.
  intros HU HW. pose proof (mesh_scaled d nn s X X' cells cells' Hd Hs Hm HX (moved_nodes _ _ _ HC)) as Hm'. unfold electroelastostatic.
  rewrite (assemble_work nn (S d) (S d) _ cells') by exact (mesh_nodes d nn X' cells' Hm'). rewrite (assemble_work nn (S d) (S d) _ cells) by exact (mesh_nodes d nn X cells Hm).
  apply (scaled_cells _ _ _ _ _ _ HC). intros c c' Hc [EN (H1 & H2 & H3 & H4)]. destruct c' as [nd m']. cbn [c_node] in EN. subst nd. cbn [c_mat] in H1, H2, H3, H4 |- *.
  rewrite !em_work by exact Hd.
  change (gather_coords X' (mkCell (c_node c) m')) with (gather_coords X' c). change (gather (S d) U' (mkCell (c_node c) m')) with (gather (S d) U' c).
  change (gather (S d) W' (mkCell (c_node c) m')) with (gather (S d) W' c). change (gather_control Z (mkCell (c_node c) m')) with (gather_control Z c).
  rewrite (e_measure c Hc).
  match goal with |- _ * (rsum _ ?f - rsum _ ?g) = _ * (_ * (rsum _ ?f0 - rsum _ ?g0)) => rewrite (rsum_ext (num_voigt d) f (fun q => k * f0 q)), (rsum_ext d g (fun q => k * g0 q)) end.
  - rewrite !rsum_scal_l. ring.
  - intros l Hl. rewrite (e_field c W W' l Hc HW Hl). unfold em_displacement. rewrite H4.
    rewrite (rsum_ext d (fun j => p_alpha (c_mat c) * p_alpha (c_mat c) * em_field d (gather (S d) U' c) (cell_gradient d (gather_coords X' c)) j * p_perm m' l j)
      (fun j => k * s / v * (p_alpha (c_mat c) * p_alpha (c_mat c) * em_field d (gather (S d) U c) (cell_gradient d (gather_coords X c)) j * p_perm (c_mat c) l j))).
    2: { intros j Hj. rewrite (e_field c U U' j Hc HU Hj), H3 by assumption. req. field. lra. }
    rewrite (rsum_ext (num_voigt d) (fun j => p_alpha (c_mat c) * strain d (S d) (fun _ => 0) (gather (S d) U' c) (cell_gradient d (gather_coords X' c)) j * p_piezo m' l j)
      (fun j => k * s / v * (p_alpha (c_mat c) * strain d (S d) (fun _ => 0) (gather (S d) U c) (cell_gradient d (gather_coords X c)) j * p_piezo (c_mat c) l j))).
    2: { intros j Hj. rewrite (e_strain c U U' j Hc HU Hj), H2 by assumption. req. field. lra. }
    rewrite !rsum_scal_l. req. field. lra.
  - intros q Hq. rewrite (e_strain c W W' q Hc HW Hq). unfold em_stress. rewrite H4.
    rewrite (rsum_ext (num_voigt d) (fun j => strain d (S d) (fun _ => 0) (gather (S d) U' c) (cell_gradient d (gather_coords X' c)) j * p_stiff m' q j)
      (fun j => k * (strain d (S d) (fun _ => 0) (gather (S d) U c) (cell_gradient d (gather_coords X c)) j * p_stiff (c_mat c) q j))).
    2: { intros j Hj. rewrite (e_strain c U U' j Hc HU Hj), H1 by assumption. req. ring. }
    rewrite (rsum_ext d (fun j => p_alpha (c_mat c) * em_field d (gather (S d) U' c) (cell_gradient d (gather_coords X' c)) j * p_piezo m' j q)
      (fun j => k * (p_alpha (c_mat c) * em_field d (gather (S d) U c) (cell_gradient d (gather_coords X c)) j * p_piezo (c_mat c) j q))).
    2: { intros j Hj. rewrite (e_field c U U' j Hc HU Hj), H2 by assumption. req. field. lra. }
    rewrite !rsum_scal_l. req. ring.
Qed.
Lemma piezo_forces U U' : rescaled (nn * S d) (by_field d s v) U U' ->
  rescaled (nn * S d) (by_field d (k * s ^ (d - 1)) (k * s ^ d / v)) (electroelastostatic d pen X U Z cells) (electroelastostatic d pen X' U' Z cells').
Proof.
  intros HU j Hj. pose proof (piezo_work U U' (PotentialProps.unit j) (fun i => by_field d s v i * PotentialProps.unit j i) HU (fun i _ => eq_refl)) as E.
  rewrite (PotentialProps.work_unit (nn * S d) _ j Hj) in E.
  assert (EW : work (nn * S d) (electroelastostatic d pen X' U' Z cells') (fun i => by_field d s v i * PotentialProps.unit j i) = by_field d s v j * electroelastostatic d pen X' U' Z cells' j).
  { rewrite <- (PotentialProps.work_unit (nn * S d) (electroelastostatic d pen X' U' Z cells') j Hj). unfold work, rs. rewrite <- rsum_scal_l. apply rsum_ext. intros i Hi. unfold PotentialProps.unit.
    destruct (Nat.eqb_spec i j) as [->|]; req; ring. }
  rewrite EW in E. unfold by_field in *. destruct (Nat.eqb (j mod S d) d).
  - apply (Rmult_eq_reg_l v); [|lra]. rewrite E. field. lra.
  - apply (Rmult_eq_reg_l s); [|lra]. rewrite E. replace (s ^ d) with (s * s ^ (d - 1)) by (destruct d as [|dd]; [lia|cbn [Nat.sub pow]; rewrite Nat.sub_0_r; reflexivity]). ring.
Qed.
End Forms.
Theorem C172_electroelastic_units : forall (Y Y' : Type) (p : problem R_ring Y) (y : Y) (p' : problem R_ring Y') (y' : Y') d nn pen s k v X X' Z cells cells' F F',
  (1 <= d <= 3)%nat -> 0 < s -> 0 < k -> 0 < v -> mesh_ok d nn X cells -> one_piece d nn (map c_node cells) ->
  restrains d nn (S d) X (listed (bc_dofs p)) -> (forall n, (n < nn)%nat -> anchored d (map c_node cells) (held_last d (listed (bc_dofs p))) n) ->
  (forall c, In c cells -> p_alpha (c_mat c) <> 0 /\ symmetric (num_voigt d) (p_stiff (c_mat c)) /\ positive_form (num_voigt d) (p_stiff (c_mat c)) /\
     symmetric d (p_perm (c_mat c)) /\ positive_form d (p_perm (c_mat c)) /\ solid d pen Z c) ->
  scaled_places d nn s X X' -> moved_cells (similar_piezo d k s v) cells cells' ->
  conditions_rescaled (nn * S d) (by_field d s v) p p' -> rescaled (nn * S d) (by_field d (k * s ^ (d - 1)) (k * s ^ d / v)) F F' ->
  poses p y (nn * S d) (fun U => electroelastostatic d pen X U Z cells) F -> poses p' y' (nn * S d) (fun U => electroelastostatic d pen X' U Z cells') F' ->
  solves_body p' y' (nn * S d) (fun U => electroelastostatic d pen X' U Z cells') F' /\ rescaled (nn * S d) (by_field d s v) (solution p y) (solution p' y').
Proof.
  intros Y Y' p y p' y' d nn pen s k v X X' Z cells cells' F F' Hd Hs Hk Hv Hm Hone Hres Hanc Hc HX HC (Hin & V & V' & HV & HV' & RV) RF P P'.
  pose proof (mesh_scaled d nn s X X' cells cells' Hd Hs Hm HX (moved_nodes _ _ _ HC)) as Hm'. pose proof (pow_lt s (d - 1) Hs) as Hp. pose proof (pow_lt s d Hs) as Hp'.
  refine (solution_follows (nn * S d) _ _ (fun U => electroelastostatic d pen X U Z cells) (fun U => electroelastostatic d pen X' U Z cells') _ p p' y y' F F' V V' P P' _
      (rescaling_corresponds (nn * S d) (by_field d s v) (by_field d (k * s ^ (d - 1)) (k * s ^ d / v)) _ _ _ _ Hin) (C165_electroelastic Y p y d nn pen X Z cells F Hd Hm Hone Hres Hanc Hc P) _ HV HV' RV RF).
  - intros U U' HU. exact (piezo_forces d nn pen s k v X X' Z cells cells' Hd Hs Hv Hm HX HC U U' HU).
  - apply symmetric_reciprocal. intros T S'. apply (C99_electroelastic d nn); [exact Hd|exact Hm'|]. intros c' I'.
    destruct (moved_in _ cells cells' c' HC I') as (c & I & T1 & T2 & T3 & T4). destruct (Hc c I) as (_ & H1 & _ & H2 & _). split; intros i j Hi Hj.
    + rewrite !T1 by assumption. rewrite (H1 i j Hi Hj). reflexivity.
    + rewrite !T3 by assumption. rewrite (H2 i j Hi Hj). reflexivity.
  - intros j. unfold by_field. destruct (Nat.eqb (j mod S d) d); lra.
  - intros j. unfold by_field. destruct (Nat.eqb (j mod S d) d); apply Rgt_not_eq; [apply Rdiv_lt_0_compat; [|exact Hv]|]; apply Rmult_lt_0_compat; assumption.
  - intros U W Hq. apply (C162_electroelastic d nn pen X U W Z cells (listed (bc_dofs p))); try assumption.
    intros c I. destruct (Hc c I) as (H1 & _ & H2 & _ & H3 & H4). repeat split; assumption.
Qed.
Print Assumptions C172_electroelastic_units.
(** A piezoelectric square with 3 displacements and one potential held, and one twice as large, four times as stiff, with potentials five times as large. *)
Definition crystal : electroelastic := mkEM (fun i j => if Nat.eqb i j then 3 else 1) (fun i j => INR (i + j)) (fun i j => if Nat.eqb i j then 2 else 0) 7.
Definition crystal' : electroelastic := mkEM (fun i j => 4 * (if Nat.eqb i j then 3 else 1)) (fun i j => 4 * 2 / 5 * INR (i + j)) (fun i j => 4 * (2 * 2) / (5 * 5) * (if Nat.eqb i j then 2 else 0)) 7.
Definition wide_X (n i : nat) : R := 2 * square_X n i.
Definition charged (X : nat -> nat -> R) (m : electroelastic) (vals : list R) (F : nat -> R) : problem R_ring Datatypes.unit :=
  let val U := electroelastostatic 2 (fun x => x) X U (fun _ => 1) (square m) in
  mkProblem (K := R_ring) (Z := Datatypes.unit) 12 1 (fun _ => false) (fun _ => false) [0; 1; 4; 2]%nat vals false (gauss 12)
    (mkPde (K := R_ring) (Z := Datatypes.unit) (fun U _ k => val U k - F k) (fun _ _ i j => val (PotentialProps.unit i) j) (fun _ _ i j => val (PotentialProps.unit i) j) (fun _ _ _ _ => 0) (fun _ _ _ _ => 0)).
Lemma charged_poses X m vals F : mesh_ok 2 4 X (square m) -> symmetric 3 (p_stiff m) -> symmetric 2 (p_perm m) -> length vals = 4%nat ->
  poses (charged X m vals F) tt (4 * 3) (fun U => electroelastostatic 2 (fun x => x) X U (fun _ => 1) (square m)) F.
Proof.
  intros Hm H1 H2 Hl.
  assert (E : forall U i, (i < 12)%nat -> electroelastostatic 2 (fun x => x) X U (fun _ => 1) (square m) i = work 12 (electroelastostatic 2 (fun x => x) X (PotentialProps.unit i) (fun _ => 1) (square m)) U).
  { intros U i Hi. rewrite <- (PotentialProps.work_unit 12 (electroelastostatic 2 (fun x => x) X U (fun _ => 1) (square m)) i Hi).
    apply (C99_electroelastic 2 4); [lia|exact Hm|]. intros c Hc. assert (Em : c_mat c = m) by (destruct Hc as [<-|[<-|[]]]; reflexivity). rewrite Em. split; assumption. }
  split; try reflexivity.
  - intros U i j Hi Hj. cbn [the_pde charged p_value p_gradient_u].
    apply (affine_derivative _ (electroelastostatic 2 (fun x => x) X U (fun _ => 1) (square m) i - F i)). intros t. rewrite !(E _ i Hi).
    rewrite <- (PotentialProps.work_unit 12 (electroelastostatic 2 (fun x => x) X (PotentialProps.unit i) (fun _ => 1) (square m)) j Hj).
    set (G := electroelastostatic 2 (fun x => x) X (PotentialProps.unit i) (fun _ => 1) (square m)).
    assert (EM : work 12 G (moved U j t) = work 12 G U + t * work 12 G (PotentialProps.unit j)).
    { unfold work, rs. rewrite <- rsum_scal_l, <- rsum_add. apply rsum_ext. intros k Hk. unfold moved, PotentialProps.unit. destruct (Nat.eqb k j); req; ring. }
    rewrite EM. ring.
  - apply gauss_ok.
  - split; [exact Hl|]. split; [repeat constructor; cbn; lia|]. intros k [<-|[<-|[<-|[<-|[]]]]]; lia.
  - cbn. lia.
  - left. reflexivity.
Qed.
Lemma crystal_stiff : positive_form (num_voigt 2) (fun i j => if Nat.eqb i j then 3 else 1).
Proof.
  intros e (i & Hi & N). unfold rs. cbn [num_voigt] in *. rsums. cbn [Nat.eqb].
  assert (Q : 0 < e i * e i) by (apply Rsqr_pos_lt in N; exact N).
  assert (E : 0 <= (e 0%nat + e 1%nat + e 2%nat) * (e 0%nat + e 1%nat + e 2%nat)) by apply Rle_0_sqr.
  assert (S : 0 < e 0%nat * e 0%nat + e 1%nat * e 1%nat + e 2%nat * e 2%nat).
  { pose proof (Rle_0_sqr (e 0%nat)). pose proof (Rle_0_sqr (e 1%nat)). pose proof (Rle_0_sqr (e 2%nat)). unfold Rsqr in *. destruct i as [|[|[|i]]]; try (cbn in Hi; lia); lra. }
  lra.
Qed.
Lemma crystal_perm : positive_form 2 (fun i j => if Nat.eqb i j then 2 else 0).
Proof.
  intros e (i & Hi & N). unfold rs. rsums. cbn [Nat.eqb].
  assert (Q : 0 < e i * e i) by (apply Rsqr_pos_lt in N; exact N). pose proof (Rle_0_sqr (e 0%nat)). pose proof (Rle_0_sqr (e 1%nat)). unfold Rsqr in *. destruct i as [|[|i]]; try lia; lra.
Qed.
Example C172_electroelastic_units_case :
  let F := fun k => if Nat.eqb k 11 then 6 else 0 in let F' := fun k => by_field 2 (4 * 2 ^ (2 - 1)) (4 * 2 ^ 2 / 5) k * F k in
  let p := charged square_X crystal [0; 0; 0; 1] F in let p' := charged wide_X crystal' [0; 0; 0; 5] F' in
  mesh_ok 2 4 square_X (square crystal) /\ one_piece 2 4 (map c_node (square crystal)) /\ restrains 2 4 3 square_X (listed (bc_dofs p)) /\
  (forall n, (n < 4)%nat -> anchored 2 (map c_node (square crystal)) (held_last 2 (listed (bc_dofs p))) n) /\
  (forall c, In c (square crystal) -> p_alpha (c_mat c) <> 0 /\ symmetric (num_voigt 2) (p_stiff (c_mat c)) /\ positive_form (num_voigt 2) (p_stiff (c_mat c)) /\
     symmetric 2 (p_perm (c_mat c)) /\ positive_form 2 (p_perm (c_mat c)) /\ solid 2 (fun x => x) (fun _ => 1) c) /\
  scaled_places 2 4 2 square_X wide_X /\ moved_cells (similar_piezo 2 4 2 5) (square crystal) (square crystal') /\ conditions_rescaled 12 (by_field 2 2 5) p p' /\
  poses p tt 12 (fun U => electroelastostatic 2 (fun x => x) square_X U (fun _ => 1) (square crystal)) F /\
  poses p' tt 12 (fun U => electroelastostatic 2 (fun x => x) wide_X U (fun _ => 1) (square crystal')) F'.
Proof.
  cbv zeta.
  assert (HX : scaled_places 2 4 2 square_X wide_X) by (intros n i _ _; reflexivity).
  assert (HC : moved_cells (similar_piezo 2 4 2 5) (square crystal) (square crystal')).
  { assert (H : similar_piezo 2 4 2 5 crystal crystal') by (repeat split; intros; reflexivity). constructor; [split; [reflexivity|exact H]|]. constructor; [split; [reflexivity|exact H]|]. constructor. }
  split; [apply square_ok|]. split; [apply square_one_piece|]. split.
  { intros t A HA H. pose proof (H 0%nat 0%nat ltac:(lia) ltac:(lia) eq_refl) as E0. pose proof (H 0%nat 1%nat ltac:(lia) ltac:(lia) eq_refl) as E1. pose proof (H 1%nat 1%nat ltac:(lia) ltac:(lia) eq_refl) as E2.
    pose proof (HA 0%nat 0%nat ltac:(lia) ltac:(lia)) as A0. pose proof (HA 1%nat 1%nat ltac:(lia) ltac:(lia)) as A1. pose proof (HA 0%nat 1%nat ltac:(lia) ltac:(lia)) as A2.
    intros [|[|[|[|n]]]] [|[|i]] Hn Hi; try lia; unfold affine, rs in *; rsums; cbn in *; lra. }
  split.
  { assert (A0 : anchored 2 (map c_node (square crystal)) (held_last 2 (listed [0; 1; 4; 2]%nat)) 0) by (apply anchored_here; reflexivity).
    pose (c1 := fun a => match a with 0%nat => 0%nat | 1%nat => 1%nat | _ => 2%nat end). pose (c2 := fun a => match a with 0%nat => 3%nat | 1%nat => 2%nat | _ => 1%nat end).
    assert (I1 : In c1 (map c_node (square crystal))) by (left; reflexivity). assert (I2 : In c2 (map c_node (square crystal))) by (right; left; reflexivity).
    assert (A1 : anchored 2 (map c_node (square crystal)) (held_last 2 (listed [0; 1; 4; 2]%nat)) 1) by exact (anchored_next 2 _ _ c1 0%nat 1%nat I1 ltac:(lia) ltac:(lia) A0).
    assert (A2 : anchored 2 (map c_node (square crystal)) (held_last 2 (listed [0; 1; 4; 2]%nat)) 2) by exact (anchored_next 2 _ _ c1 0%nat 2%nat I1 ltac:(lia) ltac:(lia) A0).
    assert (A3 : anchored 2 (map c_node (square crystal)) (held_last 2 (listed [0; 1; 4; 2]%nat)) 3) by exact (anchored_next 2 _ _ c2 2%nat 0%nat I2 ltac:(lia) ltac:(lia) A1).
    intros [|[|[|[|n]]]] Hn; try lia; assumption. }
  split.
  { intros c Hc. assert (Em : c_mat c = crystal) by (destruct Hc as [<-|[<-|[]]]; reflexivity). rewrite Em. cbn [crystal p_alpha p_stiff p_perm].
    split; [lra|]. split; [intros i j _ _; rewrite Nat.eqb_sym; reflexivity|]. split; [exact crystal_stiff|]. split; [intros i j _ _; rewrite Nat.eqb_sym; reflexivity|]. split; [|unfold solid, rs; rsums; cbn; lra].
    exact crystal_perm. }
  split; [exact HX|]. split; [exact HC|]. split.
  { unfold conditions_rescaled, charged. cbn [bc_dofs bc_vals]. split; [intros j _; apply iff_refl|]. exists (fun j => if Nat.eqb j 2 then 1 else 0), (fun j => if Nat.eqb j 2 then 5 else 0).
    split; [intros k v I; cbn in I; repeat (destruct I as [I|I]; [injection I as <- <-; reflexivity|]); contradiction|].
    split; [intros k v I; cbn in I; repeat (destruct I as [I|I]; [injection I as <- <-; reflexivity|]); contradiction|].
    intros j _. unfold by_field. destruct (Nat.eqb_spec j 2) as [->|]; cbn [Nat.modulo Nat.divmod]; [cbn; ring|destruct (Nat.eqb (j mod 3) 2); ring]. }
  split; apply charged_poses; try reflexivity; try apply square_ok; try (intros i j _ _; cbn [crystal crystal' p_stiff p_perm]; rewrite (Nat.eqb_sym i j); reflexivity).
  exact (mesh_scaled 2 4 2 square_X wide_X _ _ ltac:(lia) ltac:(lra) (square_ok crystal) HX (moved_nodes _ _ _ HC)).
Qed.
