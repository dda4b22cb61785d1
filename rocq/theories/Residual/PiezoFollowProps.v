(** C172, continued: displacements and potentials of a piezoelectric body moved as a whole. *)
From Coq Require Import Reals List Arith Bool Lia Lra Permutation.
From Verif Require Import Base.Field Base.Sums Base.Res BC.ConstraintsSpec BC.ConstraintsMain Problem.DenseBC Problem.EllipticModel Problem.EllipticSpec Problem.EllipticProof
  Element.ElementModel Element.ElementSpec Element.ElementProof Element.ElementProps Penalty.PenaltyModel Residual.Kernel
  Residual.ResidualModel Residual.ResidualSpec Residual.ResidualProof Residual.ResidualProps Residual.ResidualEnergyProps Residual.FrameSpec Residual.FrameProof Residual.FrameProps
  Residual.SupportSpec Residual.SupportProof Residual.SupportProps Residual.PotentialProps Residual.SolveSpec Residual.SolveProof Residual.SolveProps Residual.Gauss
  Residual.UnitProps Residual.FollowProps Residual.ElectroUnitProps Residual.PiezoFrameProps.
Import ListNotations.
Local Open Scope R_scope.

(** ** Specification *)
(** Displacements (forces) turned, potentials (charges) kept. *)
Definition moved_along (d nn : nat) (Q : nat -> nat -> R) (U U' : nat -> R) : Prop := carried d nn (S d) Q U U' /\ kept nn (S d) d U U'.
(** The same conditions on the turned body: the same nodes held, each in all directions, the same potentials given. *)
Definition conditions_moved {Y Y'} (d nn : nat) (Q : nat -> nat -> R) (p : problem R_ring Y) (p' : problem R_ring Y') : Prop :=
  (forall n i j, (n < nn)%nat -> (i < d)%nat -> (j < d)%nat -> (In (n * S d + i)%nat (bc_dofs p) <-> In (n * S d + j)%nat (bc_dofs p'))) /\
  (forall n, (n < nn)%nat -> (In (n * S d + d)%nat (bc_dofs p) <-> In (n * S d + d)%nat (bc_dofs p'))) /\
  exists V V', takes (bc_dofs p) (bc_vals p) V /\ takes (bc_dofs p') (bc_vals p') V' /\ moved_along d nn Q V V'.

Lemma moving_corresponds d nn Q dofs dofs' : orthogonal d Q ->
  (forall n i j, (n < nn)%nat -> (i < d)%nat -> (j < d)%nat -> (In (n * S d + i)%nat dofs <-> In (n * S d + j)%nat dofs')) ->
  (forall n, (n < nn)%nat -> (In (n * S d + d)%nat dofs <-> In (n * S d + d)%nat dofs')) ->
  corresponds (nn * S d) (moved_along d nn Q) (moved_along d nn Q) dofs dofs'.
Proof.
  intros HQ Hin Hpot.
  assert (Back : forall U U', carried d nn (S d) Q U U' -> forall n i, (n < nn)%nat -> (i < d)%nat -> U (n * S d + i)%nat = rs d (fun l => Q l i * U' (n * S d + l)%nat)).
  { intros U U' H n i Hn Hi. rewrite <- (turn_off d Q (fun j => U (n * S d + j)%nat) HQ i Hi) at 1. unfold rs. apply rsum_ext. intros l Hl. rewrite (H n l Hn Hl). reflexivity. }
  assert (Two : forall k, (k < nn * S d)%nat -> exists a i, (a < nn)%nat /\ k = (a * S d + i)%nat /\ ((i < d)%nat \/ i = d)).
  { intros k Hk. destruct (entry_split nn (S d) k Hk) as (a & i & Ha & Hi & ->). exists a, i. split; [exact Ha|]. split; [reflexivity|lia]. }
  split.
  - intros U'. exists (fun k => if Nat.eqb (k mod S d) d then U' k else rs d (fun l => Q l (k mod S d)%nat * U' (k / S d * S d + l)%nat)). split.
    + intros n i Hn Hi. rewrite <- (turn_back d Q (fun l => U' (n * S d + l)%nat) HQ i Hi). apply turn_ext. intros j Hj.
      assert (EM : ((n * S d + j) mod S d = j)%nat) by (rewrite Nat.add_comm, Nat.mod_add, Nat.mod_small by lia; reflexivity).
      assert (ED : ((n * S d + j) / S d = n)%nat) by (rewrite Nat.div_add_l, (Nat.div_small j), Nat.add_0_r by lia; reflexivity).
      rewrite EM, ED. destruct (Nat.eqb_spec j d); [lia|reflexivity].
    + intros n Hn. assert (EM : ((n * S d + d) mod S d = d)%nat) by (rewrite Nat.add_comm, Nat.mod_add, Nat.mod_small by lia; reflexivity).
      rewrite EM, Nat.eqb_refl. reflexivity.
  - intros U W U' [H H'] E. split.
    + intros n i Hn Hi. rewrite H by assumption. apply turn_ext. intros j Hj. symmetry. apply E. nia.
    + intros n Hn. rewrite H' by assumption. symmetry. apply E. nia.
  - intros U W U' W' [HU KU] [HW KW] E k Hk. destruct (Two k Hk) as (a & i & Ha & -> & [Hi| ->]).
    + rewrite HU, HW by assumption. apply turn_ext. intros j Hj. apply E. nia.
    + rewrite KU, KW by assumption. apply E. exact Hk.
  - intros U W U' W' [HU KU] [HW KW] A k Hk Hk'. destruct (Two k Hk) as (a & i & Ha & -> & [Hi| ->]).
    + rewrite (Back U U' HU), (Back W W' HW) by assumption. unfold rs. apply rsum_ext. intros l Hl. rewrite (A (a * S d + l)%nat); [reflexivity|nia|]. apply (Hin a i l Ha Hi Hl). exact Hk'.
    + rewrite <- KU, <- KW by assumption. apply A; [exact Hk|]. apply (Hpot a Ha). exact Hk'.
  - intros U W U' W' [HU KU] [HW KW] A k Hk Hk'. destruct (Two k Hk) as (a & i & Ha & -> & [Hi| ->]).
    + rewrite (Back U U' HU), (Back W W' HW) by assumption. unfold rs. apply rsum_ext. intros l Hl. rewrite (A (a * S d + l)%nat); [reflexivity|nia|]. intros I. apply Hk'. apply (Hin a i l Ha Hi Hl). exact I.
    + rewrite <- KU, <- KW by assumption. apply A; [exact Hk|]. intros I. apply Hk'. apply (Hpot a Ha). exact I.
Qed.
Theorem C172_electroelastic_frame : forall (Y Y' : Type) (p : problem R_ring Y) (y : Y) (p' : problem R_ring Y') (y' : Y') d nn pen t Q X X' Z cells cells' F F',
  (1 <= d <= 3)%nat -> orthogonal d Q -> mesh_ok d nn X cells -> one_piece d nn (map c_node cells) ->
  restrains d nn (S d) X (listed (bc_dofs p)) -> (forall n, (n < nn)%nat -> anchored d (map c_node cells) (held_last d (listed (bc_dofs p))) n) ->
  (forall c, In c cells -> p_alpha (c_mat c) <> 0 /\ symmetric (num_voigt d) (p_stiff (c_mat c)) /\ positive_form (num_voigt d) (p_stiff (c_mat c)) /\
     symmetric d (p_perm (c_mat c)) /\ positive_form d (p_perm (c_mat c)) /\ solid d pen Z c) ->
  (forall c, In c cells' -> symmetric (num_voigt d) (p_stiff (c_mat c)) /\ symmetric d (p_perm (c_mat c))) ->
  placed d nn t Q X X' -> moved_cells (turned_piezo d Q) cells cells' -> conditions_moved d nn Q p p' -> moved_along d nn Q F F' ->
  poses p y (nn * S d) (fun U => electroelastostatic d pen X U Z cells) F -> poses p' y' (nn * S d) (fun U => electroelastostatic d pen X' U Z cells') F' ->
  solves_body p' y' (nn * S d) (fun U => electroelastostatic d pen X' U Z cells') F' /\
  carried d nn (S d) Q (solution p y) (solution p' y') /\ kept nn (S d) d (solution p y) (solution p' y') /\
  em_energy d pen X' (solution p' y') Z cells' = em_energy d pen X (solution p y) Z cells.
Proof.
  intros Y Y' p y p' y' d nn pen t Q X X' Z cells cells' F F' Hd HQ Hm Hone Hres Hanc Hc Hsy HP HC (Hin & Hpot & V & V' & HV & HV' & RV) RF P P'.
  pose proof (moved_mesh d nn t Q X X' _ cells cells' Hd HQ Hm HP HC) as Hm'.
  assert (RS : solves_body p' y' (nn * S d) (fun U => electroelastostatic d pen X' U Z cells') F' /\ moved_along d nn Q (solution p y) (solution p' y')).
  { refine (solution_follows (nn * S d) _ _ (fun U => electroelastostatic d pen X U Z cells) (fun U => electroelastostatic d pen X' U Z cells') _ p p' y y' F F' V V' P P' _
      (moving_corresponds d nn Q _ _ HQ Hin Hpot) (C165_electroelastic Y p y d nn pen X Z cells F Hd Hm Hone Hres Hanc Hc P) _ HV HV' RV RF).
    - intros U U' [HU KU]. destruct (C159_electroelastic d nn pen t Q X X' U U' Z cells cells' Hd HQ Hm HP HU KU HC) as (E1 & E2 & _). split; assumption.
    - apply symmetric_reciprocal. intros T S'. apply (C99_electroelastic d nn); [exact Hd|exact Hm'|exact Hsy].
    - intros U W Hq. apply (C162_electroelastic d nn pen X U W Z cells (listed (bc_dofs p))); try assumption.
      intros c I. destruct (Hc c I) as (H1 & _ & H2 & _ & H3 & H4). repeat split; assumption. }
  destruct RS as [S1 [S2 S3]]. split; [exact S1|]. split; [exact S2|]. split; [exact S3|].
  exact (proj2 (proj2 (C159_electroelastic d nn pen t Q X X' _ _ Z cells cells' Hd HQ Hm HP S2 S3 HC))).
Qed.
Print Assumptions C172_electroelastic_frame.
(** A piezoelectric square held along one side, one of its nodes moved by 1/2 and at the potential 1, pulled and charged at the opposite corner; and the same square turned by a right angle. *)
Definition clamped (X : nat -> nat -> R) (m : electroelastic) (vals : list R) (F : nat -> R) : problem R_ring Datatypes.unit :=
  let val U := electroelastostatic 2 (fun x => x) X U (fun _ => 1) (square m) in
  mkProblem (K := R_ring) (Z := Datatypes.unit) 12 1 (fun _ => false) (fun _ => false) [0; 1; 3; 4; 2]%nat vals false (gauss 12)
    (mkPde (K := R_ring) (Z := Datatypes.unit) (fun U _ k => val U k - F k) (fun _ _ i j => val (PotentialProps.unit i) j) (fun _ _ i j => val (PotentialProps.unit i) j) (fun _ _ _ _ => 0) (fun _ _ _ _ => 0)).
Lemma clamped_poses X m vals F : mesh_ok 2 4 X (square m) -> symmetric 3 (p_stiff m) -> symmetric 2 (p_perm m) -> length vals = 5%nat ->
  poses (clamped X m vals F) tt (4 * 3) (fun U => electroelastostatic 2 (fun x => x) X U (fun _ => 1) (square m)) F.
Proof.
  intros Hm H1 H2 Hl.
  assert (E : forall U i, (i < 12)%nat -> electroelastostatic 2 (fun x => x) X U (fun _ => 1) (square m) i = work 12 (electroelastostatic 2 (fun x => x) X (PotentialProps.unit i) (fun _ => 1) (square m)) U).
  { intros U i Hi. rewrite <- (PotentialProps.work_unit 12 (electroelastostatic 2 (fun x => x) X U (fun _ => 1) (square m)) i Hi).
    apply (C99_electroelastic 2 4); [lia|exact Hm|]. intros c Hc. assert (Em : c_mat c = m) by (destruct Hc as [<-|[<-|[]]]; reflexivity). rewrite Em. split; assumption. }
  split; try reflexivity.
  - intros U i j Hi Hj. cbn [the_pde clamped p_value p_gradient_u].
    apply (affine_derivative _ (electroelastostatic 2 (fun x => x) X U (fun _ => 1) (square m) i - F i)). intros t. rewrite !(E _ i Hi).
    rewrite <- (PotentialProps.work_unit 12 (electroelastostatic 2 (fun x => x) X (PotentialProps.unit i) (fun _ => 1) (square m)) j Hj).
    set (G := electroelastostatic 2 (fun x => x) X (PotentialProps.unit i) (fun _ => 1) (square m)).
    assert (EM : work 12 G (moved U j t) = work 12 G U + t * work 12 G (PotentialProps.unit j)).
    { unfold work, rs. rewrite <- rsum_scal_l, <- rsum_add. apply rsum_ext. intros k Hk. unfold moved, PotentialProps.unit. destruct (Nat.eqb k j); req; ring. }
    rewrite EM. ring.
  - apply gauss_ok.
  - split; [exact Hl|]. split; [repeat constructor; cbn; lia|]. intros k [<-|[<-|[<-|[<-|[<-|[]]]]]]; lia.
  - cbn. lia.
  - left. reflexivity.
Qed.
Lemma square_stiff : positive_form (num_voigt 2) (p_stiff piezo_square).
Proof.
  intros e (i & Hi & N). unfold rs. cbn [num_voigt] in *. rsums. cbn [piezo_square p_stiff Nat.eqb Nat.add]. rewrite !INR_IZR_INZ. cbn [Z.of_nat Pos.of_succ_nat Pos.succ].
  assert (Q : 0 < e i * e i) by (apply Rsqr_pos_lt in N; exact N).
  assert (E : 0 <= (e 0%nat + e 1%nat + e 2%nat) * (e 0%nat + e 1%nat + e 2%nat)) by apply Rle_0_sqr.
  pose proof (Rle_0_sqr (e 0%nat)). pose proof (Rle_0_sqr (e 1%nat)). pose proof (Rle_0_sqr (e 2%nat)). unfold Rsqr in *. destruct i as [|[|[|i]]]; try (cbn in Hi; lia); lra.
Qed.
Lemma square_perm : positive_form 2 (p_perm piezo_square).
Proof.
  intros e (i & Hi & N). unfold rs. rsums. cbn [piezo_square p_perm Nat.eqb Nat.add]. rewrite !INR_IZR_INZ. cbn [Z.of_nat Pos.of_succ_nat Pos.succ].
  assert (Q : 0 < e i * e i) by (apply Rsqr_pos_lt in N; exact N). assert (E : 0 <= (e 0%nat + e 1%nat) * (e 0%nat + e 1%nat)) by apply Rle_0_sqr.
  pose proof (Rle_0_sqr (e 0%nat)). pose proof (Rle_0_sqr (e 1%nat)). unfold Rsqr in *. destruct i as [|[|i]]; try lia; lra.
Qed.
Lemma square_symmetric : symmetric 3 (p_stiff piezo_square) /\ symmetric 2 (p_perm piezo_square).
Proof. split; intros i j _ _; cbn [piezo_square p_stiff p_perm]; rewrite (Nat.eqb_sym j i); destruct (Nat.eqb_spec i j) as [->|]; reflexivity. Qed.
Lemma quarter_symmetric : symmetric 3 (p_stiff piezo_quarter) /\ symmetric 2 (p_perm piezo_quarter).
Proof.
  split; [intros [|[|[|i]]] [|[|[|j]]] Hi Hj; try lia|intros [|[|i]] [|[|j]] Hi Hj; try lia];
    cbn [piezo_quarter piezo_square p_stiff p_perm other sign Nat.eqb]; ring.
Qed.
Definition quarter_X (n i : nat) : R := 5 + turn 2 quarter (square_X n) i.
Example C172_electroelastic_frame_case :
  let F := fun k => match k with 9%nat => 6 | 11%nat => 4 | _ => 0 end in let F' := fun k => match k with 10%nat => 6 | 11%nat => 4 | _ => 0 end in
  let p := clamped square_X piezo_square [0; 0; 1 / 2; 0; 1] F in let p' := clamped quarter_X piezo_quarter [0; 0; 0; 1 / 2; 1] F' in
  orthogonal 2 quarter /\ mesh_ok 2 4 square_X (square piezo_square) /\ one_piece 2 4 (map c_node (square piezo_square)) /\ restrains 2 4 3 square_X (listed (bc_dofs p)) /\
  (forall n, (n < 4)%nat -> anchored 2 (map c_node (square piezo_square)) (held_last 2 (listed (bc_dofs p))) n) /\
  (forall c, In c (square piezo_square) -> p_alpha (c_mat c) <> 0 /\ symmetric (num_voigt 2) (p_stiff (c_mat c)) /\ positive_form (num_voigt 2) (p_stiff (c_mat c)) /\
     symmetric 2 (p_perm (c_mat c)) /\ positive_form 2 (p_perm (c_mat c)) /\ solid 2 (fun x => x) (fun _ => 1) c) /\
  (forall c, In c (square piezo_quarter) -> symmetric (num_voigt 2) (p_stiff (c_mat c)) /\ symmetric 2 (p_perm (c_mat c))) /\
  placed 2 4 (fun _ => 5) quarter square_X quarter_X /\ moved_cells (turned_piezo 2 quarter) (square piezo_square) (square piezo_quarter) /\
  conditions_moved 2 4 quarter p p' /\ moved_along 2 4 quarter F F' /\
  poses p tt 12 (fun U => electroelastostatic 2 (fun x => x) square_X U (fun _ => 1) (square piezo_square)) F /\
  poses p' tt 12 (fun U => electroelastostatic 2 (fun x => x) quarter_X U (fun _ => 1) (square piezo_quarter)) F'.
Proof.
  cbv zeta.
  assert (HX : placed 2 4 (fun _ => 5) quarter square_X quarter_X) by (intros n i _ _; reflexivity).
  assert (HC : moved_cells (turned_piezo 2 quarter) (square piezo_square) (square piezo_quarter)).
  { constructor; [split; [reflexivity|exact quarter_turned]|]. constructor; [split; [reflexivity|exact quarter_turned]|]. constructor. }
  split; [exact quarter_orthogonal|]. split; [apply square_ok|]. split; [apply square_one_piece|]. split.
  { unfold clamped. cbn [bc_dofs]. intros t A HA H. pose proof (H 0%nat 0%nat ltac:(lia) ltac:(lia) eq_refl) as E0. pose proof (H 0%nat 1%nat ltac:(lia) ltac:(lia) eq_refl) as E1. pose proof (H 1%nat 1%nat ltac:(lia) ltac:(lia) eq_refl) as E2.
    pose proof (HA 0%nat 0%nat ltac:(lia) ltac:(lia)) as A0. pose proof (HA 1%nat 1%nat ltac:(lia) ltac:(lia)) as A1. pose proof (HA 0%nat 1%nat ltac:(lia) ltac:(lia)) as A2.
    intros [|[|[|[|n]]]] [|[|i]] Hn Hi; try lia; unfold affine, rs in *; rsums; cbn in *; lra. }
  split.
  { unfold clamped. cbn [bc_dofs]. assert (A0 : anchored 2 (map c_node (square piezo_square)) (held_last 2 (listed [0; 1; 3; 4; 2]%nat)) 0) by (apply anchored_here; reflexivity).
    pose (c1 := fun a => match a with 0%nat => 0%nat | 1%nat => 1%nat | _ => 2%nat end). pose (c2 := fun a => match a with 0%nat => 3%nat | 1%nat => 2%nat | _ => 1%nat end).
    assert (I1 : In c1 (map c_node (square piezo_square))) by (left; reflexivity). assert (I2 : In c2 (map c_node (square piezo_square))) by (right; left; reflexivity).
    assert (A1 : anchored 2 (map c_node (square piezo_square)) (held_last 2 (listed [0; 1; 3; 4; 2]%nat)) 1) by exact (anchored_next 2 _ _ c1 0%nat 1%nat I1 ltac:(lia) ltac:(lia) A0).
    assert (A2 : anchored 2 (map c_node (square piezo_square)) (held_last 2 (listed [0; 1; 3; 4; 2]%nat)) 2) by exact (anchored_next 2 _ _ c1 0%nat 2%nat I1 ltac:(lia) ltac:(lia) A0).
    assert (A3 : anchored 2 (map c_node (square piezo_square)) (held_last 2 (listed [0; 1; 3; 4; 2]%nat)) 3) by exact (anchored_next 2 _ _ c2 2%nat 0%nat I2 ltac:(lia) ltac:(lia) A1).
    intros [|[|[|[|n]]]] Hn; try lia; assumption. }
  split.
  { intros c Hc. assert (Em : c_mat c = piezo_square) by (destruct Hc as [<-|[<-|[]]]; reflexivity). rewrite Em.
    split; [cbn [piezo_square p_alpha]; lra|]. split; [exact (proj1 square_symmetric)|]. split; [exact square_stiff|]. split; [exact (proj2 square_symmetric)|]. split; [exact square_perm|unfold solid, rs; rsums; cbn; lra]. }
  split.
  { intros c Hc. assert (Em : c_mat c = piezo_quarter) by (destruct Hc as [<-|[<-|[]]]; reflexivity). rewrite Em. exact quarter_symmetric. }
  split; [exact HX|]. split; [exact HC|]. split.
  { unfold conditions_moved, clamped. cbn [bc_dofs bc_vals].
    assert (D : forall k, In k [0; 1; 3; 4; 2]%nat <-> (k < 5)%nat) by (intros k; cbn; lia).
    split; [intros n i j Hn Hi Hj; rewrite !D; lia|]. split; [intros n Hn; apply iff_refl|].
    exists (fun k => match k with 3%nat => 1 / 2 | 2%nat => 1 | _ => 0 end), (fun k => match k with 4%nat => 1 / 2 | 2%nat => 1 | _ => 0 end).
    split; [intros k v I; cbn in I; repeat (destruct I as [I|I]; [injection I as <- <-; reflexivity|]); contradiction|].
    split; [intros k v I; cbn in I; repeat (destruct I as [I|I]; [injection I as <- <-; reflexivity|]); contradiction|].
    split; [intros [|[|[|[|n]]]] [|[|i]] Hn Hi; try lia; unfold turn, rs; rsums; cbn; lra|intros [|[|[|[|n]]]] Hn; try lia; reflexivity]. }
  split.
  { split; [intros [|[|[|[|n]]]] [|[|i]] Hn Hi; try lia; unfold turn, rs; rsums; cbn; lra|intros [|[|[|[|n]]]] Hn; try lia; reflexivity]. }
  split; apply clamped_poses; try (cbn; reflexivity); try apply square_ok; try apply square_symmetric; try apply quarter_symmetric.
  exact (moved_mesh 2 4 (fun _ => 5) quarter square_X quarter_X _ _ _ ltac:(lia) quarter_orthogonal (square_ok piezo_square) HX HC).
Qed.
