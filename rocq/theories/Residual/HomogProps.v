(** C106: the homogenisation criterion gives the entries of the effective stiffness. *)
From Coq Require Import Reals List Arith Bool Lia Lra.
From Verif Require Import Base.Field Base.Sums Base.Res Element.ElementModel Element.ElementSpec Element.ElementProof Element.ElementProps
  Penalty.PenaltyModel Residual.ResidualModel Residual.ResidualSpec Residual.ResidualProof Residual.ResidualProps Residual.ResidualEnergyProps Residual.HomogModel.
Import ListNotations.
Local Open Scope R_scope.

Definition unit_strain (a i : nat) : R := if Nat.eqb i a then 1 else 0.
(** Strain of the nodal field U in a cell. *)
Definition strain_in {M} (d : nat) (X : nat -> nat -> R) (U : nat -> R) (c : cell M) : nat -> R :=
  strain d d (fun _ => 0) (gather d U c) (cell_gradient d (gather_coords X c)).
(** Mixed energy of the total strains e_a - strain(U) and e_b - strain(V): integral of one contracted with the stress of the other. *)
Definition mixed_energy (d : nat) (pen : R -> R) (X : nat -> nat -> R) (Z : nat -> R) (cells : list (cell elastic)) (a : nat) (U : nat -> R) (b : nat) (V : nat -> R) : R :=
  sum_over cells (fun c => simplex_measure d (gather_coords X c) * pen (cell_density (S d) (gather_control Z c)) *
    rs (num_voigt d) (fun i => (unit_strain a i - strain_in d X U c i) * rs (num_voigt d) (fun j => e_stiff (c_mat c) i j * (unit_strain b j - strain_in d X V c j)))).
(** U solves the cell problem of column b for the admissible fields [ok] (periodic ones, say): its internal forces do no work in any of them. *)
Definition solves (d nn : nat) (pen : R -> R) (X : nat -> nat -> R) (Z : nat -> R) (cells : list (cell elastic)) (ok : (nat -> R) -> Prop) (b : nat) (U : nat -> R) : Prop :=
  ok U /\ forall W, ok W -> work (nn * d) (elastostatic d pen (Some b) X U Z cells) W = 0.
Definition linear_space (ok : (nat -> R) -> Prop) : Prop := forall U V s, ok U -> ok V -> ok (along U V s).

Lemma unit_pick n a f : (a < n)%nat -> rsum n (fun i => f i * unit_strain a i) = f a.
Proof.
  intros Ha. rewrite (rsum_single n a); [unfold unit_strain; rewrite Nat.eqb_refl; req; ring|exact Ha|].
  intros j _ Hj. unfold unit_strain. destruct (Nat.eqb_spec j a); [contradiction|req; ring].
Qed.
(** The work of the internal forces of the forced problem. *)
Lemma forced_work d nn pen X Z cells b U W : (1 <= d <= 3)%nat -> mesh_ok d nn X cells -> no_reference d cells -> (b < num_voigt d)%nat ->
  work (nn * d) (elastostatic d pen (Some b) X U Z cells) W =
  - sum_over cells (fun c => simplex_measure d (gather_coords X c) * pen (cell_density (S d) (gather_control Z c)) *
      rs (num_voigt d) (fun i => strain_in d X W c i * rs (num_voigt d) (fun j => e_stiff (c_mat c) i j * (unit_strain b j - strain_in d X U c j)))).
Proof.
  intros Hd Hm Hr Hb. unfold elastostatic. rewrite assemble_work by (apply (mesh_nodes d nn X); exact Hm).
  match goal with |- _ = - sum_over _ ?g => replace (- sum_over cells g) with ((-1) * sum_over cells g) by ring end.
  rewrite <- sum_over_scal. apply sum_over_ext. intros c Hc. rewrite elastic_work by exact Hd.
  rewrite (proj1 (measure_simplex d (gather_coords X c) Hd (proj2 (mesh_cell d nn X cells c Hm Hc)))).
  unfold rs. rewrite <- !rsum_scal_l. apply rsum_ext. intros i Hi. fold (strain_in d X W c).
  assert (E : elastic_stress d (c_mat c) (Some b) (gather_coords X c) (gather d U c) i =
              - rsum (num_voigt d) (fun j => e_stiff (c_mat c) i j * (unit_strain b j - strain_in d X U c j))).
  { unfold elastic_stress, add_forcing. change (linear_stress (num_voigt d) (e_stiff (c_mat c)) (e_ref (c_mat c)) (strain d d (fun _ => 0) (gather d U c) (cell_gradient d (gather_coords X c))) i)
      with (elastic_stress d (c_mat c) None (gather_coords X c) (gather d U c) i). rewrite stress_none by (intros; apply Hr; assumption).
    rewrite (rsum_ext _ (fun j => e_stiff (c_mat c) i j * (unit_strain b j - strain_in d X U c j))
      (fun j => e_stiff (c_mat c) i j * unit_strain b j - strain_in d X U c j * e_stiff (c_mat c) i j)) by (intros; req; ring).
    rewrite rsum_sub, unit_pick by exact Hb. unfold strain_in. ring. }
  rewrite E. req. ring.
Qed.
Theorem C106_effective : forall d nn pen X Z cells (ok : (nat -> R) -> Prop) a b Ua Ub, (1 <= d <= 3)%nat -> mesh_ok d nn X cells -> no_reference d cells ->
  all_symmetric (num_voigt d) cells -> (a < num_voigt d)%nat -> (b < num_voigt d)%nat ->
  ok Ua -> solves d nn pen X Z cells ok b Ub ->
  effective d pen b (unit_strain a) X Ub Z cells = mixed_energy d pen X Z cells a Ua b Ub.
Proof.
  intros d nn pen X Z cells ok a b Ua Ub Hd Hm Hr Hs Ha Hb Hoa [_ Hw]. specialize (Hw Ua Hoa). rewrite forced_work in Hw by assumption.
  unfold effective. rewrite total_sum. unfold mixed_energy.
  match type of Hw with - sum_over _ ?g = 0 => rewrite (sum_over_ext cells _ (fun c => effective_cell d pen b (unit_strain a) (c_mat c) (gather_coords X c) (gather d Ub c) (gather_control Z c) + 0)) by (intros; ring);
    rewrite (sum_over_ext cells (fun c => _ * _ * rs _ (fun i => (unit_strain a i - _) * _)) (fun c => effective_cell d pen b (unit_strain a) (c_mat c) (gather_coords X c) (gather d Ub c) (gather_control Z c) + (-1) * g c)) end.
  - rewrite !sum_over_add, sum_over_scal. rewrite (sum_over_0 cells (fun _ => 0)) by reflexivity. lra.
  - intros c Hc. unfold effective_cell, scalar_product, weigh.
    rewrite (proj1 (measure_simplex d (gather_coords X c) Hd (proj2 (mesh_cell d nn X cells c Hm Hc)))).
    fold (strain_in d X Ub c). unfold rs.
    rewrite (rsum_ext (num_voigt d) (fun i => homogenized_stress _ _ _ _ i * _ * unit_strain a i)
       (fun i => (rsum (num_voigt d) (fun j => e_stiff (c_mat c) i j * (unit_strain b j - strain_in d X Ub c j)) * pen (cell_density (S d) (gather_control Z c))) * unit_strain a i)).
    2: { intros i Hi. f_equal. f_equal. unfold homogenized_stress.
         rewrite (rsum_ext _ (fun j => e_stiff (c_mat c) i j * (unit_strain b j - strain_in d X Ub c j))
           (fun j => e_stiff (c_mat c) i j * unit_strain b j - e_stiff (c_mat c) i j * strain_in d X Ub c j)) by (intros; req; ring).
         rewrite rsum_sub, unit_pick by exact Hb. rewrite (Hs c Hc i b Hi Hb). f_equal. apply rsum_ext. intros j Hj. rewrite (Hs c Hc j i Hj Hi). req. ring. }
    rewrite (unit_pick (num_voigt d) a (fun i => rsum (num_voigt d) (fun j => e_stiff (c_mat c) i j * (unit_strain b j - strain_in d X Ub c j)) * pen (cell_density (S d) (gather_control Z c)))) by exact Ha.
    rewrite (rsum_ext _ (fun i => (unit_strain a i - strain_in d X Ua c i) * _)
      (fun i => rsum (num_voigt d) (fun j => e_stiff (c_mat c) i j * (unit_strain b j - strain_in d X Ub c j)) * unit_strain a i
                - strain_in d X Ua c i * rsum (num_voigt d) (fun j => e_stiff (c_mat c) i j * (unit_strain b j - strain_in d X Ub c j)))) by (intros; req; ring).
    rewrite rsum_sub. rewrite (unit_pick (num_voigt d) a (fun i => rsum (num_voigt d) (fun j => e_stiff (c_mat c) i j * (unit_strain b j - strain_in d X Ub c j)))) by exact Ha.
    ring.
Qed.
Print Assumptions C106_effective.
(** The effective stiffness is symmetric. *)
Lemma mixed_sym d pen X Z cells a U b V : all_symmetric (num_voigt d) cells ->
  mixed_energy d pen X Z cells a U b V = mixed_energy d pen X Z cells b V a U.
Proof.
  intros Hs. unfold mixed_energy. apply sum_over_ext. intros c Hc. f_equal. unfold rs.
  pose proof (form_sym (num_voigt d) (e_stiff (c_mat c)) (fun j => unit_strain b j - strain_in d X V c j) (fun i => unit_strain a i - strain_in d X U c i) (Hs c Hc)) as H.
  rewrite (rsum_ext _ (fun i => (unit_strain a i - strain_in d X U c i) * _) (fun i => rsum (num_voigt d) (fun j => (unit_strain b j - strain_in d X V c j) * e_stiff (c_mat c) i j) * (unit_strain a i - strain_in d X U c i))).
  - rewrite H. apply rsum_ext. intros i Hi. rewrite Rmult_comm. f_equal. apply rsum_ext. intros j Hj. req. ring.
  - intros i Hi. rewrite Rmult_comm. f_equal. apply rsum_ext. intros j Hj. req. ring.
Qed.
Theorem C106_symmetric : forall d nn pen X Z cells (ok : (nat -> R) -> Prop) a b Ua Ub, (1 <= d <= 3)%nat -> mesh_ok d nn X cells -> no_reference d cells ->
  all_symmetric (num_voigt d) cells -> (a < num_voigt d)%nat -> (b < num_voigt d)%nat ->
  solves d nn pen X Z cells ok a Ua -> solves d nn pen X Z cells ok b Ub ->
  effective d pen b (unit_strain a) X Ub Z cells = effective d pen a (unit_strain b) X Ua Z cells.
Proof.
  intros d nn pen X Z cells ok a b Ua Ub Hd Hm Hr Hs Ha Hb Sa Sb.
  rewrite (C106_effective d nn pen X Z cells ok a b Ua Ub) by (try assumption; apply Sa).
  rewrite (C106_effective d nn pen X Z cells ok b a Ub Ua) by (try assumption; apply Sb). apply mixed_sym. exact Hs.
Qed.
Print Assumptions C106_symmetric.
(** Its diagonal entries are the smallest energy of any admissible fluctuation, so between zero and the average of the stiffness. *)
Theorem C106_minimum : forall d nn pen X Z cells (ok : (nat -> R) -> Prop) a Ua W, (1 <= d <= 3)%nat -> mesh_ok d nn X cells -> no_reference d cells ->
  all_symmetric (num_voigt d) cells -> (forall c, In c cells -> nonnegative_form (num_voigt d) (e_stiff (c_mat c))) -> (forall t, 0 <= pen t) -> linear_space ok ->
  (a < num_voigt d)%nat -> solves d nn pen X Z cells ok a Ua -> ok W ->
  0 <= effective d pen a (unit_strain a) X Ua Z cells <= mixed_energy d pen X Z cells a W a W.
Proof.
  intros d nn pen X Z cells ok a Ua W Hd Hm Hr Hs Hn Hp Hl Ha Sa HW.
  rewrite (C106_effective d nn pen X Z cells ok a a Ua Ua) by (try assumption; apply Sa).
  assert (N : forall c (e : nat -> R), In c cells -> 0 <= simplex_measure d (gather_coords X c) * pen (cell_density (S d) (gather_control Z c)) *
            rs (num_voigt d) (fun i => e i * rs (num_voigt d) (fun j => e_stiff (c_mat c) i j * e j))).
  { intros c e Hc. destruct (measure_simplex d (gather_coords X c) Hd (proj2 (mesh_cell d nn X cells c Hm Hc))) as [E P]. rewrite E in P.
    apply Rmult_le_pos; [apply Rmult_le_pos; [lra|apply Hp]|]. apply (Hn c Hc). }
  split; [apply sum_over_nonneg; intros c Hc; apply (N c (fun i => unit_strain a i - strain_in d X Ua c i) Hc)|].
  (* the difference of the two energies is the energy of the difference, as the cross term is a work of forces in equilibrium *)
  set (V := along Ua W (-1)).
  assert (HV : ok V) by (apply Hl; [apply Sa|exact HW]).
  pose proof (proj2 Sa V HV) as H0. rewrite forced_work in H0 by assumption.
  assert (EV : forall c i, In c cells -> (i < num_voigt d)%nat -> strain_in d X V c i = strain_in d X Ua c i - strain_in d X W c i).
  { intros c i Hc Hi. unfold strain_in, V. change (gather d (along Ua W (-1)) c) with (fun k => gather d Ua c k + (-1) * gather d W c k).
    rewrite (strain_lin d d (gather d Ua c) (gather d W c) (-1) _ i Hi Hd). ring. }
  match type of H0 with - sum_over _ ?g = 0 => set (G := g) in H0 end.
  set (Q := fun c : cell elastic => simplex_measure d (gather_coords X c) * pen (cell_density (S d) (gather_control Z c)) *
      rs (num_voigt d) (fun i => strain_in d X V c i * rs (num_voigt d) (fun j => e_stiff (c_mat c) i j * strain_in d X V c j))).
  assert (EQ : mixed_energy d pen X Z cells a W a W = mixed_energy d pen X Z cells a Ua a Ua + 2 * sum_over cells G + sum_over cells Q).
  { unfold mixed_energy. rewrite <- sum_over_scal, <- !sum_over_add. apply sum_over_ext. intros c Hc. unfold G, Q.
    set (mu := simplex_measure d (gather_coords X c) * pen (cell_density (S d) (gather_control Z c))).
    set (D := fun i => unit_strain a i - strain_in d X Ua c i). set (e := fun i => strain_in d X V c i). set (C := e_stiff (c_mat c)). unfold rs.
    assert (E1 : rsum (num_voigt d) (fun i => (unit_strain a i - strain_in d X W c i) * rsum (num_voigt d) (fun j => C i j * (unit_strain a j - strain_in d X W c j))) =
                 rsum (num_voigt d) (fun i => D i * rsum (num_voigt d) (fun j => C i j * D j)) + 2 * rsum (num_voigt d) (fun i => e i * rsum (num_voigt d) (fun j => C i j * D j))
                 + rsum (num_voigt d) (fun i => e i * rsum (num_voigt d) (fun j => C i j * e j))).
    { assert (EW : forall i, (i < num_voigt d)%nat -> unit_strain a i - strain_in d X W c i = D i + e i) by (intros i Hi; unfold D, e; rewrite EV by assumption; ring).
      rewrite (rsum_ext _ _ (fun i => D i * rsum (num_voigt d) (fun j => C i j * D j) + D i * rsum (num_voigt d) (fun j => C i j * e j)
            + (e i * rsum (num_voigt d) (fun j => C i j * D j) + e i * rsum (num_voigt d) (fun j => C i j * e j)))).
      2: { intros i Hi. rewrite EW by exact Hi.
           rewrite (rsum_ext _ (fun j => C i j * (unit_strain a j - strain_in d X W c j)) (fun j => C i j * D j + C i j * e j)) by (intros j Hj; rewrite EW by exact Hj; req; ring).
           rewrite rsum_add. req. ring. }
      rewrite !rsum_add.
      assert (ES : rsum (num_voigt d) (fun i => D i * rsum (num_voigt d) (fun j => C i j * e j)) = rsum (num_voigt d) (fun i => e i * rsum (num_voigt d) (fun j => C i j * D j))).
      { pose proof (form_sym (num_voigt d) C e D (Hs c Hc)) as H.
        rewrite (rsum_ext _ (fun i => D i * _) (fun i => rsum (num_voigt d) (fun j => e j * C i j) * D i)).
        - rewrite H. apply rsum_ext. intros i _. rewrite Rmult_comm. f_equal. apply rsum_ext. intros j _. req. ring.
        - intros i _. rewrite Rmult_comm. f_equal. apply rsum_ext. intros j _. req. ring. }
      rewrite ES. req. ring. }
    rewrite E1. unfold D, e. ring. }
  rewrite EQ. assert (0 <= sum_over cells Q) by (apply sum_over_nonneg; intros c Hc; apply (N c (fun i => strain_in d X V c i) Hc)). lra.
Qed.
Print Assumptions C106_minimum.
(** Input: a column and all the components of the assumed strain are needed; nothing reports that they are missing. *)
Theorem C106_input_refuted :
  (forall d pen l X U Z cells, effective_criterion d pen (mkEffective l None) X U Z cells = UB) /\
  effective_criterion 3 (fun t => t) (mkEffective [1; 0; 0] (Some 0%nat)) (fun _ _ => 0) (fun _ => 0) (fun _ => 0) [] = UB.
Proof.
  split; [|reflexivity]. intros d pen l X U Z cells. unfold effective_criterion. cbn [a_strain a_column].
  assert (H : forall n s, (exists r, mapR (fun k => ub (nth_error l k)) (seq s n) = Ok r) \/ mapR (fun k => ub (nth_error l k)) (seq s n) = UB).
  { induction n as [|n IH]; intros s; cbn; [left; eexists; reflexivity|]. destruct (nth_error l s); cbn; [|right; reflexivity].
    destruct (IH (S s)) as [[q E]|E]; rewrite E; cbn; [left; eexists; reflexivity|right; reflexivity]. }
  destruct (H (num_voigt d) 0%nat) as [[q E]|E]; rewrite E; reflexivity.
Qed.
Print Assumptions C106_input_refuted.
Theorem C106_input_partial : forall d pen i col X U Z cells, a_column i = Some col -> (col < num_voigt d)%nat -> length (a_strain i) = num_voigt d -> (1 <= d <= 3)%nat ->
  exists v, effective_criterion d pen i X U Z cells = Ok v /\ v = effective d pen col (fun k => nth k (a_strain i) 0) X U Z cells.
Proof.
  intros d pen i col X U Z cells Ec Hc Hl Hd. unfold effective_criterion. rewrite Ec.
  assert (H : mapR (fun k => ub (nth_error (a_strain i) k)) (seq 0 (num_voigt d)) = Ok (a_strain i)).
  { destruct (a_strain i) as [|x0 [|x1 [|x2 [|x3 [|x4 [|x5 [|x6 l]]]]]]]; dims d; cbn in Hl; try discriminate; reflexivity. }
  rewrite H. cbn [rbind]. destruct (Nat.ltb_spec col (num_voigt d)); [|lia]. eexists. split; reflexivity.
Qed.
Print Assumptions C106_input_partial.

(** A bar of two materials, stiffness 1 and 3, with periodic fluctuations: the cell solution and its effective stiffness, length times the harmonic mean. *)
Definition pair_X (n i : nat) : R := match n with 0%nat => 0 | 1%nat => 1 | _ => 2 end.
Definition stiff_one (k : R) : elastic := mkElastic (fun _ _ => k) (fun _ => 0).
Definition pair_bar : list (cell elastic) := [mkCell (fun a => a) (stiff_one 1); mkCell (fun a => S a) (stiff_one 3)].
Definition periodic (U : nat -> R) : Prop := U 0%nat = U 2%nat.
Definition pair_U (n : nat) : R := match n with 1%nat => - (1 / 2) | _ => 0 end.
Lemma pair_measure : forall c, In c pair_bar -> simplex_measure 1 (gather_coords pair_X c) = 1.
Proof.
  intros c [E|[E|[]]]; subst c; unfold simplex_measure, pair_X, gather_coords; cbn;
    match goal with |- Rabs ?q = 1 => replace q with 1 by ring end; apply Rabs_R1.
Qed.
Lemma pair_ok : mesh_ok 1 3 pair_X pair_bar.
Proof.
  intros c Hin. assert (exists c', In c' pair_bar /\ c = c_node c') as (c' & Hc & ->) by (apply in_map_iff in Hin; destruct Hin as (c' & <- & H); eauto).
  split; [|change (simplex_measure 1 (gather_coords pair_X c') <> 0); rewrite pair_measure by exact Hc; lra].
  destruct Hc as [E|[E|[]]]; subst c'; intros [|[|a]] Ha; cbn; lia.
Qed.
Lemma pair_strain U : strain_in 1 pair_X U (mkCell (fun a => a) (stiff_one 1)) 0 = U 1%nat - U 0%nat /\
  strain_in 1 pair_X U (mkCell (fun a => S a) (stiff_one 3)) 0 = U 2%nat - U 1%nat.
Proof.
  unfold strain_in, strain. cbn [voigt_pairs nth_error]. split; rsums; cbn; unfold gather, det1, gather_coords, pair_X; cbn; field; lra.
Qed.
Lemma pair_solves : solves 1 3 (fun t => t) pair_X (fun _ => 1) pair_bar periodic 0 pair_U.
Proof.
  split; [reflexivity|]. intros W HW. rewrite forced_work; [|lia|exact pair_ok|intros c v [E|[E|[]]] _; subst c; reflexivity|cbn; lia].
  rewrite (sum_over_ext _ _ (fun c => strain_in 1 pair_X W c 0 * (e_stiff (c_mat c) 0%nat 0%nat * (1 - strain_in 1 pair_X pair_U c 0)))).
  2: { intros c Hc. rewrite pair_measure by exact Hc. unfold cell_density, gather_control, rs. cbn [num_voigt]. rsums. unfold unit_strain. cbn [Nat.eqb INR]. field. }
  cbn [sum_over pair_bar c_mat stiff_one e_stiff]. rewrite !(proj1 (pair_strain _)), !(proj2 (pair_strain _)). unfold periodic in HW. rewrite HW. cbn. field.
Qed.
Example C106_reachable : solves 1 3 (fun t => t) pair_X (fun _ => 1) pair_bar periodic 0 pair_U /\ linear_space periodic /\
  effective 1 (fun t => t) 0 (unit_strain 0) pair_X pair_U (fun _ => 1) pair_bar = 2 * (2 / (1 / 1 + 1 / 3)).
Proof.
  split; [exact pair_solves|]. split; [intros U V s HU HV; unfold periodic, along in *; rewrite HU, HV; reflexivity|].
  rewrite (C106_effective 1 3 (fun t => t) pair_X (fun _ => 1) pair_bar periodic 0 0 pair_U pair_U); [|lia|exact pair_ok
    |intros c v [E|[E|[]]] _; subst c; reflexivity|intros c [E|[E|[]]]; subst c; intros i j _ _; reflexivity|cbn; lia|cbn; lia|reflexivity|exact pair_solves].
  unfold mixed_energy. rewrite (sum_over_ext _ _ (fun c => (1 - strain_in 1 pair_X pair_U c 0) * (e_stiff (c_mat c) 0%nat 0%nat * (1 - strain_in 1 pair_X pair_U c 0)))).
  2: { intros c Hc. rewrite pair_measure by exact Hc. unfold cell_density, gather_control, rs. cbn [num_voigt]. rsums. unfold unit_strain. cbn [Nat.eqb INR]. field. }
  cbn [sum_over pair_bar c_mat stiff_one e_stiff]. rewrite !(proj1 (pair_strain _)), !(proj2 (pair_strain _)). cbn. field.
Qed.
