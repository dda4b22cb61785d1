(** C172, C173: solutions follow the numbering, the frame and the units; they add up, and pairs of them are reciprocal. *)
From Coq Require Import Reals List Arith Bool Lia Lra Permutation FinFun.
From Verif Require Import Base.Field Base.Sums Base.Res BC.ConstraintsSpec BC.ConstraintsMain Problem.DenseBC Problem.SmallSolver Problem.EllipticModel Problem.EllipticSpec Problem.EllipticProof Problem.EllipticProps
  Element.ElementModel Element.ElementSpec Element.ElementProof Element.ElementProps Penalty.PenaltyModel Residual.Kernel
  Residual.ResidualModel Residual.ResidualSpec Residual.ResidualProof Residual.ResidualProps Residual.ResidualEnergyProps Residual.SupportSpec Residual.SupportProof Residual.SupportProps Residual.PotentialProps
  Residual.SolveSpec Residual.SolveProof Residual.SolveProps Residual.FrameSpec Residual.FrameProof Residual.FrameProps Residual.NumberProps Residual.UnitProps.
Import ListNotations.
Local Open Scope R_scope.

Ltac real_goal := match goal with |- @eq _ ?l ?r => change (@eq R l r) end.
(** ** Specification *)
(** V takes the values listed for the entries. *)
Definition takes (dofs : list nat) (vals : list R) (V : nat -> R) : Prop := forall k v, In (k, v) (combine dofs vals) -> V k = v.
(** The same conditions at the renumbered nodes: the same components held, with the same values. *)
Definition conditions_renumbered {Y Y'} (nn ndof : nat) (q : nat -> nat) (p : problem R_ring Y) (p' : problem R_ring Y') : Prop :=
  (forall n i, (n < nn)%nat -> (i < ndof)%nat -> (In (n * ndof + i)%nat (bc_dofs p) <-> In (q n * ndof + i)%nat (bc_dofs p'))) /\
  exists V V', takes (bc_dofs p) (bc_vals p) V /\ takes (bc_dofs p') (bc_vals p') V' /\ same_values nn ndof q V V'.
(** The same conditions on the turned body: the same nodes held, each in all directions, with turned values. *)
Definition conditions_turned {Y Y'} (d nn : nat) (Q : nat -> nat -> R) (p : problem R_ring Y) (p' : problem R_ring Y') : Prop :=
  (forall n i j, (n < nn)%nat -> (i < d)%nat -> (j < d)%nat -> (In (n * d + i)%nat (bc_dofs p) <-> In (n * d + j)%nat (bc_dofs p'))) /\
  exists V V', takes (bc_dofs p) (bc_vals p) V /\ takes (bc_dofs p') (bc_vals p') V' /\ carried d nn d Q V V'.
(** The same entries held, with the values of the first multiplied by s. *)
Definition conditions_scaled {Y Y'} (n : nat) (s : R) (p : problem R_ring Y) (p' : problem R_ring Y') : Prop :=
  (forall k, (k < n)%nat -> (In k (bc_dofs p) <-> In k (bc_dofs p'))) /\
  exists V V', takes (bc_dofs p) (bc_vals p) V /\ takes (bc_dofs p') (bc_vals p') V' /\ scaled_values n s V V'.

(** ** Two problems related entry by entry *)
Definition agree (n : nat) (held : nat -> Prop) (U W : nat -> R) : Prop := forall k, (k < n)%nat -> held k -> U k = W k.
(** Relations between fields of the two problems (relU: displacements, relF: forces) under which agreement carries over. *)
Record corresponds (n : nat) (relU relF : (nat -> R) -> (nat -> R) -> Prop) (dofs dofs' : list nat) : Prop := {
  co_back : forall U', exists U, relU U U';
  co_ext : forall U W U', relU U U' -> (forall k, (k < n)%nat -> W k = U k) -> relU W U';
  co_all : forall U W U' W', relU U U' -> relU W W' -> (forall k, (k < n)%nat -> U k = W k) -> forall k, (k < n)%nat -> U' k = W' k;
  co_held : forall U W U' W', relU U U' -> relU W W' -> agree n (fun k => In k dofs') U' W' -> agree n (fun k => In k dofs) U W;
  co_free : forall F G F' G', relF F F' -> relF G G' -> agree n (fun k => ~ In k dofs') F' G' -> agree n (fun k => ~ In k dofs) F G }.
Section Related.
Variables (n : nat) (relU relF : (nat -> R) -> (nat -> R) -> Prop) (val val' : (nat -> R) -> nat -> R).
Hypothesis Hval : forall U U', relU U U' -> relF (val U) (val' U').
Lemma uniqueness_follows dofs dofs' : corresponds n relU relF dofs dofs' ->
  (forall U W, same_conditions n (listed dofs) U W (val U) (val W) -> forall k, (k < n)%nat -> U k = W k) ->
  forall U' W', same_conditions n (listed dofs') U' W' (val' U') (val' W') -> forall k, (k < n)%nat -> U' k = W' k.
Proof.
  intros C HU U' W' Hs. destruct (co_back _ _ _ _ _ C U') as (U & RU). destruct (co_back _ _ _ _ _ C W') as (W & RW).
  apply (co_all _ _ _ _ _ C U W U' W' RU RW). apply HU.
  assert (A : agree n (fun k => In k dofs) U W).
  { apply (co_held _ _ _ _ _ C U W U' W' RU RW). intros k Hk Hin. specialize (Hs k Hk). apply listed_in in Hin. rewrite Hin in Hs. exact Hs. }
  assert (B : agree n (fun k => ~ In k dofs) (val U) (val W)).
  { apply (co_free _ _ _ _ _ C _ _ _ _ (Hval U U' RU) (Hval W W' RW)). intros k Hk Hin. specialize (Hs k Hk). apply listed_out in Hin. rewrite Hin in Hs. exact Hs. }
  intros k Hk. destruct (listed dofs k) eqn:E; [apply A|apply B]; try exact Hk; [apply listed_in|apply listed_out]; exact E.
Qed.
Lemma takes_listed (dofs : list nat) (vals : list R) U V k : length vals = length dofs -> takes dofs vals U -> takes dofs vals V -> In k dofs -> U k = V k.
Proof.
  intros Hl HU HV Hk. assert (I : exists v, In (k, v) (combine dofs vals)).
  { clear HU HV. revert vals Hl. induction dofs as [|a l IH]; intros vs Hl; [contradiction|]. destruct vs as [|v vs]; [discriminate|].
    destruct Hk as [->|Hk]; [exists v; left; reflexivity|]. destruct (IH Hk vs) as (w & I); [injection Hl as Hl; exact Hl|]. exists w. right. exact I. }
  destruct I as (v & I). rewrite (HU k v I), (HV k v I). reflexivity.
Qed.
Lemma solution_follows {Y Y'} (p : problem R_ring Y) (p' : problem R_ring Y') y y' F F' V V' : poses p y n val F -> poses p' y' n val' F' -> reciprocal n val' ->
  corresponds n relU relF (bc_dofs p) (bc_dofs p') -> solves_body p y n val F ->
  (forall U W, same_conditions n (listed (bc_dofs p)) U W (val U) (val W) -> forall k, (k < n)%nat -> U k = W k) ->
  takes (bc_dofs p) (bc_vals p) V -> takes (bc_dofs p') (bc_vals p') V' -> relU V V' -> relF F F' ->
  solves_body p' y' n val' F' /\ relU (solution p y) (solution p' y').
Proof.
  intros P P' HR C HS HU HV HV' RV RF. pose proof (posed_solves p' y' n val' F' P' HR (uniqueness_follows _ _ C HU)) as S'. split; [exact S'|].
  destruct (co_back _ _ _ _ _ C (solution p' y')) as (U & RU). apply (co_ext _ _ _ _ _ C U); [exact RU|]. intros k Hk. symmetry. apply (proj2 HS); [|exact Hk]. clear k Hk.
  destruct S' as [[T1 T2] _]. destruct (ps_conditions _ _ _ _ _ P') as (L' & _ & _). destruct (ps_conditions _ _ _ _ _ P) as (_ & _ & Lt).
  assert (A : agree n (fun k => In k (bc_dofs p)) U V).
  { apply (co_held _ _ _ _ _ C U V _ V' RU RV). intros k Hk Hin. exact (takes_listed _ _ _ _ k L' T1 HV' Hin). }
  split.
  - intros k v I. pose proof (in_combine_l _ _ _ _ I) as Hin. rewrite (A k (Lt k Hin) Hin). apply HV. exact I.
  - intros k Hk Hni. apply (co_free _ _ _ _ _ C _ _ _ _ (Hval U _ RU) RF); [|exact Hk|exact Hni]. intros j Hj Hnj. apply T2; assumption.
Qed.
End Related.

(** ** The three relations *)
Lemma entry_split nn ndof k : (k < nn * ndof)%nat -> exists a i, (a < nn)%nat /\ (i < ndof)%nat /\ k = (a * ndof + i)%nat.
Proof.
  intros Hk. assert (ndof <> 0)%nat by (intros ->; lia). exists (k / ndof)%nat, (k mod ndof)%nat. split; [apply Nat.div_lt_upper_bound; lia|]. split; [apply Nat.mod_upper_bound; assumption|].
  rewrite (Nat.div_mod k ndof) at 1 by assumption. lia.
Qed.
Lemma numbering_corresponds nn ndof q dofs dofs' : node_bijection nn q ->
  (forall n i, (n < nn)%nat -> (i < ndof)%nat -> (In (n * ndof + i)%nat dofs <-> In (q n * ndof + i)%nat dofs')) ->
  corresponds (nn * ndof) (same_values nn ndof q) (same_values nn ndof q) dofs dofs'.
Proof.
  intros [Hq Iq] Hin. split.
  - intros U'. exists (fun k => U' (q (k / ndof) * ndof + k mod ndof)%nat). intros n i Hn Hi. f_equal.
    rewrite Nat.div_add_l, (Nat.div_small i), Nat.add_0_r by lia. replace (n * ndof + i)%nat with (i + n * ndof)%nat by lia. rewrite Nat.mod_add, Nat.mod_small by lia. reflexivity.
  - intros U W U' H E n i Hn Hi. rewrite H by assumption. symmetry. apply E. nia.
  - intros U W U' W' HU HW E k Hk. destruct (entry_split nn ndof k Hk) as (a & i & Ha & Hi & ->).
    assert (S : exists b, (b < nn)%nat /\ q b = a).
    { apply (proj1 (bInjective_bSurjective (f := q) (n := nn) Hq)); [|exact Ha]. intros x z Hx Hz Exz. apply Iq; assumption. }
    destruct S as (b & Hb & <-). rewrite HU, HW by assumption. apply E. nia.
  - intros U W U' W' HU HW A k Hk Hk'. destruct (entry_split nn ndof k Hk) as (a & i & Ha & Hi & ->). rewrite <- HU, <- HW by assumption. pose proof (Hq a Ha). apply A; [nia|]. apply Hin; assumption.
  - intros U W U' W' HU HW A k Hk Hk'. destruct (entry_split nn ndof k Hk) as (a & i & Ha & Hi & ->). rewrite <- HU, <- HW by assumption. pose proof (Hq a Ha). apply A; [nia|]. intros I. apply Hk'. apply Hin; assumption.
Qed.
Lemma turn_back d Q v : orthogonal d Q -> forall i, (i < d)%nat -> turn d Q (fun j => rs d (fun l => Q l j * v l)) i = v i.
Proof.
  intros HQ i Hi. unfold turn, rs.
  rewrite (rsum_ext d _ (fun j => rsum d (fun l => Q i j * Q l j * v l))) by (intros; rewrite <- rsum_scal_l; apply rsum_ext; intros; req; ring).
  rewrite rsum_swap. rewrite (rsum_ext d _ (fun l => delta i l * v l)).
  - apply (rsum_delta d i v Hi).
  - intros l Hl. rewrite <- (proj2 (HQ i l Hi Hl)). unfold rs. rewrite (Rmult_comm _ (v l)), <- rsum_scal_l. apply rsum_ext. intros. req. ring.
Qed.
Lemma turn_off d Q v : orthogonal d Q -> forall i, (i < d)%nat -> rs d (fun l => Q l i * turn d Q v l) = v i.
Proof.
  intros HQ i Hi. unfold turn, rs.
  rewrite (rsum_ext d _ (fun l => rsum d (fun j => Q l i * Q l j * v j))) by (intros; rewrite <- rsum_scal_l; apply rsum_ext; intros; req; ring).
  rewrite rsum_swap. rewrite (rsum_ext d _ (fun l => delta i l * v l)).
  - apply (rsum_delta d i v Hi).
  - intros l Hl. rewrite <- (proj1 (HQ i l Hi Hl)). unfold rs. rewrite (Rmult_comm _ (v l)), <- rsum_scal_l. apply rsum_ext. intros. req. ring.
Qed.
Lemma turning_corresponds d nn Q dofs dofs' : orthogonal d Q ->
  (forall n i j, (n < nn)%nat -> (i < d)%nat -> (j < d)%nat -> (In (n * d + i)%nat dofs <-> In (n * d + j)%nat dofs')) ->
  corresponds (nn * d) (carried d nn d Q) (carried d nn d Q) dofs dofs'.
Proof.
  intros HQ Hin.
  assert (Back : forall U U', carried d nn d Q U U' -> forall n i, (n < nn)%nat -> (i < d)%nat -> U (n * d + i)%nat = rs d (fun l => Q l i * U' (n * d + l)%nat)).
  { intros U U' H n i Hn Hi. rewrite <- (turn_off d Q (fun j => U (n * d + j)%nat) HQ i Hi) at 1. unfold rs. apply rsum_ext. intros l Hl. rewrite (H n l Hn Hl). reflexivity. }
  split.
  - intros U'. exists (fun k => rs d (fun l => Q l (k mod d)%nat * U' (k / d * d + l)%nat)). intros n i Hn Hi.
    rewrite <- (turn_back d Q (fun l => U' (n * d + l)%nat) HQ i Hi). apply turn_ext. intros j Hj. unfold rs. apply rsum_ext. intros l Hl.
    rewrite Nat.div_add_l, (Nat.div_small j), Nat.add_0_r by lia. replace (n * d + j)%nat with (j + n * d)%nat by lia. rewrite Nat.mod_add, Nat.mod_small by lia. reflexivity.
  - intros U W U' H E n i Hn Hi. rewrite H by assumption. apply turn_ext. intros j Hj. symmetry. apply E. nia.
  - intros U W U' W' HU HW E k Hk. destruct (entry_split nn d k Hk) as (a & i & Ha & Hi & ->). rewrite HU, HW by assumption. apply turn_ext. intros j Hj. apply E. nia.
  - intros U W U' W' HU HW A k Hk Hk'. destruct (entry_split nn d k Hk) as (a & i & Ha & Hi & ->). rewrite (Back U U' HU), (Back W W' HW) by assumption.
    unfold rs. apply rsum_ext. intros l Hl. rewrite (A (a * d + l)%nat); [reflexivity|nia|]. apply (Hin a i l Ha Hi Hl). exact Hk'.
  - intros U W U' W' HU HW A k Hk Hk'. destruct (entry_split nn d k Hk) as (a & i & Ha & Hi & ->). rewrite (Back U U' HU), (Back W W' HW) by assumption.
    unfold rs. apply rsum_ext. intros l Hl. rewrite (A (a * d + l)%nat); [reflexivity|nia|]. intros I. apply Hk'. apply (Hin a i l Ha Hi Hl). exact I.
Qed.
Lemma scaling_corresponds n s f dofs dofs' : s <> 0 -> f <> 0 -> (forall k, (k < n)%nat -> (In k dofs <-> In k dofs')) ->
  corresponds n (scaled_values n s) (scaled_values n f) dofs dofs'.
Proof.
  intros Hs Hf Hin. split.
  - intros U'. exists (fun k => U' k / s). intros k Hk. field. exact Hs.
  - intros U W U' H E k Hk. rewrite (H k Hk), (E k Hk). reflexivity.
  - intros U W U' W' HU HW E k Hk. rewrite (HU k Hk), (HW k Hk), (E k Hk). reflexivity.
  - intros U W U' W' HU HW A k Hk Hk'. apply (Rmult_eq_reg_l s); [|exact Hs]. rewrite <- (HU k Hk), <- (HW k Hk). apply A; [exact Hk|]. apply Hin; assumption.
  - intros U W U' W' HU HW A k Hk Hk'. apply (Rmult_eq_reg_l f); [|exact Hf]. rewrite <- (HU k Hk), <- (HW k Hk). apply A; [exact Hk|]. intros I. apply Hk'. apply Hin; assumption.
Qed.
Lemma renumbered_in {M} d q (cells cells' : list (cell M)) c' : renumbered d q cells cells' -> In c' cells' -> exists c, In c cells /\ c_mat c' = c_mat c.
Proof.
  intros (mid & HP & F) Hc. assert (G : exists c, In c mid /\ c_mat c' = c_mat c).
  { clear HP. induction F as [|x z l l' [E _] F IH]; [contradiction|]. destruct Hc as [->|Hc]; [exists x; split; [left; reflexivity|exact E]|].
    destruct (IH Hc) as (c & H1 & H2). exists c. split; [right; exact H1|exact H2]. }
  destruct G as (c & H1 & H2). exists c. split; [apply (Permutation_in _ (Permutation_sym HP)); exact H1|exact H2].
Qed.
Lemma moved_in {M} (P : M -> M -> Prop) (cells cells' : list (cell M)) c' : moved_cells P cells cells' -> In c' cells' -> exists c, In c cells /\ P (c_mat c) (c_mat c').
Proof.
  intros F Hc. induction F as [|x z l l' [_ E] F IH]; [contradiction|]. destruct Hc as [->|Hc]; [exists x; split; [left; reflexivity|exact E]|].
  destruct (IH Hc) as (c & H1 & H2). exists c. split; [right; exact H1|exact H2].
Qed.

(** ** C172: the numbering *)
(** A supported elastic body and the same body with other numbers for nodes, cells and corners: whatever the two solvers, each node gets the same displacement. *)
Theorem C172_elastic_numbering : forall (Y Y' : Type) (p : problem R_ring Y) (y : Y) (p' : problem R_ring Y') (y' : Y') d nn pen col q X X' Z Z' cells cells' F F',
  (1 <= d <= 3)%nat -> mesh_ok d nn X cells -> one_piece d nn (map c_node cells) -> restrains d nn d X (listed (bc_dofs p)) ->
  (forall c, In c cells -> symmetric (num_voigt d) (e_stiff (c_mat c)) /\ positive_form (num_voigt d) (e_stiff (c_mat c)) /\ solid d pen Z c) ->
  renumbered_problem d nn q X X' Z Z' cells cells' -> conditions_renumbered nn d q p p' -> same_values nn d q F F' ->
  poses p y (nn * d) (fun U => elastostatic d pen col X U Z cells) F -> poses p' y' (nn * d) (fun U => elastostatic d pen col X' U Z' cells') F' ->
  solves_body p' y' (nn * d) (fun U => elastostatic d pen col X' U Z' cells') F' /\ same_values nn d q (solution p y) (solution p' y') /\
  elastic_energy d pen X' (solution p' y') Z' cells' = elastic_energy d pen X (solution p y) Z cells.
Proof.
  intros Y Y' p y p' y' d nn pen col q X X' Z Z' cells cells' F F' Hd Hm Hone Hres Hc HN (Hin & V & V' & HV & HV' & RV) RF P P'.
  pose proof (proj1 HN) as Hq. pose proof (proj2 (proj2 (proj2 HN))) as HC.
  pose proof (renumbered_mesh d nn q X X' cells cells' Hd Hq Hm (proj1 (proj2 HN)) HC) as Hm'.
  assert (RS : solves_body p' y' (nn * d) (fun U => elastostatic d pen col X' U Z' cells') F' /\ same_values nn d q (solution p y) (solution p' y')).
  { refine (solution_follows (nn * d) _ _ (fun U => elastostatic d pen col X U Z cells) (fun U => elastostatic d pen col X' U Z' cells') _ p p' y y' F F' V V' P P' _
      (numbering_corresponds nn d q _ _ Hq Hin) (C165_elastic Y p y d nn pen col X Z cells F Hd Hm Hone Hres Hc P) _ HV HV' RV RF).
    - intros U U' HU. exact (proj1 (proj2 (C160_elastic d nn pen col q X X' U U' Z Z' cells cells' Hd Hm HN HU))).
    - apply elastic_reciprocal; [exact Hd|exact Hm'|]. intros c' Hin'. destruct (renumbered_in d q cells cells' c' HC Hin') as (c & I & ->). apply (Hc c I).
    - intros U W Hs. apply (C162_elastic d nn pen col X U W Z cells (listed (bc_dofs p))); try assumption. intros c I. exact (proj2 (Hc c I)). }
  split; [exact (proj1 RS)|]. split; [exact (proj2 RS)|].
  exact (proj2 (proj2 (C160_elastic d nn pen col q X X' _ _ Z Z' cells cells' Hd Hm HN (proj2 RS)))).
Qed.
Print Assumptions C172_elastic_numbering.
(** The temperatures of a conducting body. *)
Theorem C172_heat_numbering : forall (Y Y' : Type) (p : problem R_ring Y) (y : Y) (p' : problem R_ring Y') (y' : Y') d nn pen q X X' Z Z' cells cells' F F',
  (1 <= d <= 3)%nat -> mesh_ok d nn X cells -> (forall n, (n < nn)%nat -> anchored d (map c_node cells) (listed (bc_dofs p)) n) ->
  (forall c, In c cells -> t_nonlinear (c_mat c) = false /\ symmetric d (t_cond_const (c_mat c)) /\ positive_form d (t_cond_const (c_mat c)) /\ solid d pen Z c) ->
  renumbered_problem d nn q X X' Z Z' cells cells' -> conditions_renumbered nn 1 q p p' -> same_values nn 1 q F F' ->
  poses p y nn (fun T => thermostatic d pen X T Z cells) F -> poses p' y' nn (fun T => thermostatic d pen X' T Z' cells') F' ->
  solves_body p' y' nn (fun T => thermostatic d pen X' T Z' cells') F' /\ same_values nn 1 q (solution p y) (solution p' y').
Proof.
  intros Y Y' p y p' y' d nn pen q X X' Z Z' cells cells' F F' Hd Hm Hanc Hc HN (Hin & V & V' & HV & HV' & RV) RF P P'.
  pose proof (proj1 HN) as Hq. pose proof (proj2 (proj2 (proj2 HN))) as HC.
  pose proof (renumbered_mesh d nn q X X' cells cells' Hd Hq Hm (proj1 (proj2 HN)) HC) as Hm'.
  pose proof (numbering_corresponds nn 1 q _ _ Hq Hin) as CO. rewrite Nat.mul_1_r in CO.
  refine (solution_follows nn _ _ (fun T => thermostatic d pen X T Z cells) (fun T => thermostatic d pen X' T Z' cells') _ p p' y y' F F' V V' P P' _
      CO (C165_heat Y p y d nn pen X Z cells F Hd Hm Hanc Hc P) _ HV HV' RV RF).
  - intros U U' HU. exact (proj1 (C160_heat d nn pen q X X' U U' U U' Z Z' cells cells' Hd Hm HN HU HU)).
  - apply symmetric_reciprocal. intros T S'. apply (C99_thermal d nn); [exact Hd|exact Hm'|]. intros c' Hin'.
    destruct (renumbered_in d q cells cells' c' HC Hin') as (c & I & ->). destruct (Hc c I) as (H1 & H2 & _). split; assumption.
  - intros T W Hs n Hn. apply (C162_heat d nn pen X T W Z cells (listed (bc_dofs p))); try assumption; [|apply Hanc; exact Hn]. intros c I. destruct (Hc c I) as (H1 & _ & H2). split; assumption.
Qed.
Print Assumptions C172_heat_numbering.
(** Displacements and potentials of a piezoelectric body. *)
Theorem C172_electroelastic_numbering : forall (Y Y' : Type) (p : problem R_ring Y) (y : Y) (p' : problem R_ring Y') (y' : Y') d nn pen q X X' Z Z' cells cells' F F',
  (1 <= d <= 3)%nat -> mesh_ok d nn X cells -> one_piece d nn (map c_node cells) ->
  restrains d nn (S d) X (listed (bc_dofs p)) -> (forall n, (n < nn)%nat -> anchored d (map c_node cells) (held_last d (listed (bc_dofs p))) n) ->
  (forall c, In c cells -> p_alpha (c_mat c) <> 0 /\ symmetric (num_voigt d) (p_stiff (c_mat c)) /\ positive_form (num_voigt d) (p_stiff (c_mat c)) /\
     symmetric d (p_perm (c_mat c)) /\ positive_form d (p_perm (c_mat c)) /\ solid d pen Z c) ->
  renumbered_problem d nn q X X' Z Z' cells cells' -> conditions_renumbered nn (S d) q p p' -> same_values nn (S d) q F F' ->
  poses p y (nn * S d) (fun U => electroelastostatic d pen X U Z cells) F -> poses p' y' (nn * S d) (fun U => electroelastostatic d pen X' U Z' cells') F' ->
  solves_body p' y' (nn * S d) (fun U => electroelastostatic d pen X' U Z' cells') F' /\ same_values nn (S d) q (solution p y) (solution p' y').
Proof.
  intros Y Y' p y p' y' d nn pen q X X' Z Z' cells cells' F F' Hd Hm Hone Hres Hanc Hc HN (Hin & V & V' & HV & HV' & RV) RF P P'.
  pose proof (proj1 HN) as Hq. pose proof (proj2 (proj2 (proj2 HN))) as HC.
  pose proof (renumbered_mesh d nn q X X' cells cells' Hd Hq Hm (proj1 (proj2 HN)) HC) as Hm'.
  refine (solution_follows (nn * S d) _ _ (fun U => electroelastostatic d pen X U Z cells) (fun U => electroelastostatic d pen X' U Z' cells') _ p p' y y' F F' V V' P P' _
      (numbering_corresponds nn (S d) q _ _ Hq Hin) (C165_electroelastic Y p y d nn pen X Z cells F Hd Hm Hone Hres Hanc Hc P) _ HV HV' RV RF).
  - intros U U' HU. exact (proj1 (C160_electroelastic d nn pen q X X' U U' Z Z' cells cells' Hd Hm HN HU)).
  - apply symmetric_reciprocal. intros T S'. apply (C99_electroelastic d nn); [exact Hd|exact Hm'|]. intros c' Hin'.
    destruct (renumbered_in d q cells cells' c' HC Hin') as (c & I & ->). destruct (Hc c I) as (_ & H1 & _ & H2 & _). split; assumption.
  - intros U W Hs. apply (C162_electroelastic d nn pen X U W Z cells (listed (bc_dofs p))); try assumption.
    intros c I. destruct (Hc c I) as (H1 & _ & H2 & _ & H3 & H4). repeat split; assumption.
Qed.
Print Assumptions C172_electroelastic_numbering.

(** ** C172: the frame *)
(** The body moved as a whole, its held nodes held in all directions: the displacements are turned with it. *)
Theorem C172_elastic_frame : forall (Y Y' : Type) (p : problem R_ring Y) (y : Y) (p' : problem R_ring Y') (y' : Y') d nn pen t Q X X' Z cells cells' F F',
  (1 <= d <= 3)%nat -> orthogonal d Q -> mesh_ok d nn X cells -> one_piece d nn (map c_node cells) -> restrains d nn d X (listed (bc_dofs p)) ->
  (forall c, In c cells -> symmetric (num_voigt d) (e_stiff (c_mat c)) /\ positive_form (num_voigt d) (e_stiff (c_mat c)) /\ solid d pen Z c) -> all_symmetric (num_voigt d) cells' ->
  placed d nn t Q X X' -> moved_cells (fun m m' => turned_law d Q (e_stiff m) (e_ref m) (e_stiff m') (e_ref m')) cells cells' ->
  conditions_turned d nn Q p p' -> carried d nn d Q F F' ->
  poses p y (nn * d) (fun U => elastostatic d pen None X U Z cells) F -> poses p' y' (nn * d) (fun U => elastostatic d pen None X' U Z cells') F' ->
  solves_body p' y' (nn * d) (fun U => elastostatic d pen None X' U Z cells') F' /\ carried d nn d Q (solution p y) (solution p' y') /\
  elastic_energy d pen X' (solution p' y') Z cells' = elastic_energy d pen X (solution p y) Z cells.
Proof.
  intros Y Y' p y p' y' d nn pen t Q X X' Z cells cells' F F' Hd HQ Hm Hone Hres Hc Hsy HP HC (Hin & V & V' & HV & HV' & RV) RF P P'.
  pose proof (moved_mesh d nn t Q X X' _ cells cells' Hd HQ Hm HP HC) as Hm'.
  assert (RS : solves_body p' y' (nn * d) (fun U => elastostatic d pen None X' U Z cells') F' /\ carried d nn d Q (solution p y) (solution p' y')).
  { refine (solution_follows (nn * d) _ _ (fun U => elastostatic d pen None X U Z cells) (fun U => elastostatic d pen None X' U Z cells') _ p p' y y' F F' V V' P P' _
      (turning_corresponds d nn Q _ _ HQ Hin) (C165_elastic Y p y d nn pen None X Z cells F Hd Hm Hone Hres Hc P) _ HV HV' RV RF).
    - intros U U' HU. exact (proj1 (proj2 (C159_elastic d nn pen t Q X X' U U' Z cells cells' Hd HQ Hm HP HU HC))).
    - apply elastic_reciprocal; assumption.
    - intros U W Hs. apply (C162_elastic d nn pen None X U W Z cells (listed (bc_dofs p))); try assumption. intros c I. exact (proj2 (Hc c I)). }
  split; [exact (proj1 RS)|]. split; [exact (proj2 RS)|].
  exact (proj2 (proj2 (C159_elastic d nn pen t Q X X' _ _ Z cells cells' Hd HQ Hm HP (proj2 RS) HC))).
Qed.
Print Assumptions C172_elastic_frame.
(** Temperatures do not see the frame. *)
Theorem C172_heat_frame : forall (Y Y' : Type) (p : problem R_ring Y) (y : Y) (p' : problem R_ring Y') (y' : Y') d nn pen t Q X X' Z cells cells' F F',
  (1 <= d <= 3)%nat -> orthogonal d Q -> mesh_ok d nn X cells -> (forall n, (n < nn)%nat -> anchored d (map c_node cells) (listed (bc_dofs p)) n) ->
  (forall c, In c cells -> t_nonlinear (c_mat c) = false /\ symmetric d (t_cond_const (c_mat c)) /\ positive_form d (t_cond_const (c_mat c)) /\ solid d pen Z c) ->
  placed d nn t Q X X' -> moved_cells (turned_conductor d Q) cells cells' -> conditions_scaled nn 1 p p' -> (forall k, (k < nn)%nat -> F' k = F k) ->
  poses p y nn (fun T => thermostatic d pen X T Z cells) F -> poses p' y' nn (fun T => thermostatic d pen X' T Z cells') F' ->
  solves_body p' y' nn (fun T => thermostatic d pen X' T Z cells') F' /\ forall k, (k < nn)%nat -> solution p' y' k = solution p y k.
Proof.
  intros Y Y' p y p' y' d nn pen t Q X X' Z cells cells' F F' Hd HQ Hm Hanc Hc HP HC (Hin & V & V' & HV & HV' & RV) RF P P'.
  pose proof (moved_mesh d nn t Q X X' _ cells cells' Hd HQ Hm HP HC) as Hm'.
  assert (RS : solves_body p' y' nn (fun T => thermostatic d pen X' T Z cells') F' /\ scaled_values nn 1 (solution p y) (solution p' y')).
  { refine (solution_follows nn _ _ (fun T => thermostatic d pen X T Z cells) (fun T => thermostatic d pen X' T Z cells') _ p p' y y' F F' V V' P P' _
      (scaling_corresponds nn 1 1 _ _ R1_neq_R0 R1_neq_R0 Hin) (C165_heat Y p y d nn pen X Z cells F Hd Hm Hanc Hc P) _ HV HV' RV _).
    - intros U U' HU. assert (K : kept nn 1 0 U U') by (intros n Hn; rewrite Nat.mul_1_r, Nat.add_0_r, (HU n Hn); ring).
      intros k Hk. destruct (C159_heat d nn pen t Q X X' U U' U U' Z cells cells' Hd HQ Hm HP K K HC) as (_ & E & _). specialize (E k Hk). rewrite Nat.mul_1_r, Nat.add_0_r in E. rewrite E. ring.
    - apply symmetric_reciprocal. intros T S'. apply (C99_thermal d nn); [exact Hd|exact Hm'|]. intros c' Hin'.
      destruct (moved_in _ cells cells' c' HC Hin') as (c & I & T1 & _ & _ & _ & T2). destruct (Hc c I) as (H1 & H2 & _). split; [congruence|].
      intros i j Hi Hj. rewrite (proj1 (T2 i j Hi Hj)), (proj1 (T2 j i Hj Hi)). unfold turn_tensor, rs. rewrite rsum_swap. apply rsum_ext. intros k Hk. apply rsum_ext. intros l Hl. rewrite (H2 l k Hl Hk). req. ring.
    - intros T W Hs n Hn. apply (C162_heat d nn pen X T W Z cells (listed (bc_dofs p))); try assumption; [|apply Hanc; exact Hn]. intros c I. destruct (Hc c I) as (H1 & _ & H2). split; assumption.
    - intros k Hk. rewrite (RF k Hk). real_goal. ring. }
  split; [exact (proj1 RS)|]. intros k Hk. rewrite (proj2 RS k Hk). real_goal. ring.
Qed.
Print Assumptions C172_heat_frame.

(** ** C172: the units *)
(** Lengths in units 1/s, moduli k times larger: displacements come in the new unit of length when the loads come in the new unit of force. *)
Theorem C172_units : forall (Y Y' : Type) (p : problem R_ring Y) (y : Y) (p' : problem R_ring Y') (y' : Y') d nn pen s k X X' Z cells cells' F F',
  (1 <= d <= 3)%nat -> 0 < s -> k <> 0 -> mesh_ok d nn X cells -> one_piece d nn (map c_node cells) -> restrains d nn d X (listed (bc_dofs p)) ->
  (forall c, In c cells -> symmetric (num_voigt d) (e_stiff (c_mat c)) /\ positive_form (num_voigt d) (e_stiff (c_mat c)) /\ solid d pen Z c) ->
  scaled_places d nn s X X' -> moved_cells (stiffer d k) cells cells' -> conditions_scaled (nn * d) s p p' -> scaled_values (nn * d) (k * s ^ (d - 1)) F F' ->
  poses p y (nn * d) (fun U => elastostatic d pen None X U Z cells) F -> poses p' y' (nn * d) (fun U => elastostatic d pen None X' U Z cells') F' ->
  solves_body p' y' (nn * d) (fun U => elastostatic d pen None X' U Z cells') F' /\ scaled_values (nn * d) s (solution p y) (solution p' y').
Proof.
  intros Y Y' p y p' y' d nn pen s k X X' Z cells cells' F F' Hd Hs Hk Hm Hone Hres Hc HX HC (Hin & V & V' & HV & HV' & RV) RF P P'.
  assert (Z0 : scaled_values (nn * d) s (fun _ => 0) (fun _ => 0)) by (intros j _; ring).
  pose proof (proj1 (C161_elastic d nn pen s k X X' _ _ Z cells cells' Hd Hs Hm HX Z0 HC)) as Hm'.
  refine (solution_follows (nn * d) _ _ (fun U => elastostatic d pen None X U Z cells) (fun U => elastostatic d pen None X' U Z cells') _ p p' y y' F F' V V' P P' _
      (scaling_corresponds (nn * d) s (k * s ^ (d - 1)) _ _ _ _ Hin) (C165_elastic Y p y d nn pen None X Z cells F Hd Hm Hone Hres Hc P) _ HV HV' RV RF).
  - intros U U' HU. exact (proj1 (proj2 (C161_elastic d nn pen s k X X' U U' Z cells cells' Hd Hs Hm HX HU HC))).
  - apply elastic_reciprocal; [exact Hd|exact Hm'|]. intros c' Hin'. destruct (moved_in _ cells cells' c' HC Hin') as (c & I & T1 & _). destruct (Hc c I) as (H1 & _).
    intros i j Hi Hj. rewrite <- components_voigt in Hi, Hj by exact Hd. rewrite !T1 by assumption. rewrite components_voigt in Hi, Hj by exact Hd. rewrite (H1 i j Hi Hj). reflexivity.
  - lra.
  - apply Rmult_integral_contrapositive_currified; [exact Hk|]. apply pow_nonzero. lra.
  - intros U W Hq. apply (C162_elastic d nn pen None X U W Z cells (listed (bc_dofs p))); try assumption. intros c I. exact (proj2 (Hc c I)).
Qed.
Print Assumptions C172_units.

(** ** C173: superposition and reciprocity *)
(** Supported bodies without reference strains: n entries, internal forces, held entries. *)
Inductive supported_body : nat -> ((nat -> R) -> nat -> R) -> (nat -> bool) -> Prop :=
| elastic_body d nn pen X Z cells held : (1 <= d <= 3)%nat -> mesh_ok d nn X cells -> one_piece d nn (map c_node cells) -> restrains d nn d X held -> no_reference d cells ->
    (forall c, In c cells -> symmetric (num_voigt d) (e_stiff (c_mat c)) /\ positive_form (num_voigt d) (e_stiff (c_mat c)) /\ solid d pen Z c) ->
    supported_body (nn * d) (fun U => elastostatic d pen None X U Z cells) held
| conducting_body d nn pen X Z cells held : (1 <= d <= 3)%nat -> mesh_ok d nn X cells -> (forall n, (n < nn)%nat -> anchored d (map c_node cells) held n) ->
    (forall c, In c cells -> t_nonlinear (c_mat c) = false /\ symmetric d (t_cond_const (c_mat c)) /\ positive_form d (t_cond_const (c_mat c)) /\ solid d pen Z c) ->
    supported_body nn (fun T => thermostatic d pen X T Z cells) held
| piezoelectric_body d nn pen X Z cells held : (1 <= d <= 3)%nat -> mesh_ok d nn X cells -> one_piece d nn (map c_node cells) ->
    restrains d nn (S d) X held -> (forall n, (n < nn)%nat -> anchored d (map c_node cells) (held_last d held) n) ->
    (forall c, In c cells -> p_alpha (c_mat c) <> 0 /\ symmetric (num_voigt d) (p_stiff (c_mat c)) /\ positive_form (num_voigt d) (p_stiff (c_mat c)) /\
       symmetric d (p_perm (c_mat c)) /\ positive_form d (p_perm (c_mat c)) /\ solid d pen Z c) ->
    supported_body (nn * S d) (fun U => electroelastostatic d pen X U Z cells) held.
Lemma body_symmetric n val held : supported_body n val held -> forall U W, work n (val U) W = work n (val W) U.
Proof.
  intros B U W. destruct B as [d nn pen X Z cells held Hd Hm _ _ Hr Hc|d nn pen X Z cells held Hd Hm _ Hc|d nn pen X Z cells held Hd Hm _ _ _ Hc].
  - apply C99_elastic; try assumption. intros c I. apply (Hc c I).
  - apply C99_thermal; try assumption. intros c I. destruct (Hc c I) as (H1 & H2 & _). split; assumption.
  - apply C99_electroelastic; try assumption. intros c I. destruct (Hc c I) as (_ & H1 & _ & H2 & _). split; assumption.
Qed.
Lemma body_solves {Y} (p : problem R_ring Y) y n val F : supported_body n val (listed (bc_dofs p)) -> poses p y n val F -> solves_body p y n val F.
Proof.
  intros B P. remember (listed (bc_dofs p)) as held eqn:E. destruct B; subst held.
  - apply C165_elastic; assumption.
  - apply C165_heat; assumption.
  - apply C165_electroelastic; assumption.
Qed.
Lemma body_linear n val held a b U W k : supported_body n val held -> (k < n)%nat -> val (fun j => a * U j + b * W j) k = a * val U k + b * val W k.
Proof.
  intros B Hk. pose proof (body_symmetric n val held B) as HS. pose proof (reciprocal_affine n val (symmetric_reciprocal n val HS)) as HA.
  assert (Z0 : val zero k = 0).
  { rewrite <- (work_unit n (val zero) k Hk), HS. unfold work, rs. apply rsum_0. intros. req. ring. }
  rewrite (HA _ k Hk), (HA U k Hk), (HA W k Hk), Z0.
  rewrite (rsum_ext n _ (fun j => a * (SolveProof.stiffness val k j * U j) + b * (SolveProof.stiffness val k j * W j))) by (intros; req; ring).
  rewrite rsum_add, !rsum_scal_l. real_goal. req. ring.
Qed.
(** Loads and prescribed values combined with factors a and b give the combined solution. *)
Theorem C173_superposition : forall (Y1 Y2 Y : Type) (p1 : problem R_ring Y1) (p2 : problem R_ring Y2) (p : problem R_ring Y) y1 y2 y n val F1 F2 F a b V1 V2 V,
  supported_body n val (listed (bc_dofs p1)) -> supported_body n val (listed (bc_dofs p2)) -> supported_body n val (listed (bc_dofs p)) ->
  poses p1 y1 n val F1 -> poses p2 y2 n val F2 -> poses p y n val F ->
  (forall k, (k < n)%nat -> F k = a * F1 k + b * F2 k) ->
  (forall k, (k < n)%nat -> (In k (bc_dofs p) <-> In k (bc_dofs p1)) /\ (In k (bc_dofs p) <-> In k (bc_dofs p2))) ->
  takes (bc_dofs p1) (bc_vals p1) V1 -> takes (bc_dofs p2) (bc_vals p2) V2 -> takes (bc_dofs p) (bc_vals p) V -> (forall k, (k < n)%nat -> V k = a * V1 k + b * V2 k) ->
  forall k, (k < n)%nat -> solution p y k = a * solution p1 y1 k + b * solution p2 y2 k.
Proof.
  intros Y1 Y2 Y p1 p2 p y1 y2 y n val F1 F2 F a b V1 V2 V B1 B2 B P1 P2 P HF Hh T1 T2 T HV k Hk.
  destruct (body_solves p1 y1 n val F1 B1 P1) as [[D1 E1] _]. destruct (body_solves p2 y2 n val F2 B2 P2) as [[D2 E2] _]. destruct (body_solves p y n val F B P) as [_ U].
  symmetry. apply (U (fun j => a * solution p1 y1 j + b * solution p2 y2 j)); [|exact Hk]. clear k Hk.
  destruct (ps_conditions _ _ _ _ _ P1) as (L1 & _ & _). destruct (ps_conditions _ _ _ _ _ P2) as (L2 & _ & _). destruct (ps_conditions _ _ _ _ _ P) as (L & _ & Lt). split.
  - intros k v I. pose proof (in_combine_l _ _ _ _ I) as Hin. pose proof (Lt k Hin) as Hk. destruct (Hh k Hk) as [H1 H2].
    rewrite (takes_listed (bc_dofs p1) (bc_vals p1) (solution p1 y1) V1 k L1 D1 T1 (proj1 H1 Hin)), (takes_listed (bc_dofs p2) (bc_vals p2) (solution p2 y2) V2 k L2 D2 T2 (proj1 H2 Hin)), <- (HV k Hk). exact (T k v I).
  - intros k Hk Hni. destruct (Hh k Hk) as [H1 H2]. rewrite (body_linear n val _ a b _ _ k B Hk).
    rewrite (E1 k Hk) by (intros I; apply Hni; apply H1; exact I). rewrite (E2 k Hk) by (intros I; apply Hni; apply H2; exact I). symmetry. exact (HF k Hk).
Qed.
Print Assumptions C173_superposition.
(** Two loads on the same body, held entries at zero: the work of the first load on the second solution is that of the second load on the first solution. *)
Theorem C173_reciprocity : forall (Y1 Y2 : Type) (p1 : problem R_ring Y1) (p2 : problem R_ring Y2) y1 y2 n val F1 F2,
  supported_body n val (listed (bc_dofs p1)) -> supported_body n val (listed (bc_dofs p2)) -> poses p1 y1 n val F1 -> poses p2 y2 n val F2 ->
  (forall k, (k < n)%nat -> (In k (bc_dofs p1) <-> In k (bc_dofs p2))) ->
  takes (bc_dofs p1) (bc_vals p1) (fun _ => 0) -> takes (bc_dofs p2) (bc_vals p2) (fun _ => 0) ->
  work n F1 (solution p2 y2) = work n F2 (solution p1 y1).
Proof.
  intros Y1 Y2 p1 p2 y1 y2 n val F1 F2 B1 B2 P1 P2 Hh T1 T2.
  destruct (body_solves p1 y1 n val F1 B1 P1) as [[D1 E1] _]. destruct (body_solves p2 y2 n val F2 B2 P2) as [[D2 E2] _].
  destruct (ps_conditions _ _ _ _ _ P1) as (L1 & _ & _). destruct (ps_conditions _ _ _ _ _ P2) as (L2 & _ & _).
  transitivity (work n (val (solution p1 y1)) (solution p2 y2)); [|rewrite (body_symmetric n val _ B1)]; unfold work, rs; apply rsum_ext; intros k Hk.
  - destruct (in_dec Nat.eq_dec k (bc_dofs p2)) as [I|I].
    + rewrite (takes_listed _ _ (solution p2 y2) (fun _ => 0) k L2 D2 T2 I). req. ring.
    + rewrite (E1 k Hk) by (intros J; apply I; apply (Hh k Hk); exact J). reflexivity.
  - destruct (in_dec Nat.eq_dec k (bc_dofs p1)) as [I|I].
    + rewrite (takes_listed _ _ (solution p1 y1) (fun _ => 0) k L1 D1 T1 I). req. ring.
    + rewrite (E2 k Hk) by (intros J; apply I; apply (Hh k Hk); exact J). reflexivity.
Qed.
Print Assumptions C173_reciprocity.

(** ** The hypotheses met *)
(** A bar with one end moved by v and loads F; g is its stiffness. *)
Definition bar_case (X : nat -> nat -> R) (m : elastic) (g : R) (held : nat) (v : R) (F : nat -> R) : problem R_ring Datatypes.unit :=
  mkProblem (K := R_ring) (Z := Datatypes.unit) 2 1 (fun _ => false) (fun _ => false) [held] [v] false (solver2 (K := R_field))
    (mkPde (K := R_ring) (Z := Datatypes.unit) (fun U _ k => elastostatic 1 (fun x => x) None X U (fun _ => 1) (bar m) k - F k)
      (fun _ _ i j => if Nat.eqb i j then g else - g) (fun _ _ i j => if Nat.eqb i j then g else - g) (fun _ _ _ _ => 0) (fun _ _ _ _ => 0)).
Lemma bar_poses X m g held v F : (held < 2)%nat ->
  (forall U k, (k < 2)%nat -> elastostatic 1 (fun x => x) None X U (fun _ => 1) (bar m) k = g * (U 1%nat - U 0%nat) * (if Nat.eqb k 1 then 1 else -1)) ->
  poses (bar_case X m g held v F) tt 2 (fun U => elastostatic 1 (fun x => x) None X U (fun _ => 1) (bar m)) F.
Proof.
  intros Hh B. split; try reflexivity.
  - intros U i j Hi Hj. cbn [the_pde bar_case p_value p_gradient_u].
    apply (affine_derivative _ (g * (U 1%nat - U 0%nat) * (if Nat.eqb i 1 then 1 else -1) - F i)). intros t. rewrite B by exact Hi.
    destruct i as [|[|i]]; try lia; destruct j as [|[|j]]; try lia; unfold moved; cbn; ring.
  - apply (solver2_ok (K := R_field)).
  - split; [reflexivity|]. split; [repeat constructor; intros []|]. intros k [<-|[]]. exact Hh.
  - cbn. lia.
  - left. reflexivity.
Qed.
Lemma rod_forces U k : (k < 2)%nat -> elastostatic 1 (fun x => x) None bar_X U (fun _ => 1) (bar rod) k = 2 * (U 1%nat - U 0%nat) * (if Nat.eqb k 1 then 1 else -1).
Proof. intros Hk. rewrite bar_loaded by exact Hk. ring. Qed.
Definition swap (n : nat) : nat := match n with 0%nat => 1%nat | 1%nat => 0%nat | _ => n end.
Definition swapped_X (n i : nat) : R := bar_X (swap n) i.
Lemma rod_swapped : renumbered_problem 1 2 swap bar_X swapped_X (fun _ => 1) (fun _ => 1) (bar rod) (bar rod).
Proof.
  split; [split; [intros [|[|n]] H; cbn; lia|intros [|[|n]] [|[|k]] H1 H2; cbn; lia]|].
  split; [intros [|[|n]] i H _; try lia; reflexivity|]. split; [intros n i _ _; reflexivity|].
  exists (bar rod). split; [apply Permutation_refl|]. repeat constructor. exists (fun a => 1 - a)%nat, (fun a => 1 - a)%nat. split; [intros a Ha; lia|].
  intros [|[|a]] Ha; try lia; reflexivity.
Qed.
Lemma swapped_forces U k : (k < 2)%nat -> elastostatic 1 (fun x => x) None swapped_X U (fun _ => 1) (bar rod) k = 2 * (U 1%nat - U 0%nat) * (if Nat.eqb k 1 then 1 else -1).
Proof.
  intros Hk. assert (S : same_values 2 1 swap (fun k => U (swap k)) U) by (intros [|[|n]] [|i] Hn Hi; try lia; reflexivity).
  destruct (C160_elastic 1 2 (fun x => x) None swap bar_X swapped_X _ U (fun _ => 1) (fun _ => 1) (bar rod) (bar rod) ltac:(lia) (bar_ok rod) rod_swapped S) as (_ & E & _).
  destruct k as [|[|k]]; try lia.
  - pose proof (E 1%nat 0%nat ltac:(lia) ltac:(lia)) as E1. cbn [swap Nat.mul Nat.add] in E1. rewrite E1, rod_forces by lia. cbn [swap Nat.eqb]. real_goal. ring.
  - pose proof (E 0%nat 0%nat ltac:(lia) ltac:(lia)) as E1. cbn [swap Nat.mul Nat.add] in E1. rewrite E1, rod_forces by lia. cbn [swap Nat.eqb]. real_goal. ring.
Qed.
(** The bar at rest on a support at its left end. *)
Lemma rod_supported : mesh_ok 1 2 bar_X (bar rod) /\ one_piece 1 2 (map c_node (bar rod)) /\ restrains 1 2 1 bar_X (listed [0%nat]) /\
  (forall c, In c (bar rod) -> symmetric (num_voigt 1) (e_stiff (c_mat c)) /\ positive_form (num_voigt 1) (e_stiff (c_mat c)) /\ solid 1 (fun x => x) (fun _ => 1) c).
Proof. destruct C165_case as (H1 & H2 & H3 & H4 & _). split; [exact H1|]. split; [exact H2|]. split; [exact H3|exact H4]. Qed.
(** Numbering: the left end, now node 1, moved by 1 and the right end, now node 0, pulled by 1. *)
Definition pull_swapped (k : nat) : R := pull (swap k).
Example C172_case : renumbered_problem 1 2 swap bar_X swapped_X (fun _ => 1) (fun _ => 1) (bar rod) (bar rod) /\
  conditions_renumbered 2 1 swap (bar_case bar_X rod 2 0 1 pull) (bar_case swapped_X rod 2 1 1 pull_swapped) /\ same_values 2 1 swap pull pull_swapped /\
  poses (bar_case bar_X rod 2 0 1 pull) tt 2 (fun U => elastostatic 1 (fun x => x) None bar_X U (fun _ => 1) (bar rod)) pull /\
  poses (bar_case swapped_X rod 2 1 1 pull_swapped) tt 2 (fun U => elastostatic 1 (fun x => x) None swapped_X U (fun _ => 1) (bar rod)) pull_swapped /\
  solution (bar_case swapped_X rod 2 1 1 pull_swapped) tt 0%nat = 3 / 2.
Proof.
  split; [apply rod_swapped|]. split.
  { split.
    - intros [|[|n]] [|i] Hn Hi; try lia; cbn; split; intros H; try (left; reflexivity); destruct H as [H|[]]; discriminate.
    - exists (fun _ => 1), (fun _ => 1). split; [intros k v [E|[]]; congruence|]. split; [intros k v [E|[]]; congruence|]. intros n i _ _; reflexivity. }
  split; [intros [|[|n]] [|i] Hn Hi; try lia; reflexivity|].
  split; [apply bar_poses; [lia|exact rod_forces]|]. split; [apply bar_poses; [lia|exact swapped_forces]|].
  unfold solution, newton. cbn [newton_steps bar_case the_pde p_value p_gradient_u lin_solve bc_dofs bc_vals].
  unfold solver2, bc_matrix, constrained_matrix, bc_rhs, prescribed, constrained. cbn -[elastostatic]. rewrite !swapped_forces by lia. cbn. field.
Qed.
(** Frame: the bar reflected and moved, with the same support; units: ten times longer and three times stiffer. *)
Definition mirror (i j : nat) : R := -1.
Definition mirrored_X (n i : nat) : R := 5 - bar_X n i.
Lemma mirror_orthogonal : orthogonal 1 mirror.
Proof. intros [|i] [|j] Hi Hj; try lia. unfold rs. rsums. unfold mirror, delta. cbn. split; ring. Qed.
Lemma mirror_placed : placed 1 2 (fun _ => 5) mirror bar_X mirrored_X.
Proof. intros n [|i] Hn Hi; try lia. unfold turn, rs. rsums. unfold mirror, mirrored_X. ring. Qed.
Lemma rod_turned : moved_cells (fun m m' => turned_law 1 mirror (e_stiff m) (e_ref m) (e_stiff m') (e_ref m')) (bar rod) (bar rod).
Proof.
  apply same_cells. intros c [<-|[]]. intros e e' He [|i] [|j] Hi Hj; try lia. pose proof (He 0%nat 0%nat ltac:(lia) ltac:(lia)) as E.
  revert E. unfold as_stress, as_strain, law, turn_tensor, position, components, rs, mirror. cbn [Nat.eqb Nat.div Nat.mul Nat.add Nat.divmod fst snd]. rsums. cbn. intros E. rewrite E. ring.
Qed.
Lemma mirrored_forces U k : (k < 2)%nat -> elastostatic 1 (fun x => x) None mirrored_X U (fun _ => 1) (bar rod) k = 2 * (U 1%nat - U 0%nat) * (if Nat.eqb k 1 then 1 else -1).
Proof.
  intros Hk. assert (S : carried 1 2 1 mirror (fun k => - U k) U) by (intros n [|i] Hn Hi; try lia; unfold turn, rs; rsums; unfold mirror; ring).
  destruct (C159_elastic 1 2 (fun x => x) (fun _ => 5) mirror bar_X mirrored_X _ U (fun _ => 1) (bar rod) (bar rod) ltac:(lia) mirror_orthogonal (bar_ok rod) mirror_placed S rod_turned) as (_ & E & _).
  specialize (E k 0%nat Hk ltac:(lia)). rewrite Nat.mul_1_r, Nat.add_0_r in E. rewrite E. unfold turn, rs. rsums. rewrite Nat.add_0_r, rod_forces by exact Hk. unfold mirror. real_goal. ring.
Qed.
Example C172_frame_case : conditions_turned 1 2 mirror (bar_case bar_X rod 2 0 1 pull) (bar_case mirrored_X rod 2 0 (-1) (fun k => - pull k)) /\
  carried 1 2 1 mirror pull (fun k => - pull k) /\ all_symmetric (num_voigt 1) (bar rod) /\
  poses (bar_case mirrored_X rod 2 0 (-1) (fun k => - pull k)) tt 2 (fun U => elastostatic 1 (fun x => x) None mirrored_X U (fun _ => 1) (bar rod)) (fun k => - pull k).
Proof.
  split.
  { split.
    - intros [|[|n]] [|i] [|j] Hn Hi Hj; try lia; cbn; split; intros H; try (left; reflexivity); destruct H as [H|[]]; discriminate.
    - exists (fun _ => 1), (fun _ => -1). split; [intros k v [E|[]]; congruence|]. split; [intros k v [E|[]]; congruence|].
      intros n [|i] _ Hi; try lia. unfold turn, rs. rsums. unfold mirror. ring. }
  split; [intros n [|i] Hn Hi; try lia; unfold turn, rs; rsums; unfold mirror; ring|].
  split; [intros c [<-|[]] i j _ _; reflexivity|]. apply bar_poses; [lia|exact mirrored_forces].
Qed.
Definition long_X (n i : nat) : R := 10 * bar_X n i.
Definition stiff_rod : elastic := mkElastic (fun _ _ => 6) (fun _ => 0).
Lemma long_places : scaled_places 1 2 10 bar_X long_X.
Proof. intros n i _ _; reflexivity. Qed.
Lemma rod_stiffer : moved_cells (stiffer 1 3) (bar rod) (bar stiff_rod).
Proof. repeat constructor; cbn; intros; lra. Qed.
Lemma long_forces U k : (k < 2)%nat -> elastostatic 1 (fun x => x) None long_X U (fun _ => 1) (bar stiff_rod) k = 6 / 10 * (U 1%nat - U 0%nat) * (if Nat.eqb k 1 then 1 else -1).
Proof.
  intros Hk. assert (S : scaled_values (2 * 1) 10 (fun k => U k / 10) U) by (intros j _; field).
  destruct (C161_elastic 1 2 (fun x => x) 10 3 bar_X long_X _ U (fun _ => 1) (bar rod) (bar stiff_rod) ltac:(lia) ltac:(lra) (bar_ok rod) long_places S rod_stiffer) as (_ & E & _).
  rewrite (E k Hk), rod_forces by exact Hk. cbn [Nat.sub pow]. real_goal. field.
Qed.
Example C172_units_case : conditions_scaled (2 * 1) 10 (bar_case bar_X rod 2 0 1 pull) (bar_case long_X stiff_rod (6 / 10) 0 10 (fun k => 3 * 10 ^ (1 - 1) * pull k)) /\
  poses (bar_case long_X stiff_rod (6 / 10) 0 10 (fun k => 3 * 10 ^ (1 - 1) * pull k)) tt 2 (fun U => elastostatic 1 (fun x => x) None long_X U (fun _ => 1) (bar stiff_rod)) (fun k => 3 * 10 ^ (1 - 1) * pull k).
Proof.
  split.
  { split; [intros k _; reflexivity|]. exists (fun _ => 1), (fun _ => 10). split; [intros k v [E|[]]; congruence|]. split; [intros k v [E|[]]; congruence|]. intros k _; ring. }
  apply bar_poses; [lia|exact long_forces].
Qed.
(** Two loads on the supported bar. *)
Example C173_case : supported_body 2 (fun U => elastostatic 1 (fun x => x) None bar_X U (fun _ => 1) (bar rod)) (listed (bc_dofs (bar_case bar_X rod 2 0 0 pull))) /\
  poses (bar_case bar_X rod 2 0 0 pull) tt 2 (fun U => elastostatic 1 (fun x => x) None bar_X U (fun _ => 1) (bar rod)) pull /\
  poses (bar_case bar_X rod 2 0 0 (fun k => 4 * pull k)) tt 2 (fun U => elastostatic 1 (fun x => x) None bar_X U (fun _ => 1) (bar rod)) (fun k => 4 * pull k) /\
  takes (bc_dofs (bar_case bar_X rod 2 0 0 pull)) (bc_vals (bar_case bar_X rod 2 0 0 pull)) (fun _ => 0) /\
  work 2 pull (solution (bar_case bar_X rod 2 0 0 (fun k => 4 * pull k)) tt) = 2.
Proof.
  destruct rod_supported as (H1 & H2 & H3 & H4).
  split; [apply (elastic_body 1 2 (fun x => x) bar_X (fun _ => 1) (bar rod)); try assumption; [lia|intros c v [<-|[]] _; reflexivity]|].
  split; [apply bar_poses; [lia|exact rod_forces]|]. split; [apply bar_poses; [lia|exact rod_forces]|]. split; [intros k v [E|[]]; congruence|].
  unfold work, rs. rsums. unfold solution, newton. cbn [newton_steps bar_case the_pde p_value p_gradient_u lin_solve bc_dofs bc_vals].
  unfold solver2, bc_matrix, constrained_matrix, bc_rhs, prescribed, constrained. cbn -[elastostatic]. rewrite !rod_forces by lia. cbn. field.
Qed.
