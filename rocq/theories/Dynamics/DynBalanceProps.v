(** C171 in full: the energy of a computed motion under loads, and the first step. *)
From Coq Require Import Reals List Arith Bool Lia Lra.
From Verif Require Import Base.Field Base.Sums Base.Res BC.ConstraintsSpec BC.ConstraintsMain Element.ElementModel Element.ElementSpec Element.ElementProof Element.ElementProps
  Penalty.PenaltyModel Residual.Kernel Residual.ResidualModel Residual.ResidualSpec Residual.ResidualProof Residual.ResidualProps Residual.ResidualEnergyProps
  Residual.SupportSpec Residual.SupportProof Residual.SupportProps Residual.PotentialProps Residual.SolveSpec Residual.SolveProof Residual.Gauss
  Problem.DenseBC Problem.EllipticProof Problem.HyperbolicModel Problem.HyperbolicSpec Problem.HyperbolicProof Problem.HyperbolicProps
  Dynamics.DynModel Dynamics.DynSpec Dynamics.DynProof Dynamics.DynProps Dynamics.DynEnergyProps Dynamics.DynStepProps.
Import ListNotations.
Local Open Scope R_scope.

Lemma dissipation_nonneg d nn pen X Z cells V : moving_body d nn pen X Z cells -> 0 <= dissipation d pen X Z cells V.
Proof.
  intros B. unfold dissipation. apply sum_over_nonneg. intros c Hc. destruct (mo_cells _ _ _ _ _ _ B c Hc) as (_ & HP & Hr & Ha & Hrb & _). pose proof (weight_pos d nn pen X Z cells B c Hc) as W.
  pose proof (squares_nonneg d (fun i => mean_of d V c i)) as Sq. pose proof (positive_nonneg _ _ (strain_of d X V c) HP) as Pn. rewrite <- (stiff_flip d) in Pn.
  unfold mass_of. apply Rplus_le_le_0_compat; (apply Rmult_le_pos; [apply Rmult_le_pos; [lra|]|assumption]); [apply Rmult_le_pos; lra|lra].
Qed.
Lemma held_value (l : list nat) (vs : list R) i : length l = length vs -> In i l -> exists v, In (i, v) (combine l vs).
Proof.
  revert vs. induction l as [|x l IH]; intros vs Hl I; [contradiction|]. destruct vs as [|v vs]; [discriminate|].
  destruct I as [->|I]; [exists v; left; reflexivity|]. destruct (IH vs) as (w & J); [injection Hl as Hl; exact Hl|exact I|]. exists w. right. exact J.
Qed.
(** Average acceleration, supports held where they are and where they start: each step, the first one included, adds the work of the mean load and takes what damping
    takes at the mean velocity, which is never negative.  At the start the load is the one the initial state would be in balance with. *)
Theorem C171_energy : forall (Y : Type) (p : hproblem R_field Y) (y : Y) (stored : hhistory R_field) d nn pen X Z cells F bc, moving_body d nn pen X Z cells ->
  poses_motion p y (nn * d) (fun U V A => elastodynamic d pen X U V A Z cells) F -> (forall t, hq_bcs p t = bc) -> steady d nn X cells (listed (fst bc)) ->
  (forall i v, In (i, v) (combine (fst bc) (snd bc)) -> hq_init_u p i = v) ->
  hq_gamma p = (1 / 2)%R -> hq_beta p = (1 / 4)%R ->
  let E k := total_energy d pen X Z cells (hu (hsolution p y stored k)) (hv (hsolution p y stored k)) in
  let load k := match k with O => elastodynamic d pen X (hq_init_u p) (hq_init_v p) (hq_init_a p) Z cells | S _ => F (times (K := R_field) k (hq_dt p)) end in
  forall k, (1 <= k < hq_steps p)%nat -> let V := mid (hv (hsolution p y stored (k - 1)%nat)) (hv (hsolution p y stored k)) in
  E k = E (k - 1)%nat + work (nn * d) (mid (load (k - 1)%nat) (load k)) (fun i => hu (hsolution p y stored k) i - hu (hsolution p y stored (k - 1)%nat) i)
        - hq_dt p * dissipation d pen X Z cells V /\ 0 <= dissipation d pen X Z cells V.
Proof.
  intros Y p y stored d nn pen X Z cells F bc B P Hbc Hst HI Hg Hb E load k Hk V. pose proof (mo_dim _ _ _ _ _ _ B) as Hd. pose proof (mo_mesh _ _ _ _ _ _ B) as Hm.
  assert (HS : symmetric_laws d cells) by (intros c Hc; apply (mo_cells _ _ _ _ _ _ B c Hc)).
  assert (SD : forall t, steady d nn X cells (listed (fst (hq_bcs p t)))) by (intros t; rewrite Hbc; exact Hst).
  destruct (pm_conditions _ _ _ _ _ P 0) as (Hl & _ & _). rewrite Hbc in Hl.
  assert (St : forall j, (j < hq_steps p)%nat -> (forall i v, In (i, v) (combine (fst bc) (snd bc)) -> hu (hsolution p y stored j) i = v) /\
     (forall i, (i < nn * d)%nat -> ~ In i (fst bc) -> elastodynamic d pen X (hu (hsolution p y stored j)) (hv (hsolution p y stored j)) (ha (hsolution p y stored j)) Z cells i = load j i)).
  { intros [|j] Hj; [rewrite hsolution_init; split; [exact HI|reflexivity]|].
    destruct (C170_steps Y p y stored d nn pen X Z cells F B P SD (S j) ltac:(lia)) as [(_ & V1 & Q1) _]. rewrite Hbc in V1, Q1. split; [exact V1|exact Q1]. }
  destruct (C170_steps Y p y stored d nn pen X Z cells F B P SD k Hk) as [(N1 & _ & _) _]. rewrite Hg, Hb in N1.
  destruct (St k ltac:(lia)) as [V1 Q1]. destruct (St (k - 1)%nat ltac:(lia)) as [V0 Q0]. clear St.
  split; [|exact (dissipation_nonneg d nn pen X Z cells V B)].
  pose proof (C121_step d nn pen X Z cells (hq_dt p) _ _ Hd Hm HS N1) as S.
  assert (W0 : work (nn * d) (mid (elastodynamic d pen X (hu (hsolution p y stored (k - 1)%nat)) (hv (hsolution p y stored (k - 1)%nat)) (ha (hsolution p y stored (k - 1)%nat)) Z cells)
        (elastodynamic d pen X (hu (hsolution p y stored k)) (hv (hsolution p y stored k)) (ha (hsolution p y stored k)) Z cells)) (fun i => hu (hsolution p y stored k) i - hu (hsolution p y stored (k - 1)%nat) i)
     = work (nn * d) (mid (load (k - 1)%nat) (load k)) (fun i => hu (hsolution p y stored k) i - hu (hsolution p y stored (k - 1)%nat) i)).
  { unfold work, rs. apply rsum_ext. intros i Hi. destruct (in_dec Nat.eq_dec i (fst bc)) as [I|No].
    - destruct (held_value _ _ i (eq_sym Hl) I) as (v & J). rewrite (V0 i v J), (V1 i v J). req. ring.
    - unfold mid. rewrite (Q0 i Hi No), (Q1 i Hi No). reflexivity. }
  rewrite W0 in S. unfold E, V. lra.
Qed.
(** No loads and a start in balance: the energy never exceeds that of the start. *)
Theorem C171_never_gains : forall (Y : Type) (p : hproblem R_field Y) (y : Y) (stored : hhistory R_field) d nn pen X Z cells bc, moving_body d nn pen X Z cells ->
  poses_motion p y (nn * d) (fun U V A => elastodynamic d pen X U V A Z cells) (fun _ _ => 0) -> (forall t, hq_bcs p t = bc) -> steady d nn X cells (listed (fst bc)) ->
  (forall i v, In (i, v) (combine (fst bc) (snd bc)) -> hq_init_u p i = v) ->
  (forall i, (i < nn * d)%nat -> ~ In i (fst bc) -> elastodynamic d pen X (hq_init_u p) (hq_init_v p) (hq_init_a p) Z cells i = 0) ->
  hq_gamma p = (1 / 2)%R -> hq_beta p = (1 / 4)%R ->
  forall k, (k < hq_steps p)%nat ->
  total_energy d pen X Z cells (hu (hsolution p y stored k)) (hv (hsolution p y stored k)) <= total_energy d pen X Z cells (hq_init_u p) (hq_init_v p).
Proof.
  intros Y p y stored d nn pen X Z cells bc B P Hbc Hst HI HQ Hg Hb k Hk. induction k as [|k IH]; [rewrite hsolution_init; apply Rle_refl|].
  destruct (C171_energy Y p y stored d nn pen X Z cells _ bc B P Hbc Hst HI Hg Hb (S k) ltac:(lia)) as [EK HD]. cbv zeta in EK, HD. rewrite EK. clear EK.
  replace (S k - 1)%nat with k in * by lia. specialize (IH ltac:(lia)).
  assert (W0 : forall f, (forall i, (i < nn * d)%nat -> ~ In i (fst bc) -> f i = 0) -> work (nn * d) (mid f (fun _ => 0)) (fun i => hu (hsolution p y stored (S k)) i - hu (hsolution p y stored k) i) = 0).
  { intros f Hf. unfold work, rs. apply rsum_0. intros i Hi. destruct (in_dec Nat.eq_dec i (fst bc)) as [I|No]; [|unfold mid; rewrite (Hf i Hi No); req; field].
    assert (SD : forall t, steady d nn X cells (listed (fst (hq_bcs p t)))) by (intros t; rewrite Hbc; exact Hst).
    destruct (pm_conditions _ _ _ _ _ P 0) as (Hl & _ & _). rewrite Hbc in Hl. destruct (held_value _ _ i (eq_sym Hl) I) as (v & J).
    assert (St : forall j, (j < hq_steps p)%nat -> hu (hsolution p y stored j) i = v).
    { intros [|j] Hj; [rewrite hsolution_init; exact (HI i v J)|]. destruct (C170_steps Y p y stored d nn pen X Z cells _ B P SD (S j) ltac:(lia)) as [(_ & V1 & _) _]. rewrite Hbc in V1. exact (V1 i v J). }
    rewrite (St (S k)), (St k) by lia. req. ring. }
  pose proof (pm_dt _ _ _ _ _ P) as Ht.
  assert (HM : 0 <= hq_dt p * dissipation d pen X Z cells (mid (hv (hsolution p y stored k)) (hv (hsolution p y stored (S k))))) by (apply Rmult_le_pos; [lra|exact HD]).
  destruct k as [|k]; rewrite W0; try (intros; reflexivity); try exact HQ; lra.
Qed.
Print Assumptions C171_energy.
Print Assumptions C171_never_gains.
(** A free square that glides starts in balance; a held one under a load that grows is covered by the balance with loads. *)
Definition glide (k : nat) : R := if Nat.eqb (k mod 2) 1 then 1 else 0.
Example C171_energy_case : let p := body_problem 2 4 square_X (square iron) (fun _ _ => 0) ([], []) zero glide in
  moving_body 2 4 (fun z => z) square_X (fun _ => 1) (square iron) /\
  poses_motion p tt (4 * 2) (fun U V A => elastodynamic 2 (fun z => z) square_X U V A (fun _ => 1) (square iron)) (fun _ _ => 0) /\
  steady 2 4 square_X (square iron) (listed []) /\
  (forall i, (i < 4 * 2)%nat -> elastodynamic 2 (fun z => z) square_X (hq_init_u p) (hq_init_v p) (hq_init_a p) (fun _ => 1) (square iron) i = 0) /\
  hq_init_v p 1%nat = 1.
Proof.
  cbv zeta. split; [apply square_moving; unfold iron; cbn; try reflexivity; lra|]. split.
  - apply body_poses; [lia|apply square_ok|]. split; [reflexivity|]. split; [constructor|intros k []].
  - split; [|split].
    + intros t' A HA _ Hc. exact (C170_free _ 2 4 square_X (square iron) ltac:(lia) (square_spread iron) t' A HA (fun n i _ _ H => False_ind _ (diff_false_true H)) Hc).
    + intros i Hi. cbn [hq_init_u hq_init_v hq_init_a body_problem].
      apply (C120_coasting 2 4 (fun z => z) square_X zero glide (fun _ => 0) (fun _ => 1) (square iron) (fun _ => 0) (fun _ _ => 0) (fun i => if Nat.eqb i 1 then 1 else 0) (fun _ _ => 0)).
      * lia.
      * apply square_ok.
      * intros n j Hn Hj. rewrite affine_const. reflexivity.
      * intros a b _ _. lra.
      * intros n j Hn Hj. rewrite affine_const. unfold glide. replace ((n * 2 + j) mod 2)%nat with j; [reflexivity|]. rewrite Nat.add_comm, Nat.mod_add by lia. symmetry. apply Nat.mod_small. exact Hj.
      * intros a b _ _. lra.
      * reflexivity.
      * intros c [<-|[<-|[]]]; split; reflexivity.
      * exact Hi.
    + reflexivity.
Qed.
