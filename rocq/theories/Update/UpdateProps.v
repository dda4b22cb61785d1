(** C92: a continuation call advances the value and every derivative of each block together, once.  VectorFunctionVMS advances its first block twice. *)
From Coq Require Import Reals String List Arith Bool Permutation Lia Lra.
From Verif Require Import Base.Res Update.UpdateModel Update.UpdateSpec Update.UpdateProof.
Import ListNotations.
Local Open Scope string_scope.

Section C92.
Variables (St Inp : Type) (init : string -> St) (step : string -> Inp -> St -> St).

Lemma once_general ks us doms h : NoDup ks -> NoDup doms -> Permutation us ks ->
  exists f, history St Inp (update_blocks St Inp step us doms) h (construct St init ks doms) = Ok f /\ all_once St Inp step ks doms init f h /\ consistent St ks doms f.
Proof.
  intros NK ND P. destruct (blocks_history St Inp init step ks us doms NK ND P h) as [f [E R]]. exists f. split; [exact E|].
  assert (X : all_once St Inp step ks doms init f h).
  { intros k d Hk Hd. eapply rep_evaluator; [exact R|]. cbv beta. apply mem_in in Hk, Hd. rewrite Hk, Hd. reflexivity. }
  split; [exact X|]. intros k k' d Hk Hk' Hd. rewrite (X k d Hk Hd), (X k' d Hk' Hd). split; [reflexivity|eexists; reflexivity].
Qed.
Ltac names := repeat (constructor; [intros H; simpl in H; repeat (destruct H as [H|H]; [discriminate|]); exact H|]); constructor.
Ltac perm := apply NoDup_Permutation; [names|names|intros x; simpl; tauto].

(** C92, the scalar and vector functions: whatever the blocks (their names are distinct keys of one parameter list) and whatever the calls. *)
Theorem C92_elliptic_criterion doms h : NoDup doms ->
  exists f, history St Inp (update_blocks St Inp step elliptic_updated doms) h (construct St init elliptic_created doms) = Ok f /\
    all_once St Inp step elliptic_created doms init f h /\ consistent St elliptic_created doms f.
Proof. intros ND. apply once_general; [names|exact ND|perm]. Qed.
Theorem C92_geometric_criterion doms h : NoDup doms ->
  exists f, history St Inp (update_blocks St Inp step geometric_updated doms) h (construct St init geometric_created doms) = Ok f /\
    all_once St Inp step geometric_created doms init f h /\ consistent St geometric_created doms f.
Proof. intros ND. apply once_general; [names|exact ND|perm]. Qed.
Theorem C92_global_residual doms h : NoDup doms ->
  exists f, history St Inp (update_blocks St Inp step global_updated doms) h (construct St init global_created doms) = Ok f /\
    all_once St Inp step global_created doms init f h /\ consistent St global_created doms f.
Proof. intros ND. apply once_general; [names|exact ND|perm]. Qed.
Theorem C92_local_residual doms h : NoDup doms ->
  exists f, history St Inp (update_blocks St Inp step local_updated doms) h (construct St init local_created doms) = Ok f /\
    all_once St Inp step local_created doms init f h /\ consistent St local_created doms f.
Proof. intros ND. apply once_general; [names|exact ND|perm]. Qed.
Theorem C92_local_criterion doms h : NoDup doms ->
  exists f, history St Inp (update_blocks St Inp step local_criterion_updated doms) h (construct St init local_criterion_created doms) = Ok f /\
    all_once St Inp step local_criterion_created doms init f h /\ consistent St local_criterion_created doms f.
Proof. intros ND. apply once_general; [names|exact ND|perm]. Qed.

(** C92, the stabilised vector function: the evaluators of one block stay consistent, and the boundary evaluators are those of the first block; the first block advances twice per call and the others once. *)
Theorem C92_projection_partial d0 ds h : NoDup (d0 :: ds) ->
  exists f0 f, construct_vms St init vms_created vms_boundary (d0 :: ds) = Ok f0 /\
    history St Inp (update_vms St Inp step vms_updated vms_boundary_updated (d0 :: ds)) h f0 = Ok f /\
    consistent St vms_created (d0 :: ds) f /\
    (forall k, In k vms_created -> evaluator St f k d0 = Ok (twice_per_call St Inp step d0 h (init d0)) /\ boundary_evaluator St f k = evaluator St f k d0) /\
    (forall k d, In k vms_created -> In d ds -> evaluator St f k d = Ok (once_per_call St Inp step d h (init d))).
Proof.
  intros ND. destruct (vms_history St Inp init step vms_created vms_updated vms_boundary vms_boundary_updated d0 ds) with (h := h) as [f0 [f [E0 [E [B R]]]]]; [names|exact ND|perm|perm|perm|].
  exists f0, f. split; [exact E0|]. split; [exact E|].
  assert (X : forall k d, In k vms_created -> In d (d0 :: ds) -> evaluator St f k d = Ok (after_vms St Inp init step h d0 d)).
  { intros k d Hk Hd. eapply rep_evaluator; [exact R|]. cbv beta. apply mem_in in Hk, Hd. rewrite Hk, Hd. reflexivity. }
  split.
  { intros k k' d Hk Hk' Hd. rewrite (X k d Hk Hd), (X k' d Hk' Hd). split; [reflexivity|eexists; reflexivity]. }
  split.
  - intros k Hk. rewrite (X k d0 Hk (or_introl eq_refl)). unfold after_vms, twice_per_call. rewrite String.eqb_refl. split; [reflexivity|].
    destruct (B k Hk) as [k' [i [B1 B2]]]. unfold boundary_evaluator. rewrite B1.
    pose proof (X k d0 Hk (or_introl eq_refl)) as Y. unfold after_vms in Y. rewrite String.eqb_refl in Y. unfold evaluator, at_ in Y. rewrite B2 in Y. exact Y.
  - intros k d Hk Hd. rewrite (X k d Hk (or_intror Hd)). unfold after_vms, once_per_call. apply NoDup_cons_iff in ND. destruct ND as [N0 _].
    destruct (String.eqb_spec d d0) as [->|N]; [contradiction|reflexivity].
Qed.

(** C92, the problem: one call reaches every criterion, through any nesting of weighted sums, quotients, least squares and mass properties, exactly once. *)
Definition fresh (ks doms : list string) (l : list (string * crit St)) : Prop :=
  Forall (fun c => Forall (fun f => exists init', f = construct St init' ks doms) (leaves St (snd c))) l.
(** Every evaluator of every basic criterion has advanced once per call; names, order and nesting are kept. *)
Definition each_once (ks doms : list string) (h : list Inp) (l l' : list (string * crit St)) : Prop :=
  Forall2 (fun c c' => fst c = fst c' /\
    Forall2 (fun f f' => forall k d s, In k ks -> In d doms -> evaluator St f k d = Ok s -> evaluator St f' k d = Ok (once_per_call St Inp step d h s)) (leaves St (snd c)) (leaves St (snd c'))) l l'.
Theorem C92_criteria doms (crits lins : list (string * crit St)) h : NoDup doms -> fresh elliptic_created doms crits -> fresh geometric_created doms lins ->
  exists crits' lins', foldR (update_problem St Inp (update_blocks St Inp step elliptic_updated doms) (update_blocks St Inp step geometric_updated doms)) h (crits, lins) = Ok (crits', lins') /\
    each_once elliptic_created doms h crits crits' /\ each_once geometric_created doms h lins lins'.
Proof.
  intros ND F1 F2.
  pose proof (advances_blocks St Inp init step elliptic_created doms elliptic_updated) as A1.
  pose proof (advances_blocks St Inp init step geometric_created doms geometric_updated) as A2.
  assert (A1' : advances St Inp step elliptic_created doms (update_blocks St Inp step elliptic_updated doms)) by (apply A1; [names|exact ND|perm]).
  assert (A2' : advances St Inp step geometric_created doms (update_blocks St Inp step geometric_updated doms)) by (apply A2; [names|exact ND|perm]).
  clear A1 A2.
  assert (G : forall ks l, fresh ks doms l -> Forall (fun c => Forall (full St ks doms) (leaves St (snd c))) l).
  { intros ks l H. eapply Forall_impl; [|exact H]. intros c Hc. eapply Forall_impl; [|exact Hc]. intros f [i ->]. apply full_construct. }
  enough (X : exists crits' lins', foldR (update_problem St Inp (update_blocks St Inp step elliptic_updated doms) (update_blocks St Inp step geometric_updated doms)) h (crits, lins) = Ok (crits', lins') /\
    (Forall (fun c => Forall (full St elliptic_created doms) (leaves St (snd c))) crits' /\ Forall (fun c => Forall (full St geometric_created doms) (leaves St (snd c))) lins') /\
    criteria_advanced St Inp step elliptic_created doms h crits crits' /\ criteria_advanced St Inp step geometric_created doms h lins lins').
  { destruct X as [c [l [E [_ R]]]]. exists c, l. split; [exact E|exact R]. }
  induction h as [|i h IH] using rev_ind.
  - exists crits, lins. split; [reflexivity|]. split; [split; apply G; assumption|]. split; apply criteria_nil.
  - destruct IH as [c [l [E [[G1 G2] [R1 R2]]]]]. rewrite foldR_app, E. cbn [rbind foldR]. unfold update_problem at 1. cbn [fst snd].
    destruct (update_named St Inp step elliptic_created doms _ A1' i c G1) as [c' [E1 [H1 H2]]].
    destruct (update_named St Inp step geometric_created doms _ A2' i l G2) as [l' [E2 [K1 K2]]].
    rewrite E1. cbn [rbind]. rewrite E2. cbn [rbind]. exists c', l'. split; [reflexivity|]. split; [split; assumption|].
    split; [exact (criteria_app St Inp step elliptic_created doms h [i] _ _ _ R1 H2)|exact (criteria_app St Inp step geometric_created doms h [i] _ _ _ R2 K2)].
Qed.
End C92.

(** C92 is false of the projection equation: a single call moves a block's penalty exponent by two increments. *)
Theorem C92_projection_refuted :
  ~ forall (St Inp : Type) (init : string -> St) (step : string -> Inp -> St -> St) d0 ds h f0 f, NoDup (d0 :: ds) ->
      construct_vms St init vms_created vms_boundary (d0 :: ds) = Ok f0 ->
      history St Inp (update_vms St Inp step vms_updated vms_boundary_updated (d0 :: ds)) h f0 = Ok f ->
      all_once St Inp step vms_created (d0 :: ds) init f h.
Proof.
  intros H.
  destruct (C92_projection_partial nat unit (fun _ => 3) (fun _ _ s => S s) "block_1" [] [tt]) as [f0 [f [E0 [E [_ [K _]]]]]]; [repeat constructor; auto|].
  specialize (H nat unit (fun _ => 3) (fun _ _ s => S s) "block_1" [] [tt] f0 f).
  specialize (H ltac:(repeat constructor; auto) E0 E "Residual" "block_1" (or_introl eq_refl) (or_introl eq_refl)).
  destruct (K "Residual" (or_introl eq_refl)) as [K1 _]. rewrite K1 in H. discriminate.
Qed.

Local Open Scope R_scope.
(** The additive continuation of a penalty exponent, repeated: [p + n inc] cut at the upper bound. *)
Theorem C92_exponent inc bound p n : 0 <= inc -> (1 <= n)%nat ->
  Nat.iter n (continue_exponent inc bound) p = Rmin bound (p + INR n * inc).
Proof. exact (continue_closed inc bound p n). Qed.
Theorem C92_j2_exponents inc_e bound_e inc_p bound_p e p n : 0 <= inc_e -> 0 <= inc_p -> (1 <= n)%nat ->
  Nat.iter n (j2_update inc_e bound_e inc_p bound_p) (mkJ2C e p) = mkJ2C (Rmin bound_e (e + INR n * inc_e)) (Rmin bound_p (p + INR n * inc_p)).
Proof.
  intros He Hp Hn. rewrite <- !continue_closed by assumption. clear Hn.
  induction n as [|n IH]; [reflexivity|]. cbn [Nat.iter nat_rect] in *. unfold Nat.iter in IH. rewrite IH. reflexivity.
Qed.

(** Instances: two blocks, three calls; a weighted sum of a quotient and a basic criterion. *)
Example C92_instance : exists f, history nat unit (update_blocks nat unit (fun _ _ s => S s) elliptic_updated ["a"; "b"]) [tt; tt; tt] (construct nat (fun d => String.length d) elliptic_created ["a"; "b"]) = Ok f /\
  evaluator nat f "GradientU" "b" = Ok 4%nat /\ evaluator nat f "Value" "b" = Ok 4%nat.
Proof. eexists. split; [vm_compute; reflexivity|]. split; vm_compute; reflexivity. Qed.
Example C92_criteria_instance :
  let f n := construct nat (fun _ => n) elliptic_created ["a"; "b"] in
  let c := [("sum", Composite nat [Composite nat [Basic nat (f 1%nat); Basic nat (f 2%nat)]; Basic nat (f 3%nat)]); ("vm", Basic nat (f 4%nat))] in
  fresh nat elliptic_created ["a"; "b"] c /\ fresh nat geometric_created ["a"; "b"] [].
Proof. split; [|constructor]. repeat constructor; eexists; reflexivity. Qed.
Example C92_vms_instance : exists f0 f, construct_vms nat (fun _ => 3%nat) vms_created vms_boundary ["a"; "b"] = Ok f0 /\
  history nat unit (update_vms nat unit (fun _ _ s => S s) vms_updated vms_boundary_updated ["a"; "b"]) [tt; tt] f0 = Ok f /\
  evaluator nat f "JacobianZ" "a" = Ok 7%nat /\ evaluator nat f "JacobianZ" "b" = Ok 5%nat /\ boundary_evaluator nat f "JacobianX" = Ok 7%nat.
Proof. do 2 eexists. split; [vm_compute; reflexivity|]. split; [vm_compute; reflexivity|]. vm_compute. repeat split. Qed.
Print Assumptions C92_elliptic_criterion.
Print Assumptions C92_geometric_criterion.
Print Assumptions C92_global_residual.
Print Assumptions C92_local_residual.
Print Assumptions C92_local_criterion.
Print Assumptions C92_projection_partial.
Print Assumptions C92_criteria.
Print Assumptions C92_projection_refuted.
Print Assumptions C92_exponent.
Print Assumptions C92_j2_exponents.
