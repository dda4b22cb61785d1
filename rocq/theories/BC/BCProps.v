(** Properties C01-C04: essential boundary conditions. *)
From Coq Require Import Arith Lia List String ZArith QArith Qcanon Permutation.
From Verif Require Import Base.Field Base.Sums Base.ListUpd Base.Res
  BC.ConstraintsModel BC.ConstraintsSpec BC.ConstraintsProof BC.ConstraintsMain
  BC.EssentialModel BC.EssentialSpec BC.EssentialProof.
Import ListNotations.
Local Open Scope nat_scope.

(** ** C01: enforcement, block storage.  For every result of the parallel routine, the solutions
    of the modified system are exactly the vectors that take the prescribed values and satisfy
    the original equations in the free rows; the matrix is symmetric. *)
Theorem C01_block_enforces :
  forall (K : CRing) (N n : nat) (g : graph) (scale : K) (dofs : list nat) (vals : list K)
         (m m' : mem K) (x : nat -> K),
    0 < N -> wf_graph n g ->
    List.length (ents m) = N * N * List.length (colidx g) -> List.length (rhs m) = n * N ->
    List.length vals = List.length dofs -> NoDup dofs -> (forall d, In d dofs -> d < n * N) ->
    symmetric (n * N) (dense N g (ents m)) ->
    applyBlockConstraints N g scale dofs vals m m' ->
    (solves (n * N) (dense N g (ents m')) (vec (rhs m')) x <->
     solves_constrained (n * N) (dense N g (ents m)) (vec (rhs m)) scale dofs vals x).
Proof.
  intros. eapply constrained_system; eauto using NoDup_compatible, symmetric_needed.
Qed.
Print Assumptions C01_block_enforces.

(** The same for non-block storage. *)
Theorem C01_enforces :
  forall (K : CRing) (n : nat) (g : graph) (scale : K) (dofs : list nat) (vals : list K)
         (m m' : mem K) (x : nat -> K),
    wf_graph n g ->
    List.length (ents m) = List.length (colidx g) -> List.length (rhs m) = n ->
    List.length vals = List.length dofs -> NoDup dofs -> (forall d, In d dofs -> d < n) ->
    symmetric n (dense 1 g (ents m)) ->
    applyConstraints g scale dofs vals m m' ->
    (solves n (dense 1 g (ents m')) (vec (rhs m')) x <->
     solves_constrained n (dense 1 g (ents m)) (vec (rhs m)) scale dofs vals x).
Proof. exact enforces_1. Qed.
Print Assumptions C01_enforces.

(** C01 for the overlaps that occur in practice: dofs may be listed several times as long as
    they are prescribed zero every time; only the columns of dofs with nonzero values need symmetry. *)
Theorem C01_block_enforces_general :
  forall (K : CRing) (N n : nat) (g : graph) (scale : K) (dofs : list nat) (vals : list K)
         (m m' : mem K) (x : nat -> K),
    0 < N -> wf_graph n g ->
    List.length (ents m) = N * N * List.length (colidx g) -> List.length (rhs m) = n * N ->
    List.length vals = List.length dofs -> compatible scale dofs vals -> (forall d, In d dofs -> d < n * N) ->
    symmetric_where_needed (n * N) (dense N g (ents m)) scale dofs vals ->
    applyBlockConstraints N g scale dofs vals m m' ->
    (solves (n * N) (dense N g (ents m')) (vec (rhs m')) x <->
     solves_constrained (n * N) (dense N g (ents m)) (vec (rhs m)) scale dofs vals x).
Proof. intros. eapply constrained_system; eauto. Qed.
Print Assumptions C01_block_enforces_general.

(** ** C02: schedule independence.  No interleaving faults, some interleaving finishes (none can
    block or run forever: see [step_weight]), and all finished interleavings leave the same memory. *)
Theorem C02_schedule_independent :
  forall (K : CRing) (N n : nat) (g : graph) (scale : K) (dofs : list nat) (vals : list K) (m : mem K),
    0 < N -> wf_graph n g ->
    List.length (ents m) = N * N * List.length (colidx g) -> List.length (rhs m) = n * N ->
    List.length vals = List.length dofs -> compatible scale dofs vals -> (forall d, In d dofs -> d < n * N) ->
    apply_safe (bc_item_block N g) scale dofs vals m /\
    exists m', applyBlockConstraints N g scale dofs vals m m' /\
      forall m'', applyBlockConstraints N g scale dofs vals m m'' -> m'' = m'.
Proof. exact block_deterministic. Qed.
Print Assumptions C02_schedule_independent.

Theorem C02_schedule_independent_nonblock :
  forall (K : CRing) (n : nat) (g : graph) (scale : K) (dofs : list nat) (vals : list K) (m : mem K),
    wf_graph n g ->
    List.length (ents m) = List.length (colidx g) -> List.length (rhs m) = n ->
    List.length vals = List.length dofs -> compatible scale dofs vals -> (forall d, In d dofs -> d < n) ->
    apply_safe (bc_item g) scale dofs vals m /\
    exists m', applyConstraints g scale dofs vals m m' /\
      forall m'', applyConstraints g scale dofs vals m m'' -> m'' = m'.
Proof. exact nonblock_deterministic. Qed.
Print Assumptions C02_schedule_independent_nonblock.

(** Every schedule terminates: no infinite sequence of steps (a step lowers a natural number). *)
Theorem C02_every_schedule_terminates :
  forall (K : CRing), well_founded (fun c2 c1 : cfg K => step c1 c2).
Proof. exact step_wf. Qed.
Print Assumptions C02_every_schedule_terminates.

(** The content of the memory afterwards; no symmetry of values is needed. *)
Theorem C02_matrix_and_rhs :
  forall (K : CRing) (N n : nat) (g : graph) (scale : K) (dofs : list nat) (vals : list K) (m m' : mem K),
    0 < N -> wf_graph n g ->
    List.length (ents m) = N * N * List.length (colidx g) -> List.length (rhs m) = n * N ->
    List.length vals = List.length dofs -> compatible scale dofs vals -> (forall d, In d dofs -> d < n * N) ->
    applyBlockConstraints N g scale dofs vals m m' ->
    (forall i j, i < n * N -> j < n * N ->
       dense N g (ents m') i j =
       if constrained dofs i || constrained dofs j then (if Nat.eqb i j then r1 else r0)
       else dense N g (ents m) i j) /\
    (forall i, i < n * N ->
       vec (rhs m') i =
       match prescribed scale dofs vals i with
       | Some v => v
       | None => rsub (vec (rhs m) i)
           (lsum (map (fun dv => rmul (dense N g (ents m) (fst dv) i) (rmul scale (snd dv)))
                      (combine dofs vals)))
       end).
Proof. exact block_content. Qed.
Print Assumptions C02_matrix_and_rhs.

(** A concrete instance: 2 nodes, 2 dofs per node, symmetric 4x4 matrix, two conditions, one nonzero. *)
Definition ex_g := mkGraph [0; 2; 4] [1; 0; 0; 1].
Definition ex_m : mem Z_ring :=
  mkMem (K := Z_ring) [1;2;3;4; 9;5;5;8; 1;3;2;4; 7;6;6;5]%Z [10;20;30;40]%Z.
Lemma ex_wf : wf_graph 2 ex_g.
Proof.
  constructor; simpl.
  - reflexivity.
  - reflexivity.
  - intros [|[|i]] H; simpl; lia.
  - reflexivity.
  - intros c [<-|[<-|[<-|[<-|[]]]]]; lia.
  - intros i o o' c Hi Ho Ho' E E'.
    destruct i as [|[|i]]; simpl in *; [| |lia];
      destruct o as [|[|[|[|o]]]]; try lia; destruct o' as [|[|[|[|o']]]]; try lia; simpl in *; congruence.
  - intros r c Hr [o [Ho E]]. destruct r as [|[|r]]; simpl in *; [| |lia];
      destruct o as [|[|[|[|o]]]]; simpl in *; try lia; inversion E; subst.
    + exists 2; simpl; split; [lia|reflexivity].
    + exists 1; simpl; split; [lia|reflexivity].
    + exists 0; simpl; split; [lia|reflexivity].
    + exists 3; simpl; split; [lia|reflexivity].
  - intros [|[|r]] H; [| |lia].
    + exists 1; simpl; split; [lia|reflexivity].
    + exists 3; simpl; split; [lia|reflexivity].
Qed.

Example C01_hypotheses_met :
  symmetric (2 * 2) (dense 2 ex_g (ents ex_m)) /\
  exists m', applyBlockConstraints (K := Z_ring) 2 ex_g 1%Z [2; 1] [7; 0]%Z ex_m m' /\
    dense 2 ex_g (ents m') 2 2 = 1%Z /\ vec (rhs m') 2 = 7%Z /\ vec (rhs m') 0 = 3%Z.
Proof.
  split.
  - intros i j Hi Hj. destruct i as [|[|[|[|i]]]]; try lia; destruct j as [|[|[|[|j]]]]; try lia; vm_compute; reflexivity.
  - assert (Hnd : NoDup [2; 1]) by (repeat constructor; simpl; intuition lia).
    destruct (C02_schedule_independent Z_ring 2 2 ex_g 1%Z [2; 1] [7; 0]%Z ex_m ltac:(lia) ex_wf eq_refl eq_refl eq_refl
      (NoDup_compatible _ _ _ Hnd))
      as [_ [m' [H _]]].
    { intros d [<-|[<-|[]]]; lia. }
    exists m'. split; [exact H|].
    destruct (C02_matrix_and_rhs Z_ring 2 2 ex_g 1%Z [2; 1] [7; 0]%Z ex_m m' ltac:(lia) ex_wf eq_refl eq_refl eq_refl
      (NoDup_compatible _ _ _ Hnd)) as [HA Hb]; [intros d [<-|[<-|[]]]; lia|exact H|].
    rewrite HA by lia. rewrite !Hb by lia. vm_compute. auto.
Qed.

(** ** C03: refuted for unsymmetric matrices... *)
Definition uns_g := mkGraph [0; 2; 4] [0; 1; 0; 1].
Lemma uns_wf : wf_graph 2 uns_g.
Proof.
  constructor; simpl.
  - reflexivity.
  - reflexivity.
  - intros [|[|i]] H; simpl; lia.
  - reflexivity.
  - intros c [<-|[<-|[<-|[<-|[]]]]]; lia.
  - intros i o o' c Hi Ho Ho' E E'.
    destruct i as [|[|i]]; simpl in *; [| |lia];
      destruct o as [|[|[|[|o]]]]; try lia; destruct o' as [|[|[|[|o']]]]; try lia; simpl in *; congruence.
  - intros r c Hr [o [Ho E]]. destruct r as [|[|r]]; simpl in *; [| |lia];
      destruct o as [|[|[|[|o]]]]; simpl in *; try lia; inversion E; subst.
    + exists 0; simpl; split; [lia|reflexivity].
    + exists 2; simpl; split; [lia|reflexivity].
    + exists 1; simpl; split; [lia|reflexivity].
    + exists 3; simpl; split; [lia|reflexivity].
  - intros [|[|r]] H; [| |lia].
    + exists 0; simpl; split; [lia|reflexivity].
    + exists 3; simpl; split; [lia|reflexivity].
Qed.

(** The matrix is [[1 2][3 1]], b = (0,5), x0 := 1.  The modified system has the solution (1,3),
    but 3*1 + 3 is not 5. *)
Theorem C03_unsymmetric_refuted :
  exists (m m' : mem Z_ring) (x : nat -> Z),
    wf_graph 2 uns_g /\ List.length (ents m) = List.length (colidx uns_g) /\ List.length (rhs m) = 2 /\
    applyConstraints (K := Z_ring) uns_g 1%Z [0] [1%Z] m m' /\
    solves (K := Z_ring) 2 (dense 1 uns_g (ents m')) (vec (rhs m')) x /\
    ~ solves_constrained (K := Z_ring) 2 (dense 1 uns_g (ents m)) (vec (rhs m)) 1%Z [0] [1%Z] x.
Proof.
  exists (mkMem (K := Z_ring) [1; 2; 3; 1]%Z [0; 5]%Z), (mkMem (K := Z_ring) [1; 0; 0; 1]%Z [1; 3]%Z),
    (fun i => match i with O => 1%Z | _ => 3%Z end).
  split; [exact uns_wf|]. split; [reflexivity|]. split; [reflexivity|]. split; [|split].
  - eexists _, _, (mkMem (K := Z_ring) [1; 0; 0; 1]%Z [0; 3]%Z).
    split; [reflexivity|]. split; [vm_compute; reflexivity|]. split.
    + eexists. split; [|split].
      * apply (run_picks_steps [0;0;0;0;0]). vm_compute. reflexivity.
      * repeat constructor.
      * reflexivity.
    + eexists. split; [|split].
      * apply (run_picks_steps [0]). vm_compute. reflexivity.
      * repeat constructor.
      * reflexivity.
  - intros [|[|i]] H; try lia; reflexivity.
  - intros [_ H]. specialize (H 1 ltac:(lia) eq_refl). vm_compute in H. discriminate.
Qed.
Print Assumptions C03_unsymmetric_refuted.

(** ... and for a dof constrained twice to the same nonzero value: the outcome depends on the
    schedule, and one outcome differs from constraining it once. *)
Theorem C03_overlap_refuted :
  exists (m m1 m2 m3 : mem Z_ring),
    wf_graph 2 uns_g /\ symmetric 2 (dense 1 uns_g (ents m)) /\
    applyConstraints (K := Z_ring) uns_g 1%Z [0; 0] [1; 1]%Z m m1 /\
    applyConstraints (K := Z_ring) uns_g 1%Z [0; 0] [1; 1]%Z m m2 /\
    applyConstraints (K := Z_ring) uns_g 1%Z [0] [1]%Z m m3 /\
    m1 <> m2 /\ m1 <> m3.
Proof.
  exists (mkMem (K := Z_ring) [1; 1; 1; 1]%Z [0; 5]%Z), (mkMem (K := Z_ring) [1; 0; 0; 1]%Z [1; 3]%Z),
    (mkMem (K := Z_ring) [1; 0; 0; 1]%Z [1; 4]%Z), (mkMem (K := Z_ring) [1; 0; 0; 1]%Z [1; 4]%Z).
  split; [exact uns_wf|]. split; [|split; [|split; [|split; [|split; discriminate]]]].
  - intros [|[|i]] [|[|j]] Hi Hj; try lia; reflexivity.
  - eexists _, _, (mkMem (K := Z_ring) [1; 0; 0; 1]%Z [0; 3]%Z).
    split; [reflexivity|]. split; [vm_compute; reflexivity|]. split.
    + eexists. split; [|split].
      * apply (run_picks_steps [0;0;1;1;0;0;0;1;1;1]). vm_compute. reflexivity.
      * repeat constructor.
      * reflexivity.
    + eexists. split; [|split].
      * apply (run_picks_steps [0;1]). vm_compute. reflexivity.
      * repeat constructor.
      * reflexivity.
  - eexists _, _, (mkMem (K := Z_ring) [1; 0; 0; 1]%Z [0; 4]%Z).
    split; [reflexivity|]. split; [vm_compute; reflexivity|]. split.
    + eexists. split; [|split].
      * apply (run_picks_steps [0;0;0;0;0;1;1;1;1;1]). vm_compute. reflexivity.
      * repeat constructor.
      * reflexivity.
    + eexists. split; [|split].
      * apply (run_picks_steps [0;1]). vm_compute. reflexivity.
      * repeat constructor.
      * reflexivity.
  - eexists _, _, (mkMem (K := Z_ring) [1; 0; 0; 1]%Z [0; 4]%Z).
    split; [reflexivity|]. split; [vm_compute; reflexivity|]. split.
    + eexists. split; [|split].
      * apply (run_picks_steps [0;0;0;0;0]). vm_compute. reflexivity.
      * repeat constructor.
      * reflexivity.
    + eexists. split; [|split].
      * apply (run_picks_steps [0]). vm_compute. reflexivity.
      * repeat constructor.
      * reflexivity.
Qed.
Print Assumptions C03_overlap_refuted.

(** What holds of C03: with zero values (or scale factor zero), as in adjoint solves and in all
    Newton iterations but the first, the enforcement holds for every matrix, and dofs may be repeated. *)
Theorem C03_zero_values_partial :
  forall (K : CRing) (N n : nat) (g : graph) (scale : K) (dofs : list nat) (vals : list K)
         (m m' : mem K) (x : nat -> K),
    0 < N -> wf_graph n g ->
    List.length (ents m) = N * N * List.length (colidx g) -> List.length (rhs m) = n * N ->
    List.length vals = List.length dofs -> (forall d, In d dofs -> d < n * N) ->
    (forall v, In v vals -> rmul scale v = r0) ->
    applyBlockConstraints N g scale dofs vals m m' ->
    (solves (n * N) (dense N g (ents m')) (vec (rhs m')) x <->
     (forall d, In d dofs -> x d = r0) /\
     (forall i, i < n * N -> ~ In i dofs -> mv (n * N) (dense N g (ents m)) x i = vec (rhs m) i)).
Proof. exact zero_values. Qed.
Print Assumptions C03_zero_values_partial.

(** ** C04: dofs and values of the essential boundary conditions. *)
Theorem C04_dofs_and_values :
  forall (K : CField) (sched : schedule) (N : nat) (table : list (nat * K)) (es : list (bc_entry K))
         (ns : nodesets) (t : K) (views : list nat * list K),
    fair sched ->
    essential_bcs sched N table es ns t views =
    match all_pairs N table ns t es with
    | Some l => Ok (map fst l, map snd l)
    | None => Throw
    end.
Proof. intros; apply essential_eq; assumption. Qed.
Print Assumptions C04_dofs_and_values.

Definition ex_ns : nodesets := fun s => if String.eqb s "top"%string then Some [4; 1] else
  if String.eqb s "bottom"%string then Some [0] else None.
Definition rev_sched : schedule := fun n => rev (seq 0 n).
Example C04_instance :
  fair rev_sched /\
  essential_bcs (K := Qc_field) rev_sched 3 [(2, Q2Qc 2)]
    [mkEntry (K := Qc_field) (Some FixedValue) (Some "top"%string) (Some 2) (Some (Q2Qc 6)) None;
     mkEntry (K := Qc_field) (Some ZeroValue) (Some "bottom"%string) None None None;
     mkEntry (K := Qc_field) (Some TimeDependent) (Some "top"%string) (Some 1) None (Some (fun t => t * t)%Qc)]
    ex_ns (Q2Qc 3) ([7; 7], [])
  = Ok ([14; 5; 0; 13; 4], [Q2Qc 3; Q2Qc 3; Q2Qc 0; Q2Qc 9; Q2Qc 9]).
Proof.
  assert (H : fair rev_sched) by (intros n; apply Permutation_sym, Permutation_rev).
  split; [exact H|]. rewrite C04_dofs_and_values by exact H. 
  apply (f_equal Ok). apply f_equal2; [reflexivity|].
  repeat (apply (f_equal2 (@cons Qc)); [apply Qc_is_canon; vm_compute; reflexivity|]). reflexivity.
Qed.
