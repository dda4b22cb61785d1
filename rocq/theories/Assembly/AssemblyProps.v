(** Properties of the sparsity graph (C05) and of parallel assembly (C06). *)
From Coq Require Import ZArith Arith Lia List Bool Permutation Ring.
From Verif Require Import Base.Field Base.Sums Base.ListUpd Base.Res Base.Scatter Base.Loops
  Sparse.CrsModel Sparse.CrsSpec Assembly.GraphModel Assembly.GraphSpec Assembly.GraphProof
  Assembly.AssemblyModel Assembly.AssemblyProof Assembly.NonBlockGraphProof.
Import ListNotations.

(** ** C05 *)

(** The block matrix created for a mesh: well formed, with zero entries, and the columns of row [r]
    are exactly [r] and the nodes that share an element with [r], each once. *)
Theorem C05_graph :
  forall (K : CRing) (I J npc ncells nn : nat) (sched : schedule) (c2n rmo cio : list nat),
    fair sched -> 0 < I -> 0 < J ->
    wf_mesh npc ncells nn c2n -> star_graph npc ncells nn c2n rmo cio ->
    exists A : crs K, CreateBlockMatrix I J sched rmo cio = Ok A /\
      wf_crs nn nn A /\ c_R A = I /\ c_C A = J /\ (forall e, In e (c_ents A) -> e = r0) /\
      forall r, r < nn ->
        NoDup (row_cols (c_rowmap A) (c_cols A) r) /\
        (forall c, In c (row_cols (c_rowmap A) (c_cols A) r) <-> c = r \/ share_element npc ncells c2n r c).
Proof.
  intros K I J npc ncells nn sched c2n rmo cio Hf HI HJ MS ST.
  destruct (create_ok (K := K) npc ncells nn c2n rmo cio MS ST I J sched Hf HI HJ) as [A [E [W [ER [EC [H0 Hrow]]]]]].
  exists A. repeat (split; [assumption|]). intros r Hr. rewrite Hrow by exact Hr. split.
  - apply (grow_nodup npc ncells nn c2n rmo cio ST). exact Hr.
  - intros c. apply (in_grow npc ncells nn c2n rmo cio ST). exact Hr.
Qed.
Print Assumptions C05_graph.

(** Every lookup made during assembly succeeds, and returns the storage position (inside the
    entries) of the entry of the two global dofs. *)
Theorem C05_lookup :
  forall (K : CRing) (I J npc ncells nn : nat) (sched : schedule) (c2n rmo cio : list nat) (A : crs K)
         (cell a b : nat),
    fair sched -> 0 < I -> 0 < J ->
    wf_mesh npc ncells nn c2n -> star_graph npc ncells nn c2n rmo cio ->
    CreateBlockMatrix I J sched rmo cio = Ok A ->
    cell < ncells -> a < npc * I -> b < npc * J ->
    exists p, BlockMatrixEntryOrdinal npc I J (c_rowmap A) (c_cols A) c2n cell a b = Ok (Some p) /\
      p < length (c_ents A) /\
      addresses A p (gdof npc I c2n cell a) (gdof npc J c2n cell b).
Proof.
  intros K I J npc ncells nn sched c2n rmo cio A cell a b Hf HI HJ MS ST E Hc Ha Hb.
  destruct (create_ok (K := K) npc ncells nn c2n rmo cio MS ST I J sched Hf HI HJ) as [A' [E' [W [ER [EC [H0 Hrow]]]]]].
  rewrite E in E'. injection E' as <-.
  assert (Hcomp : complete npc ncells c2n A).
  { intros cl x y H1 H2 H3. pose proof (node_lt npc ncells nn c2n MS cl x H1 H2) as Hn. rewrite Hrow by exact Hn.
    apply (in_grow npc ncells nn c2n rmo cio ST); [exact Hn|]. right. exists cl, x, y. repeat (split; [assumption|]). split; reflexivity. }
  rewrite <- ER in Ha. rewrite <- EC in Hb.
  destruct (block_lookup npc ncells nn c2n MS A cell a b W Hcomp Hc Ha Hb) as [p [H1 H2]].
  rewrite ER, EC in H1, H2. exists p. split; [exact H1|]. split; [|exact H2].
  apply (addresses_bound nn nn A p _ _ W) in H2; [exact H2|].
  rewrite ER. apply (gdof_lt npc ncells nn c2n MS); [exact HI|exact Hc|]. rewrite <- ER. exact Ha.
Qed.
Print Assumptions C05_lookup.

(** The non-block variant: dof [j] is in the row of dof [i] exactly when their nodes are equal or share an
    element, each once; and every lookup succeeds.  The row and column counts stay unset, so that every
    product with this matrix throws. *)
Theorem C05_nonblock :
  forall (K : CRing) (D npc ncells nn : nat) (sched : schedule) (c2n rmo cio : list nat),
    fair sched -> 0 < D ->
    wf_mesh npc ncells nn c2n -> star_graph npc ncells nn c2n rmo cio ->
    exists A : crs K, CreateMatrix D sched rmo cio = Ok A /\
      wf_crs (nn * D) (nn * D) (with_sizes A (nn * D) (nn * D)) /\
      (forall i, i < nn * D ->
        NoDup (row_cols (c_rowmap A) (c_cols A) i) /\
        (forall j, In j (row_cols (c_rowmap A) (c_cols A) i) <->
                   j / D = i / D \/ share_element npc ncells c2n (i / D) (j / D))) /\
      (forall cell a b, cell < ncells -> a < npc * D -> b < npc * D ->
        exists e, MatrixEntryOrdinal npc D (c_rowmap A) (c_cols A) c2n cell a b = Ok (Some e) /\
          nth (gdof npc D c2n cell a) (c_rowmap A) 0 <= e < nth (S (gdof npc D c2n cell a)) (c_rowmap A) 0 /\
          nth e (c_cols A) 0 = gdof npc D c2n cell b) /\
      (forall s x y, matvec s A x y = Throw).
Proof.
  intros K D npc ncells nn sched c2n rmo cio Hf HD MS ST.
  destruct (create_nonblock_ok (K := K) npc ncells nn c2n rmo cio MS ST D sched Hf HD) as [A [E [N1 [N2 [W [ER [EC [H0 Hrow]]]]]]]].
  exists A. split; [exact E|]. split; [exact W|]. split; [|split].
  - intros i Hi. assert (Hd : i / D < nn) by (apply Nat.div_lt_upper_bound; lia). rewrite Hrow by exact Hi. split.
    + apply dof_cols_nodup; [exact HD|]. apply (grow_nodup npc ncells nn c2n rmo cio ST). exact Hd.
    + intros j. rewrite in_dof_cols by exact HD. apply (in_grow npc ncells nn c2n rmo cio ST). exact Hd.
  - intros cell a b Hc Ha Hb. apply (nonblock_lookup npc ncells nn c2n rmo cio MS ST D A cell a b HD W Hrow Hc Ha Hb).
  - intros s x y. unfold matvec, numCols. rewrite N2. reflexivity.
Qed.
Print Assumptions C05_nonblock.

(** A mesh of two triangles sharing an edge (nodes 1 and 2), and its star graph; nodes 0 and 3 are not coupled. *)
Definition ex_c2n : list nat := [0;1;2; 2;1;3].
Definition ex_rmo : list nat := [0;2;5;8;10].
Definition ex_cio : list nat := [1;2; 3;0;2; 0;1;3; 1;2].

Lemma ex_mesh : wf_mesh 3 2 4 ex_c2n.
Proof. constructor; [reflexivity|]. intros v H. cbv in H. repeat (destruct H as [<-|H]; [lia|]). contradiction. Qed.

Lemma ex_star : star_graph 3 2 4 ex_c2n ex_rmo ex_cio.
Proof.
  constructor; try reflexivity.
  - intros i Hi. do 4 (destruct i as [|i]; [cbv; lia|]). lia.
  - intros r Hr. do 4 (destruct r as [|r]; [cbv; repeat constructor; simpl; lia|]). lia.
  - assert (Hsh : forall r c, share_element 3 2 ex_c2n r c <->
        In (r, c) (flat_map (fun cell => list_prod (map (node_of 3 ex_c2n cell) [0;1;2]) (map (node_of 3 ex_c2n cell) [0;1;2])) [0;1])).
    { intros r c. rewrite in_flat_map. split.
      - intros [cell [a [b [Hc [Ha [Hb [<- <-]]]]]]]. exists cell. split; [destruct cell as [|[|]]; simpl; lia|].
        apply in_prod; apply in_map; [destruct a as [|[|[|]]]; simpl; lia|destruct b as [|[|[|]]]; simpl; lia].
      - intros [cell [Hc Hp]]. apply in_prod_iff in Hp as [H1 H2].
        apply in_map_iff in H1 as [a [<- Ha]]. apply in_map_iff in H2 as [b [<- Hb]].
        exists cell, a, b. simpl in Hc, Ha, Hb. repeat split; lia. }
    intros r c Hr. rewrite Hsh. clear Hsh.
    do 4 (destruct r as [|r]; [cbv; intuition (try congruence; try lia)|]). lia.
Qed.

Example C05_instance :
  fair (fun n => rev (seq 0 n)) /\ wf_mesh 3 2 4 ex_c2n /\ star_graph 3 2 4 ex_c2n ex_rmo ex_cio /\
  CreateBlockMatrix (K := Z_ring) 1 1 (fun n => rev (seq 0 n)) ex_rmo ex_cio =
   Ok (mkCrs (K := Z_ring) [0;3;7;11;14] [0;1;2; 1;3;0;2; 0;1;2;3; 1;2;3] (repeat 0%Z 14) (Some 4) (Some 4) 1 1).
Proof.
  split; [intros n; apply Permutation_sym, Permutation_rev|]. split; [exact ex_mesh|]. split; [exact ex_star|]. reflexivity.
Qed.

(** ** C06 *)

(** Vectors: whatever the order of the atomic additions, the result is the previous content plus, for each
    global dof, the sum of the contributions of all cells of the domain mapped to it. *)
Theorem C06_vector :
  forall (K : CRing) (D npc ncells nn : nat) (c2n cells : list nat) (Re : nat -> nat -> K) (v : list K) (out : res (list K)),
    0 < D -> wf_mesh npc ncells nn c2n -> (forall c, In c cells -> c < ncells) -> length v = nn * D ->
    assemble_vector npc D c2n cells Re v out ->
    exists v', out = Ok v' /\ length v' = length v /\
      forall i, nth i v' r0 = radd (nth i v r0)
        (sum (length cells) (fun k => sum (npc * D) (fun a =>
           if Nat.eqb (gdof npc D c2n (nth k cells 0) a) i then Re k a else r0))).
Proof. intros K D npc ncells nn c2n cells Re v out HD MS. apply (vector_assembly npc ncells nn c2n MS). exact HD. Qed.
Print Assumptions C06_vector.

Theorem C06_scalar_gradient :
  forall (K : CRing) (D npc ncells nn : nat) (c2n cells : list nat) (Re : nat -> nat -> K) (v : list K) (out : res (list K)),
    0 < D -> wf_mesh npc ncells nn c2n -> (forall c, In c cells -> c < ncells) -> length v = nn * D ->
    assemble_scalar_gradient npc D c2n cells Re v out ->
    exists v', out = Ok v' /\ length v' = length v /\
      forall i, nth i v' r0 = radd (nth i v r0)
        (sum (length cells) (fun k => sum npc (fun a =>
           if Nat.eqb (node_of npc c2n (nth k cells 0) a * D) i then Re k a else r0))).
Proof. intros K D npc ncells nn c2n cells Re v out HD MS. apply (scalar_assembly npc ncells nn c2n MS). exact HD. Qed.
Print Assumptions C06_scalar_gradient.

Lemma created_facts (K : CRing) (I J npc ncells nn : nat) sched (c2n rmo cio : list nat) (A : crs K) :
  fair sched -> 0 < I -> 0 < J -> wf_mesh npc ncells nn c2n -> star_graph npc ncells nn c2n rmo cio ->
  CreateBlockMatrix I J sched rmo cio = Ok A ->
  wf_crs nn nn A /\ c_R A = I /\ c_C A = J /\ complete npc ncells c2n A /\ (forall e, In e (c_ents A) -> e = r0).
Proof.
  intros Hf HI HJ MS ST E.
  destruct (create_ok (K := K) npc ncells nn c2n rmo cio MS ST I J sched Hf HI HJ) as [A' [E' [W [ER [EC [H0 Hrow]]]]]].
  rewrite E in E'. injection E' as <-. repeat (split; [assumption|]). split; [|exact H0].
  intros cl x y H1 H2 H3. pose proof (node_lt npc ncells nn c2n MS cl x H1 H2) as Hn. rewrite Hrow by exact Hn.
  apply (in_grow npc ncells nn c2n rmo cio ST); [exact Hn|]. right. exists cl, x, y. repeat (split; [assumption|]). split; reflexivity.
Qed.

(** Jacobians: for the matrix created for the mesh, with any previous entries [v] (other domains may have
    been assembled before), every order of the atomic additions gives, at every entry of the matrix,
    the previous value plus the sum of the element contributions. *)
Theorem C06_jacobian :
  forall (K : CRing) (I J npc ncells nn : nat) (sched : schedule) (c2n rmo cio cells : list nat) (A : crs K)
         (Ke : nat -> nat -> nat -> K) (v : list K) (out : res (list K)),
    fair sched -> 0 < I -> 0 < J ->
    wf_mesh npc ncells nn c2n -> star_graph npc ncells nn c2n rmo cio ->
    CreateBlockMatrix I J sched rmo cio = Ok A ->
    (forall c, In c cells -> c < ncells) -> length v = length (c_ents A) ->
    assemble_jacobian (BlockMatrixEntryOrdinal npc I J (c_rowmap A) (c_cols A) c2n) (npc * I) (npc * J) cells Ke v out ->
    exists v', out = Ok v' /\ length v' = length v /\
      forall i j, i < nn * I ->
        matrix (with_entries A v') i j = radd (matrix (with_entries A v) i j)
          (sum (length cells) (fun k => sum (npc * I) (fun a => sum (npc * J) (fun b =>
             if Nat.eqb (gdof npc I c2n (nth k cells 0) a) i && Nat.eqb (gdof npc J c2n (nth k cells 0) b) j
             then Ke k a b else r0)))).
Proof.
  intros K I J npc ncells nn sched c2n rmo cio cells A Ke v out Hf HI HJ MS ST E Hcells Hv Ho.
  destruct (created_facts K I J npc ncells nn sched c2n rmo cio A Hf HI HJ MS ST E) as [W [ER [EC [Hcomp _]]]].
  rewrite <- ER.
  apply (assemble_generic nn nn A (BlockMatrixEntryOrdinal npc I J (c_rowmap A) (c_cols A) c2n) (fun ab => ab)
    (npc * c_R A) (npc * J) cells Ke (fun cell a _ => gdof npc (c_R A) c2n cell a) (fun cell _ b => gdof npc J c2n cell b)
    (jacobian_item (BlockMatrixEntryOrdinal npc I J (c_rowmap A) (c_cols A) c2n) (npc * I) (npc * J) cells Ke) v out W Hv).
  - intros k. rewrite ER. reflexivity.
  - intros cell a b Hin Ha Hb. cbn [fst snd]. apply Hcells in Hin. rewrite <- ER, <- EC in *.
    destruct (block_lookup npc ncells nn c2n MS A cell a b W Hcomp Hin Ha Hb) as [p [H1 H2]].
    exists p. split; [exact H1|]. split; [exact H2|]. apply (gdof_lt npc ncells nn c2n MS); assumption.
  - exact Ho.
Qed.
Print Assumptions C06_jacobian.

(** Transposed assembly through assemble_transpose_jacobian (derivatives with respect to controls and
    configuration): the element entry (a, b) is added at (dof of b, dof of a). *)
Theorem C06_transpose_jacobian :
  forall (K : CRing) (I J npc ncells nn : nat) (sched : schedule) (c2n rmo cio cells : list nat) (A : crs K)
         (Ke : nat -> nat -> nat -> K) (v : list K) (out : res (list K)),
    fair sched -> 0 < I -> 0 < J ->
    wf_mesh npc ncells nn c2n -> star_graph npc ncells nn c2n rmo cio ->
    CreateBlockMatrix I J sched rmo cio = Ok A ->
    (forall c, In c cells -> c < ncells) -> length v = length (c_ents A) ->
    assemble_transpose_jacobian (BlockMatrixEntryOrdinal npc I J (c_rowmap A) (c_cols A) c2n) (npc * J) (npc * I) cells Ke v out ->
    exists v', out = Ok v' /\ length v' = length v /\
      forall i j, i < nn * I ->
        matrix (with_entries A v') i j = radd (matrix (with_entries A v) i j)
          (sum (length cells) (fun k => sum (npc * J) (fun a => sum (npc * I) (fun b =>
             if Nat.eqb (gdof npc I c2n (nth k cells 0) b) i && Nat.eqb (gdof npc J c2n (nth k cells 0) a) j
             then Ke k a b else r0)))).
Proof.
  intros K I J npc ncells nn sched c2n rmo cio cells A Ke v out Hf HI HJ MS ST E Hcells Hv Ho.
  destruct (created_facts K I J npc ncells nn sched c2n rmo cio A Hf HI HJ MS ST E) as [W [ER [EC [Hcomp _]]]].
  rewrite <- ER.
  apply (assemble_generic nn nn A (BlockMatrixEntryOrdinal npc I J (c_rowmap A) (c_cols A) c2n) (fun ab => (snd ab, fst ab))
    (npc * J) (npc * c_R A) cells Ke (fun cell _ b => gdof npc (c_R A) c2n cell b) (fun cell a _ => gdof npc J c2n cell a)
    (transpose_jacobian_item (BlockMatrixEntryOrdinal npc I J (c_rowmap A) (c_cols A) c2n) (npc * J) (npc * I) cells Ke) v out W Hv).
  - intros k. rewrite ER. reflexivity.
  - intros cell a b Hin Ha Hb. cbn [fst snd]. apply Hcells in Hin. rewrite <- ER, <- EC in *.
    destruct (block_lookup npc ncells nn c2n MS A cell b a W Hcomp Hin Hb Ha) as [p [H1 H2]].
    exists p. split; [exact H1|]. split; [exact H2|]. apply (gdof_lt npc ncells nn c2n MS); assumption.
  - exact Ho.
Qed.
Print Assumptions C06_transpose_jacobian.

(** Transposed assembly through the transposed lookup (elliptic gradient_u_T, VectorFunction.hpp 459-464). *)
Theorem C06_transpose_lookup :
  forall (K : CRing) (D npc ncells nn : nat) (sched : schedule) (c2n rmo cio cells : list nat) (A : crs K)
         (Ke : nat -> nat -> nat -> K) (v : list K) (out : res (list K)),
    fair sched -> 0 < D ->
    wf_mesh npc ncells nn c2n -> star_graph npc ncells nn c2n rmo cio ->
    CreateBlockMatrix D D sched rmo cio = Ok A ->
    (forall c, In c cells -> c < ncells) -> length v = length (c_ents A) ->
    assemble_jacobian (BlockMatrixTransposeEntryOrdinal npc D (c_rowmap A) (c_cols A) c2n) (npc * D) (npc * D) cells Ke v out ->
    exists v', out = Ok v' /\ length v' = length v /\
      forall i j, i < nn * D ->
        matrix (with_entries A v') i j = radd (matrix (with_entries A v) i j)
          (sum (length cells) (fun k => sum (npc * D) (fun a => sum (npc * D) (fun b =>
             if Nat.eqb (gdof npc D c2n (nth k cells 0) b) i && Nat.eqb (gdof npc D c2n (nth k cells 0) a) j
             then Ke k a b else r0)))).
Proof.
  intros K D npc ncells nn sched c2n rmo cio cells A Ke v out Hf HD MS ST E Hcells Hv Ho.
  destruct (created_facts K D D npc ncells nn sched c2n rmo cio A Hf HD HD MS ST E) as [W [ER [EC [Hcomp _]]]].
  rewrite <- ER.
  apply (assemble_generic nn nn A (BlockMatrixTransposeEntryOrdinal npc D (c_rowmap A) (c_cols A) c2n) (fun ab => ab)
    (npc * c_R A) (npc * c_R A) cells Ke (fun cell _ b => gdof npc (c_R A) c2n cell b) (fun cell a _ => gdof npc (c_R A) c2n cell a)
    (jacobian_item (BlockMatrixTransposeEntryOrdinal npc D (c_rowmap A) (c_cols A) c2n) (npc * D) (npc * D) cells Ke) v out W Hv).
  - intros k. rewrite ER. reflexivity.
  - intros cell a b Hin Ha Hb. cbn [fst snd]. apply Hcells in Hin. rewrite <- ER in *.
    destruct (transpose_lookup npc ncells nn c2n MS A cell a b W (eq_sym EC) Hcomp Hin Ha Hb) as [p [H1 H2]].
    exists p. split; [exact H1|]. split.
    + exact H2.
    + apply (gdof_lt npc ncells nn c2n MS); assumption.
  - exact Ho.
Qed.
Print Assumptions C06_transpose_lookup.

(** Both together: assembled from zero into J x I blocks by the transposed loop, and into I x J blocks by
    the direct loop, the two matrices are transposes of each other. *)
Theorem C06_exact_transpose :
  forall (K : CRing) (I J npc ncells nn : nat) (sched : schedule) (c2n rmo cio cells : list nat) (A B : crs K)
         (Ke : nat -> nat -> nat -> K) (outA outB : res (list K)),
    fair sched -> 0 < I -> 0 < J ->
    wf_mesh npc ncells nn c2n -> star_graph npc ncells nn c2n rmo cio ->
    CreateBlockMatrix I J sched rmo cio = Ok A -> CreateBlockMatrix J I sched rmo cio = Ok B ->
    (forall c, In c cells -> c < ncells) ->
    assemble_jacobian (BlockMatrixEntryOrdinal npc I J (c_rowmap A) (c_cols A) c2n) (npc * I) (npc * J) cells Ke (c_ents A) outA ->
    assemble_transpose_jacobian (BlockMatrixEntryOrdinal npc J I (c_rowmap B) (c_cols B) c2n) (npc * I) (npc * J) cells Ke (c_ents B) outB ->
    exists vA vB, outA = Ok vA /\ outB = Ok vB /\
      forall i j, i < nn * I -> j < nn * J ->
        matrix (with_entries B vB) j i = matrix (with_entries A vA) i j.
Proof.
  intros K I J npc ncells nn sched c2n rmo cio cells A B Ke outA outB Hf HI HJ MS ST EA EB Hcells HA HB.
  destruct (created_facts K I J npc ncells nn sched c2n rmo cio A Hf HI HJ MS ST EA) as [_ [_ [_ [_ ZA]]]].
  destruct (created_facts K J I npc ncells nn sched c2n rmo cio B Hf HJ HI MS ST EB) as [_ [_ [_ [_ ZB]]]].
  destruct (C06_jacobian K I J npc ncells nn sched c2n rmo cio cells A Ke (c_ents A) outA Hf HI HJ MS ST EA Hcells eq_refl HA) as [vA [E1 [_ H1]]].
  destruct (C06_transpose_jacobian K J I npc ncells nn sched c2n rmo cio cells B Ke (c_ents B) outB Hf HJ HI MS ST EB Hcells eq_refl HB) as [vB [E2 [_ H2]]].
  exists vA, vB. split; [exact E1|]. split; [exact E2|]. intros i j Hi Hj. rewrite H1 by exact Hi. rewrite H2 by exact Hj.
  assert (Hz : forall (M : crs K) v i j, (forall e, In e v -> e = r0) -> matrix (with_entries M v) i j = r0).
  { intros M v i' j' H. apply lsum_map_0. intros o _. simpl. destruct (Nat.eqb _ _); [|reflexivity].
    match goal with |- nth ?q v _ = _ => destruct (Nat.lt_ge_cases q (length v)) as [Hq|Hq] end.
    - apply H, nth_In, Hq.
    - apply nth_overflow, Hq. }
  rewrite !Hz by assumption. f_equal. apply sum_ext. intros k _. apply sum_ext. intros a _. apply sum_ext. intros b _.
  rewrite andb_comm. reflexivity.
Qed.
Print Assumptions C06_exact_transpose.

(** Gathering a nodal field into worksets reads the right dofs, and scattering is its adjoint: the work of the
    assembled vector on any nodal field is the sum of the works of the element vectors on its gathered values. *)
Theorem C06_gather :
  forall (K : CRing) (D npc ncells nn : nat) (c2n cells : list nat) (state : list K) (k : nat),
    0 < D -> wf_mesh npc ncells nn c2n -> (forall c, In c cells -> c < ncells) -> length state = nn * D ->
    k < length cells ->
    exists row, workset_row npc D c2n cells state k = Ok row /\ length row = npc * D /\
      forall a, a < npc * D -> nth a row r0 = nth (gdof npc D c2n (nth k cells 0) a) state r0.
Proof. intros K D npc ncells nn c2n cells state k HD MS. apply (gather_ok npc ncells nn c2n MS). exact HD. Qed.
Print Assumptions C06_gather.

Theorem C06_virtual_work :
  forall (K : CRing) (D npc ncells nn : nat) (c2n cells : list nat) (Re : nat -> nat -> K) (w : list K) (out : res (list K)),
    0 < D -> wf_mesh npc ncells nn c2n -> (forall c, In c cells -> c < ncells) -> length w = nn * D ->
    assemble_vector npc D c2n cells Re (repeat r0 (nn * D)) out ->
    exists v' rows, out = Ok v' /\
      (forall k, k < length cells -> workset_row npc D c2n cells w k = Ok (rows k)) /\
      dot (nn * D) (fun i => nth i v' r0) (fun i => nth i w r0) =
      sum (length cells) (fun k => dot (npc * D) (Re k) (fun a => nth a (rows k) r0)).
Proof.
  intros K D npc ncells nn c2n cells Re w out HD MS Hc Hw Ho.
  destruct (C06_vector K D npc ncells nn c2n cells Re _ out HD MS Hc (repeat_length _ _) Ho) as [v' [E [_ H]]].
  exists v', (fun k => match workset_row npc D c2n cells w k with Ok r => r | _ => [] end).
  split; [exact E|]. split.
  - intros k Hk. destruct (C06_gather K D npc ncells nn c2n cells w k HD MS Hc Hw Hk) as [row [Er _]]. rewrite Er. reflexivity.
  - rewrite <- (sum_ext _ (fun k => sum (npc * D) (fun a => rmul (Re k a) (nth (gdof npc D c2n (nth k cells 0) a) w r0)))).
    + rewrite <- (gather_scatter npc ncells nn c2n MS D cells Re (fun i => nth i w r0) HD Hc).
      apply dot_ext; [|reflexivity]. intros i Hi. rewrite H.
      replace (nth i (repeat r0 (nn * D)) r0) with (@r0 K) by (symmetry; apply nth_repeat). apply (Radd_0_l (r_th K)).
    + intros k Hk. apply sum_ext. intros a Ha.
      destruct (C06_gather K D npc ncells nn c2n cells w k HD MS Hc Hw Hk) as [row [Er [_ Hr]]]. rewrite Er, Hr by exact Ha. reflexivity.
Qed.
Print Assumptions C06_virtual_work.

(** Concrete case: scalar element matrices on the two triangles, cells processed last to first. *)
Definition exKe (k a b : nat) : Z := Z.of_nat (100 * k + 10 * a + b).
Example C06_instance :
  (forall c, In c [0;1] -> c < 2) /\
  exists A v', CreateBlockMatrix (K := Z_ring) 1 1 (fun n => seq 0 n) ex_rmo ex_cio = Ok A /\
   assemble_jacobian (K := Z_ring) (BlockMatrixEntryOrdinal 3 1 1 (c_rowmap A) (c_cols A) ex_c2n) 3 3 [0;1] exKe (c_ents A) (Ok v') /\
   v' = [0;1;2; 122;112;10;122; 20;122;122;102; 121;120;122]%Z.
Proof.
  split; [simpl; intros c H; lia|]. eexists _, _. split; [reflexivity|]. split.
  - unfold assemble_jacobian, atomic_add_outcome. cbn -[add_all concat]. eexists.
    split; [apply Permutation_sym, Permutation_rev|]. vm_compute. reflexivity.
  - reflexivity.
Qed.
