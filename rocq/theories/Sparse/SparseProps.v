(** Properties of the sparse-matrix operations: C07, C08, C09. *)
From Coq Require Import ZArith Arith List Lia Sorted Permutation.
From Verif Require Import Base.Field Base.Sums Base.ListUpd Base.Res Base.Loops
  Sparse.CrsModel Sparse.CrsSpec Sparse.MatvecProof Sparse.SortProof Sparse.NonBlockProof Sparse.RoundTripProof.
Import ListNotations.

(** A 2 x 3 block matrix with 2 x 2 blocks, used as the concrete case below:
    block row 0 has block columns 2 and 0 (unsorted), block row 1 has block column 1. *)
Definition exA : crs Z_ring :=
  mkCrs (K := Z_ring) [0;2;3] [2;0;1] [1;2;3;4; 5;6;7;8; 9;10;11;12]%Z (Some 4) (Some 6) 2 2.

Lemma exA_wf : wf_crs 2 3 exA.
Proof.
  constructor; simpl; try lia; try reflexivity.
  - intros [|[|i]] H; simpl; lia.
Qed.

Lemma exA_nodup : nodup_rows exA.
Proof.
  intros [|[|r]] H; simpl in *; try lia; cbv; repeat constructor; simpl; intuition discriminate.
Qed.

(** ** C09: sparse matrix-vector product *)

(** [matvec] returns y + A x, for the dense matrix that the sparse data represent, whatever the
    order in which rows are processed; in particular no access is out of bounds. *)
Theorem C09_matvec :
  forall (K : CRing) (n c : nat) (A : crs K) (sched : schedule) (x y : list K),
    fair sched -> wf_crs n c A ->
    length x = c * c_C A -> length y = n * c_R A ->
    exists y', matvec sched A x y = Ok y' /\ length y' = length y /\
      forall i, i < n * c_R A ->
        nth i y' r0 = radd (nth i y r0) (sum (c * c_C A) (fun j => rmul (matrix A i j) (nth j x r0))).
Proof. intros; apply (@matvec_correct K); assumption. Qed.
Print Assumptions C09_matvec.

(** A vector of the wrong length is rejected before any access, for every well-formed matrix. *)
Theorem C09_rejects_sizes :
  forall (K : CRing) (n c : nat) (A : crs K) (sched : schedule) (x y : list K),
    wf_crs n c A ->
    (length x <> c * c_C A \/ length y <> n * c_R A) ->
    matvec sched A x y = Throw.
Proof.
  intros K n c A sched x y W H. unfold matvec, numCols, numRows.
  rewrite (w_ncols _ _ _ W). cbn [rbind].
  destruct (Nat.eqb_spec (c * c_C A) (length x)) as [E|E]; cbn [negb]; [|reflexivity].
  rewrite (w_nrows _ _ _ W). cbn [rbind].
  destruct (Nat.eqb_spec (n * c_R A) (length y)) as [E'|E']; cbn [negb]; [|reflexivity].
  destruct H; congruence.
Qed.
Print Assumptions C09_rejects_sizes.

Definition exsched : schedule := fun n => rev (seq 0 n).
Lemma exsched_fair : fair exsched.
Proof. intros n. apply Permutation_sym, Permutation_rev. Qed.

Example C09_instance :
  fair exsched /\ wf_crs 2 3 exA /\
  matvec exsched exA [1;0;2;1;0;1]%Z [100;200;300;400]%Z = Ok [107; 211; 328; 434]%Z /\
  matvec exsched exA [1;0;2;1;0]%Z [100;200;300;400]%Z = Throw.
Proof. split; [exact exsched_fair|]. split; [exact exA_wf|]. split; reflexivity. Qed.

(** ** C08: sorting column entries *)

(** Sorting returns arrays of unchanged length whose rows are sorted by column, in each row the
    (column, value) pairs are a permutation of the original ones, and the matrix represented
    is unchanged. *)
Theorem C08_sort :
  forall (K : CRing) (sched : schedule) (rm : list nat) (cols : list nat) (vals : list K),
    fair sched -> 0 < length rm ->
    (forall i, S i < length rm -> nth i rm 0 <= nth (S i) rm 0) ->
    length cols = length vals -> nth (length rm - 1) rm 0 <= length cols ->
    exists cols' vals', sortColumnEntries sched rm (cols, vals) = Ok (cols', vals') /\
      length cols' = length cols /\ length vals' = length vals /\
      sorted_rows rm cols' /\
      (forall r, S r < length rm ->
         Permutation (segment (nth r rm 0) (nth (S r) rm 0) (combine cols vals))
                     (segment (nth r rm 0) (nth (S r) rm 0) (combine cols' vals'))) /\
      (forall i j, S i < length rm ->
         dense_rc 1 1 rm cols' vals' i j = dense_rc 1 1 rm cols vals i j).
Proof.
  intros K sched rm cols vals Hf Hne Hm Hl Hlast.
  destruct (sort_correct sched rm (cols, vals) Hf Hm Hne Hl Hlast) as [[cols' vals'] H].
  exists cols', vals'. exact H.
Qed.
Print Assumptions C08_sort.

Example C08_instance :
  sortColumnEntries (K := Z_ring) exsched [0;4;4;6] ([3;1;2;0;5;4], [30;10;20;0;50;40]%Z)
  = Ok ([0;1;2;3;4;5], [0;10;20;30;40;50]%Z).
Proof. reflexivity. Qed.

(** ** C07: block and non-block storage *)

(** The non-block data represent the same matrix as the block data, row by row and column by
    column.  ([junk] is the value read past the end of the row map, see below: the result does not
    depend on it.) *)
Theorem C07_nonblock_same_matrix :
  forall (K : CRing) (n c : nat) (A : crs K) (junk : nat) (sched : schedule),
    fair sched -> wf_crs n c A ->
    exists rm es oob, getDataAsNonBlock junk sched A 1 0 = Ok ((rm, es), oob) /\
      length rm = S (n * c_R A) /\
      forall i j, i < n * c_R A ->
        dense_rc 1 1 rm (map fst es) (map snd es) i j = matrix A i j.
Proof.
  intros K n c A junk sched Hf W. destruct (get_ok n c A junk sched Hf W) as [rm [es [E D]]].
  exists rm, es, true. split; [exact E|]. split; [apply (nb_len _ _ _ _ _ _ D)|].
  intros i j Hi. apply (get_dense n c); assumption.
Qed.
Print Assumptions C07_nonblock_same_matrix.

(** With a row stride s > 1 (matrices with one-row blocks, used when subtracting block matrices):
    row [i] of the result is row [i / s] of the matrix if [i mod s] is the requested offset and
    zero otherwise. *)
Theorem C07_stride_rows :
  forall (K : CRing) (n c : nat) (A : crs K) (junk : nat) (sched : schedule) (s offset : nat),
    fair sched -> wf_crs n c A -> c_R A = 1 -> 1 < s ->
    exists rm es oob, getDataAsNonBlock junk sched A s offset = Ok ((rm, es), oob) /\
      length rm = S (n * s) /\
      forall i j, i < n * s ->
        dense_rc 1 1 rm (map fst es) (map snd es) i j =
        if Nat.eqb (i mod s) offset then matrix A (i / s) j else r0.
Proof.
  intros K n c A junk sched s offset Hf W HR Hs.
  destruct (get_stride_ok n c A junk sched s offset Hf W HR Hs) as [rm [es [E D]]].
  exists rm, es, true. split; [exact E|]. split; [apply (nb_len _ _ _ _ _ _ D)|].
  intros i j Hi. apply (get_stride_dense n c); try assumption. lia.
Qed.
Print Assumptions C07_stride_rows.

(** Converting back gives a well-formed block matrix with the same row map that represents the
    same matrix, with sorted rows; if the rows of the original were sorted, the original data
    are restored exactly. *)
Theorem C07_round_trip :
  forall (K : CRing) (n c : nat) (A : crs K) (junk : nat) (sched : schedule),
    fair sched -> wf_crs n c A -> nodup_rows A ->
    exists rm es oob A',
      getDataAsNonBlock junk sched A 1 0 = Ok ((rm, es), oob) /\
      setDataFromNonBlock sched A rm (map fst es, map snd es) = Ok A' /\
      wf_crs n c A' /\ c_rowmap A' = c_rowmap A /\
      sorted_rows (c_rowmap A') (c_cols A') /\
      (forall i j, i < n * c_R A -> matrix A' i j = matrix A i j) /\
      (sorted_rows (c_rowmap A) (c_cols A) -> A' = A).
Proof.
  intros K n c A junk sched Hf W ND.
  destruct (get_ok n c A junk sched Hf W) as [rm [es [E D]]].
  destruct (back_matrix n c A W ND rm es D sched Hf) as [A' [E' [W' [H1 [H2 [H3 H4]]]]]].
  exists rm, es, true, A'. repeat (split; [assumption|]). assumption.
Qed.
Print Assumptions C07_round_trip.

(** The property's last clause (no access is out of bounds) is false: for every well-formed
    matrix, filling the row map reads one element past the end of the block row map. *)
Theorem C07_in_bounds_refuted :
  forall (K : CRing) (n c : nat) (A : crs K) (junk : nat) (sched : schedule),
    fair sched -> wf_crs n c A ->
    exists data, getDataAsNonBlock junk sched A 1 0 = Ok (data, true).
Proof.
  intros K n c A junk sched Hf W. destruct (get_ok n c A junk sched Hf W) as [rm [es [E D]]].
  exists (rm, es). exact E.
Qed.
Print Assumptions C07_in_bounds_refuted.

Example C07_instance :
  wf_crs 2 3 exA /\ nodup_rows exA /\
  getDataAsNonBlock 77 exsched exA 1 0 =
    Ok (([0;4;8;10;12], [(4,1%Z);(5,2%Z);(0,5%Z);(1,6%Z);(4,3%Z);(5,4%Z);(0,7%Z);(1,8%Z);(2,9%Z);(3,10%Z);(2,11%Z);(3,12%Z)]), true) /\
  setDataFromNonBlock exsched exA [0;4;8;10;12]
    ([4;5;0;1;4;5;0;1;2;3;2;3], [1;2;5;6;3;4;7;8;9;10;11;12]%Z) =
    Ok (mkCrs (K := Z_ring) [0;2;3] [0;2;1] [5;6;7;8;1;2;3;4;9;10;11;12]%Z (Some 4) (Some 6) 2 2).
Proof. split; [exact exA_wf|]. split; [exact exA_nodup|]. split; reflexivity. Qed.
