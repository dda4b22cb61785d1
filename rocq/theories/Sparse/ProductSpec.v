(** What non-block data represent, and what is assumed of the external kernels. *)
From Coq Require Import Arith List.
From Verif Require Import Base.Field Base.Sums Base.ListUpd Sparse.CrsModel Sparse.CrsSpec Sparse.ProductModel.
Import ListNotations.

Section Spec.
Context {K : CField}.
Local Open Scope K_scope.

(** The (column, value) pairs of row i, its columns, and the entry (i,j) of the matrix represented. *)
Definition nb_row (d : nbdata K) (i : nat) : list (nat * K) := segment (nth i (fst d) 0%nat) (nth (S i) (fst d) 0%nat) (snd d).
Definition nb_cols (d : nbdata K) (i : nat) : list nat := map fst (nb_row d i).
Definition entry (d : nbdata K) (i j : nat) : K := lsum (map (fun p => if Nat.eqb (fst p) j then snd p else 0) (nb_row d i)).

(** Well-formed data of n rows and c columns, no column twice in a row. *)
Record nb_valid (n c : nat) (d : nbdata K) : Prop := {
  v_len : length (fst d) = S n;
  v_first : nth 0 (fst d) 0%nat = 0%nat;
  v_mono : forall i, i < n -> nth i (fst d) 0%nat <= nth (S i) (fst d) 0%nat;
  v_last : nth n (fst d) 0%nat = length (snd d);
  v_cols : forall i j, i < n -> In j (nb_cols d i) -> j < c;
  v_nodup : forall i, i < n -> NoDup (nb_cols d i)
}.

(** Sparse matrix product: on well-formed data the result is well formed, its pattern is the structural one (entry (i,j) is stored
    iff some k is stored in row i of the first and j in row k of the second), in any order, and it represents the product. *)
Definition spgemm_ok (spgemm : spgemm_t K) : Prop :=
  forall n1 n2 c d1 d2, nb_valid n1 n2 d1 -> nb_valid n2 c d2 ->
    nb_valid n1 c (spgemm n1 n2 c d1 d2) /\
    (forall i j, i < n1 -> (In j (nb_cols (spgemm n1 n2 c d1 d2) i) <-> exists k, In k (nb_cols d1 i) /\ In j (nb_cols d2 k))) /\
    (forall i j, i < n1 -> entry (spgemm n1 n2 c d1 d2) i j = sum n2 (fun k => entry d1 i k * entry d2 k j)).

(** Sparse matrix sum: the pattern of the result is the union of the patterns. *)
Definition spadd_ok (spadd : spadd_t K) : Prop :=
  forall n c d1 d2 alpha beta, nb_valid n c d1 -> nb_valid n c d2 ->
    nb_valid n c (spadd d1 alpha d2 beta) /\
    (forall i j, i < n -> (In j (nb_cols (spadd d1 alpha d2 beta) i) <-> In j (nb_cols d1 i) \/ In j (nb_cols d2 i))) /\
    (forall i j, i < n -> entry (spadd d1 alpha d2 beta) i j = alpha * entry d1 i j + beta * entry d2 i j).

(** Sum of the entries of row i of a matrix with c block columns. *)
Definition rowsum (c : nat) (A : crs K) (i : nat) : K := sum (c * c_C A) (fun j => matrix A i j).
End Spec.
