(** Model of the sparse matrix class (src/alg/CrsMatrix.hpp) and of the sparse
    operations of src/PlatoMathHelpers.hpp, with checked accesses. *)
From Coq Require Import Arith List Bool.
From Verif Require Import Base.Field Base.ListUpd Base.Res Base.Scatter.
Import ListNotations.

Section Model.
Context {K : CRing}.
Local Open Scope K_scope.

(** Plato::CrsMatrix (src/alg/CrsMatrix.hpp lines 20-111); [c_nrows]/[c_ncols] are
    [None] when unset (-1), in which case numRows()/numCols() throw (lines 41-45). *)
Record crs := mkCrs {
  c_rowmap : list nat;
  c_cols : list nat;
  c_ents : list K;
  c_nrows : option nat;
  c_ncols : option nat;
  c_R : nat;   (* numRowsPerBlock *)
  c_C : nat    (* numColsPerBlock *)
}.

Definition numRows (A : crs) : res nat := match c_nrows A with Some n => Ok n | None => Throw end.
Definition numCols (A : crs) : res nat := match c_ncols A with Some n => Ok n | None => Throw end.
(** isBlockMatrix: numColsPerBlock*numRowsPerBlock > 1 (line 66). *)
Definition isBlock (A : crs) : bool := Nat.ltb 1 (c_C A * c_R A).

Definition row_range (rm : list nat) (i : nat) : res (list nat) :=
  let! a := ub (nth_error rm i) in
  let! b := ub (nth_error rm (S i)) in
  Ok (range a b).

(** PlatoMathHelpers.hpp lines 104-113: the loop over the rows of one block.  The state is the
    output view and the running entry index [tMatrixEntryIndex]. *)
Definition block_rows (A : crs) (x : list K) (i nc o : nat) (y : list K) : res (list K) :=
  let! s := foldR (fun row (s : list K * nat) =>
      let! si := foldR (fun colDof (si : K * nat) =>
          let! e := ub (nth_error (c_ents A) (snd si)) in
          let! xv := ub (nth_error x colDof) in
          Ok (fst si + e * xv, S (snd si)))
        (range (c_C A * nc) (c_C A * nc + c_C A)) (0, snd s) in
      let! y' := add_at (fst s) row (fst si) in
      Ok (y', snd si))
    (range (c_R A * i) (c_R A * i + c_R A)) (y, (c_R A * c_C A * o)%nat) in
  Ok (fst s).

(** Lines 89-115: one work item of the block product. *)
Definition matvec_block_item (A : crs) (x : list K) (i : nat) (y : list K) : res (list K) :=
  let! os := row_range (c_rowmap A) i in
  foldR (fun o y => let! nc := ub (nth_error (c_cols A) o) in block_rows A x i nc o y) os y.

(** Lines 124-135: one work item of the non-block product. *)
Definition matvec_item (A : crs) (x : list K) (i : nat) (y : list K) : res (list K) :=
  let! os := row_range (c_rowmap A) i in
  let! s := foldR (fun o s =>
      let! c := ub (nth_error (c_cols A) o) in
      let! e := ub (nth_error (c_ents A) o) in
      let! xv := ub (nth_error x c) in
      Ok (s + e * xv)) os 0 in
  add_at y i s.

(** MatrixTimesVectorPlusVector (lines 57-137); rows in the order given by the schedule
    (each output entry is updated by one work item only). *)
Definition matvec (sched : schedule) (A : crs) (x y : list K) : res (list K) :=
  let! nc := numCols A in
  if negb (Nat.eqb nc (length x)) then Throw else
  let! nr := numRows A in
  if negb (Nat.eqb nr (length y)) then Throw else
  let n := (length (c_rowmap A) - 1)%nat in
  if isBlock A
  then foldR (matvec_block_item A x) (sched n) y
  else foldR (matvec_item A x) (sched n) y.

(** sortColumnEntries, lines 301-309: compare and exchange entries I and J of both arrays. *)
Definition cmp_swap (i j : nat) (s : list nat * list K) : res (list nat * list K) :=
  let! ci := ub (nth_error (fst s) i) in
  let! cj := ub (nth_error (fst s) j) in
  if Nat.ltb ci cj then
    let! c1 := ub (upd (fst s) j ci) in
    let! c2 := ub (upd c1 i cj) in
    let! vj := ub (nth_error (snd s) j) in
    let! vi := ub (nth_error (snd s) i) in
    let! v1 := ub (upd (snd s) j vi) in
    let! v2 := ub (upd v1 i vj) in
    Ok (c2, v2)
  else Ok s.

(** Lines 295-311: one row. *)
Definition sort_row (a b : nat) (s : list nat * list K) : res (list nat * list K) :=
  foldR (fun i s => foldR (fun j s => cmp_swap i j s) (range a b) s) (range a b) s.

(** sortColumnEntries (lines 288-313), rows in any order (rows are disjoint index ranges). *)
Definition sortColumnEntries (sched : schedule) (rm : list nat) (s : list nat * list K)
  : res (list nat * list K) :=
  foldR (fun r s =>
      let! a := ub (nth_error rm r) in
      let! b := ub (nth_error rm (S r)) in
      sort_row a b s)
    (sched (length rm - 1)%nat) s.

(** Consecutive positions for consecutive iterations: [tMatrixRowFrom++]. *)
Fixpoint number {A} (p : nat) (l : list A) : list (nat * A) :=
  match l with [] => [] | x :: l' => (p, x) :: number (S p) l' end.

(** getDataAsNonBlock, lines 209-216: the row map.  For the last index (numRows) the code reads
    tRowMap(numNodeRows+1), one past its end; [junk] is whatever is found there, and the boolean
    records that a read was out of bounds.  (The difference is multiplied by a local row index
    of zero in that case, so truncated subtraction is harmless.) *)
Definition nb_rowmap_item (junk : nat) (A : crs) (rowsPer stride : nat) (i : nat) : res ((nat * nat) * bool) :=
  let b := (i / rowsPer)%nat in
  let lr := (i mod rowsPer)%nat in
  let! from := ub (nth_error (c_rowmap A) b) in
  let to := match nth_error (c_rowmap A) (S b) with Some t => t | None => junk end in
  let oob := match nth_error (c_rowmap A) (S b) with Some _ => false | None => true end in
  Ok ((i, (from * stride * c_C A + lr * (to - from) * c_C A)%nat), oob).

(** Lines 238-255: the entries of one non-block row; columns and values, written at the same
    positions of two views of the same extent, are one view of pairs. *)
Definition nb_row_item (A : crs) (rm : list nat) (i : nat) : res (list (nat * (nat * K))) :=
  let b := (i / c_R A)%nat in
  let lr := (i mod c_R A)%nat in
  let! os := row_range (c_rowmap A) b in
  let! start := ub (nth_error rm i) in
  let! es := mapR (fun ok : nat * nat =>
      let (o, k) := ok in
      let! c := ub (nth_error (c_cols A) o) in
      let! v := ub (nth_error (c_ents A) (o * (c_R A * c_C A) + lr * c_C A + k)) in
      Ok ((c * c_C A + k)%nat, v))
    (list_prod os (seq 0 (c_C A))) in
  Ok (number start es).

(** Lines 259-276: the same for a row stride other than one: one row of each group of
    [stride] rows receives the row of the (one-row-block) matrix, the others zeros. *)
Definition nb_row_item_stride (A : crs) (stride offset : nat) (rm : list nat) (i : nat)
  : res (list (nat * (nat * K))) :=
  let b := (i / stride)%nat in
  let lr := (i mod stride)%nat in
  let! os := row_range (c_rowmap A) b in
  let! start := ub (nth_error rm i) in
  let! es := mapR (fun ok : nat * nat =>
      let (o, k) := ok in
      let! c := ub (nth_error (c_cols A) o) in
      let! v := if Nat.eqb lr offset then ub (nth_error (c_ents A) (o * c_C A + k)) else Ok 0 in
      Ok ((c * c_C A + k)%nat, v))
    (list_prod os (seq 0 (c_C A))) in
  Ok (number start es).

(** getDataAsNonBlock (lines 185-278).  Result: row map, (column, value) pairs, and whether
    some read was out of bounds. *)
Definition getDataAsNonBlock (junk : nat) (sched : schedule) (A : crs) (stride offset : nat)
  : res ((list nat * list (nat * K)) * bool) :=
  let! nr := numRows A in
  let n := (nr * stride)%nat in
  let rowsPer := if Nat.eqb stride 1 then c_R A else stride in
  let! its := mapR (nb_rowmap_item junk A rowsPer rowsPer) (seq 0 (S n)) in
  let! rm := par_write sched (S n)
      (fun i => let! it := nb_rowmap_item junk A rowsPer rowsPer i in Ok [fst it]) (repeat 0%nat (S n)) in
  let size := (length (c_cols A) * (c_R A * c_C A) * stride)%nat in
  let! es := par_write sched n
      (if Nat.eqb stride 1 then nb_row_item A rm else nb_row_item_stride A stride offset rm)
      (repeat (0%nat, 0) size) in
  Ok ((rm, es), existsb snd its).

(** setDataFromNonBlock, lines 342-347: block row map. *)
Definition sb_rowmap_item (A : crs) (rm : list nat) (i : nat) : res (list (nat * nat)) :=
  if Nat.eqb (i mod c_R A) 0
  then let! x := ub (nth_error rm i) in Ok [((i / c_R A)%nat, (x / (c_R A * c_C A))%nat)]
  else Ok [].

(** Lines 357-375: block columns written by one row. *)
Definition sb_cols_item (A : crs) (rm brm cm : list nat) (i : nat) : res (list (nat * nat)) :=
  let b := (i / c_R A)%nat in
  let lr := (i mod c_R A)%nat in
  let! os := row_range brm b in
  let! start := ub (nth_error rm i) in
  if Nat.eqb lr 0
  then mapR (fun po : nat * nat => let (p, o) := po in
         let! c := ub (nth_error cm (start + p * c_C A)) in Ok (o, (c / c_C A)%nat)) (number 0 os)
  else Ok [].

(** Lines 357-375: block values written by one row; [tMatrixRowFrom++] counts the inner iterations. *)
Definition sb_vals_item (A : crs) (rm brm : list nat) (vals : list K) (i : nat) : res (list (nat * K)) :=
  let b := (i / c_R A)%nat in
  let lr := (i mod c_R A)%nat in
  let! os := row_range brm b in
  let! start := ub (nth_error rm i) in
  mapR (fun pok : nat * (nat * nat) => let (p, ok) := pok in
      let! v := ub (nth_error vals p) in
      Ok ((fst ok * (c_R A * c_C A) + lr * c_C A + snd ok)%nat, v))
    (number start (list_prod os (seq 0 (c_C A)))).

(** setDataFromNonBlock (lines 323-378). *)
Definition setDataFromNonBlock (sched : schedule) (A : crs) (rm : list nat) (s : list nat * list K) : res crs :=
  let! s := sortColumnEntries sched rm s in
  let! nr := numRows A in
  let nn := (nr / c_R A)%nat in
  let! brm := par_write sched (S nr) (sb_rowmap_item A rm) (repeat 0%nat (S nn)) in
  let ne := length (snd s) in
  let! cols := par_write sched nr (sb_cols_item A rm brm (fst s)) (repeat 0%nat (ne / (c_R A * c_C A))) in
  let! vals := par_write sched nr (sb_vals_item A rm brm (snd s)) (repeat 0 ne) in
  Ok (mkCrs brm cols vals (c_nrows A) (c_ncols A) (c_R A) (c_C A)).

End Model.
Arguments crs : clear implicits.
