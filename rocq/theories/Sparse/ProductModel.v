(** Model of the sparse matrix products of src/PlatoMathHelpers.hpp.  The kernels spgemm and spadd of KokkosKernels are
    external: they are parameters. *)
From Coq Require Import Arith List Bool.
From Verif Require Import Base.Field Base.ListUpd Base.Res Base.Scatter Sparse.CrsModel.
Import ListNotations.

Section Model.
Context {K : CField}.
Local Open Scope K_scope.

(** Non-block CRS data: row map, and (column, value) pairs for the two views of the same extent. *)
Definition nbdata : Type := (list nat * list (nat * K))%type.

(** spgemm_symbolic and spgemm_numeric called with the numbers of rows of the first matrix, of rows of the second and of columns
    of the second (lines 441-459); spadd_symbolic and spadd_numeric called with two coefficients (lines 516-540). *)
Definition spgemm_t : Type := nat -> nat -> nat -> nbdata -> nbdata -> nbdata.
Definition spadd_t : Type := nbdata -> K -> nbdata -> K -> nbdata.

(** RowSum (src/PlatoMathFunctors.hpp lines 40-66): the sums of the rows of block row b, added to the view given. *)
Definition RowSum (A : crs K) (b : nat) (rs : list K) : res (list K) :=
  let! os := row_range (c_rowmap A) b in
  foldR (fun o rs => foldR (fun ij rs =>
      let! e := ub (nth_error (c_ents A) (c_R A * c_C A * o + c_C A * fst ij + snd ij)) in
      add_at rs (b * c_R A + fst ij) e) (list_prod (seq 0 (c_R A)) (seq 0 (c_C A))) rs) os rs.

(** DiagonalInverseMultiply (lines 132-157): the entries of block row b are divided by the entries of the vector. *)
Definition DiagonalInverseMultiply (A : crs K) (b : nat) (diag : list K) (es : list K) : res (list K) :=
  let! os := row_range (c_rowmap A) b in
  foldR (fun o es => foldR (fun ij es =>
      let p := (c_R A * c_C A * o + c_C A * fst ij + snd ij)%nat in
      let! e := ub (nth_error es p) in
      let! d := ub (nth_error diag (b * c_R A + fst ij)) in
      ub (upd es p (fdiv e d))) (list_prod (seq 0 (c_R A)) (seq 0 (c_C A))) es) os es.

(** RowSummedInverseMultiply (src/PlatoMathHelpers.hpp lines 147-160): one work item per block row of the first matrix. *)
Definition RowSummedInverseMultiply (sched : schedule) (One Two : crs K) : res (crs K) :=
  let nb := (length (c_rowmap One) - 1)%nat in
  let! nr := numRows One in
  let! s := foldR (fun b (s : list K * list K) =>
      let! rs := RowSum One b (fst s) in
      let! es := DiagonalInverseMultiply Two b rs (snd s) in
      Ok (rs, es)) (sched nb) (repeat 0 nr, c_ents Two) in
  Ok (mkCrs (c_rowmap Two) (c_cols Two) (snd s) (c_nrows Two) (c_ncols Two) (c_R Two) (c_C Two)).

(** MatrixMatrixMultiply (lines 394-462): the result replaces the contents of [Out]. *)
Definition MatrixMatrixMultiply (spgemm : spgemm_t) (junk : nat) (sched : schedule) (One Two Out : crs K) : res (crs K) :=
  let! r1 := numRows One in
  let! c1 := numCols One in
  let! r2 := numRows Two in
  let! c2 := numCols Two in
  let! ro := numRows Out in
  let! co := numCols Out in
  if negb (Nat.eqb r2 c1) then Throw else
  if negb (Nat.eqb ro r1) then Throw else
  if negb (Nat.eqb co c2) then Throw else
  let! d1 := getDataAsNonBlock junk sched One 1 0 in
  let! d2 := getDataAsNonBlock junk sched Two 1 0 in
  let d := spgemm r1 r2 c2 (fst d1) (fst d2) in
  setDataFromNonBlock sched Out (fst d) (map fst (snd d), map snd (snd d)).

(** MatrixMinusMatrix (lines 473-547); the numbers of rows are not compared. *)
Definition MatrixMinusMatrix (spadd : spadd_t) (junk : nat) (sched : schedule) (One Two : crs K) (offset : nat) : res (crs K) :=
  let! _ := numRows One in
  let! c1 := numCols One in
  let! _ := numRows Two in
  let! c2 := numCols Two in
  if negb (Nat.eqb c1 c2) then Throw else
  let! d1 := getDataAsNonBlock junk sched One 1 0 in
  let! d2 := getDataAsNonBlock junk sched Two (c_R One) offset in
  let d := spadd (fst d1) 1 (fst d2) (- (1)) in
  setDataFromNonBlock sched One (fst d) (map fst (snd d), map snd (snd d)).

(** Condense (lines 560-576): returns the new A and the overwritten D. *)
Definition Condense (spgemm : spgemm_t) (spadd : spadd_t) (junk : nat) (sched : schedule) (A B C D : crs K) (offset : nat) : res (crs K * crs K) :=
  let! D' := RowSummedInverseMultiply sched C D in
  let! nr := numRows B in
  let! nc := numCols D' in
  let BD := mkCrs [] [] [] (Some nr) (Some nc) (c_R B) (c_C D') in
  let! BD := MatrixMatrixMultiply spgemm junk sched B D' BD in
  let! A' := MatrixMinusMatrix spadd junk sched A BD offset in
  Ok (A', D').
End Model.
Arguments nbdata : clear implicits. Arguments spgemm_t : clear implicits. Arguments spadd_t : clear implicits.
