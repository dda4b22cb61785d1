(** Model of the creation of sparse matrices from mesh connectivity, and of the lookups used
    during assembly (src/ImplicitFunctors.hpp lines 605-902). *)
From Coq Require Import Arith List Bool.
From Verif Require Import Base.Field Base.ListUpd Base.Res Base.Scatter Sparse.CrsModel.
Import ListNotations.

(** CreateBlockMatrix lines 765-797 (and the same loop of CreateMatrix, lines 850-887): the columns
    of one row, in the order of the writes.  [k] iterations remain; [i] and [ioh] are the loop
    variables; [off], [endo] are rowMapOmega_h[rowNumber], rowMapOmega_h[rowNumber+1]; [cio] is
    columnIndicesOmega_h.  After the diagonal has been stored the code does i_oh-- and then i_oh++. *)
Fixpoint row_loop (cio : list nat) (off endo r : nat) (k i ioh : nat) : res (list nat) :=
  match k with
  | O => Ok []
  | S k' =>
    let! insertDiagonal :=
      if Nat.eqb ioh i then
        if Nat.leb endo (ioh + off) then Ok true
        else let! columnIndex := ub (nth_error cio (ioh + off)) in Ok (Nat.ltb r columnIndex)
      else Ok false in
    if insertDiagonal : bool then
      let! rest := row_loop cio off endo r k' (S i) ioh in Ok (r :: rest)
    else
      let! c := ub (nth_error cio (ioh + off)) in
      let! rest := row_loop cio off endo r k' (S i) (S ioh) in Ok (c :: rest)
  end.

(** R0, R1 and the columns of a row (lines 757-761). *)
Definition graph_row (rmo cio : list nat) (r : nat) : res ((nat * nat) * list nat) :=
  let! a := ub (nth_error rmo r) in
  let! b := ub (nth_error rmo (S r)) in
  let R0 := a + r in
  let R1 := b + r + 1 in
  let! cols := row_loop cio a b r (R1 - R0) 0 0 in
  Ok ((R0, R1), cols).

Section K.
Context {K : CRing}.

(** CreateBlockMatrix<MatrixType, I, J> (lines 735-807) for the star graph (rmo, cio) of the mesh
    vertices, which Omega_h provides (mesh->ask_star(0)).  Views are zero-initialised.  The single
    parallel loop writes two views; it is written here as one loop for each view. *)
Definition CreateBlockMatrix (I J : nat) (sched : schedule) (rmo cio : list nat) : res (crs K) :=
  let numRows := length rmo - 1 in
  let nnz := length cio + numRows in
  let! rowMap := par_write sched numRows
      (fun r => let! g := graph_row rmo cio r in Ok [(r, fst (fst g)); (S r, snd (fst g))])
      (repeat 0 (S numRows)) in
  let! cols := par_write sched numRows
      (fun r => let! g := graph_row rmo cio r in Ok (number (fst (fst g)) (snd g)))
      (repeat 0 nnz) in
  Ok (mkCrs rowMap cols (repeat r0 (nnz * (I * J))) (Some (numRows * I)) (Some (numRows * J)) I J).

(** The columns of one dof row of CreateMatrix: D dofs for each node column (lines 871-885). *)
Definition dof_cols (D : nat) (cols : list nat) : list nat :=
  flat_map (fun c => map (fun k => D * c + k) (seq 0 D)) cols.

(** CreateMatrix<MatrixType, D> (lines 818-902).  The copies of the first dof row to the other dof
    rows of the node (lines 888-893) read what the same work item has just written, so the values
    written are those of the first row.  The matrix is built without numbers of rows and columns
    (line 900), so numRows() and numCols() of the result throw. *)
Definition CreateMatrix (D : nat) (sched : schedule) (rmo cio : list nat) : res (crs K) :=
  let numRows := length rmo - 1 in
  let nnz := length cio + numRows in
  let! rowMap := par_write sched numRows
      (fun r => let! g := graph_row rmo cio r in
         let R0 := fst (fst g) in
         let numDofsThisRow := (snd (fst g) - R0) * D in
         Ok (map (fun k => (D * r + k, D * D * R0 + k * numDofsThisRow)) (seq 0 (S D))))
      (repeat 0 (S (numRows * D))) in
  let! cols := par_write sched numRows
      (fun r => let! g := graph_row rmo cio r in
         let R0 := fst (fst g) in
         let numDofsThisRow := (snd (fst g) - R0) * D in
         let first := dof_cols D (snd g) in
         Ok (flat_map (fun j => number (D * D * R0 + j * numDofsThisRow) first) (seq 0 D)))
      (repeat 0 (nnz * (D * D))) in
  Ok (mkCrs rowMap cols (repeat r0 (nnz * (D * D))) None None 1 1).
End K.

(** First entry of [start, end) whose column is [c]; [None] is the return value -1. *)
Fixpoint find_entry (ci : list nat) (es : list nat) (c : nat) : res (option nat) :=
  match es with
  | [] => Ok None
  | e :: es' => let! x := ub (nth_error ci e) in
                if Nat.eqb x c then Ok (Some e) else find_entry ci es' c
  end.

(** Node number of a local node of a cell: mCells2nodes[cell*(SpaceDim+1) + node]. *)
Definition cell_node (npc : nat) (c2n : list nat) (cell node : nat) : res nat :=
  ub (nth_error c2n (cell * npc + node)).

(** BlockMatrixEntryOrdinal<SpaceDim, I, J>::operator() (lines 661-680), npc = SpaceDim+1. *)
Definition BlockMatrixEntryOrdinal (npc I J : nat) (rm ci c2n : list nat) (cell icell jcell : nat) : res (option nat) :=
  let! iLocal := cell_node npc c2n cell (icell / I) in
  let! jLocal := cell_node npc c2n cell (jcell / J) in
  let! os := row_range rm iLocal in
  let! e := find_entry ci os jLocal in
  Ok (option_map (fun e => e * I * J + (icell mod I) * J + jcell mod J) e).

(** BlockMatrixTransposeEntryOrdinal<SpaceDim, D>::operator() (lines 622-641). *)
Definition BlockMatrixTransposeEntryOrdinal (npc D : nat) (rm ci c2n : list nat) (cell icell jcell : nat) : res (option nat) :=
  let! iLocal := cell_node npc c2n cell (icell / D) in
  let! jLocal := cell_node npc c2n cell (jcell / D) in
  let! os := row_range rm jLocal in
  let! e := find_entry ci os iLocal in
  Ok (option_map (fun e => e * D * D + (jcell mod D) * D + icell mod D) e).

(** MatrixEntryOrdinal<SpaceDim, D>::operator() (lines 702-721). *)
Definition MatrixEntryOrdinal (npc D : nat) (rm ci c2n : list nat) (cell icell jcell : nat) : res (option nat) :=
  let! iLocal := cell_node npc c2n cell (icell / D) in
  let! jLocal := cell_node npc c2n cell (jcell / D) in
  let! os := row_range rm (D * iLocal + icell mod D) in
  find_entry ci os (D * jLocal + jcell mod D).
