(** Meshes and fields from text files (src/Plato_BuildMesh.hpp).  A file is the list of the values that >> delivers before it first fails. *)
From Coq Require Import List Arith.
From Verif Require Import Base.Res Base.ListUpd.
Import ListNotations.

Section Text.
Context {A : Type}.
(** read_coordinates (26-63, with [d] = SpatialDim) and read_connectivity (71-108, with [d] = SpatialDim + 1) are the same loop.  [None] is a
    value that was not initialised.  The state is tVector (tArray), tIndex, the vectors pushed so far and tCount. *)
Record reading := mkReading { r_vector : list (option A); r_index : nat; r_rows : list (list (option A)); r_count : nat }.
Definition read_value (d : nat) (v : A) (s : reading) : res reading :=
  let! vec := ub (upd (r_vector s) (r_index s) (Some v)) in
  let count := S (r_count s) in
  if Nat.eqb (count mod d) 0 then Ok (mkReading vec 0 (r_rows s ++ [vec]) count)
  else Ok (mkReading vec (S (r_index s)) (r_rows s) count).
Definition read_loop (d : nat) (file : list A) : res reading := foldR (read_value d) file (mkReading (repeat None d) 0 [] 0).
(** The copy to the host array of tCount entries (49-60, 95-105), which allocation leaves uninitialised. *)
Definition copy_rows (d : nat) (s : reading) : res (list (option A)) :=
  foldR (fun i out => foldR (fun j out =>
      let! row := ub (nth_error (r_rows s) i) in let! x := ub (nth_error row j) in ub (upd out (i * d + j) x)) (seq 0 d) out)
    (seq 0 (r_count s / d)) (repeat None (r_count s)).
Definition read_rows (d : nat) (file : list A) : res (list (option A)) :=
  let! s := read_loop d file in copy_rows d s.
Definition read_coordinates (dim : nat) := read_rows dim.
Definition read_connectivity (dim : nat) := read_rows (dim + 1).

(** read_data, 137-150: a vector of zeros of the length asked for, filled without a check. *)
Definition read_data (zero : A) (len : nat) (file : list A) : res (list A) :=
  let! s := foldR (fun v s => let! out := ub (upd (fst s) (snd s) v) in Ok (out, S (snd s))) file (repeat zero len, 0) in Ok (fst s).
(** transform, 159-169: a copy to a host array. *)
Definition transform (input : list A) : res (list (option A)) :=
  foldR (fun i out => let! x := ub (nth_error input i) in ub (upd out i (Some x))) (seq 0 (length input)) (repeat None (length input)).
End Text.
