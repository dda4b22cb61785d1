(** Model of the assembly loops of src/Assembly.hpp. *)
From Coq Require Import Arith List Bool Permutation.
From Verif Require Import Base.Field Base.ListUpd Base.Res Base.Scatter Sparse.CrsModel Assembly.GraphModel.
Import ListNotations.

Section K.
Context {K : CRing}.

(** The outcomes of a parallel loop over [n] work items that perform atomic additions
    (Kokkos::atomic_add) to one view, the addresses and amounts being computed from data the loop
    does not modify: the additions of all items happen in any order whatsoever (in particular in any
    interleaving of the items). *)
Definition atomic_add_outcome (n : nat) (item : nat -> res (list (nat * K))) (v : list K) (out : res (list K)) : Prop :=
  match mapR item (seq 0 n) with
  | Ok wss => exists ws, Permutation ws (concat wss) /\ out = add_all ws v
  | Throw => out = Throw
  | UB => out = UB
  end.

(** An addition through an entry ordinal; -1 addresses memory before the view. *)
Definition at_entry (o : option nat) (x : K) : res (nat * K) :=
  match o with Some e => Ok (e, x) | None => UB end.

(** assemble_jacobian, assemble_jacobian_fad (Assembly.hpp lines 1264-1283 and 1339-1402), one work item.
    [cells] maps a work item to its mesh cell: SpatialDomain::cellOrdinals(), or the identity for
    the variants over the whole mesh.  [Ke k a b] is the workset entry (a Jacobian entry, or
    .dx(b) of residual a). *)
Definition jacobian_item (lookup : nat -> nat -> nat -> res (option nat)) (nrows ncols : nat)
    (cells : list nat) (Ke : nat -> nat -> nat -> K) (k : nat) : res (list (nat * K)) :=
  let! cell := ub (nth_error cells k) in
  mapR (fun ab : nat * nat => let! o := lookup cell (fst ab) (snd ab) in at_entry o (Ke k (fst ab) (snd ab)))
       (list_prod (seq 0 nrows) (seq 0 ncols)).

(** assemble_transpose_jacobian, assemble_jacobian_transpose_pod (lines 1301-1320 and 1420-1484):
    the lookup is called with the column index first. *)
Definition transpose_jacobian_item (lookup : nat -> nat -> nat -> res (option nat)) (nrows ncols : nat)
    (cells : list nat) (Ke : nat -> nat -> nat -> K) (k : nat) : res (list (nat * K)) :=
  let! cell := ub (nth_error cells k) in
  mapR (fun ab : nat * nat => let! o := lookup cell (snd ab) (fst ab) in at_entry o (Ke k (fst ab) (snd ab)))
       (list_prod (seq 0 nrows) (seq 0 ncols)).

Definition assemble_jacobian lookup nrows ncols cells Ke v out :=
  atomic_add_outcome (length cells) (jacobian_item lookup nrows ncols cells Ke) v out.
Definition assemble_transpose_jacobian lookup nrows ncols cells Ke v out :=
  atomic_add_outcome (length cells) (transpose_jacobian_item lookup nrows ncols cells Ke) v out.

(** VectorEntryOrdinal<SpaceDim, D>::operator() (ImplicitFunctors.hpp lines 26-31). *)
Definition VectorEntryOrdinal (npc D : nat) (c2n : list nat) (cell node dof : nat) : res nat :=
  let! v := cell_node npc c2n cell node in Ok (v * D + dof).

(** assemble_residual, assemble_vector_gradient, assemble_vector_gradient_fad
    (lines 380-474 and 1187-1246), one work item; [Re k a] is the workset entry. *)
Definition vector_item (npc D : nat) (c2n cells : list nat) (Re : nat -> nat -> K) (k : nat) : res (list (nat * K)) :=
  let! cell := ub (nth_error cells k) in
  mapR (fun ab : nat * nat => let! p := VectorEntryOrdinal npc D c2n cell (fst ab) (snd ab) in
                              Ok (p, Re k (fst ab * D + snd ab)))
       (list_prod (seq 0 npc) (seq 0 D)).
Definition assemble_vector npc D c2n cells Re v out :=
  atomic_add_outcome (length cells) (vector_item npc D c2n cells Re) v out.

(** assemble_scalar_gradient(_fad) (lines 493-576): one value per node, stored at dof 0 of the node. *)
Definition scalar_item (npc D : nat) (c2n cells : list nat) (Re : nat -> nat -> K) (k : nat) : res (list (nat * K)) :=
  let! cell := ub (nth_error cells k) in
  mapR (fun a => let! p := VectorEntryOrdinal npc D c2n cell a 0 in Ok (p, Re k a)) (seq 0 npc).
Definition assemble_scalar_gradient npc D c2n cells Re v out :=
  atomic_add_outcome (length cells) (scalar_item npc D c2n cells Re) v out.

(** workset_state_scalar_scalar / workset_control_scalar_scalar (lines 595-700 and following): the gather;
    WS(k, node*D + dof) = State(entryOrdinal(cell, node, dof)).  The workset row of one cell. *)
Definition workset_row (npc D : nat) (c2n cells : list nat) (state : list K) (k : nat) : res (list K) :=
  let! cell := ub (nth_error cells k) in
  mapR (fun ab : nat * nat => let! p := VectorEntryOrdinal npc D c2n cell (fst ab) (snd ab) in ub (nth_error state p))
       (list_prod (seq 0 npc) (seq 0 D)).

(** The matrix with new entries. *)
Definition with_entries (A : crs K) (v : list K) : crs K :=
  mkCrs (c_rowmap A) (c_cols A) v (c_nrows A) (c_ncols A) (c_R A) (c_C A).
End K.
