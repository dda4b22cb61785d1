(** Meshes and the star graph that Omega_h provides for them. *)
From Coq Require Import Arith List.
From Verif Require Import Base.Field Sparse.CrsModel Sparse.CrsSpec.
Import ListNotations.

(** Connectivity: [npc] nodes per cell, [c2n] lists the nodes of cell 0, then of cell 1, ... *)
Record wf_mesh (npc ncells nnodes : nat) (c2n : list nat) : Prop := {
  m_len : length c2n = ncells * npc;
  m_nodes : forall v, In v c2n -> v < nnodes
}.

Definition node_of (npc : nat) (c2n : list nat) (cell a : nat) : nat := nth (cell * npc + a) c2n 0.

(** Two nodes share an element. *)
Definition share_element (npc ncells : nat) (c2n : list nat) (u v : nat) : Prop :=
  exists cell a b, cell < ncells /\ a < npc /\ b < npc /\
    node_of npc c2n cell a = u /\ node_of npc c2n cell b = v.

(** The contract of Omega_h's star graph: for each node, every other node that shares an
    element with it, once, in any order. *)
Record star_graph (npc ncells nnodes : nat) (c2n rmo cio : list nat) : Prop := {
  s_len : length rmo = S nnodes;
  s_first : nth 0 rmo 0 = 0;
  s_mono : forall i, i < nnodes -> nth i rmo 0 <= nth (S i) rmo 0;
  s_last : nth nnodes rmo 0 = length cio;
  s_nodup : forall r, r < nnodes -> NoDup (row_cols rmo cio r);
  s_row : forall r c, r < nnodes ->
    (In c (row_cols rmo cio r) <-> c <> r /\ share_element npc ncells c2n r c)
}.

(** Global dof of local dof [a] of a cell, with D dofs per node. *)
Definition gdof (npc D : nat) (c2n : list nat) (cell a : nat) : nat :=
  node_of npc c2n cell (a / D) * D + a mod D.

Section K.
Context {K : CRing}.
(** [p] is the storage position of dense entry (i,j) in the block-sparse matrix: it lies in an entry [e] of
    the block row of [i] whose block column is that of [j], at the local row and column of i and j. *)
Definition addresses (A : crs K) (p i j : nat) : Prop :=
  exists e, nth (i / c_R A) (c_rowmap A) 0 <= e < nth (S (i / c_R A)) (c_rowmap A) 0 /\
    nth e (c_cols A) 0 = j / c_C A /\
    p = e * c_R A * c_C A + (i mod c_R A) * c_C A + j mod c_C A.

(** Every coupling of the mesh is in the graph of the matrix. *)
Definition complete (npc ncells : nat) (c2n : list nat) (A : crs K) : Prop :=
  forall cell a b, cell < ncells -> a < npc -> b < npc ->
    In (node_of npc c2n cell b) (row_cols (c_rowmap A) (c_cols A) (node_of npc c2n cell a)).
End K.
