(** What the residual properties say, independently of the kernels. *)
From Coq Require Import Reals List Arith.
From Verif Require Import Base.Field Base.Sums Element.ElementSpec.
Import ListNotations.
Local Open Scope R_scope.

(** Work of the nodal forces F in the nodal displacements W, n entries. *)
Definition work (n : nat) (F W : nat -> R) : R := rs n (fun k => F k * W k).

(** A mesh: nn nodes with coordinates X; [conn] lists for each cell the function from corner number to node number.
    Corners are nodes of the mesh and no cell is flat. *)
Definition proper_mesh (d nn : nat) (X : nat -> nat -> R) (conn : list (nat -> nat)) : Prop :=
  forall c, In c conn -> (forall a, (a <= d)%nat -> (c a < nn)%nat) /\ simplex_measure d (fun a i => X (c a) i) <> 0.

(** Displacement t + A x at every node, ndof numbers per node, displacements first. *)
Definition moves (d nn ndof : nat) (X : nat -> nat -> R) (t : nat -> R) (A : nat -> nat -> R) (U : nat -> R) : Prop :=
  forall n i, (n < nn)%nat -> (i < d)%nat -> U (n * ndof + i)%nat = affine d (t i) (A i) X n.
(** The scalar b0 + b.x at every node, at position off of the node. *)
Definition scalar_field (d nn ndof off : nat) (X : nat -> nat -> R) (b0 : R) (b : nat -> R) (U : nat -> R) : Prop :=
  forall n, (n < nn)%nat -> U (n * ndof + off)%nat = affine d b0 b X n.
Definition symmetric (n : nat) (C : nat -> nat -> R) : Prop := forall i j, (i < n)%nat -> (j < n)%nat -> C i j = C j i.
Definition nonnegative_form (n : nat) (C : nat -> nat -> R) : Prop := forall e, 0 <= rs n (fun i => e i * rs n (fun j => C i j * e j)).
(** Sum over a list. *)
Fixpoint sum_over {A} (l : list A) (f : A -> R) : R := match l with [] => 0 | x :: l' => f x + sum_over l' f end.
