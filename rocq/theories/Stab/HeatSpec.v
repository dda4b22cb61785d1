(** What the properties of stabilised thermoelastostatics say, independently of its kernels. *)
From Coq Require Import Reals List Arith.
From Verif Require Import Base.Field Base.Sums Element.ElementSpec.
Local Open Scope R_scope.

(** Mean of the values at position off of the nodes of a cell, ndof values per node. *)
Definition mean_at (d ndof off : nat) (node : nat -> nat) (U : nat -> R) : R := rs (S d) (fun a => U (node a * ndof + off)%nat) / INR (S d).
(** The state (displacements, temperature) inside (displacements, pressure, temperature). *)
Definition without_pressure (d : nat) (U : nat -> R) (k : nat) : R :=
  let n := (k / S d)%nat in let i := (k mod S d)%nat in U (n * S (S d) + (if Nat.ltb i d then i else S d))%nat.
(** Only the entries at position off are not zero. *)
Definition only_at (off ndof : nat) (W : nat -> R) : Prop := forall n i, (i < ndof)%nat -> i <> off -> W (n * ndof + i)%nat = 0.
