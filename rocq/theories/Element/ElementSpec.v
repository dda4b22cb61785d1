(** What the element properties say, independently of the kernels. *)
From Coq Require Import Reals List Arith.
From Verif Require Import Base.Field Base.Sums.
Import ListNotations.
Local Open Scope R_scope.

Definition rs (n : nat) (f : nat -> R) : R := sum (K := R_ring) n f.

(** The value at node a of the affine field b0 + b . x. *)
Definition affine (d : nat) (b0 : R) (b : nat -> R) (x : nat -> nat -> R) (a : nat) : R := b0 + rs d (fun l => b l * x a l).

(** Length, area and volume of the simplex with the given corners, from the edge vectors leaving corner 0. *)
Definition simplex_measure (d : nat) (x : nat -> nat -> R) : R :=
  let e a k := x a k - x 0%nat k in
  match d with
  | 1%nat => Rabs (e 1%nat 0%nat)
  | 2%nat => Rabs (e 1%nat 0%nat * e 2%nat 1%nat - e 1%nat 1%nat * e 2%nat 0%nat) / 2
  | _ => Rabs (e 1%nat 0%nat * (e 2%nat 1%nat * e 3%nat 2%nat - e 2%nat 2%nat * e 3%nat 1%nat)
             + e 1%nat 1%nat * (e 2%nat 2%nat * e 3%nat 0%nat - e 2%nat 0%nat * e 3%nat 2%nat)
             + e 1%nat 2%nat * (e 2%nat 0%nat * e 3%nat 1%nat - e 2%nat 1%nat * e 3%nat 0%nat)) / 6
  end.

(** Engineering strain of the displacement gradient A (A i j = d u_i / d x_j), in the order 11 22 33 23 13 12. *)
Definition engineering_strain (d : nat) (A : nat -> nat -> R) (v : nat) : R :=
  match d, v with
  | 1%nat, 0%nat => A 0%nat 0%nat
  | 2%nat, 0%nat => A 0%nat 0%nat | 2%nat, 1%nat => A 1%nat 1%nat | 2%nat, 2%nat => A 0%nat 1%nat + A 1%nat 0%nat
  | 3%nat, 0%nat => A 0%nat 0%nat | 3%nat, 1%nat => A 1%nat 1%nat | 3%nat, 2%nat => A 2%nat 2%nat
  | 3%nat, 3%nat => A 1%nat 2%nat + A 2%nat 1%nat | 3%nat, 4%nat => A 0%nat 2%nat + A 2%nat 0%nat | 3%nat, 5%nat => A 0%nat 1%nat + A 1%nat 0%nat
  | _, _ => 0
  end.

(** u holds the displacement t + A x at every node, ndof numbers per node, displacements first. *)
Definition affine_displacement (d ndof : nat) (x : nat -> nat -> R) (t : nat -> R) (A : nat -> nat -> R) (u : nat -> R) : Prop :=
  forall a i, (a <= d)%nat -> (i < d)%nat -> u (a * ndof + i)%nat = affine d (t i) (A i) x a.
Definition antisymmetric (d : nat) (A : nat -> nat -> R) : Prop := forall i j, (i < d)%nat -> (j < d)%nat -> A i j = - A j i.

(** Squared length and dot product in three dimensions. *)
Definition dot3 (u v : nat -> R) : R := u 0%nat * v 0%nat + u 1%nat * v 1%nat + u 2%nat * v 2%nat.
