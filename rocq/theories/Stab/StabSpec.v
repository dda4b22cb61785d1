(** What the properties of the stabilised formulation say, independently of its kernels. *)
From Coq Require Import Reals List Arith.
From Verif Require Import Base.Field Base.Sums Element.ElementSpec Element.MaterialSpec.
Local Open Scope R_scope.

(** Isotropic stiffness in Voigt form, nv components: column j is the stress of the unit strain j. *)
Definition isotropic (d nv : nat) (lam mu : R) (C : nat -> nat -> R) : Prop :=
  forall i j, (i < nv)%nat -> (j < nv)%nat -> C i j = hooke d lam mu (fun k => if Nat.eqb k j then 1 else 0) i.
(** Splitting of a nodal vector of d displacements and a pressure. *)
Definition displacements (d : nat) (U : nat -> R) (k : nat) : R := U (k / d * S d + k mod d)%nat.
Definition pressures (d : nat) (U : nat -> R) (n : nat) : R := U (n * S d + d)%nat.
Definition displaced (d : nat) (U : nat -> R) (k : nat) : R := if Nat.ltb (k mod S d) d then U k else 0.
