(** What a solve of a whole body means, independently of the kernels and of the solver. *)
From Coq Require Import Reals List Arith.
From Verif Require Import Base.Field Base.Sums Element.ElementSpec Residual.ResidualSpec.
Import ListNotations.
Local Open Scope R_scope.

(** Entry j of U raised by t. *)
Definition moved (U : nat -> R) (j : nat) (t : R) (k : nat) : R := if Nat.eqb k j then U k + t else U k.
(** G U i j is the partial derivative of entry i of [val] with respect to entry j, for n entries. *)
Definition partial_derivatives (n : nat) (val : (nat -> R) -> nat -> R) (G : (nat -> R) -> nat -> nat -> R) : Prop :=
  forall U i j, (i < n)%nat -> (j < n)%nat -> derivable_pt_lim (fun t => val (moved U j t) i) 0 (G U i j).
(** Whether an entry is on the list. *)
Definition listed (dofs : list nat) (k : nat) : bool := if in_dec Nat.eq_dec k dofs then true else false.
(** U takes the listed values, and the internal forces [val U] carry the loads F at all other entries. *)
Definition equilibrium (n : nat) (val : (nat -> R) -> nat -> R) (F : nat -> R) (dofs : list nat) (vals : list R) (U : nat -> R) : Prop :=
  (forall k v, In (k, v) (combine dofs vals) -> U k = v) /\ (forall k, (k < n)%nat -> ~ In k dofs -> val U k = F k).
(** A list of values for n entries: one value each, no entry twice. *)
Definition conditions (n : nat) (dofs : list nat) (vals : list R) : Prop :=
  length vals = length dofs /\ NoDup dofs /\ (forall k, In k dofs -> (k < n)%nat).
