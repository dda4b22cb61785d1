(** What a change of frame, of numbering or of units means, independently of the kernels. *)
From Coq Require Import Reals List Arith.
From Verif Require Import Base.Field Base.Sums Element.ElementSpec.
Import ListNotations.
Local Open Scope R_scope.

Definition delta (i j : nat) : R := if Nat.eqb i j then 1 else 0.
(** Columns and rows of Q are orthonormal: a rotation or a reflection. *)
Definition orthogonal (d : nat) (Q : nat -> nat -> R) : Prop := forall i j, (i < d)%nat -> (j < d)%nat ->
  rs d (fun k => Q k i * Q k j) = delta i j /\ rs d (fun k => Q i k * Q j k) = delta i j.
Definition turn (d : nat) (Q : nat -> nat -> R) (v : nat -> R) (i : nat) : R := rs d (fun j => Q i j * v j).
Definition turn_tensor (d : nat) (Q T : nat -> nat -> R) (i j : nat) : R := rs d (fun k => rs d (fun l => Q i k * T k l * Q j l)).
(** The body moved as a whole: every node x goes to t + Q x. *)
Definition placed (d nn : nat) (t : nat -> R) (Q X X' : nat -> nat -> R) : Prop :=
  forall n i, (n < nn)%nat -> (i < d)%nat -> X' n i = t i + turn d Q (X n) i.
(** A nodal vector field (the first d of ndof numbers of each node) carried along, and a nodal number (position off) kept. *)
Definition carried (d nn ndof : nat) (Q : nat -> nat -> R) (U U' : nat -> R) : Prop :=
  forall n i, (n < nn)%nat -> (i < d)%nat -> U' (n * ndof + i)%nat = turn d Q (fun j => U (n * ndof + j)%nat) i.
Definition kept (nn ndof off : nat) (U U' : nat -> R) : Prop := forall n, (n < nn)%nat -> U' (n * ndof + off)%nat = U (n * ndof + off)%nat.

(** Where the pair i j stands among the components 11 22 33 23 13 12 (11 22 12 in the plane), and the tensors they are components of:
    shear strains count double. *)
Definition position (d i j : nat) : nat := if Nat.eqb i j then i else match d with 2%nat => 2%nat | _ => (6 - i - j)%nat end.
Definition as_stress (d : nat) (s : nat -> R) (i j : nat) : R := s (position d i j).
Definition as_strain (d : nat) (e : nat -> R) (i j : nat) : R := if Nat.eqb i j then e i else e (position d i j) / 2.
Definition components (d : nat) : nat := (d * (d + 1) / 2)%nat.
(** Stress C (e - ref). *)
Definition law (d : nat) (C : nat -> nat -> R) (ref e : nat -> R) (v : nat) : R := rs (components d) (fun w => C v w * (e w - ref w)).
(** The second material is the first one turned by Q. *)
Definition turned_law (d : nat) (Q C : nat -> nat -> R) (ref : nat -> R) (C' : nat -> nat -> R) (ref' : nat -> R) : Prop :=
  forall e e', (forall i j, (i < d)%nat -> (j < d)%nat -> as_strain d e' i j = turn_tensor d Q (as_strain d e) i j) ->
  forall i j, (i < d)%nat -> (j < d)%nat -> as_stress d (law d C' ref' e') i j = turn_tensor d Q (as_stress d (law d C ref e)) i j.
