(** Supports, connectedness and interior nodes of a mesh, independently of the kernels. *)
From Coq Require Import Reals List Arith.
From Verif Require Import Base.Field Base.Sums Element.ElementSpec.
Import ListNotations.
Local Open Scope R_scope.

Definition positive_form (n : nat) (C : nat -> nat -> R) : Prop :=
  forall e, (exists i, (i < n)%nat /\ e i <> 0) -> 0 < rs n (fun i => e i * rs n (fun j => C i j * e j)).

(** Nodes that hang together with a held one through cells. *)
Inductive anchored (d : nat) (conn : list (nat -> nat)) (held : nat -> bool) : nat -> Prop :=
| anchored_here n : held n = true -> anchored d conn held n
| anchored_next c a b : In c conn -> (a <= d)%nat -> (b <= d)%nat -> anchored d conn held (c a) -> anchored d conn held (c b).

(** All corners of c' but one are corners of c. *)
Definition shares_facet (d : nat) (c c' : nat -> nat) : Prop :=
  exists b, (b <= d)%nat /\ forall a, (a <= d)%nat -> a <> b -> exists a', (a' <= d)%nat /\ c' a = c a'.
(** Cells reached from c0 by crossing facets. *)
Inductive joined (d : nat) (conn : list (nat -> nat)) (c0 : nat -> nat) : (nat -> nat) -> Prop :=
| joined_start : joined d conn c0 c0
| joined_next c c' : joined d conn c0 c -> In c' conn -> shares_facet d c c' -> joined d conn c0 c'.
(** The mesh hangs together through facets, and every node belongs to a cell. *)
Definition one_piece (d nn : nat) (conn : list (nat -> nat)) : Prop :=
  (exists c0, In c0 conn /\ forall c, In c conn -> joined d conn c0 c) /\
  (forall n, (n < nn)%nat -> exists c a, In c conn /\ (a <= d)%nat /\ c a = n).
(** The supports admit no rigid motion t + A x but rest; displacement i of node n is entry n * ndof + i. *)
Definition restrains (d nn ndof : nat) (X : nat -> nat -> R) (held : nat -> bool) : Prop :=
  forall t A, antisymmetric d A ->
  (forall n i, (n < nn)%nat -> (i < d)%nat -> held (n * ndof + i)%nat = true -> affine d (t i) (A i) X n = 0) ->
  forall n i, (n < nn)%nat -> (i < d)%nat -> affine d (t i) (A i) X n = 0.

(** U and U' have the same values at the held entries and the forces F and F' agree at the others. *)
Definition same_conditions (n : nat) (held : nat -> bool) (U U' F F' : nat -> R) : Prop :=
  forall k, (k < n)%nat -> if held k then U k = U' k else F k = F' k.
(** The internal forces R carry the loads F at all entries that are not held; W differs from U in no held entry. *)
Definition carries (n : nat) (held : nat -> bool) (R F : nat -> R) : Prop := forall k, (k < n)%nat -> held k = false -> R k = F k.
Definition allowed (n : nat) (held : nat -> bool) (U W : nat -> R) : Prop := forall k, (k < n)%nat -> held k = true -> W k = U k.
Definition at_rest (n : nat) (held : nat -> bool) (U : nat -> R) : Prop := forall k, (k < n)%nat -> held k = true -> U k = 0.
