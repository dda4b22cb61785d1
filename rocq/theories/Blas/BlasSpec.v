(** What the operations on views are meant to do. *)
From Coq Require Import Arith List.
From Verif Require Import Blas.View.
Import ListNotations.

(** [v'] is [v] with every entry [j] in [P] replaced by [F j (v(j))], and every other entry left alone. *)
Definition changed {A} (v v' : view A) (P : list nat -> Prop) (F : list nat -> A -> A) : Prop :=
  extents v' = extents v /\
  (forall j, P j -> content v' j = F j (content v j)) /\
  (forall j, ~ P j -> content v' j = content v j).

(** The entries (c, r), c < n, r < R. *)
Definition at2 (n R : nat) (j : list nat) : Prop := exists c r, c < n /\ r < R /\ j = [c; r].
(** The entries (c, r, k), c < n, r < R, k < C. *)
Definition at3 (n R C : nat) (j : list nat) : Prop := exists c r k, c < n /\ r < R /\ k < C /\ j = [c; r; k].

(** Components of a multi-index. *)
Notation e0 := (fun j : list nat => nth 0 j 0).
Notation e1 := (fun j : list nat => nth 1 j 0).
Notation e2 := (fun j : list nat => nth 2 j 0).
