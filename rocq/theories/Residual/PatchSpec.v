(** Facets around a node and interior nodes, independently of the kernels. *)
From Coq Require Import Reals List Arith Bool Permutation.
From Verif Require Import Base.Field Base.Sums Element.ElementSpec.
Import ListNotations.
Local Open Scope R_scope.

(** The facets that meet at node n, each as a cell and the corner that lies opposite to it. *)
Definition facets (d : nat) (conn : list (nat -> nat)) (n : nat) : list ((nat -> nat) * nat) :=
  flat_map (fun c => map (pair c) (filter (fun b => existsb (fun a => Nat.eqb (c a) n) (seq 0 (S d)) && negb (Nat.eqb (c b) n)) (seq 0 (S d)))) conn.
(** Two cells with the same facet: a relabelling s of the corners (with inverse s') turns one into the other except for the corners opposite to the facet;
    and these lie on the two sides of it: some affine function is zero on the facet, positive at one of them and negative at the other. *)
Definition same_facet (d : nat) (p q : (nat -> nat) * nat) : Prop := exists s s',
  (forall a, (a <= d)%nat -> (s a <= d)%nat /\ (s' a <= d)%nat /\ s' (s a) = a /\ s (s' a) = a) /\ s (snd p) = snd q /\
  forall a, (a <= d)%nat -> a <> snd p -> fst q (s a) = fst p a.
Definition two_sides (d : nat) (X : nat -> nat -> R) (p q : (nat -> nat) * nat) : Prop := exists b0 b,
  (forall a, (a <= d)%nat -> a <> snd p -> affine d b0 b X (fst p a) = 0) /\ 0 < affine d b0 b X (fst p (snd p)) /\ affine d b0 b X (fst q (snd q)) < 0.
(** A node is interior if the facets at it can be matched in pairs, each the common facet of two cells on its two sides. *)
Definition interior (d : nat) (X : nat -> nat -> R) (conn : list (nat -> nat)) (n : nat) : Prop := exists ps,
  Permutation (facets d conn n) (flat_map (fun pq => [fst pq; snd pq]) ps) /\ Forall (fun pq => same_facet d (fst pq) (snd pq) /\ two_sides d X (fst pq) (snd pq)) ps.
