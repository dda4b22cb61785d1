(** Words used by the statements on nodal criteria (C123). *)
From Coq Require Import Reals List.
From Verif Require Import Element.ElementSpec Residual.ResidualSpec Norms.NormsSpec.
Local Open Scope R_scope.

(** The mean of [f] over a list of nodes. *)
Definition mean (nodes : list nat) (f : nat -> R) : R := sum_over nodes f / INR (length nodes).
(** With [nd] values per node: the component of a nodal field along [w], and the magnitude of its values weighted by [w]. *)
Definition component (nd : nat) (w u : nat -> R) (n : nat) : R := rs nd (fun i => w i * u (nd * n + i)%nat).
Definition weighted (nd : nat) (w u : nat -> R) (n : nat) : R := magnitude nd (fun i => w i * u (nd * n + i)%nat).
