(** Derivatives with respect to the design, independently of adjoints and solvers. *)
From Coq Require Import Reals List Arith.
From Verif Require Import Base.Field Base.Sums Element.ElementSpec.
Local Open Scope R_scope.

(** The design z changed by t dz. *)
Definition changed (z dz : nat -> R) (t : R) (k : nat) : R := z k + t * dz k.
(** fu and fz are the derivatives of f at n states u and np design values z: f changes at the rate fu . du + fz . dz along every curve of states through u with
    rates du and every change dz of the design. *)
Definition differentiable_with (n np : nat) (f : (nat -> R) -> (nat -> R) -> R) (u z fu fz : nat -> R) : Prop :=
  forall (curve : R -> nat -> R) (du dz : nat -> R), (forall k, (k < n)%nat -> curve 0 k = u k /\ derivable_pt_lim (fun t => curve t k) 0 (du k)) ->
    derivable_pt_lim (fun t => f (curve t) (changed z dz t)) 0 (rs n (fun k => fu k * du k) + rs np (fun k => fz k * dz k)).
(** Some derivative exists. *)
Definition has_derivative (f : R -> R) : Prop := exists l, derivable_pt_lim f 0 l.
