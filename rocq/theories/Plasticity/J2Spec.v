(** What the plasticity properties say, in terms of tensors. *)
From Coq Require Import Reals List Arith.
From Verif Require Import Base.Field Base.Sums Element.ElementSpec.
Import ListNotations.
Local Open Scope R_scope.

(** Component names: which entries are normal components, in two and three dimensions. *)
Definition trace_of (d : nat) (t : nat -> R) : R :=
  match d with 2%nat => t 0%nat + t 1%nat + t 3%nat | _ => t 0%nat + t 1%nat + t 2%nat end.
(** Squared Frobenius norm of the symmetric tensor with these (tensorial) components. *)
Definition frobenius2 (d : nat) (t : nat -> R) : R :=
  match d with
  | 2%nat => t 0%nat * t 0%nat + t 1%nat * t 1%nat + t 3%nat * t 3%nat + 2 * (t 2%nat * t 2%nat)
  | _ => t 0%nat * t 0%nat + t 1%nat * t 1%nat + t 2%nat * t 2%nat + 2 * (t 3%nat * t 3%nat + t 4%nat * t 4%nat + t 5%nat * t 5%nat)
  end.
(** Tensorial components from engineering ones (shears halved). *)
Definition tensorial (d : nat) (e : nat -> R) (v : nat) : R :=
  match d, v with 2%nat, 2%nat => e 2%nat / 2 | 2%nat, _ => e v | _, (3%nat | 4%nat | 5%nat) => e v / 2 | _, _ => e v end.
(** Deviatoric part of a strain, as tensor components. *)
Definition dev_of (d : nat) (t : nat -> R) (v : nat) : R :=
  match d, v with 2%nat, 2%nat => t v | 2%nat, _ => t v - trace_of d t / 3 | _, (0%nat | 1%nat | 2%nat) => t v - trace_of d t / 3 | _, _ => t v end.
Definition components (d : nat) : nat := match d with 2%nat => 4%nat | _ => 6%nat end.

(** Fields of a local state. *)
Definition accumulated (ls : nat -> R) : R := ls 0%nat.
Definition multiplier (ls : nat -> R) : R := ls 1%nat.
Definition plastic_strain (d : nat) (ls : nat -> R) (v : nat) : R := tensorial d (fun w => ls (2 + w)%nat) v.
Definition backstress (d : nat) (ls : nat -> R) (v : nat) : R := ls (2 + components d + v)%nat.

(** Relative stress 2 G dev(total - plastic - thermal I) - backstress; the hydrostatic thermal part has no deviator. *)
Definition relative_stress (d : nat) (G : R) (total ls : nat -> R) (v : nat) : R :=
  2 * G * dev_of d (fun w => tensorial d total w - plastic_strain d ls w) v - backstress d ls v.
(** Von Mises yield function with isotropic hardening. *)
Definition yield_function (d : nat) (G Hi s0 : R) (total ls : nat -> R) : R :=
  sqrt (3 / 2) * sqrt (frobenius2 d (relative_stress d G total ls)) - (s0 + Hi * accumulated ls).

Definition trace_free (d : nat) (ls : nat -> R) : Prop := trace_of d (plastic_strain d ls) = 0 /\ trace_of d (backstress d ls) = 0.
