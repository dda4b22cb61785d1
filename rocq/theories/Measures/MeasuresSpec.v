(** What the local measures are claimed to be, independently of the kernels. *)
From Coq Require Import Reals List Arith.
From Verif Require Import Base.Field Base.Sums Element.ElementModel Element.ElementSpec Element.MaterialSpec.
Local Open Scope R_scope.

(** The part of the energy density carried by tension, from the principal strains l: mu sum <l>^2 + lambda/2 <sum l>^2, <x> = max x 0. *)
Definition tension (d : nat) (lambda mu : R) (l : nat -> R) : R :=
  mu * rs d (fun i => Rmax (l i) 0 * Rmax (l i) 0) + lambda / 2 * (Rmax (rs d l) 0 * Rmax (rs d l) 0).
(** The energy density stored by Hooke's law at the engineering strain e: half the stress times the strain. *)
Definition stored (d : nat) (lambda mu : R) (e : nat -> R) : R := / 2 * rs (num_voigt d) (fun i => hooke d lambda mu e i * e i).
(** The tensor of small strain of the displacement gradient A, and the shear part of its squared norm. *)
Definition small_strain (A : nat -> nat -> R) (i j : nat) : R := (A i j + A j i) / 2.
(** The stress of the solid in plane strain: Hooke's law in space at the strain (e0, e1, 0, 0, 0, e2). *)
Definition plane_strain_stress (lambda mu : R) (e : nat -> R) : nat -> R :=
  hooke 3 lambda mu (fun v => match v with 0%nat => e 0%nat | 1%nat => e 1%nat | 5%nat => e 2%nat | _ => 0 end).
(** The equivalent stress of a stress in space, from the differences of its components. *)
Definition equivalent_squared (s : nat -> R) : R :=
  3 / 2 * contract (deviator (voigt_tensor false s)) (deviator (voigt_tensor false s)).
(** The mean of the nodal values. *)
Definition nodal_mean (d : nat) (T : nat -> R) : R := rs (S d) T / INR (S d).
