(** What an orthotropic material is: its compliance matrix, its energies, stability. *)
From Coq Require Import Reals Arith String.
From Verif Require Import Element.ElementModel.
Local Open Scope R_scope.

(** Engineering constants of a solid: moduli along the axes, shear moduli of the planes, Poisson ratios (first letter: loaded direction). *)
Record solid := { Ex : R; Ey : R; Ez : R; Gxy : R; Gxz : R; Gyz : R; nuxy : R; nuxz : R; nuyz : R }.
(** Engineering constants of a sheet. *)
Record sheet := { Sx : R; Sy : R; Sg : R; Sn : R }.
Local Open Scope string_scope.
(** What the user wrote in the input. *)
Definition entered3 (p : string -> option R) (k : solid) : Prop :=
  p "Youngs Modulus X" = Some (Ex k) /\ p "Youngs Modulus Y" = Some (Ey k) /\ p "Youngs Modulus Z" = Some (Ez k) /\
  p "Shear Modulus XY" = Some (Gxy k) /\ p "Shear Modulus XZ" = Some (Gxz k) /\ p "Shear Modulus YZ" = Some (Gyz k) /\
  p "Poissons Ratio XY" = Some (nuxy k) /\ p "Poissons Ratio XZ" = Some (nuxz k) /\ p "Poissons Ratio YZ" = Some (nuyz k).
Definition entered2 (p : string -> option R) (k : sheet) : Prop :=
  p "Youngs Modulus X" = Some (Sx k) /\ p "Youngs Modulus Y" = Some (Sy k) /\ p "Shear Modulus XY" = Some (Sg k) /\
  p "Poissons Ratio XY" = Some (Sn k).
Local Close Scope string_scope.

(** Strains per stress: pulling along x by 1 stretches x by 1/Ex and shrinks y by nuxy/Ex, and so on; components xx yy zz yz xz xy. *)
Definition compliance3 (k : solid) (i j : nat) : R :=
  match i, j with
  | 0, 0 => (1 / Ex k)%R | 1, 1 => (1 / Ey k)%R | 2, 2 => (1 / Ez k)%R
  | 0, 1 | 1, 0 => (- nuxy k / Ex k)%R
  | 0, 2 | 2, 0 => (- nuxz k / Ex k)%R
  | 1, 2 | 2, 1 => (- nuyz k / Ey k)%R
  | 3, 3 => (1 / Gyz k)%R | 4, 4 => (1 / Gxz k)%R | 5, 5 => (1 / Gxy k)%R
  | _, _ => (0)%R end%nat.
(** Components xx yy xy. *)
Definition compliance2 (k : sheet) (i j : nat) : R :=
  match i, j with
  | 0, 0 => (1 / Sx k)%R | 1, 1 => (1 / Sy k)%R | 0, 1 | 1, 0 => (- Sn k / Sx k)%R | 2, 2 => (1 / Sg k)%R | _, _ => (0)%R end%nat.

Definition apply (n : nat) (A : nat -> nat -> R) (x : nat -> R) (i : nat) : R := rsum n (fun j => A i j * x j).
(** Twice the energy density stored under x. *)
Definition energy (n : nat) (A : nat -> nat -> R) (x : nat -> R) : R := rsum n (fun i => x i * apply n A x i).
Definition nonzero (n : nat) (x : nat -> R) : Prop := exists i, (i < n)%nat /\ x i <> 0.
Definition positive (n : nat) (A : nat -> nat -> R) : Prop := forall x, nonzero n x -> 0 < energy n A x.
(** A mechanically possible material: positive moduli, and every load stores energy. *)
Definition stable3 (k : solid) : Prop :=
  (0 < Ex k /\ 0 < Ey k /\ 0 < Ez k /\ 0 < Gxy k /\ 0 < Gxz k /\ 0 < Gyz k) /\ positive 6 (compliance3 k).
Definition stable2 (k : sheet) : Prop := (0 < Sx k /\ 0 < Sy k /\ 0 < Sg k) /\ positive 3 (compliance2 k).
(** C undoes S: stress to strain and back. *)
Definition inverse (n : nat) (S C : nat -> nat -> R) : Prop :=
  forall x i, (i < n)%nat -> apply n S (apply n C x) i = x i /\ apply n C (apply n S x) i = x i.
