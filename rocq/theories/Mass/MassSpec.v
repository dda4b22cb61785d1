(** What the mass properties say, independently of the kernels. *)
From Coq Require Import String Reals List Arith.
From Verif Require Import Base.Field Base.Sums Element.ElementSpec Residual.ResidualSpec.
Import ListNotations.
Local Open Scope R_scope.

(** A body: a list of masses and their places. *)
Definition body := list (R * (nat -> R)).
Definition mass_of (b : body) : R := sum_over b fst.
Definition first_of (b : body) (i : nat) : R := sum_over b (fun q => fst q * snd q i).
Definition second_of (b : body) (i j : nat) : R := sum_over b (fun q => fst q * (snd q i * snd q j)).
Definition centre_of (b : body) (i : nat) : R := first_of b i / mass_of b.
(** Moments and products of inertia about the origin: Ixx = sum of m (y^2 + z^2), Ixy = - sum of m x y. *)
Definition inertia_of (b : body) (i j : nat) : R :=
  if Nat.eqb i j then sum_over b (fun q => fst q * (rs 3 (fun k => snd q k * snd q k) - snd q i * snd q i))
  else - sum_over b (fun q => fst q * (snd q i * snd q j)).

(** The middle of a cell with d + 1 corners, and the mean of its nodal values. *)
Definition middle (d : nat) (x : nat -> nat -> R) (i : nat) : R := rs (S d) (fun a => x a i) / INR (S d).
Definition mean (d : nat) (z : nat -> R) : R := rs (S d) z / INR (S d).
(** The body of a design: for every cell (corners, density) the mass density * mean control * measure at the middle of the cell. *)
Definition design_body (d : nat) (X : nat -> nat -> R) (Z : nat -> R) (cells : list ((nat -> nat) * R)) : body :=
  map (fun c => (snd c * mean d (fun a => Z (fst c a)) * simplex_measure d (fun a i => X (fst c a) i), middle d (fun a i => X (fst c a) i))) cells.

Local Open Scope string_scope.
(** The ten properties by name. *)
Definition property_value (b : body) (name : string) : option R :=
  if String.eqb name "Mass" then Some (mass_of b)
  else if String.eqb name "CGx" then Some (centre_of b 0)
  else if String.eqb name "CGy" then Some (centre_of b 1)
  else if String.eqb name "CGz" then Some (centre_of b 2)
  else if String.eqb name "Ixx" then Some (inertia_of b 0 0)
  else if String.eqb name "Iyy" then Some (inertia_of b 1 1)
  else if String.eqb name "Izz" then Some (inertia_of b 2 2)
  else if String.eqb name "Ixy" then Some (inertia_of b 0 1)
  else if String.eqb name "Ixz" then Some (inertia_of b 0 2)
  else if String.eqb name "Iyz" then Some (inertia_of b 1 2)
  else None.
Local Close Scope string_scope.

(** Determinant of a d x d matrix. *)
Definition det (d : nat) (A : nat -> nat -> R) : R :=
  match d with
  | 1%nat => A 0%nat 0%nat
  | 2%nat => A 0%nat 0%nat * A 1%nat 1%nat - A 0%nat 1%nat * A 1%nat 0%nat
  | _ => A 0%nat 0%nat * (A 1%nat 1%nat * A 2%nat 2%nat - A 1%nat 2%nat * A 2%nat 1%nat)
       - A 0%nat 1%nat * (A 1%nat 0%nat * A 2%nat 2%nat - A 1%nat 2%nat * A 2%nat 0%nat)
       + A 0%nat 2%nat * (A 1%nat 0%nat * A 2%nat 1%nat - A 1%nat 1%nat * A 2%nat 0%nat)
  end.
Definition orthonormal (d : nat) (A : nat -> nat -> R) : Prop :=
  forall i j, (i < d)%nat -> (j < d)%nat -> rs d (fun k => A k i * A k j) = if Nat.eqb i j then 1 else 0.
(** Q and l diagonalise A: the columns of Q are orthonormal and Q^T A Q is the diagonal l. *)
Definition diagonalizes (A Q : nat -> nat -> R) (l : nat -> R) : Prop :=
  orthonormal 3 Q /\ orthonormal 3 (fun i j => Q j i) /\
  forall i j, (i < 3)%nat -> (j < 3)%nat -> rs 3 (fun k => rs 3 (fun m => Q k i * A k m * Q m j)) = if Nat.eqb i j then l i else 0.

(** The scale of a property: the extent of the mesh for a centre of gravity, at least 1/10; the wanted value for the others, 1 when it is
    at most 1/10. *)
Definition extent_of (nn : nat) (X : nat -> nat -> R) (a : nat) (e : R) : Prop :=
  (exists n m, (n < nn)%nat /\ (m < nn)%nat /\ e = X n a - X m a) /\ forall n m, (n < nn)%nat -> (m < nn)%nat -> X n a - X m a <= e.
Definition value_scale (g : R) : R := if Rle_dec (Rabs g) (1 / 10) then 1 else Rabs g.
Local Open Scope string_scope.
Definition property_scale (e : nat -> R) (name : string) (g : R) : R :=
  if String.eqb name "CGx" then Rmax (e 0%nat) (1 / 10) else if String.eqb name "CGy" then Rmax (e 1%nat) (1 / 10)
  else if String.eqb name "CGz" then Rmax (e 2%nat) (1 / 10) else value_scale g.
