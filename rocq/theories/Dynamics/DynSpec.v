(** What the structural dynamics properties say: mass, momentum, energies and dissipation of a meshed body. *)
From Coq Require Import Reals List Arith.
From Verif Require Import Base.Field Base.Sums Element.ElementModel Element.ElementSpec Residual.ResidualModel Residual.ResidualSpec Dynamics.DynModel.
Import ListNotations.
Local Open Scope R_scope.

(** Mean of component i of a nodal vector field over the corners of a cell; nodal mean of a design. *)
Definition mean_of {M} (d : nat) (U : nat -> R) (c : cell M) (i : nat) : R := rs (S d) (fun a => U (c_node c a * d + i)%nat) / INR (S d).
(** Weight of a cell: its length, area or volume times the penalty of the mean design value. *)
Definition weight_of {M} (d : nat) (pen : R -> R) (X : nat -> nat -> R) (Z : nat -> R) (c : cell M) : R :=
  simplex_measure d (fun a i => X (c_node c a) i) * pen (rs (S d) (fun a => Z (c_node c a)) / INR (S d)).
Definition mass_of {M} (d : nat) (pen : R -> R) (rho : M -> R) (X : nat -> nat -> R) (Z : nat -> R) (c : cell M) : R := weight_of d pen X Z c * rho (c_mat c).

(** [E] is the strain, in Voigt order with engineering shears, of the affine displacement that takes the nodal values at the corners of a cell. *)
Definition is_strain (d : nat) (X : nat -> nat -> R) (U : nat -> R) (c : nat -> nat) (E : nat -> R) : Prop :=
  exists t A, (forall a i, (a <= d)%nat -> (i < d)%nat -> U (c a * d + i)%nat = affine d (t i) (A i) (fun a i => X (c a) i) a) /\
              forall v, (v < num_voigt d)%nat -> E v = engineering_strain d A v.
(** The strain, as a function (C120_strain: it is the one above). *)
Definition strain_of {M} (d : nat) (X : nat -> nat -> R) (U : nat -> R) (c : cell M) : nat -> R := strain d d (fun _ => 0) (gather d U c) (cell_gradient d (gather_coords X c)).

(** The bilinear form of a stiffness. *)
Definition stiff (d : nat) (C : nat -> nat -> R) (e f : nat -> R) : R := rs (num_voigt d) (fun i => rs (num_voigt d) (fun j => e j * C i j) * f i).

Section B.
Variables (d : nat) (pen : R -> R) (X : nat -> nat -> R) (Z : nat -> R) (cells : list (cell dynamic)).
Let mass (c : cell dynamic) := mass_of d pen y_rho X Z c.
Let C (c : cell dynamic) := e_stiff (y_law (c_mat c)).
Let ref (c : cell dynamic) := e_ref (y_law (c_mat c)).
Definition kinetic_energy (V : nat -> R) : R := sum_over cells (fun c => 1 / 2 * mass c * rs d (fun i => mean_of d V c i * mean_of d V c i)).
Definition strain_energy (U : nat -> R) : R :=
  sum_over cells (fun c => 1 / 2 * weight_of d pen X Z c * stiff d (C c) (fun j => strain_of d X U c j - ref c j) (fun j => strain_of d X U c j - ref c j)).
Definition total_energy (U V : nat -> R) : R := kinetic_energy V + strain_energy U.
(** Power lost to Rayleigh damping: mass times A plus stiffness times B. *)
Definition dissipation (V : nat -> R) : R :=
  sum_over cells (fun c => y_ra (c_mat c) * mass c * rs d (fun i => mean_of d V c i * mean_of d V c i)
                           + y_rb (c_mat c) * weight_of d pen X Z c * stiff d (C c) (strain_of d X V c) (strain_of d X V c)).
End B.
(** Integral of the square of the linear field with the corner values w over a simplex of the given measure. *)
Definition square_integral (d : nat) (measure : R) (w : nat -> R) : R :=
  measure / (INR (S d) * INR (S (S d))) * (rs (S d) (fun a => w a * w a) + rs (S d) w * rs (S d) w).
(** Kinetic energy of the piecewise linear velocity field itself. *)
Definition exact_kinetic_energy (d : nat) (pen : R -> R) (X : nat -> nat -> R) (Z : nat -> R) (cells : list (cell dynamic)) (V : nat -> R) : R :=
  sum_over cells (fun c => 1 / 2 * (y_rho (c_mat c) * pen (rs (S d) (fun a => Z (c_node c a)) / INR (S d))) *
    rs d (fun i => square_integral d (simplex_measure d (fun a i => X (c_node c a) i)) (fun a => V (c_node c a * d + i)%nat))).
