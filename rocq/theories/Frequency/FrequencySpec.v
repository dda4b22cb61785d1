(** What the frequency domain properties say. *)
From Coq Require Import Reals List Arith.
From Verif Require Import Element.ElementModel Element.ElementSpec Residual.ResidualModel Residual.ResidualSpec Dynamics.DynModel Dynamics.DynSpec Frequency.FrequencyModel.
Import ListNotations.
Local Open Scope R_scope.

(** The real (c = 0) or imaginary (c = 1) parts of a complex nodal displacement, d numbers per node. *)
Definition part (d c : nat) (U : nat -> R) (k : nat) : R := U (k / d * (2 * d) + (c * d + k mod d))%nat.

(** The same body for the equation of motion in time (C120), with mass damping ra and stiffness damping rb, stress free at rest. *)
Definition in_time (m : harmonic) : dynamic := mkDyn (mkElastic (h_stiff m) (fun _ => 0)) (h_rho m) (h_ra m) (h_rb m).
Definition cells_in_time (cells : list (cell harmonic)) : list (cell dynamic) := map (fun c => mkCell (c_node c) (in_time (c_mat c))) cells.

(** Vibration at angular frequency w: the acceleration is - w^2 times the displacement, and the velocity is s times the displacement a quarter period away
    (multiplied by - i; s = w or s = - w for the two signs of the exponent, other values of s for other damping models). *)
Definition velocity (d : nat) (s : R) (U : nat -> R) (c k : nat) : R := match c with O => s * part d 1 U k | _ => - s * part d 0 U k end.
Definition motion (d : nat) (pen : R -> R) (w s : R) (X : nat -> nat -> R) (U Z : nat -> R) (cells : list (cell harmonic)) (c : nat) : nat -> R :=
  elastodynamic d pen X (part d c U) (velocity d s U c) (fun k => - (w * w) * part d c U k) Z (cells_in_time cells).
(** F is the amplitude of the force of that vibration: its real and imaginary parts at all nodes. *)
Definition is_motion (d : nat) (pen : R -> R) (w s : R) (X : nat -> nat -> R) (U Z : nat -> R) (cells : list (cell harmonic)) (F : nat -> R) : Prop :=
  forall n c i, (c < 2)%nat -> (i < d)%nat -> F (n * (2 * d) + (c * d + i))%nat = motion d pen w s X U Z cells c (n * d + i)%nat.

Definition undamped (cells : list (cell harmonic)) : Prop := forall c, In c cells -> h_ra (c_mat c) = 0 /\ h_rb (c_mat c) = 0.
Definition symmetric_stiffness (d : nat) (cells : list (cell harmonic)) : Prop := forall c, In c cells -> symmetric (num_voigt d) (h_stiff (c_mat c)).
(** A and B are linear maps of n numbers, transposed to each other. *)
Definition transposes (n : nat) (A B : (nat -> R) -> nat -> R) : Prop := forall U W, work n (A U) W = work n (B W) U.

(** The complex displacement multiplied by - i: the real parts become the imaginary ones, the imaginary parts minus the real ones. *)
Definition turned (d : nat) (U : nat -> R) (k : nat) : R := if Nat.ltb (k mod (2 * d)) d then U (k + d)%nat else - U (k - d)%nat.
(** The damping forces of one cell alone, when its nodes move with the velocity of the vibration (s = 1). *)
Definition damping_force (d : nat) (pen : R -> R) (X : nat -> nat -> R) (U Z : nat -> R) (cl : cell harmonic) (c : nat) : nat -> R :=
  elastodynamic d pen X (fun _ => 0) (velocity d 1 U c) (fun _ => 0) Z (cells_in_time [cl]).
Definition without_damping (cells : list (cell harmonic)) : list (cell harmonic) := map (fun c => mkCell (c_node c) (mkHarmonic (h_stiff (c_mat c)) (h_rho (c_mat c)) 0 0)) cells.
(** No node is twice a corner of the same cell. *)
Definition distinct_corners (d : nat) (cells : list (cell harmonic)) : Prop :=
  forall c, In c cells -> forall a b, (a <= d)%nat -> (b <= d)%nat -> c_node c a = c_node c b -> a = b.
(** The same materials with damping coefficients of the opposite sign. *)
Definition reversed_damping (cells : list (cell harmonic)) : list (cell harmonic) := map (fun c => mkCell (c_node c) (mkHarmonic (h_stiff (c_mat c)) (h_rho (c_mat c)) (- h_ra (c_mat c)) (- h_rb (c_mat c)))) cells.
(** Mean energies of a vibration: real and imaginary parts together. *)
Definition vibration_strain_energy (d : nat) (pen : R -> R) (X : nat -> nat -> R) (Z : nat -> R) (cells : list (cell harmonic)) (U : nat -> R) : R :=
  strain_energy d pen X Z (cells_in_time cells) (part d 0 U) + strain_energy d pen X Z (cells_in_time cells) (part d 1 U).
Definition vibration_kinetic_energy (d : nat) (pen : R -> R) (w : R) (X : nat -> nat -> R) (Z : nat -> R) (cells : list (cell harmonic)) (U : nat -> R) : R :=
  kinetic_energy d pen X Z (cells_in_time cells) (fun k => w * part d 0 U k) + kinetic_energy d pen X Z (cells_in_time cells) (fun k => w * part d 1 U k).
