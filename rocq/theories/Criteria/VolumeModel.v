(** The volume criteria (src/elliptic/Volume.hpp, src/geometric/Volume.hpp) and the temperature average (src/parabolic/TemperatureAverage.hpp),
    over the reals.  [pen] is the penalty or indicator function applied to a cell density (src/ApplyWeighting.hpp 48-142); [Z] is the nodal control. *)
From Coq Require Import Reals List Arith.
From Verif Require Import Base.Field Base.Sums Element.ElementModel Penalty.PenaltyModel Residual.ResidualModel.
Import ListNotations.
Local Open Scope R_scope.

(** mQuadratureWeight: elliptic/Volume.hpp and geometric/Volume.hpp 56-60, the loop from 2 to the dimension. *)
Definition volume_weight (d : nat) : R := fold_left (fun w k => w / INR k) (seq 2 (d - 1)) 1.
(** evaluate of one cell: elliptic/Volume.hpp 67-94, geometric/Volume.hpp 65-90.  ApplyWeighting multiplies the result of the cell in place. *)
Definition volume_cell (d : nat) (pen : R -> R) (x : coords) (z : nat -> R) : R :=
  let v := cell_volume d x * volume_weight d in
  v * pen (cell_density (S d) z).
Definition volume {M} (d : nat) (pen : R -> R) (X : nat -> nat -> R) (Z : nat -> R) (cells : list (cell M)) : R :=
  total (fun c => volume_cell d pen (gather_coords X c) (gather_control Z c)) cells.

(** StateValues, src/StateValues.hpp 45-72, of degree of freedom [i] of [ndof]: zeroed, then accumulated node by node. *)
Definition state_value (d ndof i : nat) (u : nat -> R) : R :=
  fold_left (fun s a => s + cub_basis d a * u (ndof * a + i)%nat) (seq 0 (S d)) 0.
(** TemperatureAverage::evaluate, 73-112.  The cubature weight is fetched (95) and not used. *)
Definition temperature_cell (d : nat) (pen : R -> R) (x : coords) (T z : nat -> R) : R :=
  let w := state_value d 1 0 T * pen (cell_density (S d) z) in
  w * cell_volume d x.
Definition temperature_average {M} (d : nat) (pen : R -> R) (X : nat -> nat -> R) (T Z : nat -> R) (cells : list (cell M)) : R :=
  total (fun c => temperature_cell d pen (gather_coords X c) (gather 1 T c) (gather_control Z c)) cells.
