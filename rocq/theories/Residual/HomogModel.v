(** The homogenisation criterion. *)
From Coq Require Import Reals List Arith Bool.
From Verif Require Import Base.Field Base.Sums Base.Res Element.ElementModel Penalty.PenaltyModel Residual.ResidualModel.
Import ListNotations.
Local Open Scope R_scope.

(** HomogenizedStress::operator(), src/HomogenizedStress.hpp 37-49. *)
Definition homogenized_stress (nv : nat) (C : nat -> nat -> R) (col : nat) (e : nat -> R) (i : nat) : R := C col i - rsum nv (fun j => e j * C j i).
(** EffectiveEnergy::evaluate, src/elliptic/EffectiveEnergy.hpp 111-171; the quadrature weight of its constructor (100-104) is that of the cubature rule.
    ScalarProduct with scale 1. *)
Definition effective_cell (d : nat) (pen : R -> R) (col : nat) (assumed : nat -> R) (m : elastic) (x : coords) (u z : nat -> R) : R :=
  scalar_product (num_voigt d) 1 (cell_measure d x)
    (weigh d pen z (homogenized_stress (num_voigt d) (e_stiff m) col (strain d d (fun _ => 0) u (cell_gradient d x)))) assumed.
Definition effective (d : nat) (pen : R -> R) (col : nat) (assumed : nat -> R) (X : nat -> nat -> R) (U Z : nat -> R) (cells : list (cell elastic)) : R :=
  total (fun c => effective_cell d pen col assumed (c_mat c) (gather_coords X c) (gather d U c) (gather_control Z c)) cells.
(** Its input (81-98): the array 'Assumed Strain', read at every component without a check outside debug builds, and 'Column Index' of the list
    'Cell Problem Forcing'; without that list mColumnIndex keeps no value.  A column outside the matrix is an access out of range. *)
Record effective_input := mkEffective { a_strain : list R; a_column : option nat }.
Definition effective_criterion (d : nat) (pen : R -> R) (i : effective_input) (X : nat -> nat -> R) (U Z : nat -> R) (cells : list (cell elastic)) : res R :=
  let! l := mapR (fun k => ub (nth_error (a_strain i) k)) (seq 0 (num_voigt d)) in
  match a_column i with
  | None => UB
  | Some col => if Nat.ltb col (num_voigt d) then Ok (effective d pen col (fun k => nth k l 0) X U Z cells) else UB
  end.
