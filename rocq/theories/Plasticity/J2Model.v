(** J2 plasticity: the local (per cell) residual and the return mapping, in two (plane strain, components 11 22 12 33) and three
    dimensions (11 22 33 23 13 12).  Scalars are the reals.  A local state is ls 0 = accumulated plastic strain, ls 1 = multiplier
    increment, then the plastic strain (engineering shears), then the backstress. *)
From Coq Require Import Reals List Arith Bool.
From Verif Require Import Base.Field Base.Sums Element.ElementModel Element.MaterialModel Penalty.PenaltyModel.
Import ListNotations.
Local Open Scope R_scope.

Definition nst (d : nat) : nat := if Nat.eqb d 2 then 4 else 6.
Definition normal (d v : nat) : bool := if Nat.eqb d 2 then negb (Nat.eqb v 2) else Nat.ltb v 3.
Definition shear_weight (d v : nat) : R := if normal d v then 1 else 2.
Definition local_size (d : nat) : nat := (2 + 2 * nst d)%nat.

(** J2PlasticityUtilities<2,3>::computeDeviatoricStressMinusBackstressNormalized, src/J2PlasticityUtilities.hpp 343-408.
    Division by a zero norm gives NaN in the program and an unspecified real here; the theorems below only use the normal when the
    norm is positive. *)
Definition eta (d : nat) (dev ls : nat -> R) (v : nat) : R := dev v - ls (2 + nst d + v)%nat.
Definition eta_norm (d : nat) (dev ls : nat -> R) : R := sqrt (rsum (nst d) (fun v => shear_weight d v * (eta d dev ls v * eta d dev ls v))).
Definition yield_normal (d : nat) (dev ls : nat -> R) (v : nat) : R := eta d dev ls v / eta_norm d dev ls.

(** ThermoPlasticityUtilities::computeElasticStrain, src/ThermoPlasticityUtilities.hpp 79-201; [thermal] is the thermal strain
    (0 for SimplexPlasticity). *)
Definition elastic_strain (d : nat) (thermal : R) (total ls : nat -> R) (v : nat) : R :=
  total v - ls (2 + v)%nat - (if normal d v then thermal else 0).
(** Lines 148-157, 187-196: nodal temperatures at dof offset toff of ndof dofs per node. *)
Definition thermal_strain (nn ndof toff : nat) (alpha tref scale : R) (basis u : nat -> R) : R :=
  alpha * (rsum nn (fun a => u (a * ndof + toff)%nat * basis a) * scale - tref).

(** Material constants; penalised as in J2PlasticityLocalResidual.hpp 354-369 and 487-502. *)
Record j2 := mkJ2 { j_shear : R; j_iso : R; j_kin : R; j_yield : R }.
Definition penalised (pe pp : penalty) (m : j2) (density : R) : j2 :=
  mkJ2 (simp pe density * j_shear m) (simp pp density * j_iso m) (simp pp density * j_kin m) (simp pp density * j_yield m).

Definition sqrt32 : R := sqrt (3 / 2).
Definition sqrt23 : R := sqrt (2 / 3).

(** J2PlasticityLocalResidual::evaluate, src/J2PlasticityLocalResidual.hpp 344-408, for one cell with penalised constants m, total
    strain [total] and thermal strain; the fill* helpers are src/J2PlasticityUtilities.hpp 481-693. *)
Definition yield_value (d : nat) (m : j2) (thermal : R) (total ls : nat -> R) : R :=
  sqrt32 * eta_norm d (deviatoric_stress d (j_shear m) (elastic_strain d thermal total ls)) ls - (j_yield m + j_iso m * ls 0%nat).
Definition local_residual (d : nat) (m : j2) (thermal : R) (total ls prev : nat -> R) (k : nat) : R :=
  let dev := deviatoric_stress d (j_shear m) (elastic_strain d thermal total ls) in
  let n := yield_normal d dev ls in
  if Rlt_dec 0 (ls 1%nat) then
    match k with
    | 0%nat => ls 0%nat - prev 0%nat - ls 1%nat
    | 1%nat => yield_value d m thermal total ls
    | _ => if Nat.ltb k (2 + nst d) then ls k - prev k - shear_weight d (k - 2) * sqrt32 * ls 1%nat * n (k - 2)%nat
           else ls k - prev k - sqrt23 * ls 1%nat * j_kin m * n (k - 2 - nst d)%nat
    end
  else match k with 1%nat => ls 1%nat | _ => ls k - prev k end.

(** J2PlasticityLocalResidual::updateLocalState, 469-523; update*Step are src/J2PlasticityUtilities.hpp 221-328. *)
Definition elastic_step (prev : nat -> R) (k : nat) : R := match k with 1%nat => 0 | _ => prev k end.
Definition update_local_state (d : nat) (m : j2) (thermal : R) (total prev : nat -> R) : nat -> R :=
  let trial := elastic_step prev in
  let dev := deviatoric_stress d (j_shear m) (elastic_strain d thermal total trial) in
  let n := yield_normal d dev trial in
  let f := yield_value d m thermal total trial in
  if Rlt_dec (/ 10 ^ 10) f then
    let dg := f / (3 * j_shear m + j_iso m + j_kin m) in
    fun k => match k with
             | 0%nat => prev 0%nat + dg
             | 1%nat => dg
             | _ => if Nat.ltb k (2 + nst d) then prev k + shear_weight d (k - 2) * (dg * sqrt32) * n (k - 2)%nat
                    else prev k + dg * sqrt23 * j_kin m * n (k - 2 - nst d)%nat
             end
  else trial.

(** The sequence of local states of a cell under a sequence of loads (total strain, thermal strain, constants), from a state. *)
Definition load := (j2 * R * (nat -> R))%type.
Definition apply_load (d : nat) (ls : nat -> R) (l : load) : nat -> R := let '(m, th, e) := l in update_local_state d m th e ls.
Definition history (d : nat) (loads : list load) (ls : nat -> R) : nat -> R := fold_left (apply_load d) loads ls.

(** updateProblem: both exponents, 226-255 and 532-539, with their own bounds and increments (same rule as Penalty.update). *)
