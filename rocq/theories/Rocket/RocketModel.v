(** The algebraic rocket model (src/Plato_AlgebraicRocketModel.hpp, src/Plato_Cylinder.hpp) and conditional_expression
    (src/PlatoMathHelpers.hpp), over the reals.  A pressure is [None] when the C++ value is not a number. *)
From Coq Require Import Reals List Arith ZArith.
Import ListNotations.
Local Open Scope R_scope.

(** Members of AlgebraicRocketModel that solve() reads (lines 396-415); mInvPrefAlpha is computed from them (line 291). *)
Record inputs := mkIn { alpha : R; ref_pressure : R; throat_diameter : R; char_velocity : R; ambient : R; dt : R; burn_time : R; tol : R; max_itr : nat }.
Definition inv_pref_alpha (i : inputs) : R := 1 / Rpower (ref_pressure i) (alpha i).
Definition throat_area (i : inputs) : R := PI * throat_diameter i * throat_diameter i / 4.

(** jacobian and residual, lines 360-380; std::pow of a positive base. *)
Definition jacobian (i : inputs) (rate p : R) : R :=
  rate * alpha i * inv_pref_alpha i * Rpower p (alpha i - 1) - throat_area i / char_velocity i.
Definition residual (i : inputs) (rate p : R) : R :=
  rate * inv_pref_alpha i * Rpower p (alpha i) - (throat_area i * p) / char_velocity i.

(** One turn of the loop of newton, lines 341-344: the new pressure and the update.  A base that is not positive gives NaN from
    std::pow (simplification: also for exponents with which std::pow would be defined); so does a zero Jacobian (simplification: infinity is not
    distinguished from NaN). *)
Definition newton_step (i : inputs) (rate p : R) : option (R * R) :=
  if Rlt_dec 0 p then
    if Req_EM_T (jacobian i rate p) 0 then None
    else let d := - residual i rate p / jacobian i rate p in Some (p + d, d)
  else None.
(** newton, lines 333-352: [left] turns remain (the loop ends when mNumNewtonItr > mMaxNumNewtonItr); the result is the pressure and the number of turns. *)
Fixpoint newton_loop (i : inputs) (rate : R) (left : nat) (p : option R) : option R * nat :=
  match left with
  | O => (p, 0%nat)
  | S left' =>
    match (match p with Some p => newton_step i rate p | None => None end) with
    | None => let (q, n) := newton_loop i rate left' None in (q, S n)       (* NaN: |NaN| < tol is false, the loop runs to its bound *)
    | Some (p', d) => if Rlt_dec (Rabs d) (tol i) then (Some p', 1%nat)
                      else let (q, n) := newton_loop i rate left' (Some p') in (q, S n)
    end
  end.
Definition newton (i : inputs) (rate : R) (p : option R) : option R * nat := newton_loop i rate (S (max_itr i)) p.

(** A geometry model (src/Plato_GeometryModel.hpp): referenceMassProductionRate and evolveGeometry(dt, multiplier); the multiplier may be NaN. *)
Record geometry := mkGeo { geo : Type; g_rate : geo -> R; g_evolve : geo -> R -> option R -> geo }.
(** Cylinder (lines 107-165): state radius; the burn rate, length and density are fixed. *)
Definition cyl_area (len r : R) : R := 2 * PI * r * len.
Definition cyl_gradient (len r : R) : list R := [2 * PI * len; 2 * PI * r].
Definition cylinder (len burn density : R) : geometry :=
  mkGeo (option R) (fun r => match r with Some r => burn * density * cyl_area len r | None => 0 end)
        (fun r d m => match r, m with Some r, Some m => Some (r + m * burn * d) | _, _ => None end).

(** solve, lines 281-323.  One row per turn: time, thrust, pressure. *)
Definition thrust (i : inputs) (p : R) : R := 269 * (98 / 10) * throat_area i * (p - ambient i) / char_velocity i.
Definition row := (R * option R * option R)%type.
Section Solve.
Variables (i : inputs) (G : geometry).
(** The loop, at most [fuel] turns; [None] when it has not ended by then. *)
Fixpoint burn (fuel : nat) (t : R) (th p : option R) (g : geo G) : option (list row) :=
  match fuel with
  | O => None
  | S fuel' =>
    let p' := fst (newton i (g_rate G g) p) in
    let th' := match p' with Some q => Some (thrust i q) | None => None end in
    let mult := match p' with Some q => if Rlt_dec 0 q then Some (Rpower q (alpha i) * inv_pref_alpha i) else None | None => None end in
    let g' := g_evolve G g (dt i) mult in
    let t' := t + dt i in
    if Rlt_dec (t' + tol i) (burn_time i)
    then match burn fuel' t' th' p' g' with Some l => Some ((t, th, p) :: l) | None => None end
    else Some [(t, th, p)]
  end.
Definition solve (fuel : nat) (g : geo G) : option (list row) := burn fuel 0 (Some 0) (Some (ref_pressure i)) g.
End Solve.

(** conditional_expression, src/PlatoMathHelpers.hpp 36-47: the coefficient is min(1, exp(x - y - 1)) converted to an integer. *)
Definition conditional_expression (x y a b : R) : R :=
  let c := Rmin 1 (exp (x - y - 1)) in
  let k := IZR (Int_part c) in
  k * b + (1 - k) * a.
