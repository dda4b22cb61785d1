(** Model of the augmented Lagrangian stress criteria: src/Plato_AugLagStressCriterion.hpp, src/Plato_AugLagStressCriterionGeneral.hpp and src/Plato_AugLagStressCriterionQuadratic.hpp.
    The stress measure of a cell (von Mises stress, or any local measure of the quadratic variant) and its SIMP-penalised density (src/Simp.hpp, modelled in Penalty/PenaltyModel.v) are inputs of the cell functions below. *)
From Coq Require Import Reals List Arith.
From Verif Require Import Base.Field Base.Sums Penalty.PenaltyModel Element.ElementModel.
Import ListNotations.
Local Open Scope R_scope.

(** The C++ cell functions are templates over the scalar type; they are instantiated with plain numbers to compute values and with forward-mode automatic differentiation numbers to compute derivatives. *)
Record scalar (T : Type) := mkScalar {
  sc : R -> T;                     (* static_cast<T> of a plain number *)
  sadd : T -> T -> T; ssub : T -> T -> T; smul : T -> T -> T;
  sdivc : T -> R -> T;             (* division by a plain number *)
  sgt : T -> T -> bool }.          (* operator>, which compares values only *)
Arguments sc {T}. Arguments sadd {T}. Arguments ssub {T}. Arguments smul {T}. Arguments sdivc {T}. Arguments sgt {T}.
Definition rgt (a b : R) : bool := if Rlt_dec b a then true else false.
Definition plain : scalar R := mkScalar R (fun x => x) Rplus Rminus Rmult Rdiv rgt.
(** A value and one directional derivative (one component of a Sacado Fad type). *)
Definition dual : Type := (R * R)%type.
Definition fad : scalar dual := mkScalar dual (fun x => (x, 0)) (fun a b => (fst a + fst b, snd a + snd b)) (fun a b => (fst a - fst b, snd a - snd b))
  (fun a b => (fst a * fst b, fst a * snd b + snd a * fst b)) (fun a r => (fst a / r, snd a / r)) (fun a b => rgt (fst a) (fst b)).

(** The three classes. *)
Inductive variant := Stress | General | Quadratic.

Section Cell.
Context {T : Type} (S : scalar T).
(** "over limit minus one" to its penalty function: AugLagStressCriterion 376-377 and 474-477; General 336-338 and 420-422; Quadratic 278-279 and 342-343 (pow(.,2) written as a product). *)
Definition excess (v : variant) (e : T) : T :=
  match v with General => sadd S (smul S (smul S (smul S e e) e) e) (smul S e e) | _ => smul S e e end.
(** The penalised constraint of a cell: AugLagStressCriterion 375-384; General 334-345; Quadratic 276-286.  [m]: stress measure; [p]: penalised density. *)
Definition constraint (v : variant) (limit : R) (m p : T) : T :=
  let x := sdivc S m limit in
  let e := ssub S x (sc S 1) in
  let trial := smul S p (excess v e) in
  if sgt S x (sc S 1) then trial else sc S 0.
(** The contribution of the constraint, before weighting: AugLagStressCriterion 387-394 (with the relaxation "max(g, - lambda / mu)"); General 348-350 and Quadratic 289-291.  [lam], [mu]: this cell's multiplier and the penalty, plain numbers. *)
Definition lagrangian (v : variant) (lam mu : R) (g : T) : T :=
  match v with
  | Stress => let bound := -1 * lam / mu in
    let r := if sgt S g (sc S bound) then g else sc S bound in
    smul S (sadd S (sc S lam) (smul S (smul S (sc S (1 / 2)) (sc S mu)) r)) r
  | _ => sadd S (smul S (sc S lam) g) (smul S (smul S (smul S (sc S (1 / 2)) (sc S mu)) g) g)
  end.
(** The result of a cell: AugLagStressCriterion 397-402, General 348-358, Quadratic 289-291.  [mass]: cell_mass times the cell volume and cubature weight; [w]: the mass multiplier of the cell (Stress) or the mass criterion weight (General); [ws]: the stress criterion weight (General). *)
Definition cell_result (v : variant) (ncells : nat) (limit lam mu w ws rho norm : R) (m p mass : T) : T :=
  let L := smul S (sc S (1 / INR ncells)) (lagrangian v lam mu (constraint v limit m p)) in
  match v with
  | Stress => sadd S (sdivc S (smul S (sc S (w * rho)) mass) norm) L
  | General => sadd S (smul S (sc S w) (sdivc S (smul S mass (sc S rho)) norm)) (smul S (sc S ws) L)
  | Quadratic => L
  end.
End Cell.

(** Constants of one criterion. *)
Record params := mkParams {
  p_limit : R;           (* "Stress Limit" / "Local Measure Limit" *)
  p_bound : R;           (* "Penalty Upper Bound" *)
  p_expand : R;          (* "Penalty Expansion Multiplier" *)
  p_simp : penalty;      (* "SIMP penalty", "Min. Ersatz Material" *)
  p_mass_lower : R;      (* "Mass Multiplier Lower Bound" (Stress only) *)
  p_mass_reduce : R      (* "Mass Multiplier Reduction Multiplier" (Stress only) *) }.
(** The evolving members: mAugLagPenalty, mLagrangeMultipliers, mMassMultipliers and mMassMultipliersUpperBound. *)
Record state := mkState { s_mu : R; s_lam : nat -> R; s_mass : nat -> R; s_upper : R }.
(** What one update reads from the worksets, per cell of the block: stress measure and density. *)
Record cells := mkCells { c_measure : nat -> R; c_density : nat -> R }.

(** The multiplier of one cell: AugLagStressCriterion 474-489; General 418-433; Quadratic 340-355. *)
Definition update_multiplier (v : variant) (p : params) (mu lam m z : R) : R :=
  let g := constraint plain v (p_limit p) m (simp (p_simp p) z) in
  let g := match v with Stress => Rmax g (-1 * lam / mu) | _ => g end in
  Rmax (lam + mu * g) 0.
(** The mass multiplier of one cell: AugLagStressCriterion 462-471. *)
Definition update_mass (p : params) (upper w m z : R) : R :=
  let measure := m / p_limit p * cpow z (1 / 2) in
  let one := (7 / 10) * w - 1 / 10 in
  let two := (5 / 2) * w + 1 / 2 in
  if Rlt_dec 1 measure then Rmax one (p_mass_lower p) else Rmin two upper.
(** updateAugLagPenaltyMultipliers: AugLagStressCriterion 125-129, General 110-113, Quadratic 91-94. *)
Definition update_penalty (p : params) (mu : R) : R := Rmin (p_expand p * mu) (p_bound p).
(** updateProblem: AugLagStressCriterion 310-315, General 259-264, Quadratic 219-227.  The parallel loop runs over the block's cells and each iteration touches its own entries only. *)
Definition update (v : variant) (p : params) (n : nat) (s : state) (c : cells) : state :=
  let each (f : R -> R -> R -> R) (x : nat -> R) := fun i => if Nat.ltb i n then f (x i) (c_measure c i) (c_density c i) else x i in
  let lam := each (update_multiplier v p (s_mu s)) (s_lam s) in
  match v with
  | Stress => mkState (update_penalty p (s_mu s)) lam (each (update_mass p (s_upper s)) (s_mass s)) (s_upper s * p_mass_reduce p)
  | _ => mkState (update_penalty p (s_mu s)) lam (s_mass s) (s_upper s)
  end.
Definition updates (v : variant) (p : params) (n : nat) (h : list cells) (s : state) : state := fold_left (update v p n) h s.

(** The constraint part of the criterion of one block: the sum of the cell results with no mass term (Quadratic). *)
Definition quadratic_value (p : params) (n : nat) (s : state) (c : cells) : R :=
  sum (K := R_ring) n (fun i => cell_result plain Quadratic n (p_limit p) (s_lam s i) (s_mu s) 0 0 0 1 (c_measure c i) (simp (p_simp p) (c_density c i)) 0).

(** computeStructuralMass: AugLagStressCriterion 496-521, General 440-465.  [vol]: volume of each cell of the mesh.  The worksets are filled by the overload of workset_config_scalar that takes a number of cells, so the cells summed are the mesh's first [n], not the block's. *)
Definition structural_mass (d n : nat) (rho : R) (vol : nat -> R) : R :=
  sum (K := R_ring) n (fun i => cell_mass (d + 1) (cub_basis d) (fun _ => 1) * rho * vol i * cub_weight d).
(** The mass term of the general criterion over the block with cells [ids] (mesh numbers): General 353-357. *)
Definition mass_term (d : nat) (ids : list nat) (weight rho norm : R) (vol : nat -> R) (z : nat -> nat -> R) : R :=
  lsum (K := R_ring) (map (fun c => weight * (cell_mass (d + 1) (cub_basis d) (z c) * rho * (vol c * cub_weight d) / norm)) ids).
