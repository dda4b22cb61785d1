(** Density penalties, projections and their continuation.  Scalars are the reals (the real parts of the automatic differentiation
    types); T_PI (src/Heaviside.hpp 4) is idealised to pi. *)
From Coq Require Import Reals List String.
From Verif Require Import Base.Field Base.Sums Base.Res.
Import ListNotations.
Local Open Scope R_scope.

(** C's pow for a base >= 0 and an exponent >= 0. *)
Definition cpow (x p : R) : R := if Rle_dec x 0 then (if Req_EM_T p 0 then 1 else 0) else Rpower x p.

(** ** The penalty objects *)

(** Members of MSIMP (src/Simp.hpp 18-21), RAMP (src/Ramp.hpp 17-20) and Heaviside (src/Heaviside.hpp 20-24); pn_reg is used by the
    latter only. *)
Record penalty := mkPenalty { pn_min : R; pn_exp : R; pn_reg : R; pn_bound : R; pn_inc : R }.

(** operator(): src/Simp.hpp 130-134. *)
Definition simp (f : penalty) (x : R) : R := pn_min f + (1 - pn_min f) * cpow x (pn_exp f).
(** src/Ramp.hpp 94-100. *)
Definition ramp (f : penalty) (x : R) : R := pn_min f + (1 - pn_min f) * x / (1 + pn_exp f * (1 - x)).
(** src/Heaviside.hpp 110-124. *)
Definition heaviside (f : penalty) (x : R) : R :=
  if Rle_dec x (- pn_reg f) then pn_min f
  else if Rge_dec x (pn_reg f) then 1
  else pn_min f + (1 - pn_min f) * cpow (1 / 2 * (1 + sin (PI * x / (2 * pn_reg f)))) (pn_exp f).
(** src/NoPenalty.hpp 52-56. *)
Definition no_penalty (x : R) : R := 1.

(** update: src/Simp.hpp 57-67, src/Ramp.hpp 49-59, src/Heaviside.hpp 58-68. *)
Definition update (f : penalty) : penalty :=
  let suggested := pn_exp f + pn_inc f in
  mkPenalty (pn_min f) (if Rge_dec suggested (pn_bound f) then pn_bound f else suggested) (pn_reg f) (pn_bound f) (pn_inc f).
Fixpoint updates (n : nat) (f : penalty) : penalty := match n with O => f | S n' => update (updates n' f) end.

(** setParameters.  A missing key leaves an iterator at the end, which is then dereferenced: UB. *)
Definition pmap := list (string * R).
Fixpoint find_key (k : string) (m : pmap) : option R :=
  match m with [] => None | (k', v) :: m' => if String.eqb k k' then Some v else find_key k m' end.
Definition deref (o : option R) : res R := match o with Some v => Ok v | None => UB end.
(** src/Simp.hpp 73-95, src/Ramp.hpp 65-87. *)
Definition set_parameters (f : penalty) (m : pmap) : res penalty :=
  let! e := deref (find_key "Exponent" m) in
  let! mn := deref (find_key "Minimum Value" m) in
  let! inc := deref (find_key "Additive Continuation" m) in
  Ok (mkPenalty mn e (pn_reg f) (pn_bound f) inc).
(** src/Heaviside.hpp 74-103: "Regularization Length" is stored into the minimum value (line 95). *)
Definition heaviside_set_parameters (f : penalty) (m : pmap) : res penalty :=
  let! e := deref (find_key "Exponent" m) in
  let! mn := deref (find_key "Minimum Value" m) in
  let! reg := deref (find_key "Regularization Length" m) in
  let! inc := deref (find_key "Additive Continuation" m) in
  Ok (mkPenalty reg e (pn_reg f) (pn_bound f) inc).

(** ** Applying a penalty to the entries of a cell *)

(** src/ApplyPenalty.hpp 88-98 and src/Plato_TopOptFunctors.hpp 78-83 (one cell; aOutput of one cell is a list). *)
Definition apply_penalty (pen : R) (out : list R) : list R := map (fun v => v * pen) out.

(** Cell density: src/Plato_TopOptFunctors.hpp 52-62 and src/ApplyProjection.hpp 60-73 (average of the nodal controls). *)
Definition cell_density (n : nat) (z : nat -> R) : R := sum (K := R_ring) n z / INR n.
(** Cell mass: src/Plato_TopOptFunctors.hpp 25-41. *)
Definition cell_mass (n : nat) (N z : nat -> R) : R := sum (K := R_ring) n (fun i => sum (K := R_ring) n (fun j => N i * N j * z j)).
(** The basis functions at the cubature point: src/LinearTetCubRuleDegreeOne.hpp (initialize). *)
Definition cub_point (dim : nat) : R := match dim with 3%nat => 1 / 4 | 2%nat => 1 / 3 | _ => 1 / 2 end.
Definition cub_basis (dim : nat) (i : nat) : R :=
  match i with
  | O => match dim with 3%nat => 1 - 1 / 4 - 1 / 4 - 1 / 4 | 2%nat => 1 - 1 / 3 - 1 / 3 | _ => 1 - 1 / 2 end
  | _ => cub_point dim
  end.
(** The result of one cell: src/IntermediateDensityPenalty.hpp 90-98. *)
Definition intermediate_density_penalty (dim : nat) (amplitude : R) (z : nat -> R) : R :=
  amplitude / 2 * (1 - cos (2 * PI * cell_mass (S dim) (cub_basis dim) z)).

(** ** Projections *)

(** Members of HyperbolicTangentProjection (src/HyperbolicTangentProjection.hpp 112-116). *)
Record tanh_projection := mkTanh { tp_eta : R; tp_beta : R; tp_den : R; tp_be : R; tp_b1e : R }.
(** Constructor, lines 45-53 and 65-73. *)
Definition tp_make (beta eta : R) : tanh_projection :=
  let be := beta * eta in let b1e := beta * (1 - eta) in mkTanh eta beta (tanh be + tanh b1e) be b1e.
(** apply, lines 77-81. *)
Definition tp_apply (f : tanh_projection) (x : R) : R :=
  let v := tp_beta f * (x - tp_eta f) in (tanh (tp_be f) + tanh v) / tp_den f.
(** The setters, lines 84-109. *)
Inductive tp_op := SetBeta (b : R) | SetEta (e : R) | SetBoth (b e : R).
Definition tp_step (f : tanh_projection) (o : tp_op) : tanh_projection :=
  match o with
  | SetBeta b => let be := b * tp_eta f in let b1e := b * (1 - tp_eta f) in mkTanh (tp_eta f) b (tanh be + tanh b1e) be b1e
  | SetEta e => let be := tp_beta f * e in let b1e := tp_beta f * (1 - e) in mkTanh e (tp_beta f) (tanh be + tanh b1e) be b1e
  | SetBoth b e => let be := b * e in let b1e := b * (1 - e) in mkTanh e b (tanh be + tanh b1e) be b1e
  end.
(** src/ApplyProjection.hpp 60-73. *)
Definition apply_projection (n : nat) (f : tanh_projection) (z : nat -> R) : R := tp_apply f (cell_density n z).

(** src/HeavisideProjection.hpp 50-57 (with mExpBeta = exp(-beta), lines 44 and 63). *)
Definition heaviside_projection (beta x : R) : R :=
  let y := 1 - x in 1 - exp (- (beta * y)) + y * exp (- beta).
