(** Specification side of the criteria. *)
From Coq Require Import Reals List Arith.
From Coquelicot Require Import Coquelicot.
From Verif Require Import Base.Field Base.Sums Base.Res Criteria.CriteriaModel.
Import ListNotations.
Local Open Scope R_scope.

Definition rdot (n : nat) (x y : rvec) : R := dot (K := R_ring) n x y.
Definition rsum_list (l : list R) : R := lsum (K := R_ring) l.

(** Moving one of the three kinds of variables in a direction. *)
Inductive variable := State (k : nat) | Control | Config.
Definition move (v : variable) (i : inputs) (d : rvec) (e : R) : inputs :=
  match v with
  | State k => mkIn (fun j => if Nat.eqb j k then (fun a => in_state i j a + e * d a) else in_state i j) (in_control i) (in_config i)
  | Control => mkIn (in_state i) (fun a => in_control i a + e * d a) (in_config i)
  | Config => mkIn (in_state i) (in_control i) (fun a => in_config i a + e * d a)
  end.

(** A computation of a value along a line, and a computed gradient: if the value is computed at the point then it is computed
    around it, the gradient is computed, and it gives the derivative of the value along the line. *)
Definition is_gradient (n : nat) (value : R -> res R) (gradient : res rvec) (d : rvec) : Prop :=
  forall v, value 0 = Ok v ->
    exists F g, F 0 = v /\ locally 0 (fun e => value e = Ok (F e)) /\ gradient = Ok g /\ is_derive F 0 (rdot n g d).

(** The same for a value that is always computed. *)
Definition has_gradient (n : nat) (value : R -> R) (gradient d : rvec) : Prop := is_derive value 0 (rdot n gradient d).

(** The leaves of a criterion. *)
Fixpoint leaves (c : crit) : list sfun :=
  match c with
  | Leaf f => [f]
  | WSum l => flat_map (fun x => leaves (snd x)) l
  | Div a b => leaves a ++ leaves b
  | LSq l => flat_map (fun x => leaves (snd x)) l
  end.
(** No normalization is zero (true of every normalization the constructors produce). *)
Fixpoint scales_ok (c : crit) : Prop :=
  match c with
  | Leaf f => True
  | WSum l => fold_right (fun x P => scales_ok (snd x) /\ P) True l
  | Div a b => scales_ok a /\ scales_ok b
  | LSq l => fold_right (fun x P => (snd (fst x) <> 0 /\ scales_ok (snd x)) /\ P) True l
  end.

(** The sum over domains, steps and cells. *)
Definition total {S P} (steps : list nat) (f : physics_function S P) (h : nat -> S) (p : P) (t : R) : R :=
  rsum_list (flat_map (fun d => flat_map (fun k => map (de_value d (h k) p t) (seq 0 (de_cells d))) steps) (ph_domains f)).

(** The inertia tensor of second moments S: tr(S) Id - S. *)
Definition inertia_tensor (S : nat -> nat -> R) : nat -> nat -> R := fun a b =>
  (if Nat.eqb a b then S 0%nat 0%nat + S 1%nat 1%nat + S 2%nat 2%nat else 0) - S a b.
Definition axes_index (ax : axes) : nat * nat :=
  (match ax with XX => (0, 0) | YY => (1, 1) | ZZ => (2, 2) | XY => (0, 1) | XZ => (0, 2) | YZ => (1, 2) end)%nat.
(** Q^T A Q *)
Definition rotate (Q A : nat -> nat -> R) (a b : nat) : R :=
  sum (K := R_ring) 3 (fun k => sum (K := R_ring) 3 (fun l => Q k a * A k l * Q l b)).
(** |c|^2 Id - c c^T *)
Definition parallel_axis_tensor (c : nat -> R) (a b : nat) : R :=
  (if Nat.eqb a b then sum (K := R_ring) 3 (fun k => c k * c k) else 0) - c a * c b.
