(** The unknowns of each physics and what a written frame should show, independent of the output functions. *)
From Coq Require Import String List Arith.
From Verif Require Import Base.Res Blocks.BlocksModel Output.OutputModel.
Import ListNotations.

(** Unknowns per node: SimplexMechanics.hpp 24, SimplexPlasticity.hpp 25, SimplexThermoPlasticity.hpp 25, SimplexStabilizedMechanics.hpp 25,
    SimplexThermal.hpp 20, SimplexElectromechanics.hpp 24, SimplexThermomechanics.hpp 26 and 55. *)
Definition dofs (p : physics) (d : nat) : nat :=
  match p with
  | Mechanics => d | Thermal => 1
  | Plasticity | StabilizedMechanics | Electromechanics | Thermomechanics => d + 1
  | ThermoPlasticity | StabilizedThermomechanics => d + 2
  end.
(** The fields of the state: name, first component and number of components; the same files, SimplexPlasticity.hpp 26-28,
    SimplexThermoPlasticity.hpp 26-28, SimplexStabilizedMechanics.hpp 26, SimplexThermomechanics.hpp 25, 54 and 56. *)
Definition fields (p : physics) (d : nat) : list (string * nat * nat) :=
  match p with
  | Mechanics => [("Displacements", 0, d)]
  | Thermal => [("Temperature", 0, 1)]
  | Plasticity | StabilizedMechanics => [("Displacements", 0, d); ("Pressure", d, 1)]
  | Electromechanics => [("Displacements", 0, d); ("Potential", d, 1)]
  | Thermomechanics => [("Displacements", 0, d); ("Temperature", d, 1)]
  | ThermoPlasticity => [("Displacements", 0, d); ("Temperature", d, 1); ("Pressure", d + 1, 1)]
  | StabilizedThermomechanics => [("Displacements", 0, d); ("Pressure", d, 1); ("Temperature", d + 1, 1)]
  end%string.

Section Spec.
Context {A : Type}.
(** The tag of a name. *)
Fixpoint tag (t : tags A) (name : string) : option (nat * list A) :=
  match t with [] => None | (m, x) :: t => if String.eqb name m then Some x else tag t name end.
(** [shows t name nv nd row off w]: the tag [name] has [w] components per node and they are the components off, off+1, ... of the
    [nd] unknowns of each of the [nv] nodes in [row]. *)
Definition shows (t : tags A) (name : string) (nv nd : nat) (row : list A) (off w : nat) : Prop :=
  exists v, tag t name = Some (w, v) /\ List.length v = nv * w /\
            forall n i, n < nv -> i < w -> nth_error v (n * w + i) = nth_error row (n * nd + off + i).
(** Every row of a view belongs to [nv] nodes with [nd] unknowns each. *)
Definition well_sized (nv nd : nat) (x : view A) : Prop := forall row, In row x -> List.length row = nv * nd.
(** A rate that is either absent or has a row for every step. *)
Definition rate_of (nv nd n : nat) (x : view A) : Prop := x = [] \/ (List.length x = n /\ well_sized nv nd x).
(** The saved data of a step: a vector, or a table of that many columns and its rows. *)
Definition has_vector (s : dmap A) (name : string) (v : list A) : Prop := In (name, v) (d_vectors s).
Definition has_table (s : dmap A) (name : string) (n : nat) (rows : view A) : Prop := In (name, (n, rows)) (d_multi s).
(** Names are the keys of std::map: each occurs once in a table. *)
Definition unique_names (s : dmap A) : Prop := NoDup (map fst (d_vectors s)) /\ NoDup (map fst (d_multi s)).
End Spec.
