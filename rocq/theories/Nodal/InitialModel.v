(** Computed fields and initial states: src/ComputedField.hpp, src/hyperbolic/HyperbolicProblem.hpp 135-194, src/parabolic/Problem.hpp 151-188.
    Doubles are reals; a nodal field is a function of the node, a state one of the global number (node * values per node + component). *)
From Coq Require Import String Reals List Arith Bool.
From Verif Require Import Base.Res.
Import ListNotations.
Local Open Scope R_scope.

(** An entry of a parameter list: its name and what it holds: NotList, or a sublist with the string read from it (None: missing). *)
Inductive holding := NotList | Sublist (s : option string).
Definition entries := list (string * holding).

(** The library's expression reader, an oracle: an expression that does not parse (or uses y in one dimension) throws; a value at every point from the
    coordinates of that point.  The reader also repeats constants, ComputedField.hpp 69. *)
Definition reader := string -> res ((nat -> R) -> R).

(** ComputedFields, ComputedField.hpp 129-143, with initialize, 44-78, of each field. *)
Definition computed_field := (string * (nat -> R))%type.
Definition computed_fields (read : reader) (X : nat -> nat -> R) (es : entries) : res (list computed_field) :=
  foldR (fun e cfs => match snd e with
                      | NotList => Throw
                      | Sublist None => Throw
                      | Sublist (Some f) => let! g := read f in Ok (cfs ++ [(fst e, fun p => g (X p))])
                      end) es [].
(** ComputedFields::get with offset and stride, 171-181, and ComputedField::get, 88-102.  [size]: the extent of the target. *)
Fixpoint get_field (cfs : list computed_field) (name : string) (off stride nv size : nat) (U : nat -> R) : res (nat -> R) :=
  match cfs with
  | [] => Throw
  | cf :: cfs' =>
      if String.eqb (fst cf) name then
        if Nat.eqb (nv * stride) size then Ok (fold_left (fun U p => fun k => if Nat.eqb k (stride * p + off) then snd cf p else U k) (seq 0 nv) U)
        else Throw
      else get_field cfs' name off stride nv size U
  end.
(** The first and the last index of a name: the loops with and without break. *)
Fixpoint first_index (names : list string) (name : string) (j : nat) : option nat :=
  match names with [] => None | n :: l => if String.eqb n name then Some j else first_index l name (S j) end.
Definition last_index (names : list string) (name : string) : option nat :=
  snd (fold_left (fun s n => (S (fst s), if String.eqb n name then Some (fst s) else snd s)) names (0%nat, None)).

(** HyperbolicProblem.hpp 143-194.  [cfs]: mComputedFields (None: no list 'Computed Fields').  The state: initial displacements and velocities, zeros at first. *)
Definition hyperbolic_initial (names dots : list string) (nv size : nat) (cfs : option (list computed_field)) (init : option entries) : res ((nat -> R) * (nat -> R)) :=
  match init with
  | None => Ok (fun _ => 0, fun _ => 0)
  | Some es =>
    match cfs with
    | None => Throw
    | Some cfs =>
      foldR (fun e UV =>
        match snd e with
        | NotList => Ok UV
        | Sublist None => Throw
        | Sublist (Some f) =>
            match first_index names (fst e) 0 with
            | Some j => let! U := get_field cfs f j (length names) nv size (fst UV) in Ok (U, snd UV)
            | None => match first_index dots (fst e) 0 with
                      | Some j => let! V := get_field cfs f j (length dots) nv size (snd UV) in Ok (fst UV, V)
                      | None => Throw
                      end
            end
        end) es (fun _ => 0, fun _ => 0)
    end
  end.
(** parabolic/Problem.hpp 159-188.  An unknown name leaves the index -1: the first write lies before the first entry of the state, undefined. *)
Definition parabolic_initial (names : list string) (nv size : nat) (cfs : option (list computed_field)) (init : option entries) : res (nat -> R) :=
  match init with
  | None => Ok (fun _ => 0)
  | Some es =>
    match cfs with
    | None => Throw
    | Some cfs =>
      foldR (fun e U =>
        match snd e with
        | NotList => Ok U
        | Sublist None => Throw
        | Sublist (Some f) =>
            match last_index names (fst e) with
            | Some j => get_field cfs f j (length names) nv size U
            | None => let! _ := get_field cfs f 0 (length names) nv size U in if Nat.eqb nv 0 then Ok U else UB
            end
        end) es (fun _ => 0)
    end
  end.

(** The names of the degrees of freedom: hyperbolic/ElastomechanicsResidual.hpp 80-81, parabolic/TransientThermomechResidual.hpp 94 and
    parabolic/HeatEquationResidual.hpp 77.  The same in one, two and three dimensions. *)
Definition displacement_names : list string := ["Displacement X"; "Displacement Y"; "Displacement Z"]%string.
Definition velocity_names : list string := ["Velocity X"; "Velocity Y"; "Velocity Z"]%string.
Definition thermomechanical_names : list string := ["Displacement X"; "Displacement Y"; "Displacement Z"; "Temperature"]%string.
Definition thermal_names : list string := ["Temperature"]%string.
