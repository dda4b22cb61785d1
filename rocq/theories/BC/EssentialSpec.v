(** What the essential boundary conditions of an input deck mean. *)
From Coq Require Import Arith List String.
From Verif Require Import Base.Field BC.EssentialModel.
Import ListNotations.

Section Spec.
Context {K : CField}.
Local Open Scope K_scope.

(** The value an input entry asks for at time [t]: zero, a number or a function of time. *)
Definition asked_value (e : bc_entry K) (t : K) : option K :=
  match e_type e, e_value e, e_function e with
  | Some ZeroValue, _, None => Some 0
  | Some FixedValue, Some v, None => Some v
  | Some TimeDependent, Some v, None => Some v
  | Some FixedValue, None, Some f => Some (f t)
  | Some TimeDependent, None, Some f => Some (f t)
  | _, _, _ => None
  end.

Definition asked_index (e : bc_entry K) : nat :=
  match e_index e with Some i => i | None => 0%nat end.

Definition scale_of (table : list (nat * K)) (i : nat) : K :=
  match find (fun p => Nat.eqb (fst p) i) table with Some p => snd p | None => 1 end.

(** The (dof, value) pairs of one entry, or [None] if the entry is invalid or names no node set. *)
Definition entry_pairs (N : nat) (table : list (nat * K)) (ns : nodesets) (t : K) (e : bc_entry K)
  : option (list (nat * K)) :=
  match asked_value e t, e_sides e with
  | Some v, Some s =>
    match ns s with
    | Some nodes => Some (map (fun node => ((N * node + asked_index e)%nat,
                                            v / scale_of table (asked_index e))) nodes)
    | None => None
    end
  | _, _ => None
  end.

(** All pairs, entry by entry in input order. *)
Fixpoint all_pairs (N : nat) (table : list (nat * K)) (ns : nodesets) (t : K) (es : list (bc_entry K))
  : option (list (nat * K)) :=
  match es with
  | [] => Some []
  | e :: es' =>
    match entry_pairs N table ns t e, all_pairs N table ns t es' with
    | Some l, Some l' => Some (l ++ l')
    | _, _ => None
    end
  end.
End Spec.
