(** What the coupling properties say, independently of the kernels. *)
From Coq Require Import String Reals List Arith.
From Verif Require Import Base.Field Base.Sums Element.ElementSpec Element.MaterialSpec.
Local Open Scope R_scope.

(** The entry (i, j) of the isotropic stiffness in Voigt form: the stress i caused by the unit strain j. *)
Definition hooke_entry (d : nat) (E v : R) (i j : nat) : R := hooke d (lame E v) (shear_mod E v) (fun k => if Nat.eqb k j then 1 else 0) i.
(** A quantity given as c0 + c1 T + c2 T^2. *)
Definition polynomial (c0 c1 c2 T : R) : R := c0 + c1 * T + c2 * (T * T).
(** Change of unit of one field: the entries at position off of every node are multiplied by s, the others kept. *)
Definition rescaled (ndof off : nat) (s : R) (U : nat -> R) (k : nat) : R := if Nat.eqb (k mod ndof) off then s * U k else U k.
Local Open Scope string_scope.
(** Names of material entries; [o] is "" for constants and "0", "1", "2" for the coefficient of T^o. *)
Definition key (o : string) (i j : nat) : string := "c" ++ o ++ index_text (min i j) ++ index_text (max i j).
(** A symmetric second order tensor entered by components: the diagonal falls back to the 11 entry, the rest to zero. *)
Definition entered_tensor (p : string -> option R) (o : string) (first : R) (i j : nat) : R :=
  match p (key o i j) with Some r => r | None => if Nat.eqb i j then first else 0 end.
