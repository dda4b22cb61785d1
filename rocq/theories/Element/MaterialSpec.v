(** What the material properties say, independently of the kernels. *)
From Coq Require Import String Reals List Arith Bool.
From Verif Require Import Base.Field Base.Sums Element.ElementSpec.
Import ListNotations.
Local Open Scope R_scope.

(** Lame constants and bulk modulus. *)
Definition lame (E v : R) : R := E * v / ((1 + v) * (1 - 2 * v)).
Definition shear_mod (E v : R) : R := E / (2 * (1 + v)).
(** Stress lambda tr(e) I + 2 mu e, in Voigt form with engineering shear strains: d normal components first, then shears. *)
Definition hooke (d : nat) (lam mu : R) (e : nat -> R) (i : nat) : R :=
  if Nat.ltb i d then lam * rs d e + 2 * mu * e i else mu * e i.
Definition admissible (E v : R) : Prop := 0 < E /\ -1 < v < / 2.

(** Stress of the three-dimensional law K tr(e) I + 2 G dev(e) on a list of components: [normal v] says whether component v is a
    normal one, [tr] is the trace of the strain. *)
Definition isotropic_component (K G tr : R) (normal : bool) (ev : R) : R :=
  if normal then 2 * G * (ev - tr / 3) + K * tr else G * ev.

(** Eigenvalues of a symmetric 2x2 matrix: roots of the characteristic polynomial, counted with multiplicity. *)
Definition are_eigenvalues2 (a b c : R) (l0 l1 : R) : Prop := forall x, (a - x) * (c - x) - b * b = (l0 - x) * (l1 - x).

(** Orthonormal triples, matrix on vector, squared norm in three dimensions. *)
Definition orthonormal (q : nat -> nat -> R) : Prop :=
  forall i j, (i < 3)%nat -> (j < 3)%nat -> rs 3 (fun k => q k i * q k j) = if Nat.eqb i j then 1 else 0.
Definition norm2 (v : nat -> R) : R := rs 3 (fun k => v k * v k).
(** How far q_i is from an eigenvector of T with value l_i. *)
Definition residual (T : nat -> nat -> R) (q : nat -> nat -> R) (l : nat -> R) (i k : nat) : R := rs 3 (fun j => T k j * q j i) - l i * q k i.
Definition off_mass (T : nat -> nat -> R) : R := T 0%nat 1%nat * T 0%nat 1%nat + T 0%nat 2%nat * T 0%nat 2%nat + T 1%nat 2%nat * T 1%nat 2%nat.
(** The symmetric tensor with Voigt components s (order 11 22 33 23 13 12; shears halved if they are engineering strains). *)
Definition voigt_tensor (engineering : bool) (s : nat -> R) (i j : nat) : R :=
  let h := if engineering then / 2 else 1 in
  match i, j with
  | 0%nat, 0%nat => s 0%nat | 1%nat, 1%nat => s 1%nat | 2%nat, 2%nat => s 2%nat
  | 1%nat, 2%nat | 2%nat, 1%nat => h * s 3%nat
  | 0%nat, 2%nat | 2%nat, 0%nat => h * s 4%nat
  | 0%nat, 1%nat | 1%nat, 0%nat => h * s 5%nat
  | _, _ => 0
  end.
Definition trace3 (T : nat -> nat -> R) : R := rs 3 (fun i => T i i).
(** Sum of the principal 2x2 minors and determinant. *)
Definition minors3 (T : nat -> nat -> R) : R :=
  T 0%nat 0%nat * T 1%nat 1%nat - T 0%nat 1%nat * T 1%nat 0%nat + (T 0%nat 0%nat * T 2%nat 2%nat - T 0%nat 2%nat * T 2%nat 0%nat)
  + (T 1%nat 1%nat * T 2%nat 2%nat - T 1%nat 2%nat * T 2%nat 1%nat).
Definition det33 (T : nat -> nat -> R) : R :=
  T 0%nat 0%nat * (T 1%nat 1%nat * T 2%nat 2%nat - T 1%nat 2%nat * T 2%nat 1%nat)
  - T 0%nat 1%nat * (T 1%nat 0%nat * T 2%nat 2%nat - T 1%nat 2%nat * T 2%nat 0%nat)
  + T 0%nat 2%nat * (T 1%nat 0%nat * T 2%nat 1%nat - T 1%nat 1%nat * T 2%nat 0%nat).
(** The deviator and the double contraction. *)
Definition deviator (T : nat -> nat -> R) (i j : nat) : R := T i j - (if Nat.eqb i j then trace3 T / 3 else 0).
Definition contract (S T : nat -> nat -> R) : R := rs 3 (fun i => rs 3 (fun j => S i j * T i j)).
Definition similar (Q T : nat -> nat -> R) (i l : nat) : R := rs 3 (fun j => rs 3 (fun k => Q j i * T j k * Q k l)).

(** User-given stiffness entries.  The key of the pair (i, j), counted from zero, is "c", a prefix for the order of the temperature, and the two indices counted from one, the smaller first. *)
Definition index_text (i : nat) : string := nth i ["1"; "2"; "3"; "4"; "5"; "6"]%string ""%string.
Definition given (p : string -> option R) (prefix : string) (ij : nat * nat) : option R :=
  p ("c" ++ prefix ++ index_text (fst ij) ++ index_text (snd ij))%string.
(** Normal stiffnesses fall back to c11, couplings of normal components to c12, shear stiffnesses to the first of them; other entries are zero. *)
Definition falls_back (d : nat) (ij : nat * nat) : nat * nat :=
  let (i, j) := ij in
  if Nat.eqb i j then (if Nat.ltb i d then (0, 0)%nat else (d, d)%nat) else (0, 1)%nat.
Definition stiffness_entry (d : nat) (p : string -> option R) (prefix : string) (i j : nat) : R :=
  let ij := (Nat.min i j, Nat.max i j) in
  if (Nat.eqb i j || (Nat.ltb i d && Nat.ltb j d))%bool then
    match given p prefix ij with
    | Some r => r
    | None => match given p prefix (falls_back d ij) with Some r => r | None => 0 end
    end
  else 0.
