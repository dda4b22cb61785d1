(** Words used by the statements on the p-norm criteria (C115-C117). *)
From Coq Require Import Reals List.
From Verif Require Import Element.ElementSpec.
Local Open Scope R_scope.

(** Euclidean magnitude of a list of [n] numbers. *)
Definition magnitude (n : nat) (s : nat -> R) : R := sqrt (rs n (fun i => s i * s i)).
(** [v] is the [k]-th root of [t]. *)
Definition is_root (k : nat) (t v : R) : Prop := 0 <= v /\ v ^ k = t.

(** A symmetric 3 x 3 matrix given by xx, yy, zz, yz, xz, xy: trace, sum of the principal minors, determinant. *)
Definition trace3 (s : nat -> R) : R := s 0%nat + s 1%nat + s 2%nat.
Definition minors3 (s : nat -> R) : R :=
  (s 0%nat * s 1%nat - s 5%nat * s 5%nat) + (s 1%nat * s 2%nat - s 3%nat * s 3%nat) + (s 2%nat * s 0%nat - s 4%nat * s 4%nat).
Definition det3 (s : nat -> R) : R :=
  s 0%nat * (s 1%nat * s 2%nat - s 3%nat * s 3%nat) - s 5%nat * (s 5%nat * s 2%nat - s 3%nat * s 4%nat) + s 4%nat * (s 5%nat * s 3%nat - s 1%nat * s 4%nat).
(** det(S - x I). *)
Definition characteristic (s : nat -> R) (x : R) : R := det3 (fun i => if Nat.ltb i 3 then s i - x else s i).
(** The deviator of a stress. *)
Definition deviator (s : nat -> R) (i : nat) : R := if Nat.ltb i 3 then s i - trace3 s / 3 else s i.
(** The stress tensor in space of a body in [d] dimensions, from its Voigt entries (xx; xx, yy, xy; xx, yy, zz, yz, xz, xy): no stress out of the line or plane. *)
Definition in_space (d : nat) (t : nat -> R) (i j : nat) : R :=
  if andb (Nat.ltb i d) (Nat.ltb j d) then (if Nat.eqb i j then t i else match d with 2%nat => t 2%nat | _ => t (6 - i - j)%nat end) else 0.
(** Its deviator as xx, yy, zz, yz, xz, xy, and a linear image of the deviator. *)
Definition space_deviator (d : nat) (t : nat -> R) (k : nat) : R :=
  let S := in_space d t in
  match k with
  | 3%nat => S 1%nat 2%nat | 4%nat => S 0%nat 2%nat | 5%nat => S 0%nat 1%nat
  | _ => S k k - (S 0%nat 0%nat + S 1%nat 1%nat + S 2%nat 2%nat) / 3
  end.
Definition image (T : nat -> nat -> R) (s : nat -> R) (i : nat) : R := rs 6 (fun k => T i k * s k).
