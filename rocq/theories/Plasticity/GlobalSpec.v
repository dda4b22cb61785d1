(** What the properties of the plasticity residual and of its criteria say, independently of the kernels. *)
From Coq Require Import Reals List Arith Bool.
From Verif Require Import Base.Field Base.Sums Element.ElementSpec Element.MaterialSpec Plasticity.J2Spec.
Local Open Scope R_scope.

(** Orders {11,22,12,33} in two dimensions (plane strain) and {11,22,33,23,13,12} in three; shears are engineering ones. *)
Definition normal_component (d v : nat) : bool := match d with 2%nat => negb (Nat.eqb v 2) | _ => Nat.ltb v 3 end.
(** K tr(e) I + 2 G dev(e). *)
Definition isotropic_stress (d : nat) (K G : R) (e : nat -> R) (v : nat) : R := isotropic_component K G (trace_of d e) (normal_component d v) (e v).
(** Half the stress times the strain. *)
Definition strain_energy (d : nat) (K G : R) (e : nat -> R) : R := 1 / 2 * rs (components d) (fun v => isotropic_stress d K G e v * e v).
(** Total strain minus plastic strain minus the thermal strain on the normal components; [ep] has engineering shears. *)
Definition elastic_part (d : nat) (e ep : nat -> R) (thermal : R) (v : nat) : R := e v - ep v - (if normal_component d v then thermal else 0).
(** A state with no displacement, pressure or temperature entry other than the displacements of W. *)
Definition only_displacements (d ndof : nat) (W : nat -> R) : Prop := forall n i, (d <= i < ndof)%nat -> W (n * ndof + i)%nat = 0.
Definition virtual (d ndof : nat) (W : nat -> R) (k : nat) : R := if Nat.ltb (k mod ndof) d then W k else 0.
(** Double contraction of symmetric tensors given by (tensorial) components. *)
Definition contraction (d : nat) (s t : nat -> R) : R :=
  match d with
  | 2%nat => s 0%nat * t 0%nat + s 1%nat * t 1%nat + s 3%nat * t 3%nat + 2 * (s 2%nat * t 2%nat)
  | _ => s 0%nat * t 0%nat + s 1%nat * t 1%nat + s 2%nat * t 2%nat + 2 * (s 3%nat * t 3%nat + s 4%nat * t 4%nat + s 5%nat * t 5%nat)
  end.
