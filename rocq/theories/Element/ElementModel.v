(** Element kernels of linear simplices, one cell at a time: a workset entry (cell, node, dimension) is x node dim, state entry
    (cell, dof) is u dof.  Scalars are the reals. *)
From Coq Require Import Reals List Arith Bool.
From Verif Require Import Base.Field Base.Sums.
Import ListNotations.
Local Open Scope R_scope.

Notation rsum := (sum (K := R_ring)).
Notation coords := (nat -> nat -> R).

(** ** Geometry *)

(** ComputeGradientWorkset<1>, src/ImplicitFunctors.hpp 256-271. *)
Definition det1 (x : coords) : R := x 0%nat 0%nat - x 1%nat 0%nat.
Definition gradient1 (x : coords) : coords :=
  let detj := det1 x in let i11 := 1 / detj in
  fun a k => match a, k with 0%nat, 0%nat => i11 | 1%nat, 0%nat => - i11 | _, _ => 0 end.

(** ComputeGradientWorkset<2>, 222-251. *)
Definition det2 (x : coords) : R :=
  let j11 := x 0%nat 0%nat - x 2%nat 0%nat in let j12 := x 1%nat 0%nat - x 2%nat 0%nat in
  let j21 := x 0%nat 1%nat - x 2%nat 1%nat in let j22 := x 1%nat 1%nat - x 2%nat 1%nat in
  j11 * j22 - j12 * j21.
Definition gradient2 (x : coords) : coords :=
  let j11 := x 0%nat 0%nat - x 2%nat 0%nat in let j12 := x 1%nat 0%nat - x 2%nat 0%nat in
  let j21 := x 0%nat 1%nat - x 2%nat 1%nat in let j22 := x 1%nat 1%nat - x 2%nat 1%nat in
  let detj := det2 x in
  let i11 := j22 / detj in let i12 := - j12 / detj in
  let i21 := - j21 / detj in let i22 := j11 / detj in
  fun a k => match a, k with
  | 0%nat, 0%nat => i11 | 0%nat, 1%nat => i12
  | 1%nat, 0%nat => i21 | 1%nat, 1%nat => i22
  | 2%nat, 0%nat => - (i11 + i21) | 2%nat, 1%nat => - (i12 + i22)
  | _, _ => 0 end.

(** ComputeGradientWorkset<3>, 168-217. *)
Definition det3 (x : coords) : R :=
  let j11 := x 0%nat 0%nat - x 3%nat 0%nat in let j12 := x 1%nat 0%nat - x 3%nat 0%nat in let j13 := x 2%nat 0%nat - x 3%nat 0%nat in
  let j21 := x 0%nat 1%nat - x 3%nat 1%nat in let j22 := x 1%nat 1%nat - x 3%nat 1%nat in let j23 := x 2%nat 1%nat - x 3%nat 1%nat in
  let j31 := x 0%nat 2%nat - x 3%nat 2%nat in let j32 := x 1%nat 2%nat - x 3%nat 2%nat in let j33 := x 2%nat 2%nat - x 3%nat 2%nat in
  j11*j22*j33 + j12*j23*j31 + j13*j21*j32 - j11*j23*j32 - j12*j21*j33 - j13*j22*j31.
Definition gradient3 (x : coords) : coords :=
  let j11 := x 0%nat 0%nat - x 3%nat 0%nat in let j12 := x 1%nat 0%nat - x 3%nat 0%nat in let j13 := x 2%nat 0%nat - x 3%nat 0%nat in
  let j21 := x 0%nat 1%nat - x 3%nat 1%nat in let j22 := x 1%nat 1%nat - x 3%nat 1%nat in let j23 := x 2%nat 1%nat - x 3%nat 1%nat in
  let j31 := x 0%nat 2%nat - x 3%nat 2%nat in let j32 := x 1%nat 2%nat - x 3%nat 2%nat in let j33 := x 2%nat 2%nat - x 3%nat 2%nat in
  let detj := det3 x in
  let i11 := (j22*j33 - j23*j32) / detj in let i12 := (j13*j32 - j12*j33) / detj in let i13 := (j12*j23 - j13*j22) / detj in
  let i21 := (j23*j31 - j21*j33) / detj in let i22 := (j11*j33 - j13*j31) / detj in let i23 := (j13*j21 - j11*j23) / detj in
  let i31 := (j21*j32 - j22*j31) / detj in let i32 := (j12*j31 - j11*j32) / detj in let i33 := (j11*j22 - j12*j21) / detj in
  fun a k => match a, k with
  | 0%nat, 0%nat => i11 | 0%nat, 1%nat => i12 | 0%nat, 2%nat => i13
  | 1%nat, 0%nat => i21 | 1%nat, 1%nat => i22 | 1%nat, 2%nat => i23
  | 2%nat, 0%nat => i31 | 2%nat, 1%nat => i32 | 2%nat, 2%nat => i33
  | 3%nat, 0%nat => - (i11 + i21 + i31) | 3%nat, 1%nat => - (i12 + i22 + i32) | 3%nat, 2%nat => - (i13 + i23 + i33)
  | _, _ => 0 end.

Definition cell_det (d : nat) (x : coords) : R := match d with 1%nat => det1 x | 2%nat => det2 x | _ => det3 x end.
Definition cell_gradient (d : nat) (x : coords) : coords := match d with 1%nat => gradient1 x | 2%nat => gradient2 x | _ => gradient3 x end.
(** aCellVolume of ComputeGradientWorkset, and ComputeCellVolume (291-343): |det|. *)
Definition cell_volume (d : nat) (x : coords) : R := Rabs (cell_det d x).
(** The cubature weight: src/LinearTetCubRuleDegreeOne.hpp, initialize (1 divided by 2..d). *)
Fixpoint cub_weight (d : nat) : R := match d with S (S _ as d') => cub_weight d' / INR d | _ => 1 end.
(** ComputeVolume, src/ImplicitFunctors.hpp 490-505. *)
Definition compute_volume (d : nat) (x : coords) : R := (if Nat.eqb d 2 then 1 / 2 else 1 / 6) * Rabs (cell_det d x).
(** ComputeSurfaceArea<3>, 369-389: node ordinals of the face. *)
Definition surface_area3 (x : coords) (n0 n1 n2 : nat) : R :=
  let ab0 := x n2 0%nat - x n0 0%nat in let ab1 := x n2 1%nat - x n0 1%nat in let ab2 := x n2 2%nat - x n0 2%nat in
  let bc0 := x n1 0%nat - x n2 0%nat in let bc1 := x n1 1%nat - x n2 1%nat in let bc2 := x n1 2%nat - x n2 2%nat in
  let c0 := ab1 * bc2 - ab2 * bc1 in let c1 := ab2 * bc0 - ab0 * bc2 in let c2 := ab0 * bc1 - ab1 * bc0 in
  sqrt (c0 * c0 + c1 * c1 + c2 * c2) / 2.

(** ** Voigt order: the diagonal, then pairs j = d-1..1, i = j-1..0 (src/Strain.hpp 68-93, src/StressDivergence.hpp 33-46). *)
Definition shear_pairs (d : nat) : list (nat * nat) :=
  flat_map (fun j => map (fun i => (i, j)) (rev (seq 0 j))) (rev (seq 1 (d - 1))).
Definition voigt_pairs (d : nat) : list (nat * nat) := map (fun i => (i, i)) (seq 0 d) ++ shear_pairs d.
Definition num_voigt (d : nat) : nat := match d with 1%nat => 1%nat | 2%nat => 3%nat | _ => 6%nat end.
(** mVoigt[i][j] of StressDivergence: position of the pair in either order. *)
Fixpoint voigt_find (i j : nat) (l : list (nat * nat)) (pos : nat) : nat :=
  match l with
  | [] => pos
  | (a, b) :: l' => if ((Nat.eqb a i && Nat.eqb b j) || (Nat.eqb a j && Nat.eqb b i))%bool then pos else voigt_find i j l' (S pos)
  end.
Definition voigt (d i j : nat) : nat := voigt_find i j (voigt_pairs d) 0.

(** Strain (second operator), src/Strain.hpp 56-94, with ndof degrees of freedom per node; [old] is the previous content of the
    output view: normal components are reset (line 71), shear components are accumulated into it. *)
Definition strain (d ndof : nat) (old : nat -> R) (u : nat -> R) (g : coords) (v : nat) : R :=
  match nth_error (voigt_pairs d) v with
  | None => old v
  | Some (i, j) =>
    if Nat.eqb i j then rsum (S d) (fun a => u (a * ndof + i)%nat * g a i)
    else old v + rsum (S d) (fun a => u (a * ndof + j)%nat * g a i + u (a * ndof + i)%nat * g a j)
  end.
(** Strain (first operator), 37-53, on the gradient matrix of ComputeGradientMatrix (src/ImplicitFunctors.hpp 525-550). *)
Definition gradient_matrix (d : nat) (g : coords) (dof v : nat) : R :=
  let a := (dof / d)%nat in let c := (dof mod d)%nat in
  match nth_error (voigt_pairs d) v with
  | None => 0
  | Some (i, j) => if Nat.eqb i j then (if Nat.eqb c i then g a i else 0)
                   else if Nat.eqb c i then g a j else if Nat.eqb c j then g a i else 0
  end.
Definition strain_matrix (d : nat) (u : nat -> R) (B : nat -> nat -> R) (v : nat) : R := rsum ((S d) * d) (fun k => u k * B k v).

(** StressDivergence, src/StressDivergence.hpp 70-90: what is added to output entry node * ndof + i + off (other entries are not
    touched), as the list of additions in loop order. *)
Definition stress_divergence (d ndof off : nat) (scale vol : R) (s : nat -> R) (g : coords) (out : nat -> R) : nat -> R :=
  fold_left (fun o i => fold_left (fun o a => fold_left (fun o j =>
      fun k => if Nat.eqb k (a * ndof + i + off) then o k + scale * vol * s (voigt d i j) * g a j else o k)
    (seq 0 d) o) (seq 0 (S d)) o) (seq 0 d) out.

(** ScalarGrad, src/ScalarGrad.hpp 93-110 (60-74 with ndof = 1 and offset 0). *)
Definition scalar_gradient (d ndof off : nat) (u : nat -> R) (g : coords) (k : nat) : R :=
  rsum (S d) (fun a => u (a * ndof + off)%nat * g a k).
(** ThermalFlux, src/ThermalFlux.hpp 74-86. *)
Definition thermal_flux (d : nat) (cond : nat -> nat -> R) (tg : nat -> R) (i : nat) : R := 0 - rsum d (fun j => tg j * cond i j).
(** FluxDivergence, src/FluxDivergence.hpp 32-48. *)
Definition flux_divergence (d ndof off : nat) (scale vol : R) (q : nat -> R) (g : coords) (out : nat -> R) : nat -> R :=
  fold_left (fun o a => fold_left (fun o k =>
      fun e => if Nat.eqb e (a * ndof + off) then o e + scale * q k * g a k * vol else o e)
    (seq 0 d) o) (seq 0 (S d)) out.
(** ComputeProjectionWorkset, src/ImplicitFunctors.hpp 126-145. *)
Definition projection_workset (nn ndof : nat) (scale vol : R) (N s : nat -> R) (out : nat -> R) : nat -> R :=
  fold_left (fun o a => fold_left (fun o c =>
      fun e => if Nat.eqb e (ndof * a + c) then o e + scale * N a * s c * vol else o e)
    (seq 0 ndof) o) (seq 0 nn) out.

(** LinearStress, src/LinearStress.hpp 61-76. *)
Definition linear_stress (nv : nat) (C : nat -> nat -> R) (ref e : nat -> R) (i : nat) : R := rsum nv (fun j => (e j - ref j) * C i j).
(** The second operator, 88-101, with Rayleigh damping. *)
Definition linear_stress_rayleigh (nv : nat) (C : nat -> nat -> R) (ref : nat -> R) (b : R) (e vg : nat -> R) (i : nat) : R :=
  rsum nv (fun j => (e j - ref j) * C i j + vg j * C i j * b).
