(** Specification vocabulary for loads: areas of faces, exterior faces, integrals over the reference simplex. *)
From Coq Require Import Reals List Arith.
From Coquelicot Require Import Coquelicot.
From Verif Require Import Base.Field Base.Sums Loads.LoadsModel.
Import ListNotations.
Local Open Scope R_scope.
Notation rsum := (sum (K := R_ring)).

(** Area of the simplex with corners X 0, ..., X (d-1) in d-dimensional space: one for a point, the distance of two points, half the square root of the Gram determinant of two
    edges of a triangle. *)
Definition edge (X : nat -> nat -> R) (a b : nat) (c : nat) : R := X b c - X a c.
Definition inner (d : nat) (u v : nat -> R) : R := rsum d (fun c => u c * v c).
Definition simplex_area (d : nat) (X : nat -> nat -> R) : R :=
  match d with
  | 1%nat => 1
  | 2%nat => sqrt (inner 2 (edge X 0 1) (edge X 0 1))
  | _ => sqrt (inner 3 (edge X 0 1) (edge X 0 1) * inner 3 (edge X 0 2) (edge X 0 2) - inner 3 (edge X 0 1) (edge X 0 2) ^ 2) / 2
  end.
(** Corners of a mesh face, vertex coordinates being [X]. *)
Definition face_corner (d : nat) (m : mesh) (X : nat -> nat -> R) (face i : nat) : nat -> R := X (nth (face * d + i) (f2v m) 0%nat).
Definition face_area (d : nat) (m : mesh) (X : nat -> nat -> R) (face : nat) : R := simplex_area d (face_corner d m X face).
Definition cell_vertex (d : nat) (m : mesh) (cell j : nat) : nat := nth (cell * (d + 1) + j) (c2v m) 0%nat.

(** [face] is a face of exactly the cells [cells]: it is a row of the face table, the graph lists those cells, which exist, and its vertices are vertices of each of them. *)
Definition face_of (d ncells : nat) (m : mesh) (face : nat) (cells : list nat) : Prop :=
  (face * d + d <= length (f2v m))%nat /\
  (exists a b, nth_error (up_off m) face = Some a /\ nth_error (up_off m) (S face) = Some b /\ (a <= b <= length (up_elems m))%nat /\
     cells = map (fun k => nth k (up_elems m) 0%nat) (seq a (b - a))) /\
  (forall c, In c cells -> (c < ncells)%nat /\ forall i, (i < d)%nat -> exists j, (j < d + 1)%nat /\ cell_vertex d m c j = nth (face * d + i) (f2v m) 0%nat).
(** The configuration workset of a mesh with vertex coordinates [X]. *)
Definition is_config (d ncells : nat) (m : mesh) (X : nat -> nat -> R) (config : nat -> nat -> nat -> R) : Prop :=
  forall cell j c, (cell < ncells)%nat -> (j < d + 1)%nat -> (c < d)%nat -> config cell j c = X (cell_vertex d m cell j) c.
(** Two different entries of the side set never belong to one cell. *)
Definition unshared (adj : nat -> list nat) (faces : list nat) : Prop :=
  forall i j c, (i < length faces)%nat -> (j < length faces)%nat -> i <> j -> In c (adj (nth i faces 0%nat)) -> ~ In c (adj (nth j faces 0%nat)).

(** Integrals over the reference simplex (nodes at the unit points and the origin), as iterated Riemann integrals. *)
Definition int1 (f : R -> R) (I : R) : Prop := is_RInt f 0 1 I.
Definition int2 (f : R -> R -> R) (I : R) : Prop :=
  exists F, (forall x, is_RInt (f x) 0 (1 - x) (F x)) /\ is_RInt F 0 1 I.
Definition int3 (f : R -> R -> R -> R) (I : R) : Prop :=
  exists G, (forall x y, is_RInt (f x y) 0 (1 - x - y) (G x y)) /\ int2 G I.

(** Sum over the nodes of component [e] of a nodal vector with [dpn] components per node. *)
Definition nodal_sum (nn dpn e : nat) (v : list R) : R := rsum nn (fun i => nth (i * dpn + e) v 0).
(** The face is in the cell's row of the cell-to-face table; [lf] is its first position there. *)
Definition face_position (d : nat) (m : mesh) (cell face lf : nat) : Prop :=
  (lf < d + 1)%nat /\ nth (cell * (d + 1) + lf) (c2f m) 0%nat = face /\ forall j, (j < lf)%nat -> nth (cell * (d + 1) + j) (c2f m) 0%nat <> face.
