(** Specification of mesh maps: sparse matrices as lists of weighted pairs, points and tetrahedra. *)
From Coq Require Import Arith List Reals.
From Verif Require Import Base.Field Base.Sums Base.ListUpd Base.Res MeshMap.MapModel.
Import ListNotations.

Section S.
Context {K : CRing}.
Local Open Scope K_scope.

(** A matrix with [n] rows and [n] columns in compressed rows. *)
Record wf (n : nat) (M : sparse K) : Prop := {
  w_rows : m_nrows M = n;
  w_colsn : m_ncols M = n;
  w_len : length (m_rowmap M) = S n;
  w_first : nth 0 (m_rowmap M) 0%nat = 0%nat;
  w_mono : forall i, (i < n)%nat -> (nth i (m_rowmap M) 0 <= nth (S i) (m_rowmap M) 0)%nat;
  w_last : nth n (m_rowmap M) 0%nat = length (m_colmap M);
  w_ents : length (m_entries M) = length (m_colmap M);
  w_cols : Forall (fun c => (c < n)%nat) (m_colmap M) }.
(** The inner product of two fields on the nodes. *)
Definition inner (x y : list K) : K := lsum (map (fun p => fst p * snd p) (combine x y)).
Definition perm_order (o : interleaving) : Prop := forall l, Permutation.Permutation (o l) l.
(** The entry (i, j) of the matrix. *)
Definition entry (M : sparse K) (i j : nat) : K :=
  lsum (map (fun e => if Nat.eqb (nth e (m_colmap M) 0%nat) j then nth e (m_entries M) 0 else 0)
            (range (nth i (m_rowmap M) 0%nat) (nth (S i) (m_rowmap M) 0%nat))).
End S.

Section T.
Context {K : CField}.
Local Open Scope K_scope.
(** Six times the signed volume. *)
Definition volume6 (p0 p1 p2 p3 : point K) : K :=
  let ax := px p0 - px p3 in let ay := py p0 - py p3 in let az := pz p0 - pz p3 in
  let bx := px p1 - px p3 in let by_ := py p1 - py p3 in let bz := pz p1 - pz p3 in
  let cx := px p2 - px p3 in let cy := py p2 - py p3 in let cz := pz p2 - pz p3 in
  ax * (by_ * cz - bz * cy) - ay * (bx * cz - bz * cx) + az * (bx * cy - by_ * cx).
(** An affine field. *)
Record affine := mkAff { f_c : K; f_x : K; f_y : K; f_z : K }.
Definition at_point (f : affine) (p : point K) : K := f_c f + f_x f * px p + f_y f * py p + f_z f * pz p.
(** A parent the interpolation can use: an element of the mesh whose vertices are vertices of the mesh. *)
Definition parent_ok (m : tets K) (p : parent) : Prop :=
  match p with
  | Unmoved => True
  | NotFound => False
  | Elem e => exists i0 i1 i2 i3, nth_error (t_cells m) e = Some (i0, i1, i2, i3) /\ (i0 < t_nverts m)%nat /\ (i1 < t_nverts m)%nat /\ (i2 < t_nverts m)%nat /\ (i3 < t_nverts m)%nat
  end.
End T.
Arguments affine : clear implicits.

(** ---- Over the reals ---- *)
Local Open Scope R_scope.
(** Euclidean distance at most [radius]. *)
Definition within (radius : R) (p q : rpoint) : Prop :=
  sqrt ((px p - px q) * (px p - px q) + (py p - py q) * (py p - py q) + (pz p - pz q) * (pz p - pz q)) <= radius.
(** What the tree returns for spheres around the vertices. *)
Record neighbours (n : nat) (radius : R) (loc : nat -> rpoint) (indices offset : list nat) : Prop := {
  nb_len : length offset = S n;
  nb_mono : forall i, (i < n)%nat -> (nth i offset 0 <= nth (S i) offset 0)%nat;
  nb_last : forall i, (i < n)%nat -> (nth (S i) offset 0 <= length indices)%nat;
  nb_range : forall v, In v indices -> (v < n)%nat;
  nb_within : forall i o, (i < n)%nat -> (nth i offset 0 <= o < nth (S i) offset 0)%nat -> within radius (loc i) (loc (nth o indices 0%nat));
  nb_self : forall i, (i < n)%nat -> exists o, (nth i offset 0 <= o < nth (S i) offset 0)%nat /\ nth o indices 0%nat = i }.

(** Signed height over a plane (times the length of the normal), and mirror image in it. *)
Definition height (o n p : rpoint) : R := (px p - px o) * px n + (py p - py o) * py n + (pz p - pz o) * pz n.
Definition sq_norm (n : rpoint) : R := px n * px n + py n * py n + pz n * pz n.
Definition rpt (x y z : R) : rpoint := mkP (K := R_field) x y z.
Definition mirror (o n p : rpoint) : rpoint :=
  let t := 2 * (height o n p / sq_norm n) in rpt (px p - t * px n) (py p - t * py n) (pz p - t * pz n).
