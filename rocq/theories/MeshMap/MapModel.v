(** Model of the mesh map (src/Plato_MeshMap.hpp): sparse interpolation, its transpose, the linear filter, the search of
    parent elements and the symmetry plane. *)
From Coq Require Import Arith List Bool ZArith Reals.
From Verif Require Import Base.Field Base.ListUpd Base.Res Base.Scatter Sparse.CrsModel.
Import ListNotations.

Section Sparse.
Context {K : CRing}.
Local Open Scope K_scope.

(** MeshMap::SparseMatrix (lines 446-453). *)
Record sparse := mkS { m_rowmap : list nat; m_colmap : list nat; m_entries : list K; m_nrows : nat; m_ncols : nat }.

(** One row of matvec (lines 909-919). *)
Definition matvec_row (M : sparse) (x : list K) (i : nat) : res (list (nat * K)) :=
  let! es := row_range (m_rowmap M) i in
  let! s := foldR (fun e s =>
      let! c := ub (nth_error (m_colmap M) e) in
      let! a := ub (nth_error (m_entries M) e) in
      let! v := ub (nth_error x c) in
      Ok (s + a * v)) es 0 in
  Ok [(i, s)].
(** matvec with distinct input and output (lines 902-920). *)
Definition map_matvec (sched : schedule) (M : sparse) (x out : list K) : res (list K) :=
  par_write sched (length (m_rowmap M) - 1) (matvec_row M x) out.
(** matvec in place (lines 891-896): into a copy of the input, then back. *)
Definition map_matvec_inplace (sched : schedule) (M : sparse) (x : list K) : res (list K) := map_matvec sched M x x.

(** apply (lines 867-884) and applyT (lines 926-943). *)
Definition map_apply (sched : schedule) (M : sparse) (F : option sparse) (filter_first : bool) (x out : list K) : res (list K) :=
  match F with
  | Some f => if filter_first then let! y := map_matvec sched f x out in map_matvec_inplace sched M y
              else let! y := map_matvec sched M x out in map_matvec_inplace sched f y
  | None => map_matvec sched M x out
  end.
Definition map_applyT (sched : schedule) (MT : sparse) (FT : option sparse) (filter_first : bool) (x out : list K) : res (list K) :=
  match FT with
  | Some f => if negb filter_first then let! y := map_matvec sched f x out in map_matvec_inplace sched MT y
              else let! y := map_matvec sched MT x out in map_matvec_inplace sched f y
  | None => map_matvec sched MT x out
  end.

(** ---- createTranspose (lines 677-739) ---- *)

(** The work of both parallel loops, one item for each (row, entry index), in program order. *)
Definition entry_items (M : sparse) : res (list (nat * nat)) :=
  let! rows := mapR (fun i => let! es := row_range (m_rowmap M) i in Ok (map (pair i) es)) (seq 0 (m_nrows M)) in
  Ok (concat rows).
(** An interleaving: the order in which the atomic operations of the items take effect.  (Any order of all items is
    allowed, also those where the items of one row are not in program order.) *)
Definition interleaving := list (nat * nat) -> list (nat * nat).

(** Lines 702-707: one atomic increment. *)
Definition count_item (M : sparse) (it : nat * nat) (cnt : list nat) : res (list nat) :=
  let! c := ub (nth_error (m_colmap M) (snd it)) in
  let! v := ub (nth_error cnt c) in
  ub (upd cnt c (S v)).
(** Exclusive parallel_scan over the first [k] elements (lines 711-721; also lines 620-630 and 790-800). *)
Fixpoint exscan (acc k : nat) (l : list nat) : res (list nat) :=
  match k with
  | O => Ok l
  | S k' => match l with
            | [] => UB
            | v :: l' => let! r := exscan (acc + v)%nat k' l' in Ok (acc :: r)
            end
  end.
(** Lines 731-735: fetch-and-add of the offset, then the two writes to the slot obtained. *)
Definition fill_item (M : sparse) (rmT : list nat) (it : nat * nat) (s : list nat * (list nat * list K)) : res (list nat * (list nat * list K)) :=
  let '(off, (cm, en)) := s in
  let! c := ub (nth_error (m_colmap M) (snd it)) in
  let! o := ub (nth_error off c) in
  let! off' := ub (upd off c (S o)) in
  let! b := ub (nth_error rmT c) in
  let! cm' := ub (upd cm (b + o) (fst it)) in
  let! a := ub (nth_error (m_entries M) (snd it)) in
  let! en' := ub (upd en (b + o) a) in
  Ok (off', (cm', en')).
Definition create_transpose (o1 o2 : interleaving) (M : sparse) : res sparse :=
  let! items := entry_items M in
  let! cnt := foldR (count_item M) (o1 items) (repeat 0%nat (length (m_rowmap M))) in
  let! rmT := exscan 0 (S (m_nrows M)) cnt in
  let! s := foldR (fill_item M rmT) (o2 items)
              (repeat 0%nat (m_nrows M), (repeat 0%nat (length (m_colmap M)), repeat 0 (length (m_entries M)))) in
  Ok (mkS rmT (fst (snd s)) (snd (snd s)) (m_ncols M) (m_nrows M)).
(** createTranspose of a pointer (lines 660-671). *)
Definition create_transpose_opt (o1 o2 : interleaving) (F : option sparse) : res (option sparse) :=
  match F with Some f => let! t := create_transpose o1 o2 f in Ok (Some t) | None => Ok None end.
End Sparse.
Arguments sparse : clear implicits.

Section Basis.
Context {K : CField}.
Local Open Scope K_scope.

(** GetBasis::basis (lines 309-335); a point is its three coordinates. *)
Record point := mkP { px : K; py : K; pz : K }.
Definition basis (p p0 p1 p2 p3 : point) : K * K * K * K :=
  let a11 := px p0 - px p3 in let a12 := px p1 - px p3 in let a13 := px p2 - px p3 in
  let a21 := py p0 - py p3 in let a22 := py p1 - py p3 in let a23 := py p2 - py p3 in
  let a31 := pz p0 - pz p3 in let a32 := pz p1 - pz p3 in let a33 := pz p2 - pz p3 in
  let detA := a11 * a22 * a33 + a12 * a23 * a31 + a13 * a21 * a32 - a11 * a23 * a32 - a12 * a21 * a33 - a13 * a22 * a31 in
  let b11 := (a22 * a33 - a23 * a32) / detA in let b12 := (a13 * a32 - a12 * a33) / detA in let b13 := (a12 * a23 - a13 * a22) / detA in
  let b21 := (a23 * a31 - a21 * a33) / detA in let b22 := (a11 * a33 - a13 * a31) / detA in let b23 := (a13 * a21 - a11 * a23) / detA in
  let b31 := (a21 * a32 - a22 * a31) / detA in let b32 := (a12 * a31 - a11 * a32) / detA in let b33 := (a11 * a22 - a12 * a21) / detA in
  let FX := px p - px p3 in let FY := py p - py p3 in let FZ := pz p - pz p3 in
  let b0 := b11 * FX + b12 * FY + b13 * FZ in
  let b1 := b21 * FX + b22 * FY + b23 * FZ in
  let b2 := b31 * FX + b32 * FY + b33 * FZ in
  (b0, b1, b2, 1 - b0 - b1 - b2).

(** The mesh: vertices of cells, coordinates of vertices. *)
Record tets := mkT { t_nverts : nat; t_cells : list (nat * nat * nat * nat); t_coord : nat -> point }.
Definition elem_basis (m : tets) (p : point) (c : nat * nat * nat * nat) : K * K * K * K :=
  let '(i0, i1, i2, i3) := c in basis p (t_coord m i0) (t_coord m i1) (t_coord m i2) (t_coord m i3).

(** aParentElements: -1 (not moved), -2 (no element found), or an element. *)
Inductive parent := Unmoved | NotFound | Elem (e : nat).

(** Lines 603-618: the number of entries of a row. *)
Definition parent_count (p : parent) : nat := match p with NotFound => 0 | Unmoved => 1 | Elem _ => 4 end.
(** Lines 637-651: the entries of a row.  For -2 the element vertices are read at index -8: undefined. *)
Definition matrix_row (m : tets) (parents : list parent) (loc : nat -> point) (rm : list nat) (i : nat) : res (list (nat * (nat * K))) :=
  let! k := ub (nth_error rm i) in
  let! p := ub (nth_error parents i) in
  match p with
  | Unmoved => Ok [(k, (i, 1))]
  | NotFound => UB
  | Elem e =>
      let! c := ub (nth_error (t_cells m) e) in
      let '(i0, i1, i2, i3) := c in
      let '(b0, b1, b2, b3) := elem_basis m (loc i) c in
      Ok [(k, (i0, b0)); ((k + 1)%nat, (i1, b1)); ((k + 2)%nat, (i2, b2)); ((k + 3)%nat, (i3, b3))]
  end.
(** setMatrixValues (lines 594-653).  The column map and the entries are written together. *)
Definition set_matrix (sched : schedule) (m : tets) (parents : list parent) (loc : nat -> point) : res (sparse K) :=
  let n := t_nverts m in
  let! cnt := mapR (fun i => let! p := ub (nth_error parents i) in Ok (parent_count p)) (seq 0 n) in
  let! rm := exscan 0 (S n) (cnt ++ [0%nat]) in
  let total := fold_left Nat.add cnt 0%nat in
  let! ce := par_write sched n (matrix_row m parents loc rm) (repeat (0%nat, 0) total) in
  Ok (mkS rm (map fst ce) (map snd ce) n n).

(** The search in findParentElements (lines 556-588): [gt] compares scalars, [not_found] is -1e8, [cands] the elements
    reported by the tree (ArborX, external: see the statements) for the mapped location. *)
Definition min_basis (gt : K -> K -> bool) (b : K * K * K * K) : K :=
  let '(b0, b1, b2, b3) := b in
  let m := b0 in
  let m := if gt m b1 then b1 else m in
  let m := if gt m b2 then b2 else m in
  if gt m b3 then b3 else m.
Definition search (gt : K -> K -> bool) (not_found : K) (scored : list (nat * K)) : parent :=
  let '(tMaxMin, iParent) :=
    fold_left (fun (s : K * parent) c => if gt (snd c) not_found then (snd c, Elem (fst c)) else s) scored (not_found, NotFound) in
  if gt tMaxMin not_found then iParent else NotFound.
Definition same_point (eqb : K -> K -> bool) (p q : point) : bool := eqb (px p) (px q) && eqb (py p) (py q) && eqb (pz p) (pz q).
Definition find_parent (eqb gt : K -> K -> bool) (not_found : K) (m : tets) (p mapped : point) (cands : list nat) : res parent :=
  if same_point eqb p mapped then Ok Unmoved
  else let! cs := mapR (fun e => let! c := ub (nth_error (t_cells m) e) in Ok (e, min_basis gt (elem_basis m mapped c))) cands in
       Ok (search gt not_found cs).
End Basis.
Arguments point : clear implicits.
Arguments tets : clear implicits.

(** ---- Over the reals ---- *)
Local Open Scope R_scope.

(** Element bounding boxes (lines 496-530), one coordinate; [v] the coordinates of the four vertices. *)
Definition grow (s : R * R) (c : R) : R * R :=
  let '(lo, hi) := s in
  if Rlt_dec c lo then (c, hi) else if Rlt_dec hi c then (lo, c) else (lo, hi).
Definition box1 (v0 v1 v2 v3 : R) : R * R :=
  let '(lo, hi) := fold_left grow [v1; v2; v3] (v0, v0) in
  let len := hi - lo in
  (lo - (1 / 100) * len, hi + (1 / 100) * len).
Definition in_box1 (x v0 v1 v2 v3 : R) : Prop := fst (box1 v0 v1 v2 v3) <= x <= snd (box1 v0 v1 v2 v3).
Notation rpoint := (point R_field).
Definition in_box (p p0 p1 p2 p3 : rpoint) : Prop :=
  in_box1 (px p) (px p0) (px p1) (px p2) (px p3) /\ in_box1 (py p) (py p0) (py p1) (py p2) (py p3) /\ in_box1 (pz p) (pz p0) (pz p1) (pz p2) (pz p3).

(** The linear filter (lines 772-834): [indices], [offset] are what the tree returns for the spheres of radius [radius]. *)
Definition distance (p q : rpoint) : R :=
  let dx := px p - px q in let dy := py p - py q in let dz := pz p - pz q in
  let d2 := dx * dx + dy * dy + dz * dz in
  if Rlt_dec 0 d2 then sqrt d2 else 0.
Definition filter_row (radius : R) (loc : nat -> rpoint) (indices offset rm : list nat) (i : nat) : res (list (nat * (nat * R))) :=
  let! k := ub (nth_error rm i) in
  let! os := row_range offset i in
  let! vs := mapR (fun o => ub (nth_error indices o)) os in
  let ws := map (fun v => radius - distance (loc i) (loc v)) vs in
  let total := fold_left Rplus ws 0 in
  Ok (number k (combine vs (map (fun w => w / total) ws))).
Definition set_filter (sched : schedule) (n : nat) (radius : R) (loc : nat -> rpoint) (indices offset : list nat) : res (sparse R_ring) :=
  let! cnt := mapR (fun i => let! a := ub (nth_error offset i) in let! b := ub (nth_error offset (S i)) in Ok (b - a)%nat) (seq 0 n) in
  let! rm := exscan 0 (S n) (cnt ++ [0%nat]) in
  let total := fold_left Nat.add cnt 0%nat in
  let! ce := par_write sched n (filter_row radius loc indices offset rm) (repeat (0%nat, 0) total) in
  Ok (mkS (K := R_ring) rm (map fst ce) (map snd ce) n n).
(** createFilter (lines 841-858): a radius that is not positive throws. *)
Definition create_filter (sched : schedule) (n : nat) (radius : R) (loc : nat -> rpoint) (indices offset : list nat) : res (sparse R_ring) :=
  if Rle_dec radius 0 then Throw else set_filter sched n radius loc indices offset.

(** SymmetryPlane: constructor (lines 210-233) and operator() (lines 236-252). *)
Record plane := mkPl { pl_origin : rpoint; pl_normal : rpoint }.
Definition make_plane (origin normal : rpoint) : res plane :=
  let l := px normal * px normal + py normal * py normal + pz normal * pz normal in
  if Req_EM_T l 0 then Throw
  else let s := sqrt l in Ok (mkPl origin (mkP (K := R_field) (px normal / s)%R (py normal / s)%R (pz normal / s)%R)).
Definition plane_map (pl : plane) (p : rpoint) : rpoint :=
  let n := pl_normal pl in let o := pl_origin pl in
  let t := 0 + (px p - px o) * px n + (py p - py o) * py n + (pz p - pz o) * pz n in
  if Rlt_dec t 0
  then mkP (K := R_field) (px p - 2 * t * px n)%R (py p - 2 * t * py n)%R (pz p - 2 * t * pz n)%R
  else p.
