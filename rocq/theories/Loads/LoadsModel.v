(** Model of the surface loads (src/SurfaceLoadIntegral.hpp, src/SurfacePressureIntegral.hpp, src/NaturalBCUtilities.hpp), the parsing of the natural
    boundary conditions (src/NaturalBC.hpp, src/NaturalBCs.hpp) and the body loads (src/BodyLoads.hpp), over the reals. *)
From Coq Require Import Reals String List Arith Bool.
From Verif Require Import Base.Field Base.Sums Base.ListUpd Base.Res Base.Scatter.
Import ListNotations.
Local Open Scope R_scope.

(** The parts of Omega_h's mesh the loops read: cell-to-vertex and face-to-vertex tables, the face-to-element graph (offsets, elements)
    and the cell-to-face table. *)
Record mesh := mkMesh { c2v : list nat; f2v : list nat; up_off : list nat; up_elems : list nat; c2f : list nat }.

(** CreateFaceLocalNode2ElemLocalNodeIndexMap<1,2,3>, NaturalBCUtilities.hpp 52-128: the last cell node equal to the face node; the output entry is not
    written when there is none and the caller's array is uninitialised. *)
Definition local_node (d : nat) (m : mesh) (cell face i : nat) : res nat :=
  let! v := ub (nth_error (f2v m) (face * d + i)) in
  let! o := foldR (fun j (acc : option nat) => let! u := ub (nth_error (c2v m) (cell * (d + 1) + j)) in Ok (if Nat.eqb v u then Some j else acc))
                  (seq 0 (d + 1)) None in
  ub o.

(** ComputeSurfaceJacobians, lines 174-235: row r = x(local node r) - x(last local node). *)
Definition surf_jacobian (d : nat) (x : nat -> nat -> R) (loc : nat -> nat) (r c : nat) : R := x (loc r) c - x (loc (d - 1)%nat) c.
(** ComputeSurfaceIntegralWeight, lines 278-325. *)
Definition surf_weight (d : nat) (mult : R) (J : nat -> nat -> R) : R :=
  match d with
  | 1%nat => mult
  | 2%nat => mult * sqrt (J 0%nat 0%nat * J 0%nat 0%nat + J 0%nat 1%nat * J 0%nat 1%nat)
  | _ => let j23 := J 0%nat 1%nat * J 1%nat 2%nat - J 0%nat 2%nat * J 1%nat 1%nat in
         let j31 := J 0%nat 2%nat * J 1%nat 0%nat - J 0%nat 0%nat * J 1%nat 2%nat in
         let j12 := J 0%nat 0%nat * J 1%nat 1%nat - J 0%nat 1%nat * J 1%nat 0%nat in
         mult * sqrt (j23 * j23 + j31 * j31 + j12 * j12)
  end.
(** LinearTetCubRuleDegreeOne::initialize, lines 72-79: one divided by 2, ..., d. *)
Definition cub_weight (d : nat) : R := fold_left (fun w k => w / INR k) (range 2 (d + 1)) 1.

(** Position of entry (cell, dof) of the result workset of [ncells] rows and [width] columns. *)
Definition entry (ncells width cell dof : nat) : res nat :=
  if (Nat.ltb cell ncells && Nat.ltb dof width)%bool then Ok (cell * width + dof)%nat else UB.

(** The elements of a face: tFace2Elems_map / tFace2Elems_elems (SurfaceLoadIntegral.hpp 117-119, 138, 142). *)
Definition face_elems (m : mesh) (face : nat) : res (list nat) :=
  let! a := ub (nth_error (up_off m) face) in let! b := ub (nth_error (up_off m) (S face)) in
  mapR (fun k => ub (nth_error (up_elems m) k)) (range a b).

Section Surface.
Variables (d numdofs dpn off ncells : nat) (m : mesh) (config : nat -> nat -> nat -> R) (flux : nat -> R) (scale : R).
Definition loc_of (locs : list nat) (i : nat) : nat := nth i locs 0%nat.
(** The body of the face loop of SurfaceLoadIntegral::operator(), lines 136-160, one face: the additions it makes, in program order. *)
Definition load_item (face : nat) : res (list (nat * R)) :=
  let! elems := face_elems m face in
  let! l := mapR (fun cell =>
    let! locs := mapR (local_node d m cell face) (seq 0 d) in
    let w := surf_weight d (scale * cub_weight d) (surf_jacobian d (config cell) (loc_of locs)) in
    mapR (fun nd : nat * nat =>
      let! p := entry ncells ((d + 1) * dpn) cell (loc_of locs (fst nd) * dpn + snd nd + off) in Ok (p, w * flux (snd nd)))
      (list_prod (seq 0 d) (seq 0 numdofs))) elems in
  Ok (concat l).

(** get_face_ordinal, OmegaHUtilities.hpp 91-107: the local ordinal of the face in the cell; -100 when there is none, with which get_side_vector reads out of bounds. *)
Definition local_face (cell face : nat) : res nat :=
  let! o := foldR (fun j (acc : option nat) => match acc with Some _ => Ok acc | None => let! f := ub (nth_error (c2f m) (cell * (d + 1) + j)) in Ok (if Nat.eqb f face then Some j else None) end)
                  (seq 0 (d + 1)) None in
  ub o.
(** SurfacePressureIntegral::operator(), lines 136-160, one face.  [normal cell localface] is unit_normal_vector (OmegaHUtilities.hpp 219-290): the d components of
    Omega_h's side vector divided by its length, an external function here. *)
Definition pressure_item (normal : nat -> nat -> list R) (face : nat) : res (list (nat * R)) :=
  let! elems := face_elems m face in
  let! l := mapR (fun cell =>
    let! locs := mapR (local_node d m cell face) (seq 0 d) in
    let w := surf_weight d (scale * cub_weight d) (surf_jacobian d (config cell) (loc_of locs)) in
    let! lf := local_face cell face in
    mapR (fun nd : nat * nat =>
      let! p := entry ncells ((d + 1) * dpn) cell (loc_of locs (fst nd) * dpn + snd nd + off) in
      let! n := ub (nth_error (normal cell lf) (snd nd)) in Ok (p, n * flux (snd nd) * w))
      (list_prod (seq 0 d) (seq 0 numdofs))) elems in
  Ok (concat l).
End Surface.

(** A parallel loop whose items perform unsynchronised [a(p) += x]: each is a load of a(p) into a register and a later store of the sum.  A thread is a register (filled between load and store) and its
    remaining additions; a schedule lists which thread acts next. *)
Section Race.
Context {K : CRing}.
Definition thread := (option K * list (nat * K))%type.
Definition act (t : nat) (s : list K * list thread) : res (list K * list thread) :=
  let (mem, ths) := s in
  match nth_error ths t with
  | None | Some (_, []) => Ok s                                   (* nothing to do *)
  | Some (None, (p, x) :: rest) => let! v := ub (nth_error mem p) in let! ths' := ub (upd ths t (Some v, (p, x) :: rest)) in Ok (mem, ths')
  | Some (Some r, (p, x) :: rest) => let! mem' := ub (upd mem p (radd r x)) in let! ths' := ub (upd ths t (None, rest)) in Ok (mem', ths')
  end.
Definition finished (ths : list thread) : Prop := forall t, In t ths -> t = (None, []).
Definition start (wss : list (list (nat * K))) : list thread := map (fun ws => (None, ws)) wss.
(** The outcomes of the loop: the final memory of every schedule that lets all items finish. *)
Definition race_outcome (items : res (list (list (nat * K)))) (mem : list K) (out : res (list K)) : Prop :=
  match items with
  | Ok wss => exists sched, match foldR act sched (mem, start wss) with
                            | Ok (mem', ths) => finished ths /\ out = Ok mem'
                            | Throw => out = Throw
                            | UB => out = UB
                            end
  | Throw => out = Throw
  | UB => out = UB
  end.
End Race.

(** The whole surface load: the face loop over the side set. *)
Definition surface_load d numdofs dpn off ncells m config flux scale (faces : list nat) (mem : list R) (out : res (list R)) : Prop :=
  race_outcome (K := R_ring) (mapR (load_item d numdofs dpn off ncells m config flux scale) faces) mem out.
Definition surface_pressure d numdofs dpn off ncells m config flux scale normal (faces : list nat) (mem : list R) (out : res (list R)) : Prop :=
  race_outcome (K := R_ring) (mapR (pressure_item d numdofs dpn off ncells m config flux scale normal) faces) mem out.

(** Parsing of natural boundary conditions with numeric values (NaturalBCs.hpp 113-303 and NaturalBC.hpp 88-113; the string (expression) variants only differ in the element type).
    A parameter sublist: Value, Values, Index, Component. *)
Inductive bc_type := Uniform | UniformPressure | UniformComponent.
Record sublist := mkSub { s_value : option R; s_values : option (list R); s_index : option nat; s_component : option string }.
Definition bc_type_of (s : string) : option bc_type :=
  if String.eqb s "Uniform" then Some Uniform else if String.eqb s "Uniform Pressure" then Some UniformPressure
  else if String.eqb s "Uniform Component" then Some UniformComponent else None.
(** Writing one entry of Teuchos::Array (bounds are not checked in release builds). *)
Definition set_at (v : list R) (i : nat) (x : R) : res (list R) := ub (upd v i x).
Definition is_dir (s : string) (lo up : string) : bool := (String.eqb s lo || String.eqb s up)%bool.
(** The "Vector" entry of the sublist. *)
Definition flux_vector (numdofs dpn : nat) (ty : bc_type) (s : sublist) : res (list R) :=
  match ty with
  | Uniform =>
    match s_values s, s_value s with
    | Some _, Some _ => Throw
    | Some vs, None => Ok vs
    | None, Some v => set_at (repeat 0 numdofs) (match s_index s with Some i => i | None => 0%nat end) v
    | None, None => Throw
    end
  | UniformPressure => match s_value s with Some v => Ok (repeat v numdofs) | None => Throw end
  | UniformComponent =>
    match s_value s with
    | None => Throw
    | Some v =>
      match s_component s with
      | None => Throw
      | Some c =>
        if is_dir c "x" "X" then set_at (repeat 0 numdofs) 0 v
        else if (is_dir c "y" "Y" && Nat.ltb 1 dpn)%bool then set_at (repeat 0 numdofs) 1 v
        else if (is_dir c "z" "Z" && Nat.ltb 2 dpn)%bool then set_at (repeat 0 numdofs) 2 v
        else Throw
      end
    end
  end.
(** The flux of the condition: the constructor copies NumDofs entries of "Vector" (NaturalBC.hpp 97-104). *)
Definition parse_bc (numdofs dpn : nat) (type : string) (s : sublist) : res (list R) :=
  match bc_type_of type with
  | None => Throw
  | Some ty => let! v := flux_vector numdofs dpn ty s in mapR (fun i => ub (nth_error v i)) (seq 0 numdofs)
  end.

(** Basis::getValues, src/alg/Basis.cpp 29-45: at a reference point, field i < d is coordinate i, field d is one minus their sum. *)
Definition basis_value (d : nat) (p : nat -> R) (n : nat) : R := if Nat.ltb n d then p n else 1 - sum (K := R_ring) d p.
(** Basis::getGradientValues, lines 47-61: derivative [c] of field [n]. *)
Definition basis_gradient (d : nat) (n c : nat) : R := if Nat.ltb n d then (if Nat.eqb n c then 1 else 0) else - (1).
(** Basis::getRefCoords, lines 9-27: coordinate [c] of reference node [n]. *)
Definition ref_coord (n c : nat) : R := if Nat.eqb n c then 1 else 0.

(** Cubature::getNumCubaturePoints and getCubature, src/alg/Cubature.cpp 15-228: points and weights; a negative degree is treated like one. *)
Definition sqrt3_3 : R := 5773502691896257645091487805019574556476 / 10 ^ 40.
Definition tet_a : R := 1381966011250105151795413165634361882280 / 10 ^ 40.
Definition tet_b : R := 5854101966249684544613760503096914353161 / 10 ^ 40.
Definition cubature (d deg : nat) : res (list (list R * R)) :=
  match d, deg with
  | 1%nat, (0 | 1)%nat => Ok [([1 / 2], 1)]
  | 1%nat, (2 | 3)%nat => Ok [([(sqrt3_3 + 1) / 2], 1 / 2); ([(- sqrt3_3 + 1) / 2], 1 / 2)]
  | 2%nat, (0 | 1)%nat => Ok [([1 / 3; 1 / 3], 1 / 2)]
  | 2%nat, 2%nat => Ok [([1 / 6; 1 / 6], 1 / 6); ([1 / 6; 2 / 3], 1 / 6); ([2 / 3; 1 / 6], 1 / 6)]
  | 2%nat, 3%nat => Ok [([1 / 3; 1 / 3], - (9) / 32); ([1 / 5; 1 / 5], 25 / 96); ([1 / 5; 3 / 5], 25 / 96); ([3 / 5; 1 / 5], 25 / 96)]
  | 3%nat, (0 | 1)%nat => Ok [([1 / 4; 1 / 4; 1 / 4], 1 / 6)]
  | 3%nat, 2%nat => Ok [([tet_a; tet_a; tet_a], 1 / 24); ([tet_b; tet_a; tet_a], 1 / 24); ([tet_a; tet_b; tet_a], 1 / 24); ([tet_a; tet_a; tet_b], 1 / 24)]
  | 3%nat, 3%nat => Ok [([1 / 4; 1 / 4; 1 / 4], - (2) / 15); ([1 / 6; 1 / 6; 1 / 6], 3 / 40); ([1 / 6; 1 / 6; 1 / 2], 3 / 40); ([1 / 6; 1 / 2; 1 / 6], 3 / 40); ([1 / 2; 1 / 6; 1 / 6], 3 / 40)]
  | _, _ => Throw
  end.

(** BodyLoad::get, BodyLoads.hpp 139-205, for one domain.  [cells]: the domain's cell ordinals; [xi], [wq]: reference points and weights of the
    cubature (numpts of them); [detJ cell]: JacobianDet; [node c n d]: NodeCoordinate; [f]: the forcing function, evaluated by Omega_h's expression reader;
    [control k n]: the control workset, cell_density is its mean over the nodes (Plato_TopOptFunctors.hpp 52-62). *)
Section Body.
Variables (d dpn dof numpts : nat) (cells : list nat) (xi : nat -> nat -> R) (wq : nat -> R) (detJ : nat -> R)
  (node : nat -> nat -> nat -> R) (f : (nat -> R) -> R) (control : nat -> nat -> R) (scale : R).
(** mapPoints, lines 62-101: reference coordinate i multiplies node i, the rest goes to the last node. *)
Definition map_point (cell q c : nat) : R :=
  sum (K := R_ring) d (fun n => xi q n * node cell n c) + (1 - sum (K := R_ring) d (fun n => xi q n)) * node cell d c.
Definition cell_density (k : nat) : R := sum (K := R_ring) (d + 1) (fun n => control k n) / INR (d + 1).
(** One cell; rows belong to one work item only, so the items do not interfere. *)
Definition body_item (k : nat) : res (list (nat * R)) :=
  let! cell := ub (nth_error cells k) in
  mapR (fun qn : nat * nat =>
    let fx := f (map_point cell (fst qn)) in
    let w := scale * wq (fst qn) * Rabs (detJ cell) in
    let! p := entry (length cells) ((d + 1) * dpn) k (snd qn * dpn + dof) in
    Ok (p, w * fx * basis_value d (xi (fst qn)) (snd qn) * cell_density k))
    (list_prod (seq 0 numpts) (seq 0 (d + 1))).
Definition body_load (mem : list R) (out : res (list R)) : Prop := race_outcome (K := R_ring) (mapR body_item (seq 0 (length cells))) mem out.
End Body.

(** The face loop run by one thread (a serial Kokkos backend). *)
Definition serial_load d numdofs dpn off ncells m config flux scale (faces : list nat) (mem : list R) : res (list R) :=
  let! wss := mapR (load_item d numdofs dpn off ncells m config flux scale) faces in add_all (K := R_ring) (concat wss) mem.
