(** The level sets a burning geometry keeps and writes (src/Plato_LevelSetCylinderInBox.hpp, src/Plato_LevelSetOnExternalMesh.hpp),
    the burn loop with the geometry it leaves behind (src/Plato_AlgebraicRocketModel.hpp 281-323) and the announced number of
    steps (same file, 259-263). *)
From Coq Require Import Reals List Arith ZArith.
From Verif Require Import Base.Res Base.ListUpd Rocket.RocketModel.
Import ListNotations.
Local Open Scope R_scope.

Section History.
(** [L]: the nodal values of a level set.  What the functions of src/HamiltonJacobi.hpp do to them is arbitrary here: evolve_level_set (by
    multiplier * time step, [None] when that is not a number), reinitialize_level_set (at a time), level_set_volume_rate_of_change.  [zero]: a zero-initialised column. *)
Variables (L : Type) (zero : L) (evolve : option R -> L -> L) (reinit : R -> L -> L) (rate : L -> R).

(** Members of LevelSetCylinderInBox (383-400) and LevelSetOnExternalMesh (282-307) that matter for the history: mBuiltBoundingBox, mTime, mTimes,
    mStep, column mCurrentState of mLevelSet, mLevelSetHistory (one level set per column). *)
Record store := mkStore { st_built : bool; st_time : R; st_times : list R; st_step : nat; st_level : L; st_cols : list L }.
(** A newly constructed object: no fields are allocated (LevelSetCylinderInBox 162-166, 383-400; LevelSetOnExternalMesh 89-110). *)
Definition fresh : store := mkStore false 0 [] 0 zero [].

(** cacheData, LevelSetCylinderInBox 272-277 and LevelSetOnExternalMesh 241-246: column mStep of the history becomes the current level set; a step
    without a column is a write outside the view. *)
Definition cache (s : store) : res store :=
  let! cols := ub (upd (st_cols s) (st_step s) (st_level s)) in
  Ok (mkStore (st_built s) (st_time s) (st_times s) (st_step s) (st_level s) cols).

(** LevelSetCylinderInBox::initialize, updateGeometry, initializeImmersedGeometry and buildBoundingBox (231-247, 308-336, 370-381), with
    mComputeArrivalTime false as it always is (384).  cacheData in buildBoundingBox runs before declare_fields allocates the fields: both
    views are empty and nothing is copied.  declare_fields (src/HamiltonJacobi.hpp 67-85) allocates [n] zero columns; [l0] is what initialize_level_set
    stores.  mStep is not touched. *)
Definition box_initialize (n : nat) (l0 : L) (s : store) : store :=
  mkStore true 0 [] (st_step s) (reinit 0 l0) (repeat zero n).
(** updateImmersedGeometry, 283-302. *)
Definition scaled (mult : option R) (dt : R) : option R := option_map (fun m => m * dt) mult.
Definition box_evolve (dt : R) (mult : option R) (s : store) : res store :=
  let t := st_time s + dt in
  cache (mkStore (st_built s) t (st_times s ++ [t]) (S (st_step s)) (reinit t (evolve (scaled mult dt) (st_level s))) (st_cols s)).

(** LevelSetOnExternalMesh::initialize (165-171) and readNodalLevelSet (189-203), which caches what it read before the reinitialisation. *)
Definition ext_initialize (n : nat) (s : store) : store :=
  mkStore true (st_time s) (st_times s) (st_step s) zero (repeat zero n).
Definition ext_read (l0 : L) (s : store) : res store :=
  let! s' := cache (mkStore (st_built s) (st_time s) (st_times s) (st_step s) l0 (st_cols s)) in
  Ok (mkStore (st_built s') (st_time s') (st_times s') (st_step s') (reinit 0 (st_level s')) (st_cols s')).
(** evolveImmersedGeometry, 270-280: the same updates as above in another order. *)
Definition ext_evolve (dt : R) (mult : option R) (s : store) : res store :=
  let l := evolve (scaled mult dt) (st_level s) in
  let t := st_time s + dt in
  let l' := reinit t l in
  cache (mkStore (st_built s) t (st_times s ++ [t]) (S (st_step s)) l' (st_cols s)).

(** outputLevelSetField, 253-267 and 251-264: one frame (time, level set) per entry of mTimes. *)
Definition write_levels (s : store) : res (list (R * L)) :=
  mapR (fun k => let! c := ub (nth_error (st_cols s) k) in let! t := ub (nth_error (st_times s) k) in Ok (t, c)) (seq 0 (length (st_times s))).

(** Either class as a geometry model: [step] is box_evolve or ext_evolve. *)
Definition store_geometry (step : R -> option R -> store -> res store) : geometry :=
  mkGeo (res store) (fun s => match s with Ok s => rate (st_level s) | _ => 0 end)
        (fun s d m => let! s := s in step d m s).
End History.
Arguments mkStore {L}. Arguments st_built {L}. Arguments st_time {L}. Arguments st_times {L}. Arguments st_step {L}.
Arguments st_level {L}. Arguments st_cols {L}.

(** solve, Plato_AlgebraicRocketModel.hpp 281-323: the loop of RocketModel.burn, returning the geometry as well. *)
Section Loop.
Variables (i : inputs) (G : geometry).
Fixpoint burn_state (fuel : nat) (t : R) (th p : option R) (g : geo G) : option (list row * geo G) :=
  match fuel with
  | O => None
  | S fuel' =>
    let p' := fst (newton i (g_rate G g) p) in
    let th' := match p' with Some q => Some (thrust i q) | None => None end in
    let mult := match p' with Some q => if Rlt_dec 0 q then Some (Rpower q (alpha i) * inv_pref_alpha i) else None | None => None end in
    let g' := g_evolve G g (dt i) mult in
    let t' := t + dt i in
    if Rlt_dec (t' + tol i) (burn_time i)
    then match burn_state fuel' t' th' p' g' with Some (l, e) => Some ((t, th, p) :: l, e) | None => None end
    else Some ([(t, th, p)], g')
  end.
Definition solve_state (fuel : nat) (g : geo G) : option (list row * geo G) :=
  burn_state fuel 0 (Some 0) (Some (ref_pressure i)) g.
(** initialize, 259-263: the number of columns announced to the geometry, mTotalBurnTime / mDeltaTime converted to an integer.  (The conversion
    truncates; for the non-negative quotients considered here that is the integer part.) *)
Definition announced : nat := Z.to_nat (Int_part (burn_time i / dt i)).
End Loop.
