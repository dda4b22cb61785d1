(** Writing the solution of a run: AnalyzeOutput.hpp, the copies of PlatoUtilities.hpp, add_element_state_tags, and the driver. *)
From Coq Require Import String List Arith Bool.
From Verif Require Import Base.Res Blocks.BlocksModel.
Import ListNotations.

Section Output.
(** A: the numbers.  A view of rank two is the list of its rows. *)
Context {A : Type}.
Definition view := list (list A).
(** Plato::Solution, PlatoStaticsTypes.hpp 47-68. *)
Record solution := mkSol { s_state : view; s_dot : view; s_ddot : view }.
(** Tags of a mesh by name: the number of components and the values, entity by entity. *)
Definition tags := list (string * (nat * list A)).
(** Omega_h::Mesh::add_tag: a tag of that name is replaced. *)
Fixpoint add_tag (t : tags) (name : string) (n : nat) (v : list A) : tags :=
  match t with
  | [] => [(name, (n, v))]
  | (m, x) :: t => if String.eqb m name then (name, (n, v)) :: t else (m, x) :: add_tag t name n v
  end.
(** The part of the mesh that is used: numbers of vertices and elements, tags of the vertices and of the elements. *)
Record mesh := mkMesh { nverts : nat; nelems : nat; vtags : tags; etags : tags }.
Definition add_vtag (m : mesh) (name : string) (n : nat) (v : list A) : mesh := mkMesh (nverts m) (nelems m) (add_tag (vtags m) name n v) (etags m).
Definition add_etag (m : mesh) (name : string) (n : nat) (v : list A) : mesh := mkMesh (nverts m) (nelems m) (vtags m) (add_tag (etags m) name n v).
(** What vtk::Writer::write(step, time, all tags) leaves on disk.  Times are whole numbers here, AnalyzeOutput.hpp 59, 111, 164, .... *)
Record frame := mkFrame { f_step : nat; f_time : nat; f_nodal : tags; f_elem : tags }.
Definition write_frame (step time : nat) (m : mesh) : frame := mkFrame step time (vtags m) (etags m).

(** PlatoUtilities.hpp 297-312, copy<nin, nout>(stride, nv, input, output); the output array is listed in the order of its indices
    node * nout + component.  A read past the end of the input is undefined behaviour. *)
Definition copy (nin nout stride nv : nat) (input : list A) : res (list A) :=
  let! rows := mapR (fun n => mapR (fun i => ub (nth_error input (n * nin + (stride + i)))) (seq 0 nout)) (seq 0 nv) in Ok (concat rows).

(** A data map as seen by the output: the scalarVectors and the scalarMultiVectors (number of columns and rows), with the contents the
    views have when they are written (C61 is about the views). *)
Record dmap := mkDmap { d_vectors : list (string * list A); d_multi : list (string * (nat * view)) }.
(** PlatoStaticsTypes.hpp 72-117: the current tables and the saved states. *)
Record datamap := mkData { d_current : dmap; d_saved : list dmap }.
(** getState(index), lines 97-116; the index is never negative here. *)
Definition get_state (d : datamap) (k : nat) : res dmap :=
  match d_saved d with
  | [] => Ok (d_current d)
  | l => match nth_error l k with None => Throw | Some s => Ok s end
  end.
(** OmegaHUtilities.hpp 40-77, add_element_state_tags; copy_1Dview_to_write and copy_2Dview_to_write, PlatoUtilities.hpp 320-345, list the
    entries row by row. *)
Definition add_element_state_tags (m : mesh) (d : datamap) (k : nat) : res mesh :=
  let! s := get_state d k in
  let m1 := fold_left (fun m e => if Nat.eqb (List.length (snd e)) (nelems m) then add_etag m (fst e) 1 (snd e) else m) (d_vectors s) m in
  Ok (fold_left (fun m e => if Nat.eqb (List.length (snd (snd e))) (nelems m) then add_etag m (fst e) (fst (snd e)) (concat (snd (snd e))) else m) (d_multi s) m1).
(** The guarded call of lines 210-213, 283-286, 333-336 and 379-382. *)
Definition element_tags (m : mesh) (d : datamap) (k : nat) : res mesh :=
  if Nat.ltb k (List.length (d_saved d)) then add_element_state_tags m d k else Ok m.

(** One field of the output: the copy of some components into a tag. *)
Definition put (nin : nat) (row : list A) (name : string) (stride nout : nat) (m : mesh) : res mesh :=
  let! v := copy nin nout stride (nverts m) row in Ok (add_vtag m name nout v).
(** The loop over the time steps: [body] adds the tags of a step. *)
Definition steps (body : nat -> list A -> mesh -> res mesh) (rows : view) (m : mesh) : res (mesh * list frame) :=
  foldR (fun k st => let! row := ub (nth_error rows k) in let! m' := body k row (fst st) in Ok (m', snd st ++ [write_frame k k m'])) (seq 0 (List.length rows)) (m, []).

Variable d : nat.   (* space dimension *)
(** AnalyzeOutput.hpp 29-60. *)
Definition electromechanical_output (s : solution) (m : mesh) : res (mesh * list frame) :=
  let! row := ub (nth_error (s_state s) 0) in
  let! v1 := copy (d + 1) d 0 (nverts m) row in
  let! v2 := copy (d + 1) 1 d (nverts m) row in
  let m' := add_vtag (add_vtag m "Displacements" d v1) "Potential" 1 v2 in
  Ok (m', [write_frame 1 1 m']).
(** 71-113. *)
Definition stabilized_thermomechanical_output (s : solution) (m : mesh) : res (mesh * list frame) :=
  steps (fun k row m => let! m := put (d + 2) row "Displacements" 0 d m in let! m := put (d + 2) row "Pressure" d 1 m in put (d + 2) row "Temperature" (d + 1) 1 m) (s_state s) m.
(** 124-166. *)
Definition stabilized_thermoplasticity_output (s : solution) (m : mesh) : res (mesh * list frame) :=
  steps (fun k row m => let! m := put (d + 2) row "Displacements" 0 d m in let! m := put (d + 2) row "Pressure" (d + 1) 1 m in put (d + 2) row "Temperature" d 1 m) (s_state s) m.
(** 177-218. *)
Definition thermomechanical_output (s : solution) (dm : datamap) (m : mesh) : res (mesh * list frame) :=
  steps (fun k row m => let! m := put (d + 1) row "Displacements" 0 d m in let! m := put (d + 1) row "Temperature" d 1 m in element_tags m dm k) (s_state s) m.
(** 259-281: a rate is written when it has rows. *)
Definition put_rate (rows : view) (name : string) (k : nat) (m : mesh) : res mesh :=
  match rows with
  | [] => Ok m
  | _ => let! row := ub (nth_error rows k) in put d row name 0 d m
  end.
(** 229-290. *)
Definition mechanical_output (s : solution) (dm : datamap) (m : mesh) : res (mesh * list frame) :=
  steps (fun k row m => let! m := put d row "Displacements" 0 d m in let! m := put_rate (s_dot s) "Velocity" k m in let! m := put_rate (s_ddot s) "Acceleration" k m in
                        element_tags m dm k) (s_state s) m.
(** 301-340. *)
Definition stabilized_mechanical_output (s : solution) (dm : datamap) (m : mesh) : res (mesh * list frame) :=
  steps (fun k row m => let! m := put (d + 1) row "Displacements" 0 d m in let! m := put (d + 1) row "Pressure" d 1 m in element_tags m dm k) (s_state s) m.
(** 351-386. *)
Definition thermal_output (s : solution) (dm : datamap) (m : mesh) : res (mesh * list frame) :=
  steps (fun k row m => let! m := put 1 row "Temperature" 0 1 m in element_tags m dm k) (s_state s) m.
(** 398-457. *)
Definition output (phys pde : string) (s : solution) (dm : datamap) (m : mesh) : res (mesh * list frame) :=
  if String.eqb phys "Electromechanical" then electromechanical_output s m
  else if String.eqb phys "Thermomechanical" then if String.eqb pde "Stabilized Elliptic" then stabilized_thermomechanical_output s m else thermomechanical_output s dm m
  else if String.eqb phys "Mechanical" then mechanical_output s dm m
  else if String.eqb phys "Plasticity" then stabilized_mechanical_output s dm m
  else if String.eqb phys "Thermoplasticity" then stabilized_thermoplasticity_output s m
  else if String.eqb phys "Stabilized Mechanical" then stabilized_mechanical_output s dm m
  else if String.eqb phys "StructuralDynamics" then Ok (m, [])
  else if String.eqb phys "Thermal" then thermal_output s dm m
  else Ok (m, []).
End Output.
Arguments solution : clear implicits. Arguments mesh : clear implicits. Arguments frame : clear implicits. Arguments datamap : clear implicits.
Arguments dmap : clear implicits. Arguments tags : clear implicits. Arguments view : clear implicits.

(** ** The stand-alone program *)
Section Driver.
Context {A : Type} (one : A).
(** The top-level entries of the input that the driver looks at: 'Query', 'Input Mesh', 'Physics' and 'Spatial Dimension' when present, and
    the keywords of 'Plato Problem'. *)
Record request := mkReq { q_query : bool; q_mesh : option string; q_physics : option string; q_dim : option nat; q_phys : string; q_pde : string }.
(** Dimensions the program was compiled for. *)
Record dims := mkDims { has1 : bool; has2 : bool; has3 : bool }.
(** What the program has done: printed the machine's data, or analysed and written frames, or nothing. *)
Inductive done := Queried | Written (fs : list (frame A)) | Nothing.
(** The mesh reader, and the solve of a created problem for a control: the solution and the data map. *)
Variable read_mesh : string -> res (mesh A).
Variable solve : created -> nat -> mesh A -> list A -> res (solution A * datamap A).
(** alg/Run.cpp 65-94: '.exo' has to occur somewhere in the name. *)
Definition error_check (q : request) : res string :=
  match q_mesh q with
  | None => Throw
  | Some name =>
    match index 0 ".exo" name with
    | None => Throw
    | Some _ => if String.eqb (match q_physics q with Some p => p | None => "Plato Driver" end) "Plato Driver" then Ok name else Throw
    end
  end.
(** PlatoDriver.hpp 36-55 and 70-93; the null problem is dereferenced in line 50. *)
Definition run_dim (b : build) (d : nat) (q : request) (name : string) : res done :=
  let! m := read_mesh name in
  let! c := create b (q_phys q) (q_pde q) in
  match c with
  | Null => UB
  | Problem s p =>
    let! x := solve c d m (repeat one (nverts m)) in
    let! y := output d (q_phys q) (q_pde q) (fst x) (snd x) m in
    Ok (Written (snd y))
  end.
(** PlatoDriver.hpp 104-137. *)
Definition driver (b : build) (ds : dims) (q : request) (name : string) : res done :=
  let d := match q_dim q with Some d => d | None => 3 end in
  if Nat.eqb d 3 then if has3 ds then run_dim b 3 q name else Throw
  else if Nat.eqb d 2 then if has2 ds then run_dim b 2 q name else Throw
  else if Nat.eqb d 1 then if has1 ds then run_dim b 1 q name else Throw
  else Ok Nothing.
(** alg/Run.cpp 103-137. *)
Definition run (b : build) (ds : dims) (q : request) : res done :=
  if q_query q then Ok Queried else
  let! name := error_check q in driver b ds q name.
(** alg/Analyze.cpp 50-76: the exit code (0: success, 1: failure) and what was done; exceptions are caught. *)
Definition program (b : build) (ds : dims) (q : request) : res (nat * done) :=
  match run b ds q with Ok x => Ok (0, x) | Throw => Ok (1, Nothing) | UB => UB end.
End Driver.
