(** Model of the coupled programs (src/Analyze_MPMD.cpp, src/PlatoRocketAppMPMD.cpp, src/AlgebraicRocketMain.cpp) and of the Python module
    (src/PlatoPythonModule.cpp). *)
From Coq Require Import Reals String Ascii List Arith ZArith Bool.
From Verif Require Import Base.Res App.AppModel App.ValuesModel.
Import ListNotations.
Local Open Scope R_scope.
Local Open Scope string_scope.

(** ** Programs *)
(** How a process ends: with an exit code, by an exception nobody catches, or undefined (a null pointer, a library used or finalised after it was finalised). *)
Inductive ending := Exit (code : nat) | Uncaught | Wild.
(** What the calls into the coupling library and the application do: [true] returns, [false] throws.  [c_register] is given whether there is an application. *)
Record calls := mkCalls { c_interface : bool; c_comm : bool; c_app : bool; c_register : bool -> bool; c_perform : bool }.
(** main, Analyze_MPMD.cpp 24-79; safeExit (16-20) finalises and exits. *)
Definition analyze_mpmd (c : calls) : ending :=
  if negb (c_interface c) then Exit 1 else
  if negb (c_comm c) then Uncaught else
  if negb (c_register c (c_app c)) then Exit 1 else
  if negb (c_perform c) then Exit 0 else
  Exit 0.
(** The runtime libraries: [false] once finalised. *)
Definition use (up : bool) (rest : ending) : ending := if up then rest else Wild.
(** main, PlatoRocketAppMPMD.cpp 18-72: the handlers finalise and go on. *)
Definition rocket_mpmd (c : calls) : ending :=
  if negb (c_interface c) then Wild (* the null interface is asked for its communicator, 40 *) else
  if negb (c_comm c) then Uncaught else
  let up := c_app c in
  use up (let up' := c_register c (c_app c) in
    use up' (if negb (c_perform c) then Uncaught else Exit 0)).
(** main, AlgebraicRocketMain.cpp 20-64: [work] is everything inside try; the handler finalises and so does the end. *)
Definition rocket_main (work : bool) : ending := if work then Exit 0 else use false (Exit 0).

(** ** Life of Python objects *)
(** mNumInstances, the state of MPI and of Kokkos, and the objects alive. *)
Inductive lib := Never | Up | Down.
Record proc := mkProc { p_count : Z; p_mpi : lib; p_kokkos : lib; p_live : nat }.
(** Constructing with arguments of the right or wrong types, deleting one object, and calling a method of one. *)
Inductive event := Construct (good : bool) | Delete | Call.
(** Analyze_dealloc, 248-260. *)
Definition dealloc (p : proc) : proc :=
  let n := (p_count p - 1)%Z in
  if Z.eqb n 0 then mkProc n (match p_mpi p with Up => Down | s => s end) (match p_kokkos p with Up => Down | s => s end) (p_live p) else mkProc n (p_mpi p) (p_kokkos p) (p_live p).
(** Analyze_new, 263-270, and Analyze_init, 274-330.  A failed initialisation makes the interpreter deallocate the new object.  The application uses both libraries. *)
Definition step (p : proc) (e : event) : res proc :=
  match e with
  | Construct false => Ok (dealloc p)
  | Construct true =>
    let p1 := match p_mpi p with Never => mkProc (p_count p) Up Up (p_live p) | _ => p end in
    match p_mpi p1, p_kokkos p1 with Up, Up => Ok (mkProc (p_count p1 + 1) Up Up (S (p_live p1))) | _, _ => UB end
  | Delete => match p_live p with O => Ok p | S n => let q := dealloc p in Ok (mkProc (p_count q) (p_mpi q) (p_kokkos q) n) end
  | Call => match p_live p with O => Ok p | S _ => match p_kokkos p with Up => Ok p | _ => UB end end
  end.
Definition life (p : proc) (es : list event) : res proc := foldR (fun e p => step p e) es p.
(** A fresh interpreter, and one in which another module has initialised MPI. *)
Definition fresh : proc := mkProc 0 Never Never 0.
Definition with_mpi : proc := mkProc 0 Up Never 0.

(** ** Data from and to Python *)
Inductive pyval := PFloat (x : R) | PInt (z : Z) | PList (l : list pyval) | POther.
(** PyFloat_AsDouble: the number, and whether an error is set. *)
Definition as_double (v : pyval) : R * bool := match v with PFloat x => (x, false) | PInt z => (IZR z, false) | _ => (-1, true) end.
(** PyFloat_Check. *)
Definition is_float (v : pyval) : bool := match v with PFloat _ => true | _ => false end.
(** double_vector_from_list, 419-432: an error is set, but the value is stored all the same.  A length of -1 makes the constructor of the vector throw. *)
Definition from_list (v : pyval) : res (list R * bool) :=
  match v with
  | PList l => Ok (map (fun x => fst (as_double x)) l, existsb (fun x => negb (is_float x) || snd (as_double x)) l)
  | _ => Throw
  end.
(** What reaches the application. *)
Inductive sent := ToTopology (v : list R) | ToSolution (v : list R) | ToParameter (op name : string) (x : R) | ToValue (name : string) (v : list R).
(** The application: its numbers of nodes and solution values, its operations and value names. *)
Record target := mkTarget { g_nodes : nat; g_solution : nat; g_ops : list string; g_values : list string }.
Definition known (s : string) (l : list string) : bool := existsb (String.eqb s) l.
(** importScalarField, Analyze_App.hpp 218-236 with copyFieldIntoAnalyze, 470-494: the copy throws on different sizes; other names are ignored. *)
Definition import_field (g : target) (name : string) (v : list R) : res (option sent) :=
  if String.eqb name "Topology" then (if Nat.eqb (List.length v) (g_nodes g) then Ok (Some (ToTopology v)) else Throw)
  else if String.eqb name "Solution" then (if Nat.eqb (List.length v) (g_solution g) then Ok (Some (ToSolution v)) else Throw)
  else Ok None.
(** The object returned, whether an error is pending, and what was sent.  An exception leaves through the interpreter and ends the process: [Throw]. *)
Record reply := mkReply { r_code : Z; r_error : bool; r_sent : option sent }.
(** Analyze_importData, 105-163, after the arguments have been read as two strings and an object; importDataT (Analyze_App.hpp 196-210) has no case for element fields. *)
Definition py_import (g : target) (name type : string) (data : pyval) : res reply :=
  if String.eqb type "SCALAR_FIELD" then let! d := from_list data in let! s := import_field g name (fst d) in Ok (mkReply 1 (snd d) s)
  else if String.eqb type "ELEMENT_FIELD" then let! d := from_list data in Ok (mkReply 1 (snd d) None)
  else if String.eqb type "SCALAR_PARAMETER" then
    match split ":"%char name with
    | op :: par :: _ => if known op (g_ops g) then Ok (mkReply 1 (snd (as_double data)) (Some (ToParameter op par (fst (as_double data))))) else Throw
    | _ => UB
    end
  else if String.eqb type "SCALAR" then
    let! d := (match data with PList _ => from_list data | _ => Ok ([fst (as_double data)], snd (as_double data)) end) in
    if known name (g_values g) then Ok (mkReply 1 (snd d) (Some (ToValue name (fst d)))) else Throw
  else Ok (mkReply 1 false None).
(** Analyze_exportData for values, 218-232: [n] is the optional number of values, one by default. *)
Inductive pyout := OutFloat (x : num) | OutList (l : list num) | OutCode.
Definition py_export_value (s : vapp) (name : string) (n : Z) : res (vapp * pyout) :=
  if Z.ltb n 0 then Throw else
  let! r := export_value s name (Z.to_nat n) in
  if Z.eqb n 1 then match snd r with x :: _ => Ok (fst r, OutFloat x) | [] => UB end else Ok (fst r, OutList (snd r)).
