(** The report of unused input parameters (src/alg/ParseInput.cpp: unused, add_timings, input_file_echo) and the merging of parameter lists (setParameters). *)
From Coq Require Import Ascii String List Bool Arith.
From Verif Require Import Base.Res.
Import ListNotations.

(** Teuchos::ParameterList: entries in order, each a value (as toString prints it) with its used flag, or a list.  Names of one list are distinct; this is not built in. *)
Inductive entry := Val (used : bool) (v : string) | Sub (l : list (string * entry)).
Definition plist := list (string * entry).
(** A line of the report: lines 93 and 100 of src/alg/ParseInput.cpp.  Simplification: paths are lists of names instead of names joined by "::". *)
Inductive line := LParam (path : list string) (v : string) | LBlock (path : list string).
Section Walk.
Variable f : entry -> list string -> bool * list line.
(** The loop of unused, lines 84-102: all_unused, what is appended to os meanwhile, and not_used. *)
Fixpoint walk (path : list string) (l : plist) (all : bool) (os nu : list line) : bool * list line * list line :=
  match l with
  | [] => (all, os, nu)
  | (n, e) :: l' =>
    match e with
    | Sub _ => let (su, o) := f e (path ++ [n]) in if su then walk path l' all (os ++ o) (nu ++ [LBlock (path ++ [n])]) else walk path l' false (os ++ o) nu
    | Val true _ => walk path l' false os nu
    | Val false v => walk path l' all os (nu ++ [LParam (path ++ [n]) v])
    end
  end.
End Walk.
(** unused, lines 78-105: the value returned and what is appended to os. *)
Fixpoint unused (e : entry) (path : list string) : bool * list line :=
  match e with
  | Val _ _ => (true, [])
  | Sub l => let '(all, os, nu) := walk unused path l true [] [] in (all, if all then os else os ++ nu)
  end.
Fixpoint find_entry (n : string) (l : plist) : option entry :=
  match l with [] => None | (m, e) :: l' => if String.eqb n m then Some e else find_entry n l' end.
(** ParameterList::setEntry: in place, or at the end. *)
Fixpoint set_entry (n : string) (e : entry) (l : plist) : plist :=
  match l with [] => [(n, e)] | (m, x) :: l' => if String.eqb n m then (m, e) :: l' else (m, x) :: set_entry n e l' end.
(** ParameterList::sublist: created when missing, an error when the entry is not a list. *)
Definition sublist (n : string) (l : plist) : res plist :=
  match find_entry n l with None => Ok [] | Some (Sub r) => Ok r | Some (Val _ _) => Throw end.
(** add_timings, lines 63-76: the time is set and read, hence used.  [sec] is the time as toString prints it. *)
Definition add_timings (l : plist) (sec : string) : res plist :=
  let! runtime := sublist "Runtime" l in
  Ok (set_entry "Runtime" (Sub (set_entry "Execution Time in Sec" (Val true sec) runtime)) l).
(** input_file_echo, lines 208-220, on rank 0: the lines printed under "Unused Parameters:"; none when it prints "No Unused Parameters:".
    The file written afterwards (221-235) is not modelled. *)
Definition echo (l : plist) (sec : string) : res (list line) :=
  let! l' := add_timings l sec in
  Ok (snd (unused (Sub l') [])).
Section Each.
Variable f : entry -> plist -> res plist.
(** The loop of setParameters, lines 110-123.  What dest holds after an exception is not modelled. *)
Fixpoint set_each (src dest : plist) : res plist :=
  match src with
  | [] => Ok dest
  | (n, e) :: src' =>
    match e with
    | Sub _ => let! d := sublist n dest in let! d' := f e d in set_each src' (set_entry n (Sub d') dest)
    | Val _ _ => set_each src' (set_entry n e dest)
    end
  end.
End Each.
(** setParameters, lines 108-125. *)
Fixpoint set_parameters (src : entry) (dest : plist) : res plist :=
  match src with Val _ _ => Ok dest | Sub l => set_each set_parameters l dest end.
