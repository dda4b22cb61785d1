(** The 'Solution' criterion, src/elliptic/SolutionFunction.hpp: the mean over a node set of a component or of the magnitude of the nodal solution.
    Doubles are reals.  A state is a function of the global number (node * values per node + component). *)
From Coq Require Import String Reals List Arith Bool.
From Verif Require Import Base.Field Base.Sums Base.Res Element.ElementModel Ortho.OrthoModel.
Import ListNotations.
Local Open Scope R_scope.

(** The entries of the criterion's list: 'Domain' (None: missing or not a string), 'Magnitude' (Some None: not a bool) and 'Normal' (None: missing
    or not an array of doubles). *)
Record solution_params := mkSolParams { sp_domain : option string; sp_magnitude : option (option bool); sp_normal : option (list R) }.
(** mNormal, mMagnitude and the nodes of the set. *)
Record solution_function := mkSol { sf_normal : nat -> R; sf_magnitude : bool; sf_nodes : list nat }.

(** The normal, 62-114, with [nd] values per node.  [v0]: what the library's vector holds after its construction from {0.0} (144). *)
Definition read_normal (nd : nat) (v0 : nat -> R) (p : option (list R)) : res (nat -> R) :=
  match p with
  | None => if Nat.eqb nd 1 then Ok (fun i => if Nat.eqb i 0 then 1 else v0 i) else Throw
  | Some l =>
      if Nat.ltb nd (length l) then Ok (fun i => if Nat.ltb i nd then nth i l 0 else v0 i)
      else Ok (fun i => if Nat.ltb i (length l) then nth i l 0 else v0 i)
  end.
(** initialize, 51-124.  [sets]: the node sets of the mesh. *)
Definition create_solution (nd : nat) (v0 : nat -> R) (p : solution_params) (sets : string -> option (list nat)) : res solution_function :=
  match sp_domain p with
  | None => Throw
  | Some dom =>
    let! mag := match sp_magnitude p with None => Ok false | Some (Some b) => Ok b | Some None => Throw end in
    let! n := read_normal nd v0 (sp_normal p) in
    match sets dom with None => Throw | Some nodes => Ok (mkSol n mag nodes) end
  end.

(** ds, 182-188 and 267-273. *)
Definition node_length (nd : nat) (w u : nat -> R) (n : nat) : R :=
  let ds := fold_left (fun ds i => ds + (w i * u (nd * n + i)%nat) * (w i * u (nd * n + i)%nat)) (seq 0 nd) 0 in
  if Rlt_dec 0 ds then sqrt ds else ds.
(** value, 156-210.  The sums of the parallel reduction in the order of the set; 0 / 0 for an empty set: UB. *)
Definition solution_value (nd : nat) (f : solution_function) (states : list (nat -> R)) : res R :=
  match states with
  | [] => UB
  | _ => let u := last states (fun _ => 0) in
         let s := if sf_magnitude f then fold_left (fun s n => s + node_length nd (sf_normal f) u n) (sf_nodes f) 0
                  else fold_left (fun s n => fold_left (fun s i => s + sf_normal f i * u (nd * n + i)%nat) (seq 0 nd) s) (sf_nodes f) 0 in
         quot s (INR (length (sf_nodes f)))
  end.
(** gradient_u, 240-304: nodes one after the other (the writes of one node do not depend on the others').  The view starts with zeros. *)
Definition solution_gradient (nd : nat) (f : solution_function) (states : list (nat -> R)) (step : nat) : res (nat -> R) :=
  match nth_error states step with
  | None => UB
  | Some u =>
    let N := INR (length (sf_nodes f)) in
    let w := sf_normal f in
    let entry n i := if sf_magnitude f
                     then (let ds := node_length nd w u n in if Req_EM_T ds 0 then 0 else w i * (w i * u (nd * n + i)%nat) / (ds * N))
                     else w i / N in
    Ok (fold_left (fun g n => fold_left (fun g i => fun k => if Nat.eqb k (nd * n + i) then entry n i else g k) (seq 0 nd) g) (sf_nodes f) (fun _ => 0))
  end.
(** gradient_x and gradient_z, 219-231 and 316-327. *)
Definition solution_gradient_x (f : solution_function) : nat -> R := fun _ => 0.
Definition solution_gradient_z (f : solution_function) : nat -> R := fun _ => 0.
