(** Model of the coupling application (src/Analyze_App.cpp, src/Analyze_App.hpp) and of the output data map (src/PlatoStaticsTypes.hpp, src/ToMap.hpp). *)
From Coq Require Import Reals String Ascii List Arith ZArith Bool.
From Verif Require Import Base.ListUpd Base.Res.
Import ListNotations.

(** std::map<std::string, A>. *)
Definition smap (A : Type) := list (string * A).
Fixpoint get {A} (m : smap A) (k : string) : option A :=
  match m with [] => None | (k', v) :: m' => if String.eqb k k' then Some v else get m' k end.
Fixpoint set {A} (m : smap A) (k : string) (v : A) : smap A :=
  match m with [] => [(k, v)] | (k', v') :: m' => if String.eqb k k' then (k, v) :: m' else (k', v') :: set m' k v end.

(** split, Analyze_App.cpp 1473-1489: std::getline until it fails, so an empty string has no token and a final delimiter adds none.  [cur]: characters read since the last delimiter. *)
Fixpoint split_from (d : ascii) (cur : option string) (s : string) : list string :=
  match s with
  | EmptyString => match cur with None => [] | Some t => [t] end
  | String c s' =>
    if Ascii.eqb c d then (match cur with None => EmptyString | Some t => t end) :: split_from d None s'
    else split_from d (Some (append (match cur with None => EmptyString | Some t => t end) (String c EmptyString))) s'
  end.
Definition split (d : ascii) (s : string) : list string := split_from d None s.

(** std::atoi / std::stoi on a decimal number: optional blanks and sign, then digits; overflow is not modelled.  [None]: no digits (atoi: zero, stoi: exception). *)
Definition digit (c : ascii) : option Z := let n := nat_of_ascii c in if (Nat.leb 48 n && Nat.leb n 57)%bool then Some (Z.of_nat (n - 48)) else None.
Definition blank (c : ascii) : bool := let n := nat_of_ascii c in (Nat.eqb n 32 || (Nat.leb 9 n && Nat.leb n 13))%bool.
Fixpoint digits (s : string) (acc : option Z) : option Z :=
  match s with
  | EmptyString => acc
  | String c s' => match digit c with Some k => digits s' (Some ((match acc with Some a => a | None => 0 end) * 10 + k)%Z) | None => acc end
  end.
Fixpoint number (s : string) : option Z :=
  match s with
  | EmptyString => None
  | String c s' => if blank c then number s' else if Ascii.eqb c "-"%char then option_map Z.opp (digits s' None) else if Ascii.eqb c "+"%char then digits s' None else digits s None
  end.

(** Teuchos::ParameterList restricted to what the updates touch: doubles, arrays of doubles, sublists, anything else. *)
Inductive entry := Double (x : R) | Array (l : list R) | Other | Sub (l : list (string * entry)).
Definition plist := smap entry.

(** getInnerList, lines 1505-1522: a leading "[name]" descends into an existing sublist (an exception if there is none); tokens[0] of an empty vector and front() of an empty string are undefined. *)
Definition bracketed (s : string) : option string :=
  match s with
  | String "["%char s' => let n := String.length s' in
      match n with
      | O => None                                         (* "[" alone: back() is '[' *)
      | S k => if String.eqb (substring k 1 s') "]" then Some (substring 0 k s') else None
      end
  | _ => None
  end.
(** std::string::find of one character. *)
Fixpoint find (c : ascii) (s : string) : option nat :=
  match s with EmptyString => None | String a s' => if Ascii.eqb a c then Some 0 else option_map S (find c s') end.
(** setParameterValue, lines 1524-1548: "name(k)" assigns one entry of an existing array (unchecked index); anything else sets a double. *)
Definition set_value (ps : plist) (token : string) (value : R) : res plist :=
  match find "("%char token, find ")"%char token with
  | Some p1, Some p2 =>
    let name := substring 0 p1 token in
    match get ps name with
    | Some (Array vec) =>
      (* substr(p1+1, p2-p1-1): the count wraps around when p2 <= p1, taking the rest of the string *)
      match number (substring (p1 + 1) (if Nat.leb p2 p1 then String.length token else p2 - p1 - 1) token) with
      | None => Throw
      | Some k => if (k <? 0)%Z then UB else match upd vec (Z.to_nat k) value with Some vec' => Ok (set ps name (Array vec')) | None => UB end
      end
    | _ => Throw
    end
  | _, _ => Ok (set ps token (Double value))
  end.
Fixpoint inner_set (ps : plist) (tokens : list string) (value : R) : res plist :=
  match tokens with
  | [] => UB
  | token :: rest =>
    if String.eqb token "" then UB else
    match bracketed token with
    | Some name => match get ps name with Some (Sub l) => match inner_set l rest value with Ok l' => Ok (set ps name (Sub l')) | Throw => Throw | UB => UB end | _ => Throw end
    | None => set_value ps token value
    end
  end.
(** parseInline, lines 1491-1502. *)
Definition parse_inline (ps : plist) (target : string) (value : R) : res plist := inner_set ps (split ":"%char target) value.

(** The outcome of an event: finished, an exception left it (the caller may go on), or undefined behaviour. *)
Inductive ending := Done | Threw | Undefined.

Section App.
(** The problems are external: a problem built from a parameter list has an initial solution, solves for a control, and evaluates criteria and gradients at a solution.
    [factory_ok]: ProblemFactory::create succeeds. *)
Variables (sol : Type) (initial : plist -> sol) (solve : plist -> list R -> sol) (is_linear : plist -> string -> bool)
  (cvalue : plist -> list R -> sol -> string -> R) (cgradZ cgradX : plist -> list R -> sol -> string -> list R) (factory_ok : plist -> bool) (nverts : plist -> nat).

(** ProblemDefinition, Analyze_App.hpp 75-84. *)
Record pdef := mkDef { d_params : plist; d_modified : bool }.
(** The operations; criterion and target where they have one. *)
Inductive kind :=
| OpSolution | OpCriterion (c : string) (t : R) | OpCriterionX (c : string) (t : R) | OpValue (c : string) (t : R) | OpGradient (c : string) | OpGradientX (c : string)
| OpReinit (on_change : bool) | OpReload | OpWrite.
(** LocalOp: its definition, its parameters (target, value), and the state of OnChangeOp. *)
Record op := mkOp { o_def : string; o_kind : kind; o_params : smap (string * R); o_local : list R }.
Record app := mkApp {
  ops : smap op; defs : smap pdef; default_name : string; default_params : plist;
  current : string; built : option plist;                           (* mCurrentProblemName; the parameters mProblem was built from, None for a null pointer *)
  gsol : sol; control : list R; parameters : list R;                (* mGlobalSolution, mControl, mValuesMap["Parameters"] *)
  vals : smap R; gz : smap (list R); gx : smap (list R) }.          (* mCriterionValues, mCriterionGradientsZ, mCriterionGradientsX *)

(** createProblem, lines 221-292: the current name is set first; without "Input Mesh" the old problem stays, if the factory fails there is none. *)
Definition create (a : app) (name : string) (ps : plist) : app * ending :=
  let named b := mkApp (ops a) (defs a) (default_name a) (default_params a) name b (gsol a) (control a) (parameters a) (vals a) (gz a) (gx a) in
  match get ps "Input Mesh" with
  | None => (named (built a), Threw)
  | Some _ => if factory_ok ps then (named (Some ps), Done) else (named None, Threw)
  end.
Definition with_defs (a : app) d := mkApp (ops a) d (default_name a) (default_params a) (current a) (built a) (gsol a) (control a) (parameters a) (vals a) (gz a) (gx a).
(** Creating from a definition of the table: line 291 clears its flag on success. *)
Definition create_def (a : app) (name : string) (d : pdef) : app * ending :=
  match create a name (d_params d) with
  | (a', Done) => (with_defs a' (set (defs a') name (mkDef (d_params d) false)), Done)
  | r => r
  end.
(** resetProblemMetaData, lines 295-317.  (The loops at 308-316 resize copies of the stored views and have no effect.) *)
Definition reset (a : app) : app :=
  match built a with
  | None => a
  | Some ps => mkApp (ops a) (defs a) (default_name a) (default_params a) (current a) (built a) (initial ps)
      (if Nat.eqb (List.length (control a)) (nverts ps) then control a else repeat 1%R (nverts ps)) (parameters a) (vals a) (gz a) (gx a)
  end.
Definition then_reset (r : app * ending) : app * ending := match r with (a, Done) => (reset a, Done) | _ => r end.

Definition with_sol (a : app) s := mkApp (ops a) (defs a) (default_name a) (default_params a) (current a) (built a) s (control a) (parameters a) (vals a) (gz a) (gx a).
Definition with_val (a : app) c v := mkApp (ops a) (defs a) (default_name a) (default_params a) (current a) (built a) (gsol a) (control a) (parameters a) (set (vals a) c v) (gz a) (gx a).
Definition with_gz (a : app) c v := mkApp (ops a) (defs a) (default_name a) (default_params a) (current a) (built a) (gsol a) (control a) (parameters a) (vals a) (set (gz a) c v) (gx a).
Definition with_gx (a : app) c v := mkApp (ops a) (defs a) (default_name a) (default_params a) (current a) (built a) (gsol a) (control a) (parameters a) (vals a) (gz a) (set (gx a) c v).
Definition with_ops (a : app) o := mkApp o (defs a) (default_name a) (default_params a) (current a) (built a) (gsol a) (control a) (parameters a) (vals a) (gz a) (gx a).
(** The solve of a criterion operation, e.g. lines 682-685: only when the criterion is not linear. *)
Definition solved (a : app) (p : plist) (c : string) : app := if is_linear p c then a else with_sol a (solve p (control a)).

(** OnChangeOp::hasChanged, lines 1183-1206: new local state, answer. *)
Definition has_changed (on_change : bool) (local input : list R) : list R * bool :=
  if on_change then
    match local with
    | [] => (input, true)
    | _ => if list_eq_dec Req_EM_T local input then (local, false) else (input, true)
    end
  else (local, true).

(** The bodies of the operations (operator() of each class, lines 669-1299). *)
Definition run (a : app) (name : string) (o : op) : app * ending :=
  match o_kind o with
  | OpWrite => (a, Done)
  | OpReload =>                                                       (* 1289-1300: a new default definition with the same parameters *)
    then_reset (create a (default_name a) (default_params a))
  | OpReinit on_change =>                                             (* 1116-1140 *)
    let (local, changed) := has_changed on_change (o_local o) (parameters a) in
    let a1 := with_ops a (set (ops a) name (mkOp (o_def o) (o_kind o) (o_params o) local)) in
    if changed then match get (defs a1) (current a1) with Some d => then_reset (create_def a1 (current a1) d) | None => (a1, Undefined) end else (a1, Done)
  | k =>
    match built a with
    | None => (a, Undefined)
    | Some p =>
      match k with
      | OpSolution => (with_sol a (solve p (control a)), Done)        (* 1080-1104 *)
      | OpCriterion c t =>                                            (* 669-703 *)
        let a1 := solved a p c in
        let a2 := with_val a1 c (cvalue p (control a1) (gsol a1) c - t)%R in
        (with_gz a2 c (cgradZ p (control a2) (gsol a2) c), Done)
      | OpCriterionX c t =>                                           (* 730-764 *)
        let a1 := solved a p c in
        let a2 := with_val a1 c (cvalue p (control a1) (gsol a1) c - t)%R in
        (with_gx a2 c (cgradX p (control a2) (gsol a2) c), Done)
      | OpValue c t => let a1 := solved a p c in (with_val a1 c (cvalue p (control a1) (gsol a1) c - t)%R, Done)    (* 843-872 *)
      | OpGradient c => (with_gz a c (cgradZ p (control a) (gsol a) c), Done)                                      (* 893-917 *)
      | OpGradientX c => (with_gx a c (cgradX p (control a) (gsol a) c), Done)                                     (* 936-960 *)
      | _ => (a, Done)
      end
    end
  end.
(** compute, lines 508-536. *)
Definition compute (a : app) (name : string) : app * ending :=
  match get (ops a) name with
  | None => (a, Threw)
  | Some o =>
    match get (defs a) (o_def o) with
    | None => (a, Undefined)
    | Some d =>
      match (if negb (String.eqb (o_def o) (current a)) then then_reset (create_def a (o_def o) d)
             else if d_modified d then create_def a (o_def o) d else (a, Done)) with
      | (a1, Done) => run a1 name o
      | r => r
      end
    end
  end.
(** updateParameters, lines 612-642. *)
Definition update (a : app) (name pname : string) (value : R) : app * ending :=
  match get (ops a) name with
  | None => (a, Threw)
  | Some o =>
    match get (o_params o) pname with
    | None => (a, Threw)
    | Some (target, _) =>
      let a1 := with_ops a (set (ops a) name (mkOp (o_def o) (o_kind o) (set (o_params o) pname (target, value)) (o_local o))) in
      if String.eqb target "" then (a1, Done) else
      match get (defs a1) (o_def o) with
      | None => (a1, Undefined)
      | Some d => match parse_inline (d_params d) target value with
                  | Ok ps => (with_defs a1 (set (defs a1) (o_def o) (mkDef ps true)), Done)
                  | Throw => (a1, Threw)
                  | UB => (a1, Undefined)
                  end
      end
    end
  end.
(** What the optimiser does with the application: run an operation, import a parameter, the topology, or the "Parameters" values (importDataT, Analyze_App.hpp 195-291; without a mesh map, and with a
    control of the right size). *)
Inductive event := Compute (name : string) | Update (name pname : string) (value : R) | Topology (z : list R) | Parameters (v : list R).
Definition step (a : app) (e : event) : app * ending :=
  match e with
  | Compute name => compute a name
  | Update name pname value => update a name pname value
  | Topology z => if Nat.eqb (List.length z) (List.length (control a))
      then (mkApp (ops a) (defs a) (default_name a) (default_params a) (current a) (built a) (gsol a) z (parameters a) (vals a) (gz a) (gx a), Done) else (a, Threw)
  | Parameters v => (mkApp (ops a) (defs a) (default_name a) (default_params a) (current a) (built a) (gsol a) (control a) v (vals a) (gz a) (gx a), Done)
  end.
(** A history: the events one after the other; an exception does not stop it, undefined behaviour does. *)
Fixpoint history (a : app) (l : list event) : app * list ending :=
  match l with
  | [] => (a, [])
  | e :: l' => match step a e with
               | (a', Undefined) => (a', [Undefined])
               | (a', r) => let (a'', rs) := history a' l' in (a'', r :: rs)
               end
  end.
(** Construction and initialisation (lines 125-147, 320-460): the default problem is built; every definition an operation names is read from its file. *)
Definition start (os : smap op) (file : string -> plist) (dn : string) : app :=
  mkApp os (fold_left (fun m (o : string * op) => match get m (o_def (snd o)) with Some _ => m | None => set m (o_def (snd o)) (mkDef (file (o_def (snd o))) false) end) os [])
    dn (file dn) dn (Some (file dn)) (initial (file dn)) (repeat 1%R (nverts (file dn))) [] [] [] [].
End App.

(** ** Exporting fields *)
Section Export.
(** The name tables and stored gradients; [meshmap]: applyT of the mesh map if there is one; spatial dimension; solution degrees of freedom per node; the steps of the solution. *)
Record fields := mkFields { zname : smap string; xname : smap string; zgrad : smap (list R); xgrad : smap (list R); topology : list R;
  meshmapT : option (list R -> list R); ndims : nat; ndofs : nat; steps : list (list R) }.
(** addUnique, lines 32-62. *)
Definition add_unique (m : smap string) (k v : string) : res (smap string) :=
  if String.eqb k "" then Ok m else match get m k with Some v' => if String.eqb v' v then Ok m else Throw | None => Ok (set m k v) end.
(** getVectorComponent, lines 1440-1450; a zero stride divides by zero, other indices may be out of bounds. *)
Definition component (from : list R) (comp : Z) (stride : nat) : res (list R) :=
  match stride with
  | O => UB
  | _ => mapR (fun n => let k := (Z.of_nat stride * Z.of_nat n + comp)%Z in if (k <? 0)%Z then UB else ub (nth_error from (Z.to_nat k))) (seq 0 (List.length from / stride))
  end.
Definition index_of (tokens : list string) : Z := match tokens with _ :: t :: _ => match number t with Some k => k | None => 0%Z end | _ => 0%Z end.
(** map::operator[]: inserts a default when the key is missing. *)
Definition fetch {A} (d : A) (m : smap A) (k : string) : A * smap A := match get m k with Some v => (v, m) | None => (d, set m k d) end.
(** Result: the data, or None when no branch applies. *)
Definition step_of (f : fields) (k : nat) : res (list R) := ub (nth_error (steps f) k).
(** getScalarFieldHostMirror, lines 1551-1606 (used by OutputToHDF5).  An unknown name leaves an empty view. *)
Definition host_mirror (f : fields) (name : string) : res (list R * fields) :=
  match split "@"%char name with
  | [] => UB
  | field :: rest =>
    match get (zname f) field with
    | Some c => let (v, m) := fetch [] (zgrad f) c in Ok (v, mkFields (zname f) (xname f) m (xgrad f) (topology f) (meshmapT f) (ndims f) (ndofs f) (steps f))
    | None =>
      let sol comp stride := let! s := step_of f 0 in let! v := component s comp stride in Ok (v, f) in
      if String.eqb name "Solution" then sol 0%Z 1
      else if String.eqb name "Solution X" then sol 0%Z (ndims f)
      else if String.eqb name "Solution Y" then sol 1%Z (ndims f)
      else if String.eqb name "Solution Z" then sol 2%Z (ndims f)
      else match get (xname f) field with
           | Some _ =>
             let (c, zn) := fetch EmptyString (zname f) field in
             let (v, xg) := fetch [] (xgrad f) c in
             let! v' := component v (index_of (field :: rest)) (ndims f) in
             Ok (v', mkFields zn (xname f) (zgrad f) xg (topology f) (meshmapT f) (ndims f) (ndofs f) (steps f))
           | None => Ok ([], f)
           end
    end
  end.
(** exportDataT for a scalar field and exportScalarField, Analyze_App.hpp 295-322, 388-443; [None]: nothing is copied.  With a mesh map the stored gradient is overwritten by its transpose. *)
Definition export (f : fields) (name : string) : res (option (list R) * fields) :=
  match split "@"%char name with
  | [] => UB
  | field :: rest =>
    if String.eqb field "Topology" then Ok (Some (topology f), f)
    else match get (zname f) field with
    | Some c =>
      let (v, m) := fetch [] (zgrad f) c in
      match meshmapT f, v with
      | Some mm, _ :: _ => Ok (Some (mm v), mkFields (zname f) (xname f) (set m c (mm v)) (xgrad f) (topology f) (meshmapT f) (ndims f) (ndofs f) (steps f))
      | _, _ => Ok (Some v, mkFields (zname f) (xname f) m (xgrad f) (topology f) (meshmapT f) (ndims f) (ndofs f) (steps f))
      end
    | None =>
      let sol k comp stride := let! s := step_of f k in let! v := component s comp stride in Ok (Some v, f) in
      let last := List.length (steps f) - 1 in
      if String.eqb field "Solution" then sol 0 0%Z 1
      else if String.eqb field "Solution X" then sol last 0%Z (ndofs f)
      else if String.eqb field "Solution Y" then sol last 1%Z (ndofs f)
      else if String.eqb field "Solution Z" then sol last 2%Z (ndofs f)
      else match get (xname f) field with
           | Some c => let (v, xg) := fetch [] (xgrad f) c in
             let! v' := component v (index_of (field :: rest)) (ndims f) in
             Ok (Some v', mkFields (zname f) (xname f) (zgrad f) xg (topology f) (meshmapT f) (ndims f) (ndofs f) (steps f))
           | None => Ok (None, f)
           end
    end
  end.
End Export.

(** ** The output data map.  Views are handles into a heap; copying a map copies handles. *)
Section DataMap.
Context {A : Type}.
(** scalarVectors of a DataMap (the other tables behave alike), PlatoStaticsTypes.hpp 72-117; the heap holds the views' contents. *)
Record dmap := mkDmap { heap : list (list A); table : smap nat; saved : list (smap nat) }.
(** toMap without a domain, ToMap.hpp 56-65: the entry becomes the caller's view, newly allocated here. *)
Definition put (m : dmap) (name : string) (v : list A) : dmap := mkDmap (heap m ++ [v]) (set (table m) name (List.length (heap m))) (saved m).
(** toMap with a domain, lines 75-104: allocates on first use, then writes the domain's cells into the existing view. *)
Definition put_domain (zero : A) (m : dmap) (name : string) (nelems : nat) (cells : list nat) (v : list A) : res dmap :=
  let m1 := match get (table m) name with Some _ => m | None => put m name (repeat zero nelems) end in
  let! h := ub (get (table m1) name) in
  let! data := ub (nth_error (heap m1) h) in
  if negb (Nat.eqb (List.length data) nelems) then Throw else
  let! data' := foldR (fun k acc => let! c := ub (nth_error cells k) in let! x := ub (nth_error v k) in ub (upd acc c x)) (seq 0 (List.length cells)) data in
  let! heap' := ub (upd (heap m1) h data') in
  Ok (mkDmap heap' (table m1) (saved m1)).
(** saveState, clearStates, getState, lines 81-115. *)
Definition save (m : dmap) : dmap := mkDmap (heap m) (table m) (saved m ++ [table m]).
Definition clear (m : dmap) : dmap := mkDmap (heap m) (table m) [].
Definition state_at (m : dmap) (k : Z) : res (smap nat) :=
  match saved m with
  | [] => Ok (table m)
  | _ => if ((k <? 0) || (Z.of_nat (List.length (saved m)) <=? k))%Z%bool then Throw else ub (nth_error (saved m) (Z.to_nat k))
  end.
(** The contents seen through a table. *)
Definition read (m : dmap) (t : smap nat) (name : string) : option (list A) := match get t name with None => None | Some h => nth_error (heap m) h end.
(** Commands issued during a solve. *)
Inductive dcmd := Put (name : string) (v : list A) | PutDomain (name : string) (cells : list nat) (v : list A) | Save | Clear.
Definition dstep (zero : A) (nelems : nat) (m : dmap) (c : dcmd) : res dmap :=
  match c with Put n v => Ok (put m n v) | PutDomain n cells v => put_domain zero m n nelems cells v | Save => Ok (save m) | Clear => Ok (clear m) end.
Definition drun (zero : A) (nelems : nat) (l : list dcmd) (m : dmap) : res dmap := foldR (fun c m => dstep zero nelems m c) l m.
Definition dempty : dmap := mkDmap [] [] [].
End DataMap.
