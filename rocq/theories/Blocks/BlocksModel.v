(** Which problem a description selects, the element blocks of a model, and the assembly of block-wise contributions. *)
From Coq Require Import String Reals List Arith.
From Verif Require Import Base.Field Base.Sums Base.Res Base.ListUpd Base.Scatter Residual.ResidualModel.
Import ListNotations.
Local Open Scope R_scope.

(** ** The problem factory: src/PlatoProblemFactory.hpp 65-219 *)

(** Build options of the factory.  PLATO_PLASTICITY is taken as set: without it the closing brace of line 97 disappears and the
    file does not compile. *)
Record build := mkBuild { b_elliptic : bool; b_parabolic : bool; b_hyperbolic : bool; b_stabilized : bool }.
(** The classes that are instantiated. *)
Inductive solver := EllipticProblem | ParabolicProblem | HyperbolicProblem | PlasticityProblem | EllipticVMSProblem.
Inductive physics := Mechanics | Plasticity | ThermoPlasticity | StabilizedMechanics | Thermal | Electromechanics
  | StabilizedThermomechanics | Thermomechanics.
(** A new problem, or the null pointer of line 219; the error reports are Throw. *)
Inductive created := Problem (s : solver) (p : physics) | Null.

(** [choice flag want pde p k]: one '#ifdef flag  if(tPDE == want) return p; else  #endif' followed by k. *)
Definition choice (flag : bool) (want pde : string) (p : created) (k : res created) : res created :=
  if flag then if String.eqb pde want then Ok p else k else k.

(** ProblemFactory::create.  Lines 75-95 (Mechanical): the 'else' of 91-94 with the error is inside '#ifdef PLATO_HYPERBOLIC', so that
    without it control reaches line 219.  165-168 (StructuralDynamics): the body is commented out, control reaches 219.
    170-175 (Electromechanical): neither the keyword nor a build option is looked at. *)
Definition create (b : build) (phys pde : string) : res created :=
  if String.eqb phys "Mechanical" then
    choice (b_elliptic b) "Elliptic" pde (Problem EllipticProblem Mechanics)
      (if b_hyperbolic b then if String.eqb pde "Hyperbolic" then Ok (Problem HyperbolicProblem Mechanics) else Throw else Ok Null)
  else if String.eqb phys "Plasticity" then
    if String.eqb pde "Elliptic" then Ok (Problem PlasticityProblem Plasticity) else Throw
  else if String.eqb phys "Thermoplasticity" then
    if String.eqb pde "Elliptic" then Ok (Problem PlasticityProblem ThermoPlasticity) else Throw
  else if (b_stabilized b && String.eqb phys "Stabilized Mechanical")%bool then
    choice (b_elliptic b) "Elliptic" pde (Problem EllipticVMSProblem StabilizedMechanics) Throw
  else if String.eqb phys "Thermal" then
    choice (b_parabolic b) "Parabolic" pde (Problem ParabolicProblem Thermal)
      (choice (b_elliptic b) "Elliptic" pde (Problem EllipticProblem Thermal) Throw)
  else if String.eqb phys "StructuralDynamics" then Ok Null
  else if String.eqb phys "Electromechanical" then Ok (Problem EllipticProblem Electromechanics)
  else if (b_stabilized b && String.eqb phys "Stabilized Thermomechanical")%bool then
    if String.eqb pde "Elliptic" then Ok (Problem EllipticVMSProblem StabilizedThermomechanics) else Throw
  else if String.eqb phys "Thermomechanical" then
    choice (b_parabolic b) "Parabolic" pde (Problem ParabolicProblem Thermomechanics)
      (choice (b_elliptic b) "Elliptic" pde (Problem EllipticProblem Thermomechanics) Throw)
  else Throw.

(** ** The spatial model: src/SpatialModel.hpp 51-148 *)

(** A domain: its name, the name of its material model and the cells of its element block. *)
Record domain := mkDom { dom_name : string; dom_material : string; dom_cells : list nat }.
(** An entry of the 'Domains' list: a sublist with the values of 'Element Block' and 'Material Model' when they are strings, or a
    parameter that is not a list. *)
Inductive dentry := DList (block material : option string) | DScalar.
(** SpatialDomain constructor 51-88; sets: the element sets of the mesh by name. *)
Definition read_domain (sets : string -> option (list nat)) (e : string * dentry) : res domain :=
  match snd e with
  | DScalar => Throw
  | DList block mat =>
    match block with
    | None => Throw
    | Some bn => match mat with
      | None => Throw
      | Some mn => match sets bn with None => Throw | Some cells => Ok (mkDom (fst e) mn cells) end
      end
    end
  end.
(** SpatialModel constructor 112-147: the outer option says whether 'Spatial Model' is a sublist, the inner one 'Domains'. *)
Definition spatial_model (sets : string -> option (list nat)) (p : option (option (list (string * dentry)))) : res (list domain) :=
  match p with
  | None => Throw
  | Some None => Throw
  | Some (Some l) => mapR (read_domain sets) l
  end.

(** ** Assembly over the domains *)

Section Assembly.
(** conn c a: node of corner a of cell c; npc corners, ndof numbers per node; ncells cells in the mesh. *)
Variables (ncells npc ndof : nat) (conn : nat -> nat -> nat).

(** assembleResidual onto a vector: the workset row k belongs to the cell whose ordinal is k-th in the list
    (src/WorksetBase.hpp 380-440; with a domain the ordinals are those of the domain, without one they are 0, 1, ...). *)
Definition add_cells (cells : list nat) (r : nat -> nat -> R) (out : nat -> R) : nat -> R :=
  fold_left (fun out c => scatter npc ndof (mkCell (conn c) tt) (r c) out) cells out.

(** VectorFunction::value (src/elliptic/VectorFunction.hpp 231-312; parabolic/VectorFunction.hpp 154-243,
    hyperbolic/HyperbolicVectorFunction.hpp 177-281, VectorFunctionVMS.hpp 254-345 and GlobalVectorFunctionInc.hpp 909-937 have the
    same structure): the evaluator of each domain on the cells of the domain, then the boundary evaluator of the first domain on the
    whole mesh.  r m c: result of cell c with material m, which depends on the states of that cell only.  The natural boundary
    conditions are read from the problem, not from a domain, so the boundary term b does not depend on which domain is the first.
    With no domain, front() of the empty vector is undefined. *)
Definition vector_value (ds : list domain) (r : string -> nat -> nat -> R) (b : nat -> nat -> R) : res (nat -> R) :=
  match ds with
  | [] => UB
  | _ :: _ => Ok (add_cells (seq 0 ncells) b
                    (fold_left (fun out d => add_cells (dom_cells d) (r (dom_material d)) out) ds (fun _ => 0)))
  end.

(** PhysicsScalarFunction::value for one step (src/elliptic/PhysicsScalarFunction.hpp 225-282): the sum of the cells of every domain,
    then the postEvaluate of the first domain (Domains[0] of an empty vector is undefined). *)
Definition scalar_value (ds : list domain) (v : string -> nat -> R) (post : R -> R) : res R :=
  match ds with
  | [] => UB
  | _ :: _ => Ok (post (fold_left (fun t d => fold_left (fun t c => t + v (dom_material d) c) (dom_cells d) t) ds 0))
  end.

(** assembleTransposeJacobian onto a matrix with rows = configuration numbers and columns = residual numbers
    (src/WorksetBase.hpp 560-640; the sparse storage is modelled in Assembly/AssemblyModel.v): nx configuration numbers per node. *)
Definition add_jacobians (nx : nat) (cells : list nat) (J : nat -> nat -> nat -> R) (out : nat -> nat -> R) : nat -> nat -> R :=
  fold_left (fun out c => fold_left (fun out e => fold_left (fun out k =>
      fun i j => out i j + if (Nat.eqb i (conn c (k / nx) * nx + k mod nx) && Nat.eqb j (conn c (e / ndof) * ndof + e mod ndof))%bool
                           then J c e k else 0)
    (seq 0 (npc * nx)) out) (seq 0 (npc * ndof)) out) cells out.
(** VectorFunction::gradient_x (src/elliptic/VectorFunction.hpp 317-407; parabolic 247-347, hyperbolic 285-398, VMS 355-458; the
    gradients with respect to states and control have the same structure): J m c e k derivative of entry e of cell c with respect to
    its configuration number k, B the same for the boundary term. *)
Definition vector_gradient_x (nx : nat) (ds : list domain) (J : string -> nat -> nat -> nat -> R) (B : nat -> nat -> nat -> R)
    : res (nat -> nat -> R) :=
  match ds with
  | [] => UB
  | _ :: _ => Ok (add_jacobians nx (seq 0 ncells) B
                    (fold_left (fun out d => add_jacobians nx (dom_cells d) (J (dom_material d)) out) ds (fun _ _ => 0)))
  end.

(** GlobalVectorFunctionInc::gradient_x (src/GlobalVectorFunctionInc.hpp 984-1002 with 312-370; gradient_z, gradient_u, ... alike):
    cell matrices of the domains only, the boundary evaluator is not called.  The cell matrices are written at the ordinals of the
    cells; the adjoint solver multiplies them with the cell values of the adjoint and adds the results to the nodes
    (src/PathDependentAdjointSolver.hpp 575-603), which is the action of their assembly. *)
Definition plastic_gradient_x (nx : nat) (ds : list domain) (J : string -> nat -> nat -> nat -> R) : nat -> nat -> R :=
  fold_left (fun out d => add_jacobians nx (dom_cells d) (J (dom_material d)) out) ds (fun _ _ => 0).
End Assembly.

(** ** The local equations of plasticity: src/LocalVectorFunctionInc.hpp *)

Section Local.
(** S: the global state of a cell; Q: everything else a cell needs (previous and local states, control, configuration). *)
Context {S Q : Type}.
Variables (ncells : nat) (state : nat -> S) (rest : nat -> Q).
Variables (s0 : S).

(** Worksets.  With a domain: one row per cell of the domain (worksetState(state, ws, domain)). *)
Definition ws_domain {A} (f : nat -> A) (cells : list nat) : list A := map f cells.
(** Without a domain: row c for every cell c of the mesh, written into a workset that has [rows] rows; a row past the end is out of
    bounds (src/WorksetBase.hpp worksetState without a domain). *)
Definition ws_mesh {A} (zero : A) (f : nat -> A) (rows : nat) : res (list A) :=
  write_all (map (fun c => (c, f c)) (seq 0 ncells)) (repeat zero rows).

(** Element evaluation: row k of the result from row k of the worksets. *)
Definition evaluate {A} (h : S -> Q -> A) (ss : list S) (qs : list Q) : list A := map (fun p => h (fst p) (snd p)) (combine ss qs).

(** assemble_vector_workset and transform_ad_type_to_pod_3Dview with a domain (src/Assembly.hpp 131-162 and 256-290): row k of the
    input goes to row cells[k] of the output; an empty domain is an error. *)
Definition put_domain {A} (cells : list nat) (ws out : list A) : res (list A) :=
  match cells with [] => Throw | _ :: _ => write_all (combine cells ws) out end.
(** flatten_vector_workset with a number of cells (src/Assembly.hpp 44-70): row k of the input goes to the entries of cell k.  Rows
    of nl numbers are kept as rows here. *)
Definition put_count {A} (n : nat) (ws out : list A) : res (list A) :=
  if Nat.eqb n 0 then Throw
  else foldR (fun k out => let! x := ub (nth_error ws k) in ub (upd out k x)) (seq 0 n) out.
(** transform_ad_type_to_pod_3Dview with a number of cells (src/Assembly.hpp 305-333): row k of the input is ADDED to row k of the
    output. *)
Definition add_count {A} (add : A -> A -> A) (n : nat) (ws out : list A) : res (list A) :=
  if Nat.eqb n 0 then Throw
  else foldR (fun k out => let! x := ub (nth_error ws k) in let! y := ub (nth_error out k) in ub (upd out k (add y x))) (seq 0 n) out.

(** valueWorkSet 393-461; gradient_u 556-622, gradient_up 636-702, gradient_c 716-782, gradient_cp 796-862 have the same structure
    with the derivative evaluators. *)
Definition local_rows {A} (zero : A) (h : string -> S -> Q -> A) (ds : list domain) : res (list A) :=
  foldR (fun d out => put_domain (dom_cells d)
           (evaluate (h (dom_material d)) (ws_domain state (dom_cells d)) (ws_domain rest (dom_cells d))) out)
        ds (repeat zero ncells).
(** value 312-379: line 377 flattens with the number of cells of the domain instead of the domain. *)
Definition local_value {A} (zero : A) (h : string -> S -> Q -> A) (ds : list domain) : res (list A) :=
  foldR (fun d out => put_count (List.length (dom_cells d))
           (evaluate (h (dom_material d)) (ws_domain state (dom_cells d)) (ws_domain rest (dom_cells d))) out)
        ds (repeat zero ncells).
(** gradient_x 475-542: line 508 fills the global states without the domain. *)
Definition local_gradient_x {A} (zero : A) (h : string -> S -> Q -> A) (ds : list domain) : res (list A) :=
  foldR (fun d out => let! ss := ws_mesh s0 state (List.length (dom_cells d)) in
           put_domain (dom_cells d) (evaluate (h (dom_material d)) ss (ws_domain rest (dom_cells d))) out)
        ds (repeat zero ncells).
(** gradient_z 876-942: line 940 transforms with the number of cells of the mesh. *)
Definition local_gradient_z {A} (zero : A) (add : A -> A -> A) (h : string -> S -> Q -> A) (ds : list domain) : res (list A) :=
  foldR (fun d out => add_count add ncells
           (evaluate (h (dom_material d)) (ws_domain state (dom_cells d)) (ws_domain rest (dom_cells d))) out)
        ds (repeat zero ncells).
(** updateLocalState 238-297: the local states of the cells of a domain are replaced (they are also part of what the update reads:
    upd m s q l, with l the local state of the cell). *)
Definition update_local {A} (f : string -> S -> Q -> A -> A) (ds : list domain) (local : list A) : res (list A) :=
  foldR (fun d out =>
      let! ls := mapR (fun c => ub (nth_error out c)) (dom_cells d) in
      put_domain (dom_cells d)
        (map (fun p => f (dom_material d) (fst (fst p)) (snd (fst p)) (snd p))
             (combine (combine (ws_domain state (dom_cells d)) (ws_domain rest (dom_cells d))) ls)) out) ds local.
End Local.
