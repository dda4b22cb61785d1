(** Criteria of a load path (plasticity): values, partial derivatives, their sum over the steps, and how they are built from the input. *)
From Coq Require Import String Reals List Arith Bool.
From Verif Require Import Base.Field Base.Sums Base.Res Blocks.BlocksModel.
Import ListNotations.
Local Open Scope R_scope.

(** What a criterion depends on: the global state of the step and of the step before, the local states of both, control and configuration
    (src/LocalScalarFunctionInc.hpp 32-149). *)
Inductive var := VU | VUp | VC | VCp | VZ | VX.
Definition args := var -> nat -> R.

Section Path.
(** ncells cells with npc corners in dimension d; nd numbers per node, nl per cell; corner a of cell c is node conn c a. *)
Variables (ncells npc d nd nl : nat) (conn : nat -> nat -> nat).
(** Numbers of a cell, src/BasicLocalScalarFunction.hpp 24-32. *)
Definition width (v : var) : nat := match v with VU | VUp => npc * nd | VC | VCp => nl | VZ => npc | VX => npc * d end.
(** Where number k of cell c is stored: src/ImplicitFunctors.hpp 26-31 (nodes), src/WorksetBase.hpp 220-270 and src/Assembly.hpp (local
    states: nl consecutive numbers per cell). *)
Definition at_node (n c k : nat) : nat := (conn c (k / n) * n + k mod n)%nat.
Definition index (v : var) (c k : nat) : nat :=
  match v with VU | VUp => at_node nd c k | VC | VCp => (c * nl + k)%nat | VZ => conn c k | VX => at_node d c k end.
(** The worksets of cell c. *)
Definition cell_args (A : args) (c : nat) : args := fun v k => A v (index v c k).

(** BasicLocalScalarFunction: its name, its multiplier, and per domain the value of a cell and the derivatives that automatic differentiation
    attaches to it (the evaluators of the function factory; the third argument of both is the time step). *)
Record basic := mkBasic { b_name : string; b_mult : R; b_value : string -> args -> R -> R; b_der : var -> string -> args -> R -> nat -> R }.
(** WeightedLocalScalarFunction: names, weights and functions. *)
Inductive pcrit := Basic (b : basic) | Weighted (parts : list (string * R * pcrit)).
(** Writes to the scalar values of the data map, in order. *)
Definition writes := list (string * R).

(** BasicLocalScalarFunction::value, src/BasicLocalScalarFunction.hpp 152-215; front() of an empty vector of domains is undefined. *)
Definition basic_value (ds : list domain) (b : basic) (A : args) (t : R) : res (R * writes) :=
  match ds with
  | [] => UB
  | _ :: _ =>
    let s := fold_left (fun s dm => s + fold_left (fun s c => s + b_value b (dom_name dm) (cell_args A c) t) (dom_cells dm) 0) ds 0 in
    Ok (b_mult b * s, [(b_name b, b_mult b * s)])
  end.
(** The number of columns that the conversion from automatic differentiation types is told to copy: gradient_z 286, gradient_u 360,
    gradient_up 435, gradient_c 510, gradient_cp 585, gradient_x 660. *)
Definition columns (v : var) : nat := match v with VX => d | _ => width v end.
(** transform_ad_type_to_pod_2Dview with a domain, src/Assembly.hpp 214-240: rows are overwritten; the number of columns is checked. *)
Definition copy_rows (v : var) (cells : list nat) (r : nat -> nat -> R) (out : nat -> nat -> R) : res (nat -> nat -> R) :=
  if Nat.eqb (columns v) (width v) then
    Ok (fold_left (fun out c => fun c' k => if (Nat.eqb c' c && Nat.ltb k (columns v))%bool then r c k else out c' k) cells out)
  else Throw.
(** gradient_z 228-290, gradient_u 303-364, gradient_up 377-439, gradient_c 452-514, gradient_cp 527-589, gradient_x 602-664. *)
Definition basic_gradient (ds : list domain) (v : var) (b : basic) (A : args) (t : R) : res (nat -> nat -> R) :=
  let! g := foldR (fun dm out => copy_rows v (dom_cells dm) (fun c => b_der b v (dom_name dm) (cell_args A c) t) out) ds (fun _ _ => 0) in
  Ok (fun c k => b_mult b * g c k).

(** WeightedLocalScalarFunction::value, src/WeightedLocalScalarFunction.hpp 228-277. *)
Fixpoint value (ds : list domain) (f : pcrit) (A : args) (t : R) {struct f} : res (R * writes) :=
  match f with
  | Basic b => basic_value ds b A t
  | Weighted [] => Throw
  | Weighted parts =>
    (fix go (s : R) (w : writes) (l : list (string * R * pcrit)) : res (R * writes) :=
      match l with
      | [] => Ok (s, w)
      | (n, a, p) :: l => let! x := value ds p A t in go (s + a * fst x) (w ++ snd x ++ [(n, a * fst x)]) l
      end) 0 [] parts
  end.
(** gradient_z 293-311 and the others to 477: blas2::update with beta one (src/BLAS2.hpp 151-180). *)
Fixpoint gradient (ds : list domain) (v : var) (f : pcrit) (A : args) (t : R) {struct f} : res (nat -> nat -> R) :=
  match f with
  | Basic b => basic_gradient ds v b A t
  | Weighted parts =>
    (fix go (s : nat -> nat -> R) (l : list (string * R * pcrit)) : res (nat -> nat -> R) :=
      match l with
      | [] => Ok s
      | (n, a, p) :: l => let! g := gradient ds v p A t in go (fun c k => a * g c k + 1 * s c k) l
      end) (fun _ _ => 0) parts
  end.

(** ** The sum over the steps: src/PlasticityProblem.hpp *)

(** getPreviousState 904-919. *)
Definition previous (states : nat -> nat -> R) (k : nat) : nat -> R := match k with 0%nat => fun _ => 0 | S k => states k end.
Definition step_args (G L : nat -> nat -> R) (Z X : nat -> R) (k : nat) : args :=
  fun v => match v with VU => G k | VUp => previous G k | VC => L k | VCp => previous L k | VZ => Z | VX => X end.
(** evaluateCriterion 930-954: the index of the step is handed over as the time step. *)
Definition history_value (ds : list domain) (f : pcrit) (N : nat) (G L : nat -> nat -> R) (Z X : nat -> R) : res R :=
  foldR (fun k s => let! x := value ds f (step_args G L Z X k) (INR k) in Ok (s + fst x)) (seq 0 N) 0.
(** assembleScalarGradientZ and assembleVectorGradientX (src/WorksetBase.hpp 486-489 and 517-520, src/Assembly.hpp 381-397 and 494-507): the rows of all cells added to the nodes. *)
Definition add_rows (v : var) (g : nat -> nat -> R) (out : nat -> R) : nat -> R :=
  fold_left (fun out c => fold_left (fun out k => fun i => out i + if Nat.eqb i (index v c k) then g c k else 0) (seq 0 (width v)) out) (seq 0 ncells) out.
(** addCriterionPartialDerivativeZ 964-984 and addCriterionPartialDerivativeX 994-1013. *)
Definition history_gradient (ds : list domain) (v : var) (f : pcrit) (N : nat) (G L : nat -> nat -> R) (Z X : nat -> R) (out : nat -> R) : res (nat -> R) :=
  foldR (fun k out => let! g := gradient ds v f (step_args G L Z X k) (INR k) in Ok (add_rows v g out)) (seq 0 N) out.
End Path.

(** ** Construction: PathDependentScalarFunctionFactory::create, src/PathDependentScalarFunctionFactory_def.hpp 25-53 *)

(** A sublist of 'Criteria': the entries the factory and the two classes read.  A list that is not there is created empty by sublist(). *)
Record centry := mkEntry { e_type : option string; e_kind : option string; e_mult : option R; e_functions : option (list string); e_weights : option (list R) }.
Definition no_entry : centry := mkEntry None None None None None.
Definition or {A} (o : option A) (a : A) : A := match o with Some x => x | None => a end.
(** make: the evaluators of 'Scalar Function Type' for the criterion of a name, or an error (src/Plato_FunctionFactory classes; which names are
    known is C127).  fuel bounds the recursion; None means that it was not enough. *)
Section Build.
Variables (make : string -> string -> res ((string -> args -> R -> R) * (var -> string -> args -> R -> nat -> R))) (p : string -> option centry).
Definition obind {A B} (o : option (res A)) (f : A -> option (res B)) : option (res B) :=
  match o with None => None | Some (Ok a) => f a | Some Throw => Some Throw | Some UB => Some UB end.
(** WeightedLocalScalarFunction::initialize, src/WeightedLocalScalarFunction.hpp 48-99; BasicLocalScalarFunction::initialize,
    src/BasicLocalScalarFunction.hpp 697-727. *)
Fixpoint construct (fuel : nat) (name : string) : option (res pcrit) :=
  match fuel with
  | 0%nat => None
  | S fuel =>
    let e := or (p name) no_entry in
    let type := or (e_type e) "UNDEFINED"%string in
    if String.eqb type "Scalar Function" then
      Some (let! q := make (or (e_kind e) "UNDEFINED"%string) name in Ok (Basic (mkBasic name (or (e_mult e) 1) (fst q) (snd q))))
    else if String.eqb type "Weighted Sum" then
      match e_functions e, e_weights e with
      | Some ns, Some ws =>
        if Nat.eqb (List.length ns) (List.length ws) then
          obind ((fix go (l : list (string * R)) : option (res (list (string * R * pcrit))) :=
            match l with
            | [] => Some (Ok [])
            | (n, w) :: l => obind (construct fuel n) (fun f => obind (go l) (fun r => Some (Ok ((n, w, f) :: r))))
            end) (combine ns ws)) (fun parts => Some (Ok (Weighted parts)))
        else Some Throw
      | _, _ => Some Throw
      end
    else Some Throw
  end.
End Build.
