(** Model of the continuation step ("update problem") of the function objects: how a vector or scalar function creates one evaluator per block and per differentiation type, and which of them its [updateProblem] advances. *)
From Coq Require Import Reals String List Arith Bool.
From Verif Require Import Base.ListUpd Base.Res.
Import ListNotations.
Local Open Scope string_scope.

Section Fn.
(** [St]: the mutable state of one evaluator (penalty exponents, Lagrange multipliers, ...).  [Inp]: the arguments of one [updateProblem] call.
    [init d]: the state the factory gives a new evaluator for block [d]; it is read from the input deck and the mesh, so it does not depend on the scalar type the evaluator is instantiated with.
    [step d i s]: what one call [updateProblem] with inputs [i] (restricted to block [d]) does to an evaluator in state [s]. *)
Variables (St Inp : Type) (init : string -> St) (step : string -> Inp -> St -> St).

(** A function: [tab member block] is the shared_ptr stored in std::map [member] under the block's name; [bnd member] the extra pointers of VectorFunctionVMS.hpp 70-74; [objs] the evaluators on the heap. *)
Record fn := mkFn { tab : string -> string -> option nat; bnd : list (string * nat); objs : list St }.

(** One line "mXFunctions[tName] = tFactory.create...(tDomain, ...)". *)
Definition create (d : string) (f : fn) (k : string) : fn :=
  mkFn (fun k' d' => if String.eqb k' k && String.eqb d' d then Some (List.length (objs f)) else tab f k' d') (bnd f) (objs f ++ [init d]).
(** The constructor's loop over the blocks. *)
Definition construct (ks : list string) (doms : list string) : fn :=
  fold_left (fun f d => fold_left (create d) ks f) doms (mkFn (fun _ _ => None) [] []).

(** std::map::at throws on a missing name. *)
Definition at_ (f : fn) (k d : string) : res nat := match tab f k d with Some i => Ok i | None => Throw end.
(** "p->updateProblem(...)": a dangling pointer is undefined behaviour. *)
Definition poke (d : string) (inp : Inp) (i : nat) (f : fn) : res fn :=
  let! s := ub (nth_error (objs f) i) in
  let! os := ub (upd (objs f) i (step d inp s)) in
  Ok (mkFn (tab f) (bnd f) os).
(** The loop over the blocks in every [updateProblem]; [ks] in the order of the lines. *)
Definition update_blocks (ks doms : list string) (inp : Inp) (f : fn) : res fn :=
  foldR (fun d f => foldR (fun k f => let! i := at_ f k d in poke d inp i f) ks f) doms f.

(** A history of calls. *)
Definition history (upd1 : Inp -> fn -> res fn) (h : list Inp) (f : fn) : res fn := foldR upd1 h f.

(** The state of the evaluator that [member] uses for block [d]. *)
Definition evaluator (f : fn) (k d : string) : res St := let! i := at_ f k d in ub (nth_error (objs f) i).

(** VectorFunctionVMS.hpp 116-124: the pointers "any block can compute the boundary terms" alias the first block's evaluators; front() of an empty vector is undefined behaviour. *)
Definition construct_vms (ks bks doms : list string) : res fn :=
  match doms with
  | [] => UB
  | d0 :: _ => let f := construct ks doms in
    let! b := mapR (fun k => let! i := at_ f k d0 in Ok (k, i)) bks in Ok (mkFn (tab f) b (objs f))
  end.
(** VectorFunctionVMS.hpp 1371-1394: the loop over the blocks, then the boundary pointers once more.  The evaluators behind these pointers belong to the first block. *)
Definition update_vms (ks bks doms : list string) (inp : Inp) (f : fn) : res fn :=
  let! f := update_blocks ks doms inp f in
  foldR (fun k f => match find (fun p => String.eqb (fst p) k) (bnd f) with None => UB | Some (_, i) => poke (hd "" doms) inp i f end) bks f.
(** The state the boundary pointer [k] sees. *)
Definition boundary_evaluator (f : fn) (k : string) : res St :=
  match find (fun p => String.eqb (fst p) k) (bnd f) with None => UB | Some (_, i) => ub (nth_error (objs f) i) end.

(** Criteria built from other criteria: elliptic/WeightedSumFunction.hpp 151-155, DivisionFunction.hpp 124-127, LeastSquaresFunction.hpp 193-197, MassPropertiesFunction.hpp 864-869 (which forwards to one least-squares function), their geometric counterparts and WeightedLocalScalarFunction.hpp 198-213 forward the call to each part in order; the parts are created by the composite's own factory calls, so they share nothing. *)
Inductive crit := Basic (f : fn) | Composite (parts : list crit).
Section Crit.
Variable upd1 : Inp -> fn -> res fn.
Fixpoint update_crit (inp : Inp) (c : crit) : res crit :=
  match c with
  | Basic f => let! f' := upd1 inp f in Ok (Basic f')
  | Composite ps => let! ps' := (fix go l := match l with [] => Ok [] | p :: l' => let! p' := update_crit inp p in let! r := go l' in Ok (p' :: r) end) ps in Ok (Composite ps')
  end.
Fixpoint leaves (c : crit) : list fn :=
  match c with Basic f => [f] | Composite ps => (fix go l := match l with [] => [] | p :: l' => (leaves p ++ go l')%list end) ps end.
End Crit.

(** elliptic/Problem.hpp 238-250: every criterion in the map, each with the first row of the solution; then every linear criterion. *)
Definition update_problem (upd1 upd2 : Inp -> fn -> res fn) (inp : Inp) (p : list (string * crit) * list (string * crit)) : res (list (string * crit) * list (string * crit)) :=
  let! a := mapR (fun c => let! x := update_crit upd1 inp (snd c) in Ok (fst c, x)) (fst p) in
  let! b := mapR (fun c => let! x := update_crit upd2 inp (snd c) in Ok (fst c, x)) (snd p) in
  Ok (a, b).
End Fn.

(** elliptic/PhysicsScalarFunction.hpp 76-88 and 191-215. *)
Definition elliptic_created := ["Value"; "GradientU"; "GradientX"; "GradientZ"].
Definition elliptic_updated := ["Value"; "GradientU"; "GradientZ"; "GradientX"].
(** geometric/GeometryScalarFunction.hpp 76-85 and 173-190. *)
Definition geometric_created := ["Value"; "GradientX"; "GradientZ"].
Definition geometric_updated := ["Value"; "GradientZ"; "GradientX"].
(** GlobalVectorFunctionInc.hpp 766-778 and 1218-1235. *)
Definition global_created := ["Residual"; "JacobianCU"; "JacobianPU"; "JacobianCC"; "JacobianPC"; "JacobianZ"; "JacobianX"; "JacobianPG"].
Definition global_updated := ["Residual"; "JacobianX"; "JacobianZ"; "JacobianCC"; "JacobianPC"; "JacobianCU"; "JacobianPU"; "JacobianPG"].
(** LocalVectorFunctionInc.hpp 108-117 and 952-971. *)
Definition local_created := ["Residual"; "JacobianU"; "JacobianUP"; "JacobianC"; "JacobianCP"; "JacobianX"; "JacobianZ"].
Definition local_updated := ["Residual"; "JacobianU"; "JacobianUP"; "JacobianC"; "JacobianCP"; "JacobianX"; "JacobianZ"].
(** BasicLocalScalarFunction.hpp 717-727 and 674-689. *)
Definition local_criterion_created := ["Value"; "GradientX"; "GradientZ"; "LocalJacobian"; "LocalJacobianP"; "GlobalJacobian"; "GlobalJacobianP"].
Definition local_criterion_updated := ["Value"; "GradientZ"; "GradientX"; "LocalJacobianP"; "GlobalJacobianP"; "LocalJacobian"; "GlobalJacobian"].
(** VectorFunctionVMS.hpp 106-114, 120-124, 1382-1386 and 1389-1393. *)
Definition vms_created := ["Residual"; "JacobianU"; "JacobianN"; "JacobianZ"; "JacobianX"].
Definition vms_boundary := ["Residual"; "JacobianU"; "JacobianN"; "JacobianZ"; "JacobianX"].
Definition vms_updated := ["Residual"; "JacobianU"; "JacobianN"; "JacobianX"; "JacobianZ"].
Definition vms_boundary_updated := ["Residual"; "JacobianU"; "JacobianN"; "JacobianX"; "JacobianZ"].

(** The additive continuation of one exponent, the same code in InfinitesimalStrainPlasticityResidual.hpp 534-546, InfinitesimalStrainThermoPlasticityResidual.hpp 587-599, ElasticWorkCriterion.hpp 252-262, PlasticWorkCriterion.hpp 253-264 and J2PlasticityLocalResidual.hpp 226-255. *)
Definition continue_exponent (inc bound p : R) : R := if Rle_dec bound (p + inc) then bound else (p + inc)%R.
(** J2PlasticityLocalResidual.hpp 532-538: the elastic exponent, then the plastic one. *)
Record j2_continuation := mkJ2C { jc_elastic : R; jc_plastic : R }.
Definition j2_update (inc_e bound_e inc_p bound_p : R) (s : j2_continuation) : j2_continuation :=
  let s := mkJ2C (continue_exponent inc_e bound_e (jc_elastic s)) (jc_plastic s) in
  mkJ2C (jc_elastic s) (continue_exponent inc_p bound_p (jc_plastic s)).
