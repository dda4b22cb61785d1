(** The rocket application (src/PlatoRocketApp.cpp, src/Plato_RocketMocks.hpp), over the reals. *)
From Coq Require Import Reals String List Arith.
From Verif Require Import Base.Res Base.ListUpd.
Import ListNotations.
Local Open Scope R_scope.
Local Open Scope string_scope.

(** mSharedDataMap: a std::map from names to vectors.  find … ->second of a name that is not there dereferences end(); operator[] = replaces or adds. *)
Definition data := list (string * list R).
Fixpoint find (m : data) (k : string) : option (list R) :=
  match m with [] => None | (k', v) :: m' => if String.eqb k' k then Some v else find m' k end.
Fixpoint store (m : data) (k : string) (v : list R) : data :=
  match m with [] => [(k, v)] | (k', v') :: m' => if String.eqb k' k then (k', v) :: m' else (k', v') :: store m' k v end.
Definition entry (m : data) (k : string) : res (list R) := ub (find m k).
Definition at_ (v : list R) (k : nat) : res R := ub (nth_error v k).

(** ProblemParams as set_constant_burn_rate_problem builds it (src/Plato_RocketMocks.hpp 22-34): mGeometry and mRefBurnRate. *)
Record params := mkParams { p_geometry : list R; p_burn_rate : list R }.
Definition constant_burn_rate (max_radius len radius rate : R) : params := mkParams [max_radius; len; radius] [rate; 0].

Section App.
(** mRocketDriver: initialize followed by solve and getThrustProfile, as a function of the parameters.  (Simplification: the driver's other state, the
    history of level sets, does not enter the thrust; see HistoryModel.  The driver is modelled in RocketModel; here it is arbitrary.) *)
Variable thrust_profile : params -> list R.

(** The constructor's mLength and mMaxRadius (18-37). *)
Definition len : R := 65 / 100.
Definition max_radius : R := 15 / 100.

(** setMaxTargetThrust, setNormTargetThrustProfile, setTargetThrustProfile (233-255); std::max_element of a vector that is not empty. *)
Definition max_element (l : list R) : res R := match l with [] => UB | x :: l' => Ok (fold_left Rmax l' x) end.
Definition inner_product (l l' : list R) : R := fold_left Rplus (map (fun p => fst p * snd p) (combine l l')) 0.
Definition set_target (m : data) (profile : list R) : res data :=
  let! x := max_element profile in
  let m := store m "MaxThrust" [x] in
  let m := store m "TargetThrustProfile" profile in
  Ok (store m "NormThrustProfile" [inner_product profile profile]).
(** defineSharedDataMaps, setNormalizationConstants, setDefaultTargetThrustProfile (192-231, 257-283); the 100 thrusts of the default profile are the
    argument. *)
Definition define_data (profile : list R) : res data :=
  let m := store [] "ObjFuncVal" (repeat 0 1) in
  let m := store m "DesignVars" (repeat 0 2) in
  let m := store m "ObjFuncGrad" (repeat 0 2) in
  let m := store m "Normalization" [1 / 10; 1 / 100] in
  set_target m profile.
(** defineOperations, 186-190. *)
Definition defined_operations : list string := ["ObjectiveValue"; "ObjectiveGradient"].

(** updateProblem, 402-413. *)
Definition problem_of (m : data) (control : list R) : res params :=
  let! norm := entry m "Normalization" in
  let! c0 := at_ control 0 in let! n0 := at_ norm 0 in
  let! c1 := at_ control 1 in let! n1 := at_ norm 1 in
  Ok (constant_burn_rate max_radius len (c0 * n0) (c1 * n1)).
(** computeObjFuncValue, 379-400.  The assertion on the sizes (385) is compiled out of a release build: a trial profile that is too short is read outside.
    Division by zero gives no number in C++; in the reals it gives 0, and the theorems exclude it. *)
Fixpoint misfit (trial target : list R) : res R :=
  match target, trial with
  | [], _ => Ok 0
  | _ :: _, [] => UB
  | t :: target', x :: trial' => let! s := misfit trial' target' in Ok ((x - t) * (x - t) + s)
  end.
Definition objective (m : data) (control target : list R) : res R :=
  let! p := problem_of m control in
  let! s := misfit (thrust_profile p) target in
  let! norm := entry m "NormThrustProfile" in
  let! n := at_ norm 0 in
  Ok (1 / (2 * INR (List.length target) * n) * s).
(** evaluateObjFunc, 297-314. *)
Definition eval_value (m : data) : res data :=
  let! control := entry m "DesignVars" in
  let! target := entry m "TargetThrustProfile" in
  let! out := entry m "ObjFuncVal" in
  let! v := objective m control target in
  let! out' := ub (upd out 0 v) in
  Ok (store m "ObjFuncVal" out').
(** computeObjFuncGrad, 337-361: tEpsilon is 1e-4. *)
Definition eps : R := 1 / 10000.
Definition gradient_step (m : data) (control target : list R) (k : nat) (st : list R * list R) : res (list R * list R) :=
  let (copy, out) := st in
  let! c := at_ control k in
  let! copy := ub (upd copy k (c + c * eps)) in
  let! fwd := objective m copy target in
  let! copy := ub (upd copy k (c - c * eps)) in
  let! bwd := objective m copy target in
  let! copy := ub (upd copy k c) in
  let! out := ub (upd out k ((fwd - bwd) / (2 * eps))) in
  Ok (copy, out).
Definition gradient (m : data) (control target out : list R) : res (list R) :=
  let! r := foldR (gradient_step m control target) (seq 0 (List.length control)) (control, out) in
  Ok (snd r).
(** evaluateObjFuncGrad, 316-335; the assertion on the size of the gradient is compiled out. *)
Definition eval_gradient (m : data) : res data :=
  let! control := entry m "DesignVars" in
  let! target := entry m "TargetThrustProfile" in
  let! out := entry m "ObjFuncGrad" in
  let! g := gradient m control target out in
  Ok (store m "ObjFuncGrad" g).
(** compute and performOperation, 84-99 and 285-295: any other name does nothing. *)
Definition compute (op : string) (m : data) : res data :=
  if String.eqb op "ObjFuncEval" then eval_value m
  else if String.eqb op "ObjFuncGrad" then eval_gradient m
  else Ok m.
(** importData/inputData and exportData/outputData, 101-133 and 141-167.  SharedData::getData is taken to fill the vector with the values sent. *)
Definition import (name : string) (v : list R) (m : data) : res data :=
  let! _ := entry m name in Ok (store m name v).
Definition export (name : string) (m : data) : res (list R) := entry m name.
(** printSolution, 44-69: the numbers written to solution.txt. *)
Definition print_solution (m : data) : res (R * R) :=
  let! control := entry m "DesignVars" in
  let! norm := entry m "Normalization" in
  let! c0 := at_ control 0 in let! n0 := at_ norm 0 in
  let! c1 := at_ control 1 in let! n1 := at_ norm 1 in
  Ok (c0 * n0, c1 * n1).
End App.
