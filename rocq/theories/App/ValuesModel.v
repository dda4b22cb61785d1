(** Model of the scalar values that the coupling application exchanges and of the operations on them (src/Analyze_App.cpp, src/Analyze_App.hpp): sensitivities
    with respect to parameters, finite differences and perturbed fields. *)
From Coq Require Import Reals String List Arith ZArith Bool.
From Verif Require Import Base.ListUpd Base.Res App.AppModel.
Import ListNotations.
Local Open Scope R_scope.

(** A floating point number idealised: a real number, or [None], the result of a division by zero (infinite or not a number). *)
Definition num := option R.
Definition nadd (x y : num) : num := match x, y with Some a, Some b => Some (a + b) | _, _ => None end.
Definition nsub (x y : num) : num := match x, y with Some a, Some b => Some (a - b) | _, _ => None end.
Definition nmul (x y : num) : num := match x, y with Some a, Some b => Some (a * b) | _, _ => None end.
Definition ndiv (x y : num) : num := match x, y with Some a, Some b => if Req_EM_T b 0 then None else Some (a / b) | _, _ => None end.
(** std::round: the nearest integer, halves away from zero. *)
Definition round (x : R) : Z := if Rle_dec 0 x then Int_part (x + / 2) else (- Int_part (- x + / 2))%Z.

(** mValuesMap, mValueNameToCriterionName, mCriterionValues, mCriterionGradientsX and mControl (Analyze_App.hpp 560-601). *)
Record vapp := mkVapp { x_vals : smap (list num); x_names : smap string; x_crit : smap R; x_gradx : smap (list R); x_control : list num }.
Definition with_vals (s : vapp) (v : smap (list num)) : vapp := mkVapp v (x_names s) (x_crit s) (x_gradx s) (x_control s).
(** operator[] of std::map: an absent entry becomes an empty vector. *)
Definition vector (s : vapp) (k : string) : list num := match get (x_vals s) k with Some v => v | None => [] end.

(** importScalarValue, Analyze_App.hpp 262-290: [data] are the values of the shared data. *)
Definition import_value (s : vapp) (name : string) (data : list num) : res vapp :=
  match get (x_vals s) name with None => Throw | Some _ => Ok (with_vals s (set (x_vals s) name data)) end.
(** std::vector::resize: cut, or filled with zeros. *)
Definition resize (v : list num) (n : nat) : list num := firstn n v ++ repeat (Some 0) (n - List.length v).
(** exportScalarValue, 328-360: [n] is the size of the shared data; the stored vector is resized to it.  A criterion value has size one. *)
Definition export_value (s : vapp) (name : string) (n : nat) : res (vapp * list num) :=
  match get (x_names s) name with
  | Some c => Ok (s, [Some (match get (x_crit s) c with Some v => v | None => 0 end)])
  | None => match get (x_vals s) name with
    | None => Throw
    | Some v => Ok (with_vals s (set (x_vals s) name (resize v n)), resize v n)
    end
  end.

(** MapCriterionGradientX, constructor, Analyze_App.cpp 961-975: [inputs] are the argument names. *)
Definition create_map (s : vapp) (inputs : list string) : vapp :=
  with_vals s (set (fold_left (fun m n => set m n []) inputs (x_vals s)) "Criterion Sensitivity" (repeat (Some 0) (List.length inputs))).
(** The loop over the entries of one input, 1001-1004; the gradient has no bounds check. *)
Fixpoint pair_up (df : list R) (dx : list num) (t : num) {struct dx} : res num :=
  match dx with
  | [] => Ok t
  | y :: dx' => match df with [] => UB | a :: df' => pair_up df' dx' (nadd t (nmul (Some a) y)) end
  end.
(** operator(), 979-1007: the gradient of [c] (created empty when there is none); entry by entry of the result. *)
Fixpoint map_entries (s : vapp) (df : list R) (inputs : list string) (k : nat) (out : list num) : res (list num) :=
  match inputs with
  | [] => Ok out
  | n :: ns => let! t := pair_up df (vector s n) (Some 0) in match upd out k t with None => UB | Some out' => map_entries s df ns (S k) out' end
  end.
Definition run_map (s : vapp) (c : string) (inputs : list string) : res vapp :=
  let df := match get (x_gradx s) c with Some g => g | None => [] end in
  let! out := map_entries s df inputs 0 (vector s "Criterion Sensitivity") in
  Ok (with_vals s (set (x_vals s) "Criterion Sensitivity" out)).

(** ComputeFiniteDifference, constructor, 1240-1256: [terms] is the parameter "Vector Length"; a null pointer without it, an exception if it is negative. *)
Definition create_fd (s : vapp) (terms : option R) : res vapp :=
  match terms with
  | None => UB
  | Some t => if Z.ltb (round t) 0 then Throw else
      Ok (with_vals s (set (set (set (x_vals s) "Initial Value" []) "Perturbed Value" []) "Gradient" (repeat (Some 0) (Z.to_nat (round t)))))
  end.
(** operator(), 1259-1278: [index] is the parameter "Perturbed Index". *)
Definition perturbation (delta : R) (index : option R) : Z * R := match index with Some p => (round p, delta) | None => (0%Z, 0) end.
Definition run_fd (s : vapp) (delta : R) (index : option R) : res vapp :=
  let '(i, dl) := perturbation delta index in
  match vector s "Perturbed Value", vector s "Initial Value" with
  | p :: _, v :: _ => if Z.ltb i 0 then UB else
      match upd (vector s "Gradient") (Z.to_nat i) (ndiv (nsub p v) (Some dl)) with
      | None => UB
      | Some g => Ok (with_vals s (set (x_vals s) "Gradient" g))
      end
  | _, _ => UB
  end.

(** ComputeMLSField, Analyze_App.hpp 859-868; [field] is the moving least squares evaluation of the geometry library at the nodes. *)
Definition create_mls (s : vapp) : vapp := with_vals s (set (x_vals s) "MLS Values" []).
Definition run_mls (field : list num -> list num) (s : vapp) : vapp := mkVapp (x_vals s) (x_names s) (x_crit s) (x_gradx s) (field (vector s "MLS Values")).
(** ComputePerturbedMLSField, 901-922. *)
Definition add_at (v : list num) (i : Z) (x : R) : option (list num) :=
  if Z.ltb i 0 then None else match nth_error v (Z.to_nat i) with Some y => upd v (Z.to_nat i) (nadd y (Some x)) | None => None end.
Definition run_perturbed (field : list num -> list num) (s : vapp) (delta : R) (index : option R) : res vapp :=
  let '(i, dl) := perturbation delta index in
  match add_at (vector s "MLS Values") i dl with
  | None => UB
  | Some w => match add_at w i (- dl) with
    | None => UB
    | Some w' => Ok (mkVapp (set (x_vals s) "MLS Values" w') (x_names s) (x_crit s) (x_gradx s) (field w))
    end
  end.
