(** Model of the derivative checks (src/Plato_Diagnostics.hpp).  Scalars are real numbers; the random base points and steps are arguments. *)
From Coq Require Import Reals List Arith.
From Verif Require Import Base.Field Base.Sums Base.Res.
Import ListNotations.
Local Open Scope R_scope.

(** blas1::update, src/BLAS1.hpp 252-279. *)
Definition update (a : R) (x : nat -> R) (b : R) (y : nat -> R) : nat -> R := fun i => a * x i + b * y i.
(** A trial point, Plato_Diagnostics.hpp 67-68 (and the same two lines before every evaluation): [t] is what the trial vector held before. *)
Definition trial (x step : nat -> R) (c : R) (t : nat -> R) : nat -> R := update c step 1 (update 1 x 0 t).
(** 87-90. *)
Definition stencil (p1 m1 p2 m2 eps : R) : R := (- p2 + 8 * p1 - 8 * m1 + m2) / (12 * eps).
(** 64: the step size of row [i]. *)
Definition epsilon (i : nat) : R := 1 / 10 ^ i.
(** blas1::dot, the directional derivative that the gradient predicts (51, 165, 271, 351, 427, 506). *)
Definition predicted (n : nat) (g step : nat -> R) : R := sum (K := R_ring) n (fun i => g i * step i).

(** One row, 64-92 (204-208, 312-316, 378-382, 454-458, 534-538): the reported error, and the trial vector after it. *)
Definition check_row (F : (nat -> R) -> R) (x step : nat -> R) (slope eps : R) (t : nat -> R) : R * (nat -> R) :=
  let t1 := trial x step eps t in
  let t2 := trial x step (- eps) t1 in
  let t3 := trial x step (2 * eps) t2 in
  let t4 := trial x step (-2 * eps) t3 in
  (Rabs (stencil (F t1) (F t2) (F t3) (F t4) eps - slope), t4).
Fixpoint check_rows (F : (nat -> R) -> R) (x step : nat -> R) (slope : R) (idx : list nat) (t : nat -> R) : list R :=
  match idx with
  | [] => []
  | i :: idx' => let r := check_row F x step slope (epsilon i) t in fst r :: check_rows F x step slope idx' (snd r)
  end.
(** The loop over the superscripts, 62: from [lo] to [hi] included; the trial vector starts at zero. *)
Definition superscripts (lo hi : nat) : list nat := seq lo (S hi - lo).
(** test_partial_control (112-213, 326-387, 391-463) and test_partial_state (222-321, 472-543): the errors printed; [F] is the criterion as a function of the tested argument. *)
Definition test_partial (lo hi n : nat) (F : (nat -> R) -> R) (g x step : nat -> R) : list R :=
  check_rows F x step (predicted n g step) (superscripts lo hi) (fun _ => 0).
(** std::min_element, 99. *)
Definition min_element (l : list R) : res R := match l with [] => UB | e :: l' => Ok (fold_left (fun m y => if Rlt_dec y m then y else m) l' e) end.
(** test_criterion_grad_wrt_control, 32-101: every evaluation solves first; all controls are 1/2. *)
Definition test_criterion {S : Type} (n : nat) (solution : (nat -> R) -> S) (value : (nat -> R) -> S -> R) (gradient : (nat -> R) -> S -> nat -> R) (step : nat -> R) : res R :=
  let z := fun _ : nat => / 2 in
  min_element (check_rows (fun y => value y (solution y)) z step (predicted n (gradient z (solution z)) step) (superscripts 1 6) (fun _ => 0)).

(** ** Vector functions of cells *)
(** local_workset_matrix_vector_multiply, 547-572: [ws c r j] is the derivative of entry [r] of cell [c] with respect to its local state [j]. *)
Definition local_mv (ncells nd : nat) (ws : nat -> nat -> nat -> R) (v : nat -> R) : list R :=
  flat_map (fun c => map (fun r => fold_left (fun acc j => acc + ws c r j * v (c * nd + j)%nat) (seq 0 nd) 0) (seq 0 nd)) (seq 0 ncells).
(** global_workset_matrix_vector_multiply, 576-610: the running index of the derivatives is the second component. *)
Definition global_mv (ncells rows nnodes dpn : nat) (ws : nat -> nat -> nat -> R) (ord : nat -> nat -> nat -> nat) (v : nat -> R) : list R :=
  flat_map (fun c => map (fun r =>
    fst (fold_left (fun acc k => fold_left (fun a d => (fst a + ws c r (snd a) * v (ord c k d), S (snd a))) (seq 0 dpn) acc) (seq 0 nnodes) (0, 0%nat)))
    (seq 0 rows)) (seq 0 ncells).
(** control_workset_matrix_vector_multiply, 614-641. *)
Definition control_mv (ncells rows nad : nat) (ws : nat -> nat -> nat -> R) (ord : nat -> nat -> nat) (v : nat -> R) : list R :=
  flat_map (fun c => map (fun r => fold_left (fun acc a => acc + ws c r a * v (ord c a)) (seq 0 nad) 0) (seq 0 rows)) (seq 0 ncells).

(** The errors of one row of the table, 746-762: [count] entries are compared; reading outside a vector is undefined. *)
Fixpoint errors (count : nat) (p1 m1 p2 m2 slopes : list R) (eps : R) : res (list R) :=
  match count with
  | O => Ok []
  | S k => let! es := errors k p1 m1 p2 m2 slopes eps in
    match nth_error p1 k, nth_error m1 k, nth_error p2 k, nth_error m2 k, nth_error slopes k with
    | Some a, Some b, Some c, Some d, Some s => Ok (es ++ [Rabs (stencil a b c d eps - s)])
    | _, _, _, _, _ => UB
    end
  end.
(** blas1::local_sum, src/BLAS1.hpp 287-303. *)
Definition local_sum (l : list R) : res R := match l with [] => Throw | _ => Ok (fold_left Rplus l 0) end.
Definition vector_row (V : (nat -> R) -> list R) (x step : nat -> R) (slopes : list R) (count : nat) (eps : R) (t : nat -> R) : res (R * (nat -> R)) :=
  let t1 := trial x step eps t in
  let t2 := trial x step (- eps) t1 in
  let t3 := trial x step (2 * eps) t2 in
  let t4 := trial x step (-2 * eps) t3 in
  let! es := errors count (V t1) (V t2) (V t3) (V t4) slopes eps in
  let! e := local_sum es in Ok (e, t4).
Fixpoint vector_rows (V : (nat -> R) -> list R) (x step : nat -> R) (slopes : list R) (count : nat) (idx : list nat) (t : nat -> R) : res (list R) :=
  match idx with
  | [] => Ok []
  | i :: idx' => let! r := vector_row V x step slopes count (epsilon i) t in let! rs := vector_rows V x step slopes count idx' (snd r) in Ok (fst r :: rs)
  end.
(** A mesh and a physics: cells, vertices, dofs per node, local dofs per cell, nodes per cell. *)
Record sizes := mkSizes { z_cells : nat; z_verts : nat; z_dofs : nat; z_local : nat; z_nodes : nat }.
(** test_partial_global_state, 650-770, and test_partial_prev_global_state, 782-903: the number of entries compared is the number of global dofs (718, 746, 850, 878). *)
Definition test_global (z : sizes) (V : (nat -> R) -> list R) (ws : nat -> nat -> nat -> R) (ord : nat -> nat -> nat -> nat) (x step : nat -> R) : res (list R) :=
  vector_rows V x step (global_mv (z_cells z) (z_local z) (z_nodes z) (z_dofs z) ws ord step) (z_verts z * z_dofs z) (superscripts 1 6) (fun _ => 0).
(** test_partial_local_state, 915-1031. *)
Definition test_local (z : sizes) (V : (nat -> R) -> list R) (ws : nat -> nat -> nat -> R) (x step : nat -> R) : res (list R) :=
  vector_rows V x step (local_mv (z_cells z) (z_local z) ws step) (z_cells z * z_local z) (superscripts 1 6) (fun _ => 0).
(** test_partial_prev_local_state, 1043-1159: the superscripts 0 to 4. *)
Definition test_prev_local (z : sizes) (V : (nat -> R) -> list R) (ws : nat -> nat -> nat -> R) (x step : nat -> R) : res (list R) :=
  vector_rows V x step (local_mv (z_cells z) (z_local z) ws step) (z_cells z * z_local z) (superscripts 0 4) (fun _ => 0).
(** test_partial_local_vect_func_inc_wrt_control, 1171-1292: as many derivatives per entry as nodes. *)
Definition test_control (z : sizes) (V : (nat -> R) -> list R) (ws : nat -> nat -> nat -> R) (ord : nat -> nat -> nat) (x step : nat -> R) : res (list R) :=
  vector_rows V x step (control_mv (z_cells z) (z_local z) (z_nodes z) ws ord step) (z_cells z * z_local z) (superscripts 1 6) (fun _ => 0).
