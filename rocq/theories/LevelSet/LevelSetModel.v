(** Level sets, src/HamiltonJacobi.hpp, over the reals.  Cells are linear simplices in d = 2 or 3 dimensions (1 also makes sense);
    the geometry of a cell is that of Element/ElementModel.v: Plato::ComputeGradient (src/ImplicitFunctors.hpp 414-470) stores the
    rows of the inverse of the same Jacobian as ComputeGradientWorkset, and |det| as volume. *)
From Coq Require Import Reals List Arith Bool.
From Verif Require Import Base.Field Base.Sums Base.ListUpd Base.Res Base.Scatter Element.ElementModel.
Import ListNotations.
Local Open Scope R_scope.

(** Heaviside and Delta, lines 108-125.  The code writes pi as the literal 3.1415926535897932385, pi rounded; here it is pi. *)
Definition heaviside (s eps : R) : R :=
  if Rlt_dec s (- eps) then 0 else if Rlt_dec eps s then 1 else 1 / 2 * (1 + s / eps + sin (PI * s / eps) / PI).
Definition smooth_delta (s eps : R) : R :=
  if Rlt_dec s (- eps) then 0 else if Rlt_dec eps s then 0 else (1 / 2) / eps * (1 + cos (PI * s / eps)).

(** A mesh: elems2Verts and coordinates. *)
Record ls_mesh := mkLM { lm_dim : nat; lm_nverts : nat; lm_nelems : nat; lm_node : nat -> nat -> nat; lm_coord : nat -> nat -> R }.
Definition cell_x (m : ls_mesh) (e : nat) : coords := fun a k => lm_coord m (lm_node m e a) k.

(** ProblemFields, lines 47-64: the level set has two columns, mCurrentState selects one; speeds are per element or per node. *)
Record fields := mkF { ls0 : list R; ls1 : list R; current : nat; use_elem : bool; elem_speed : nat -> R; node_speed : nat -> R }.
Definition now (f : fields) : list R := match current f with O => ls0 f | _ => ls1 f end.
Definition ls_at (f : fields) (i : nat) : R := nth i (now f) 0.

(** ** Integrals over the elements, lines 127-204.  The parallel reduction is a sum in any order [sched]. *)
Definition avg_ls (m : ls_mesh) (f : fields) (e : nat) : R :=
  rsum (S (lm_dim m)) (fun a => ls_at f (lm_node m e a) / INR (S (lm_dim m))).
Definition level_set_integral (sched : schedule) (m : ls_mesh) (f : fields) (eps : R) (fn : R -> R -> R) (level : R) : R :=
  lsum (K := R_ring) (map (fun e => compute_volume (lm_dim m) (cell_x m e) * fn (avg_ls m f e - level) eps) (sched (lm_nelems m))).
Definition level_set_volume sched m f eps level : R := level_set_integral sched m f eps heaviside level.
Definition level_set_area sched m f eps level : R := level_set_integral sched m f eps smooth_delta level.
Definition avg_speed (m : ls_mesh) (f : fields) (e : nat) : R :=
  if use_elem f then elem_speed f e else rsum (S (lm_dim m)) (fun a => node_speed f (lm_node m e a) / INR (S (lm_dim m))).
Definition volume_rate (sched : schedule) (m : ls_mesh) (f : fields) (eps level : R) : R :=
  lsum (K := R_ring) (map (fun e => compute_volume (lm_dim m) (cell_x m e) * avg_speed m f e * smooth_delta (avg_ls m f e - level) eps) (sched (lm_nelems m))).

(** ** Hamiltonians.  [phi] and [speed] are the values of one cell. *)
Definition normal_dir (d : nat) (x : coords) (phi : nat -> R) (k : nat) : R := rsum (S d) (fun a => cell_gradient d x a k * phi a).
(** unitize, lines 14-23. *)
Definition magnitude (d : nat) (v : nat -> R) : R := sqrt (rsum d (fun k => v k * v k)).
Definition coeff (d : nat) (x : coords) (phi : nat -> R) (speed : R) (a : nat) : R :=
  let v := normal_dir d x phi in let mag := magnitude d v in
  cell_volume d x * speed * rsum d (fun k => v k / mag * cell_gradient d x a k).
Definition vol_ham (d : nat) (x : coords) (phi : nat -> R) (speed : R) : R := rsum (S d) (fun a => coeff d x phi speed a * phi a).
Definition sum_neg d x phi speed : R := rsum (S d) (fun a => if Rlt_dec (coeff d x phi speed a) 0 then coeff d x phi speed a else 0).
Definition sum_pos d x phi speed : R := rsum (S d) (fun a => if Rlt_dec (coeff d x phi speed a) 0 then 0 else coeff d x phi speed a).
Definition neg_contrib d x phi speed : R := rsum (S d) (fun a => if Rlt_dec (coeff d x phi speed a) 0 then coeff d x phi speed a * phi a else 0).
Definition alpha d x phi speed (a : nat) : R :=
  if Rlt_dec 0 (coeff d x phi speed a)
  then coeff d x phi speed a / sum_pos d x phi speed * (neg_contrib d x phi speed - sum_neg d x phi speed * phi a) / vol_ham d x phi speed
  else 0.
Definition sum_pos_alpha d x phi speed : R := rsum (S d) (fun a => if Rlt_dec 0 (alpha d x phi speed a) then alpha d x phi speed a else 0).

(** AssembleElementSpeedHamiltonian::operator(), lines 496-563: what one element adds, as (local node, (to mRHS, to mRHSNorm)).  A zero gradient makes the
    unit vector NaN; then the comparisons of lines 526, 544 are false for every node and nothing is added. *)
Definition elem_adds (d : nat) (x : coords) (phi : nat -> R) (speed : R) : list (nat * (R * R)) :=
  if Req_EM_T (magnitude d (normal_dir d x phi)) 0 then []
  else flat_map (fun a => if Rlt_dec 0 (alpha d x phi speed a)
                          then let wt := alpha d x phi speed a / sum_pos_alpha d x phi speed in
                               [(a, (wt * vol_ham d x phi speed, wt * cell_volume d x))]
                          else []) (seq 0 (S d)).
(** AssembleNodalSpeedHamiltonian::operator(), lines 607-663: every node uses its own speed. *)
Definition nodal_adds (d : nat) (x : coords) (phi : nat -> R) (speed : nat -> R) : list (nat * (R * R)) :=
  if Req_EM_T (magnitude d (normal_dir d x phi)) 0 then []
  else flat_map (fun a => let wt := alpha d x phi (speed a) a in
                          if Rlt_dec 0 wt then [(a, (wt * vol_ham d x phi (speed a), wt * cell_volume d x))] else []) (seq 0 (S d)).

(** get_element_speed, lines 477-487. *)
Definition ham_speed (m : ls_mesh) (f : fields) (e : nat) : R :=
  if use_elem f then elem_speed f e else rsum (S (lm_dim m)) (fun a => node_speed f (lm_node m e a)) / INR (S (lm_dim m)).
(** get_nodal_speed, lines 593-605; also the sign of lines 705-709. *)
Definition smooth_sign (v eps : R) : R := v / sqrt (v * v + eps * eps).
Definition nodal_speed (m : ls_mesh) (f : fields) (eps : R) (arrival : bool) (e a : nat) : R :=
  let node := lm_node m e a in
  let sign := smooth_sign (ls_at f node) eps in
  if arrival then sign * (if use_elem f then elem_speed f e else node_speed f node) else sign.

(** The additions of the whole loop, in mesh numbering. *)
Definition cell_phi (m : ls_mesh) (f : fields) (e : nat) : nat -> R := fun a => ls_at f (lm_node m e a).
Definition globally (m : ls_mesh) (e : nat) (l : list (nat * (R * R))) : list (nat * (R * R)) := map (fun p => (lm_node m e (fst p), snd p)) l.
Definition all_elem_adds (m : ls_mesh) (f : fields) : list (nat * (R * R)) :=
  flat_map (fun e => globally m e (elem_adds (lm_dim m) (cell_x m e) (cell_phi m f e) (ham_speed m f e))) (seq 0 (lm_nelems m)).
Definition all_nodal_adds (m : ls_mesh) (f : fields) (eps : R) (arrival : bool) : list (nat * (R * R)) :=
  flat_map (fun e => globally m e (nodal_adds (lm_dim m) (cell_x m e) (cell_phi m f e) (nodal_speed m f eps arrival e))) (seq 0 (lm_nelems m)).
(** The atomic additions into mRHS and mRHSNorm happen in some order. *)
Definition order := list (nat * (R * R)) -> list (nat * (R * R)).
Definition assemble (o : order) (n : nat) (adds : list (nat * (R * R))) : res (list R * list R) :=
  let! rhs := add_all (K := R_ring) (map (fun p => (fst p, fst (snd p))) (o adds)) (repeat 0 n) in
  let! nrm := add_all (K := R_ring) (map (fun p => (fst p, snd (snd p))) (o adds)) (repeat 0 n) in
  Ok (rhs, nrm).
(** Writing the other column and switching to it (lines 749-761, 700-729). *)
Definition store_next (f : fields) (v : list R) : fields :=
  match Nat.modulo (current f + 1) 2 with
  | O => mkF v (ls1 f) 0 (use_elem f) (elem_speed f) (node_speed f)
  | k => mkF (ls0 f) v k (use_elem f) (elem_speed f) (node_speed f)
  end.
Definition hamiltonian (rhs nrm : list R) (i : nat) : R := if Rlt_dec 0 (nth i nrm 0) then nth i rhs 0 / nth i nrm 0 else 0.
(** evolve_level_set, lines 735-762. *)
Definition evolve (o : order) (m : ls_mesh) (f : fields) (dt : R) : res fields :=
  let! a := assemble o (lm_nverts m) (all_elem_adds m f) in
  Ok (store_next f (map (fun i => ls_at f i - dt * hamiltonian (fst a) (snd a) i) (seq 0 (lm_nverts m)))).
(** assemble_and_update_Eikonal, lines 678-733, without the residual it returns. *)
Definition eikonal (o : order) (m : ls_mesh) (f : fields) (eps dt : R) (arrival : bool) : res fields :=
  let! a := assemble o (lm_nverts m) (all_nodal_adds m f eps arrival) in
  Ok (store_next f (map (fun i => ls_at f i - dt * (hamiltonian (fst a) (snd a) i - smooth_sign (ls_at f i) eps)) (seq 0 (lm_nverts m)))).

(** max_element_speed / max_nodal_speed and normalize_interface_speed, lines 297-338, 427-445: divide by the largest value. *)
Definition max_of (l : list R) : option R := match l with [] => None | a :: l => Some (fold_left (fun m v => if Rlt_dec m v then v else m) l a) end.
Definition normalize (l : list R) : option (R * list R) := match max_of l with None => None | Some m => Some (m, map (fun v => v * (1 / m)) l) end.
