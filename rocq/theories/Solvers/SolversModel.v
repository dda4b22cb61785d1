(** The interfaces to the linear solver libraries: src/alg/EpetraLinearSolver.cpp, src/alg/TpetraLinearSolver.cpp, src/alg/AmgXLinearSolver.cpp and
    src/alg/PlatoSolverFactory.cpp.  One process.  What a library does with what it is given is an oracle. *)
From Coq Require Import String Reals ZArith List Arith Bool.
From Verif Require Import Base.Field Base.Sums Base.ListUpd Base.Res Sparse.CrsModel Sparse.CrsSpec.
Import ListNotations.

(** What the libraries report. *)
Inductive status := Converged | NotConverged | Diverged | Failed.

Section Systems.
Context {K : CRing}.
Local Open Scope K_scope.

(** ** Tpetra *)
(** TpetraSystem::fromMatrix, TpetraLinearSolver.cpp 164-212: the values inserted, in order, with their global row and column.  [ndofs]: the size of the map, 41-44.
    fillComplete (209) takes the row map for the columns too: a column outside it is an error of the library. *)
Definition tpetra_row (A : crs K) (i : nat) : res (list (nat * (nat * K))) :=
  let! os := row_range (c_rowmap A) i in
  let! per_block := mapR (fun o =>
      let! bc := ub (nth_error (c_cols A) o) in
      let! per_row := mapR (fun lr => mapR (fun lc =>
          let! v := ub (nth_error (c_ents A) (o * (c_R A * c_C A) + lr * c_C A + lc)%nat) in
          Ok ((i * c_R A + lr)%nat, ((bc * c_C A + lc)%nat, v))) (seq 0 (c_C A))) (seq 0 (c_R A)) in
      Ok (concat per_row)) os in
  Ok (concat per_block).
Definition tpetra_matrix (ndofs : nat) (A : crs K) : res (list (nat * (nat * K))) :=
  let n := (length (c_rowmap A) - 1)%nat in
  if negb (Nat.eqb (n * c_R A) ndofs) then Throw else
  let! rows := mapR (tpetra_row A) (seq 0 n) in
  let t := concat rows in
  if forallb (fun e => Nat.ltb (fst (snd e)) ndofs) t then Ok t else Throw.
(** The library's matrix: values inserted at the same place are summed. *)
Definition inserted (t : list (nat * (nat * K))) (i j : nat) : K :=
  lsum (map (fun e => if andb (Nat.eqb (fst e) i) (Nat.eqb (fst (snd e)) j) then snd (snd e) else 0) t).

(** ** Epetra *)
(** EpetraSystem::fromMatrix, EpetraLinearSolver.cpp 27-82: the blocks submitted, with their block row and column.  [nodes]: the number of rows of the block map (18-19);
    the matrix's own number of rows is not looked at. *)
Definition epetra_row (A : crs K) (i : nat) : res (list (nat * (nat * list K))) :=
  let! os := row_range (c_rowmap A) i in
  mapR (fun o =>
      let! bc := ub (nth_error (c_cols A) o) in
      let! per_row := mapR (fun j => mapR (fun k => ub (nth_error (c_ents A) (o * (c_C A * c_R A) + j * c_C A + k)%nat)) (seq 0 (c_C A))) (seq 0 (c_R A)) in
      Ok (i, (bc, concat per_row))) os.
Definition epetra_matrix (nodes : nat) (A : crs K) : res (list (nat * (nat * list K))) :=
  let! rows := mapR (epetra_row A) (seq 0 nodes) in Ok (concat rows).
(** The library's matrix of [d] x [d] blocks. *)
Definition submitted (d : nat) (t : list (nat * (nat * list K))) (i j : nat) : K :=
  lsum (map (fun e => if andb (Nat.eqb (fst e) (i / d)) (Nat.eqb (fst (snd e)) (j / d)) then nth (i mod d * d + j mod d) (snd (snd e)) 0 else 0) t).

(** ** AmgX *)
(** AMGX_matrix_upload_all with the arrays of the matrix, AmgXLinearSolver.cpp 135-143: block rows, block size, and the arrays as they are. *)
Record upload := mkUpload { up_rows : nat; up_block : nat; up_rowmap : list nat; up_cols : list nat; up_data : list K }.
Definition amgx_matrix (d : nat) (A : crs K) (x : list K) : upload := mkUpload (length x / d) d (c_rowmap A) (c_cols A) (c_ents A).
(** The library's matrix: compressed block rows, the entries of a block row by row. *)
Definition uploaded (u : upload) : nat -> nat -> K := dense_rc (up_block u) (up_block u) (up_rowmap u) (up_cols u) (up_data u).
(** check_inputs, 194-225, in debug builds: false if an assertion fails. *)
Definition amgx_check (d : nat) (A : crs K) (x b : list K) : bool :=
  let ndofs := length x in
  let nb := (ndofs / d)%nat in
  let nnz := length (c_cols A) in
  (Nat.eqb (length b) ndofs && Nat.eqb (ndofs mod d) 0 && Nat.eqb (length (c_rowmap A)) (S nb) && Nat.eqb (length (c_ents A)) (nnz * d * d) &&
   forallb (fun i => let beg := nth i (c_rowmap A) 0%nat in let en := nth (S i) (c_rowmap A) 0%nat in
     Nat.leb beg en && (if Nat.eqb i (nb - 1) then Nat.eqb en nnz else Nat.ltb en nnz) &&
     forallb (fun ij => Nat.ltb (nth ij (c_cols A) 0%nat) nb) (range beg en)) (seq 0 nb))%bool.

(** ** Solving *)
(** A library: from the size, the matrix, the first guess and the right-hand side to a vector and a report. *)
Definition library := nat -> (nat -> nat -> K) -> list K -> list K -> list K * status.
(** fromVector and toVector, TpetraLinearSolver.cpp 217-250 and EpetraLinearSolver.cpp 87-121: copies, refused if the lengths differ. *)
Definition from_vector (ndofs : nat) (v : list K) : res (list K) := if Nat.eqb (length v) ndofs then Ok v else Throw.
Definition to_vector (ndofs : nat) (out v : list K) : res (list K) := if Nat.eqb (length v) ndofs then if Nat.eqb (length out) ndofs then Ok v else Throw else Throw.
(** TpetraLinearSolver::solve, 389-420, without the preconditioner; belosSolve (352-384) prints if the solver did not converge. *)
Definition tpetra_solve (ndofs : nat) (lib : library) (A : crs K) (x b : list K) : res (list K) :=
  let! t := tpetra_matrix ndofs A in
  let! x0 := from_vector ndofs x in
  let! b0 := from_vector ndofs b in
  let '(y, _) := lib ndofs (inserted t) x0 b0 in
  to_vector ndofs x y.
(** EpetraLinearSolver::solve, 159-178; the report of Iterate is dropped. *)
Definition epetra_solve (nodes d : nat) (lib : library) (A : crs K) (x b : list K) : res (list K) :=
  let! t := epetra_matrix nodes A in
  let! x0 := from_vector (nodes * d) x in
  let! b0 := from_vector (nodes * d) b in
  let '(y, _) := lib (nodes * d)%nat (submitted d t) x0 b0 in
  to_vector (nodes * d) x y.
(** AmgXLinearSolver::solve, 124-171.  [debug]: assertions on; [fatal]: 'Divergence is Fatal'. *)
Definition amgx_solve (debug fatal : bool) (d : nat) (lib : library) (A : crs K) (x b : list K) : res (list K) :=
  if andb debug (negb (amgx_check d A x b)) then UB else
  let '(y, st) := lib (length x) (uploaded (amgx_matrix d A x)) x b in
  match st with
  | Failed => Throw
  | Diverged => if fatal then Throw else Ok y
  | _ => Ok y
  end.
End Systems.
Arguments library K : clear implicits.
Arguments upload K : clear implicits.

(** ** Settings *)
(** An entry of the solver's parameter list, by its type. *)
Inductive pval := PInt (z : Z) | PDouble (r : R) | PString (s : string) | PBool (b : bool) | PSub (n : nat).
Definition params := string -> option pval.
Local Open Scope R_scope.
Definition default_tolerance : R := / 10 ^ 14.
(** EpetraLinearSolver's constructor, 128-154: iterations and tolerance. *)
Definition epetra_settings (p : params) : Z * R :=
  (match p "Iterations"%string with Some (PInt n) => n | _ => 300%Z end, match p "Tolerance"%string with Some (PDouble t) => t | _ => default_tolerance end).
(** TpetraLinearSolver's constructor, 299-350.  The options are the user's list (by number), or iterations and tolerance, or nothing.  get<double> of an integer throws. *)
Inductive options := UserOptions (n : nat) | Defaults (iterations : Z) (tolerance : R) | NoOptions.
Record tpetra_params := mkTpetra { tp_package : string; tp_solver : string; tp_options : options; tp_prec_package : string; tp_prec_type : string }.
Definition tpetra_settings (p : params) : res tpetra_params :=
  let package := match p "Solver Package"%string with Some (PString s) => s | _ => "Belos"%string end in
  let! solver := match p "Solver"%string with
                 | Some (PString s) => Ok s
                 | _ => if String.eqb package "Belos" then Ok "GMRES"%string else Throw
                 end in
  let! opts := match p "Solver Options"%string with
               | Some (PSub n) => Ok (UserOptions n)
               | _ => if String.eqb package "Belos" then
                        let it := match p "Iterations"%string with Some (PInt n) => n | _ => 300%Z end in
                        match p "Tolerance"%string with Some (PInt _) => Throw | _ => Ok (Defaults it default_tolerance) end
                      else Ok NoOptions
               end in
  let prec := match p "Preconditioner Package"%string with Some (PString s) => s | _ => "IFpack2"%string end in
  let type := match p "Preconditioner Type"%string with Some (PString s) => s | _ => if String.eqb prec "IFpack2" then "ILUT"%string else ""%string end in
  Ok (mkTpetra package solver opts prec type).
(** The packages accepted by solve, 402-418. *)
Definition tpetra_packages (t : tpetra_params) : res unit :=
  if orb (String.eqb (tp_prec_package t) "IFpack2") (String.eqb (tp_prec_package t) "MueLu") then if String.eqb (tp_package t) "Belos" then Ok tt else Throw else Throw.
(** SolverFactory::create and determineSolverStack, PlatoSolverFactory.cpp 5-59.  [amgx], [tpetra]: what was compiled in. *)
Inductive stack := Epetra | Tpetra | AmgX.
Definition solver_stack (amgx tpetra : bool) (p : params) : res stack :=
  let name := match p "Solver Stack"%string with Some (PString s) => s | _ => if amgx then "AmgX"%string else if tpetra then "Tpetra"%string else "Epetra"%string end in
  if String.eqb name "Epetra" then Ok Epetra
  else if String.eqb name "Tpetra" then (if tpetra then Ok Tpetra else Throw)
  else if String.eqb name "AmgX" then (if amgx then Ok AmgX else Throw)
  else Throw.
