(** Specification side: what a sparse structure represents, when it is well
    formed, and what it means to impose Dirichlet conditions. *)
From Coq Require Import Arith List Bool.
From Verif Require Import Base.Field Base.Sums BC.ConstraintsModel.
Import ListNotations.

Section Spec.
Context {K : CRing}.
Local Open Scope K_scope.

(** The dense matrix represented by block CRS data with N x N blocks
    (N = 1: plain CRS): entry (i,j) is the sum of the stored values for it. *)
Definition dense (N : nat) (g : graph) (e : list K) (i j : nat) : K :=
  lsum (map (fun o => if Nat.eqb (nth o (colidx g) 0%nat) (j / N)
                      then nth (N * N * o + N * (i mod N) + j mod N) e 0 else 0)
            (seq (nth (i / N) (rowmap g) 0%nat)
                 (nth (S (i / N)) (rowmap g) 0%nat - nth (i / N) (rowmap g) 0%nat))).

(** Node [c] occurs as a column in node row [r]. *)
Definition has_col (g : graph) (r c : nat) : Prop :=
  exists o, nth r (rowmap g) 0%nat <= o < nth (S r) (rowmap g) 0%nat /\
            nth_error (colidx g) o = Some c.

(** Well-formed block CRS graph with [n] node rows: the row map is
    non-decreasing from 0 to the number of stored columns, columns are node
    numbers, no column occurs twice in a row, the pattern is symmetric and
    contains the diagonal. *)
Record wf_graph (n : nat) (g : graph) : Prop := {
  wf_len : length (rowmap g) = S n;
  wf_first : nth 0 (rowmap g) 0%nat = 0%nat;
  wf_mono : forall i, i < n -> nth i (rowmap g) 0%nat <= nth (S i) (rowmap g) 0%nat;
  wf_last : nth n (rowmap g) 0%nat = length (colidx g);
  wf_cols : forall c, In c (colidx g) -> c < n;
  wf_nodup : forall i o o' c, i < n ->
    nth i (rowmap g) 0%nat <= o < nth (S i) (rowmap g) 0%nat ->
    nth i (rowmap g) 0%nat <= o' < nth (S i) (rowmap g) 0%nat ->
    nth_error (colidx g) o = Some c -> nth_error (colidx g) o' = Some c -> o = o';
  wf_sym : forall r c, r < n -> has_col g r c -> has_col g c r;
  wf_diag : forall r, r < n -> has_col g r r
}.

(** The value prescribed for dof [d], if any. *)
Definition prescribed (scale : K) (dofs : list nat) (vals : list K) (d : nat) : option K :=
  match find (fun dv => Nat.eqb (fst dv) d) (combine dofs vals) with
  | Some dv => Some (scale * snd dv)
  | None => None
  end.

(** Conditions are compatible when no dof is listed twice, except for dofs
    that are prescribed to be zero every time they are listed. *)
Definition compatible (scale : K) (dofs : list nat) (vals : list K) : Prop :=
  ForallOrdPairs (fun a b => fst a = fst b -> scale * snd a = 0 /\ scale * snd b = 0)
                 (combine dofs vals).

Definition constrained (dofs : list nat) (d : nat) : bool := existsb (Nat.eqb d) dofs.

(** The constrained matrix: constrained rows and columns become the identity's. *)
Definition constrained_matrix (dofs : list nat) (A : nat -> nat -> K) (i j : nat) : K :=
  if constrained dofs i || constrained dofs j then (if Nat.eqb i j then 1 else 0) else A i j.

(** [x] solves the n x n system A x = b. *)
Definition solves (n : nat) (A : nat -> nat -> K) (b x : nat -> K) : Prop :=
  forall i, i < n -> mv n A x i = b i.

(** [x] takes the prescribed values and satisfies the equations A x = b in
    every unconstrained row. *)
Definition solves_constrained (n : nat) (A : nat -> nat -> K) (b : nat -> K)
           (scale : K) (dofs : list nat) (vals : list K) (x : nat -> K) : Prop :=
  (forall d v, prescribed scale dofs vals d = Some v -> x d = v) /\
  (forall i, i < n -> constrained dofs i = false -> mv n A x i = b i).

Definition symmetric (n : nat) (A : nat -> nat -> K) : Prop :=
  forall i j, i < n -> j < n -> A i j = A j i.

(** What the enforcement needs of the matrix: symmetry of the columns of the dofs that get
    a nonzero value. *)
Definition symmetric_where_needed (n : nat) (A : nat -> nat -> K)
           (scale : K) (dofs : list nat) (vals : list K) : Prop :=
  forall d v i, In (d, v) (combine dofs vals) -> i < n ->
    A d i * (scale * v) = A i d * (scale * v).

Definition vec (b : list K) : nat -> K := fun i => nth i b 0.

End Spec.
