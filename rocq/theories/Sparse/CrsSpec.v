(** What block sparse data represent, and when they are well formed. *)
From Coq Require Import Arith List Sorted Permutation.
From Verif Require Import Base.Field Base.Sums Base.ListUpd Sparse.CrsModel.
Import ListNotations.

Section Spec.
Context {K : CRing}.
Local Open Scope K_scope.

(** Entry (i,j) of the dense matrix represented by CRS data with R x C blocks. *)
Definition dense_rc (R C : nat) (rm ci : list nat) (e : list K) (i j : nat) : K :=
  lsum (map (fun o => if Nat.eqb (nth o ci 0%nat) (j / C)
                      then nth (R * C * o + C * (i mod R) + j mod C) e 0 else 0)
            (range (nth (i / R) rm 0%nat) (nth (S (i / R)) rm 0%nat))).

Definition matrix (A : crs K) : nat -> nat -> K :=
  dense_rc (c_R A) (c_C A) (c_rowmap A) (c_cols A) (c_ents A).

(** [wf n c A]: A is a well-formed n x c matrix of blocks. *)
Record wf_crs (n c : nat) (A : crs K) : Prop := {
  w_R : (0 < c_R A)%nat;
  w_C : (0 < c_C A)%nat;
  w_len : length (c_rowmap A) = S n;
  w_first : nth 0 (c_rowmap A) 0%nat = 0%nat;
  w_mono : forall i, i < n -> nth i (c_rowmap A) 0%nat <= nth (S i) (c_rowmap A) 0%nat;
  w_last : nth n (c_rowmap A) 0%nat = length (c_cols A);
  w_cols : forall o, In o (c_cols A) -> o < c;
  w_ents : length (c_ents A) = (c_R A * c_C A * length (c_cols A))%nat;
  w_nrows : c_nrows A = Some (n * c_R A)%nat;
  w_ncols : c_ncols A = Some (c * c_C A)%nat
}.

(** The segment of a list between two positions. *)
Definition segment {A} (a b : nat) (l : list A) : list A := firstn (b - a) (skipn a l).

Definition row_cols (rm cols : list nat) (r : nat) : list nat :=
  segment (nth r rm 0%nat) (nth (S r) rm 0%nat) cols.

(** No column occurs twice in a row. *)
Definition nodup_rows (A : crs K) : Prop :=
  forall r, S r < length (c_rowmap A) -> NoDup (row_cols (c_rowmap A) (c_cols A) r).

Definition sorted_rows (rm cols : list nat) : Prop :=
  forall r, S r < length rm -> StronglySorted le (row_cols rm cols r).
End Spec.
