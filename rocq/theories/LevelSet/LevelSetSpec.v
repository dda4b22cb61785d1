(** Specification of the level-set properties. *)
From Coq Require Import Reals List Arith Permutation.
From Verif Require Import Base.Field Base.Sums Base.Res Element.ElementSpec.
Import ListNotations.
Local Open Scope R_scope.

(** Euclidean length of a gradient. *)
Definition euclid (d : nat) (b : nat -> R) : R := sqrt (rs d (fun k => b k * b k)).
From Verif Require Import Element.ElementModel LevelSet.LevelSetModel.
(** A mesh of non-degenerate simplices whose corners are vertices. *)
Record ls_mesh_ok (m : ls_mesh) : Prop := {
  lk_dim : (1 <= lm_dim m <= 3)%nat;
  lk_node : forall e a, (e < lm_nelems m)%nat -> (a <= lm_dim m)%nat -> (lm_node m e a < lm_nverts m)%nat;
  lk_det : forall e, (e < lm_nelems m)%nat -> cell_det (lm_dim m) (cell_x m e) <> 0 }.
(** On cell [e] the field is the affine function with gradient [b]. *)
Definition has_gradient (m : ls_mesh) (f : fields) (e : nat) (b : nat -> R) : Prop :=
  exists b0, forall a, (a <= lm_dim m)%nat -> ls_at f (lm_node m e a) = ElementSpec.affine (lm_dim m) b0 b (cell_x m e) a.
(** Every order in which the atomic additions can take effect. *)
Definition perm_adds (o : order) : Prop := forall l, Permutation (o l) l.
