(** Specification side of the elliptic problem. *)
From Coq Require Import Arith List.
From Verif Require Import Base.Field Base.Sums Problem.DenseBC Problem.EllipticModel.
Import ListNotations.

Section K.
Context {K : CRing}.
Local Open Scope K_scope.

(** A linear problem: residual A u - F with Jacobian A. *)
Definition linear_pde {Z} (n : nat) (p : pde K Z) (z : Z) (A : matr K) (F : vect K) : Prop :=
  forall u, (forall i, i < n -> p_value p u z i = mv n A u i - F i) /\
            (forall i j, i < n -> j < n -> p_gradient_u p u z i j = A i j).

(** (du, dp) is a variation of state and parameters that keeps the constrained equations: du vanishes at the constrained
    dofs, and the linearised residual J du + Rp dp vanishes at the free ones. *)
Definition tangent (n np : nat) (dofs : list nat) (J Rp : matr K) (du dp : vect K) : Prop :=
  (forall d, In d dofs -> du d = 0) /\
  (forall i, i < n -> ~ In i dofs -> mv n J du i + mv np Rp dp i = 0).

(** [g] is the total derivative of a criterion with partial derivatives fu, fp: it predicts the variation of the
    criterion for all variations that keep the equations. *)
Definition total_gradient (n np : nat) (dofs : list nat) (J Rp : matr K) (fu fp g : vect K) : Prop :=
  forall du dp, tangent n np dofs J Rp du dp -> dot np g dp = dot np fp dp + dot n fu du.
End K.
