(** Specification side of the transient heat problem. *)
From Coq Require Import Arith List.
From Verif Require Import Base.Field Base.Sums Problem.DenseBC Problem.ParabolicModel.
Import ListNotations.

Section K.
Context {K : CField}.
Local Open Scope K_scope.

(** The generalised trapezoid rule between two consecutive (state, rate) pairs. *)
Definition trapezoid (n : nat) (alpha dt : K) (prev cur : vect K * vect K) : Prop :=
  forall i, i < n -> fst cur i = fst prev i + dt * ((1 - alpha) * snd prev i + alpha * snd cur i).

(** A linear problem: residual A u + C v - F with Jacobians A and C. *)
Definition linear_ppde {Z} (n : nat) (p : ppde K Z) (z : Z) (A C : matr K) (F : vect K) : Prop :=
  forall u v, (forall i, i < n -> pp_value p u v z i = mv n A u i + mv n C v i - F i) /\
              (forall i j, i < n -> j < n -> pp_gradient_u p u v z i j = A i j) /\
              (forall i j, i < n -> j < n -> pp_gradient_v p u v z i j = C i j).

(** (du, dv, dp): variations of a history of N states and rates (initial state fixed) and of np parameters
    that keep the equations of every step: the prescribed values, the linearised residual at the free dofs, and the
    trapezoid rule. JU, JV, RP: Jacobians of the residual of step k. *)
Definition history_tangent (N n np : nat) (dofs : list nat) (alpha dt : K) (JU JV RP : nat -> matr K)
    (du dv : nat -> vect K) (dp : vect K) : Prop :=
  (forall i, i < n -> du 0%nat i = 0 /\ dv 0%nat i = 0) /\
  (forall k, 1 <= k < N ->
     (forall d, In d dofs -> du k d = 0) /\
     (forall i, i < n -> ~ In i dofs -> mv n (JU k) (du k) i + mv n (JV k) (dv k) i + mv np (RP k) dp i = 0) /\
     trapezoid n alpha dt (du (k - 1)%nat, dv (k - 1)%nat) (du k, dv k)).

(** [g] is the total derivative of a criterion of the whole history with partial derivatives fu k, fv k (with respect
    to the state and rate of step k) and fp. *)
Definition history_gradient (N n np : nat) (dofs : list nat) (alpha dt : K) (JU JV RP : nat -> matr K)
    (fu fv : nat -> vect K) (fp g : vect K) : Prop :=
  forall du dv dp, history_tangent N n np dofs alpha dt JU JV RP du dv dp ->
    dot np g dp = dot np fp dp + lsum (map (fun k => dot n (fu k) (du k) + dot n (fv k) (dv k)) (seq 1 (N - 1))).
End K.
