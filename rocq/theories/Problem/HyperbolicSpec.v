(** Specification side of the dynamics problem. *)
From Coq Require Import Arith List.
From Verif Require Import Base.Field Base.Sums Problem.DenseBC Problem.HyperbolicModel.
Import ListNotations.

Section K.
Context {K : CField}.
Local Open Scope K_scope.

(** The Newmark update formulas between two consecutive steps, at the first n dofs. *)
Definition newmark (n : nat) (gamma beta dt : K) (p s : hstate K) : Prop :=
  forall i, i < n ->
    hu s i = hu p i + dt * hv p i + dt * dt / two * ((1 - two * beta) * ha p i + two * beta * ha s i) /\
    hv s i = hv p i + dt * ((1 - gamma) * ha p i + gamma * ha s i).

(** A linear problem: residual M a + C v + K u - F(t). *)
Definition linear_hpde {Z} (n : nat) (p : hpde K Z) (z : Z) (A C M : matr K) (F : K -> vect K) : Prop :=
  forall s t, (forall i, i < n -> hp_value p s z t i = mv n M (ha s) i + mv n C (hv s) i + mv n A (hu s) i - F t i) /\
              (forall i j, i < n -> j < n -> hp_gradient_u p s z t i j = A i j) /\
              (forall i j, i < n -> j < n -> hp_gradient_v p s z t i j = C i j) /\
              (forall i j, i < n -> j < n -> hp_gradient_a p s z t i j = M i j).

(** Twice the mechanical energy: v.Mv + u.Ku. *)
Definition energy2 (n : nat) (A M : matr K) (s : hstate K) : K := dot n (hv s) (mv n M (hv s)) + dot n (hu s) (mv n A (hu s)).

(** Variations of a history (initial state fixed) and of np parameters that keep the equations of every step. *)
Definition hhistory_tangent (N n np : nat) (dofs : list nat) (gamma beta dt : K) (JU JV JA RP : nat -> matr K)
    (ds : nat -> hstate K) (dp : vect K) : Prop :=
  (forall i, i < n -> hu (ds 0%nat) i = 0 /\ hv (ds 0%nat) i = 0 /\ ha (ds 0%nat) i = 0) /\
  (forall k, 1 <= k < N ->
     (forall d, In d dofs -> hu (ds k) d = 0) /\
     (forall i, i < n -> ~ In i dofs ->
        mv n (JU k) (hu (ds k)) i + mv n (JV k) (hv (ds k)) i + mv n (JA k) (ha (ds k)) i + mv np (RP k) dp i = 0) /\
     newmark n gamma beta dt (ds (k - 1)%nat) (ds k)).

(** [g] is the total derivative of a criterion of the whole history with partial derivatives fu k, fv k, fa k, fp. *)
Definition hhistory_gradient (N n np : nat) (dofs : list nat) (gamma beta dt : K) (JU JV JA RP : nat -> matr K)
    (fu fv fa : nat -> vect K) (fp g : vect K) : Prop :=
  forall ds dp, hhistory_tangent N n np dofs gamma beta dt JU JV JA RP ds dp ->
    dot np g dp = dot np fp dp +
      lsum (map (fun k => dot n (fu k) (hu (ds k)) + dot n (fv k) (hv (ds k)) + dot n (fa k) (ha (ds k))) (seq 1 (N - 1))).
End K.
