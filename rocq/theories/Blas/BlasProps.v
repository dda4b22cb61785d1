(** Properties of the dense algebra of BLAS1, BLAS2 and BLAS3 (C10, C11). *)
From Coq Require Import ZArith Arith Lia List Bool Permutation Ascii.
From Verif Require Import Base.Field Base.Sums Base.Res Base.Loops Blas.View Blas.BlasModel Blas.BlasSpec Blas.BlasProof.
Import ListNotations.
Local Open Scope K_scope.

(** ** C10 *)

(** y := b y + a A x in every cell: the first [R] entries of each cell of y are updated, nothing else changes. *)
Theorem C10_matrix_times_vector :
  forall (K : CRing) sched t (a b : K) (A x y : view K) (n R C X Y : nat),
    fair sched -> t = "N"%char \/ t = "n"%char ->
    extents A = [n; R; C] -> extents x = [n; X] -> extents y = [n; Y] ->
    (0 < n)%nat -> (0 < R)%nat -> (0 < C)%nat -> (C <= X)%nat -> (R <= Y)%nat ->
    exists y', matrix_times_vector sched t a A x b y = Ok y' /\
      changed y y' (at2 n R) (fun j e => b * e + sum C (fun k => a * content A [e0 j; e1 j; k] * content x [e0 j; k])).
Proof. intros. apply (mtv_N_ok sched t a b A x y n R C X Y); auto. destruct H0 as [->| ->]; reflexivity. Qed.
Print Assumptions C10_matrix_times_vector.

(** y := b y + a A^T x in every cell. *)
Theorem C10_matrix_times_vector_transpose :
  forall (K : CRing) sched t (a b : K) (A x y : view K) (n R C X Y : nat),
    fair sched -> t = "T"%char \/ t = "t"%char ->
    extents A = [n; R; C] -> extents x = [n; X] -> extents y = [n; Y] ->
    (0 < n)%nat -> (0 < R)%nat -> (0 < C)%nat -> (R <= X)%nat -> (C <= Y)%nat ->
    exists y', matrix_times_vector sched t a A x b y = Ok y' /\
      changed y y' (at2 n C) (fun j e => b * e + sum R (fun r => a * content A [e0 j; r; e1 j] * content x [e0 j; r])).
Proof. intros. apply (mtv_T_ok sched t a b A x y n R C X Y); auto; destruct H0 as [->| ->]; reflexivity. Qed.
Print Assumptions C10_matrix_times_vector_transpose.

(** C := b C + a A B in every cell. *)
Theorem C10_multiply :
  forall (K : CRing) sched (a b : K) (A B C : view K) (n R I Q : nat),
    fair sched -> extents A = [n; R; I] -> extents B = [n; I; Q] -> extents C = [n; R; Q] ->
    (0 < n)%nat -> (0 < R)%nat -> (0 < I)%nat -> (0 < Q)%nat ->
    exists C', multiply3 sched n a A B b C = Ok C' /\
      changed C C' (at3 n R Q) (fun j e => b * e + sum I (fun m => a * content A [e0 j; e1 j; m] * content B [e0 j; m; e2 j])).
Proof. exact (@multiply3_ok). Qed.
Print Assumptions C10_multiply.

(** B := a A + b B in the first n cells. *)
Theorem C10_update3 :
  forall (K : CRing) sched (a b : K) (A B : view K) (n nA nB P Q : nat),
    fair sched -> extents A = [nA; P; Q] -> extents B = [nB; P; Q] ->
    (0 < n)%nat -> (0 < P)%nat -> (0 < Q)%nat -> (n <= nA)%nat -> (n <= nB)%nat ->
    exists B', update3 sched n a A b B = Ok B' /\ changed B B' (at3 n P Q) (fun j e => a * content A j + b * e).
Proof. exact (@update3_ok). Qed.
Print Assumptions C10_update3.

Theorem C10_identity_and_fill3 :
  forall (K : CRing) sched (a : K) (M : view K) (n m P Q R C : nat),
    fair sched -> extents M = [n; P; Q] -> (0 < m)%nat -> (m <= n)%nat -> (0 < P)%nat -> (0 < Q)%nat -> (R <= P)%nat -> (C <= Q)%nat ->
    (exists M', identity3 R C sched n M = Ok M' /\ changed M M' (at3 n R C) (fun j _ => if Nat.eqb (e1 j) (e2 j) then 1 else 0)) /\
    (exists M', fill3 R C sched m a M = Ok M' /\ changed M M' (at3 m R C) (fun _ _ => a)).
Proof.
  intros. split; [apply (identity3_ok R C sched M n P Q); auto; lia|apply (fill3_ok R C sched a M n m P Q); auto].
Qed.
Print Assumptions C10_identity_and_fill3.

(** The two-dimensional operations. *)
Theorem C10_update2 :
  forall (K : CRing) sched (a b : K) (x y : view K) (n M : nat),
    fair sched -> extents x = [n; M] -> extents y = [n; M] ->
    exists y', update2 sched a x b y = Ok y' /\ changed y y' (at2 n M) (fun j e => a * content x j + b * e).
Proof. exact (@update2_ok). Qed.
Print Assumptions C10_update2.

Theorem C10_fill2_scale2 :
  forall (K : CRing) sched (a : K) (x : view K) (n M : nat),
    fair sched -> extents x = [n; M] -> (0 < n)%nat -> (0 < M)%nat ->
    (exists x', fill2 sched a x = Ok x' /\ changed x x' (at2 n M) (fun _ _ => a)) /\
    (exists x', scale2 sched a x = Ok x' /\ changed x x' (at2 n M) (fun _ e => a * e)).
Proof. intros. split; [apply fill2_ok|apply scale2_ok]; assumption. Qed.
Print Assumptions C10_fill2_scale2.

(** Strided axpy: entry i of each input cell goes to dof [off] of node i of the output cell. *)
Theorem C10_axpy2 :
  forall (K : CRing) (D off : nat) sched (a : K) (inp out : view K) (n M MO : nat),
    fair sched -> extents inp = [n; M] -> extents out = [n; MO] ->
    (0 < n)%nat -> (0 < M)%nat -> (off < D)%nat -> (D * M <= MO)%nat ->
    exists out', axpy2 D off sched a inp out = Ok out' /\ extents out' = extents out /\
      (forall c i, (c < n)%nat -> (i < M)%nat ->
         content out' [c; (D * i + off)%nat] = a * content out [c; (D * i + off)%nat] + content inp [c; i]) /\
      (forall j, (forall c i, (c < n)%nat -> (i < M)%nat -> j <> [c; (D * i + off)%nat]) -> content out' j = content out j).
Proof. exact (@axpy2_ok). Qed.
Print Assumptions C10_axpy2.

(** The one-dimensional operations. *)
Theorem C10_vectors :
  forall (K : CRing) sched (a b : K) (x y : view K) (n : nat),
    fair sched -> extents x = [n] -> extents y = [n] -> (0 < n)%nat ->
    dot1 sched x y = Ok (sum n (fun i => content x [i] * content y [i])) /\
    local_sum sched x = Ok (sum n (fun i => content x [i])) /\
    (exists v, fill1 sched a x = Ok v /\ extents v = [n] /\ forall i, (i < n)%nat -> content v [i] = a) /\
    (exists v, scale1 sched a x = Ok v /\ extents v = [n] /\ forall i, (i < n)%nat -> content v [i] = a * content x [i]) /\
    (exists v, copy1 sched x y = Ok v /\ extents v = [n] /\ forall i, (i < n)%nat -> content v [i] = content x [i]) /\
    (exists v, axpy1 sched a x y = Ok v /\ extents v = [n] /\ forall i, (i < n)%nat -> content v [i] = a * content x [i] + content y [i]) /\
    (exists v, update1 sched a x b y = Ok v /\ extents v = [n] /\ forall i, (i < n)%nat -> content v [i] = a * content x [i] + b * content y [i]).
Proof.
  intros K sched a b x y n Hf Ex Ey Hn.
  split; [apply dot1_ok; assumption|]. split; [apply local_sum_ok; assumption|]. split; [apply fill1_ok; assumption|].
  split; [apply scale1_ok; assumption|]. split; [apply copy1_ok; assumption|]. split; [apply axpy1_ok; assumption|].
  apply update1_ok; assumption.
Qed.
Print Assumptions C10_vectors.

Theorem C10_extract :
  forall (K : CRing) (stride offset : nat) sched (from to : view K) (n m : nat),
    fair sched -> extents from = [m] -> extents to = [n] -> (0 < n)%nat -> ((n - 1) * stride + offset < m)%nat ->
    exists v', extract1 stride offset sched from to = Ok v' /\ extents v' = [n] /\
      forall i, (i < n)%nat -> content v' [i] = content from [(i * stride + offset)%nat].
Proof. exact (@extract1_ok). Qed.
Print Assumptions C10_extract.

(** Arguments of different sizes are rejected. *)
Theorem C10_rejects_mismatch :
  forall (K : CRing) sched (a b : K) (x y A B C : view K) t ncells,
    (vsize x <> vsize y -> dot1 sched x y = Throw /\ copy1 sched x y = Throw /\ axpy1 sched a x y = Throw /\ update1 sched a x b y = Throw) /\
    (extent x 0 <> extent y 0 \/ extent x 1 <> extent y 1 -> update2 sched a x b y = Throw) /\
    (extent A 1 <> extent B 1 \/ extent A 2 <> extent B 2 -> update3 sched ncells a A b B = Throw) /\
    (extent A 0 <> extent x 0 \/ extent A 0 <> extent y 0 \/ (t <> "N" /\ t <> "n" /\ t <> "T" /\ t <> "t")%char ->
       matrix_times_vector sched t a A x b y = Throw) /\
    (extent A 2 <> extent B 1 \/ extent A 1 <> extent C 1 \/ extent B 2 <> extent C 2 \/
       extent A 0 <> ncells \/ extent B 0 <> ncells \/ extent C 0 <> ncells -> multiply3 sched ncells a A B b C = Throw).
Proof.
  assert (Hg : forall (A : Type) (k : res A) c, c = true \/ k = Throw -> guard c k = Throw).
  { intros A k c [->| ->]; [reflexivity|]. destruct c; reflexivity. }
  assert (Hd : forall n m : nat, n <> m -> negb (Nat.eqb n m) = true) by (intros n m H; apply negb_true_iff, Nat.eqb_neq, H).
  intros K sched a b x y A B C t ncells.
  assert (Ht : (t <> "N" /\ t <> "n" /\ t <> "T" /\ t <> "t")%char -> negb (is_N t || is_T t) = true).
  { intros [H1 [H2 [H3 H4]]]. unfold is_N, is_T. apply Ascii.eqb_neq in H1, H2, H3, H4. rewrite H1, H2, H3, H4. reflexivity. }
  split; [|split; [|split; [|split]]].
  - intros H. unfold dot1, copy1, axpy1, update1. rewrite (Hd (vsize y) (vsize x)) by congruence. rewrite (Hd (vsize x) (vsize y)) by exact H. repeat split; reflexivity.
  - intros H. unfold update2. apply Hg. destruct H as [H|H]; [left; apply Hd, H|]. right. apply Hg. left. apply Hd, H.
  - intros H. unfold update3. do 2 (apply Hg; right). destruct H as [H|H]; [apply Hg; left; apply Hd, H|]. apply Hg; right. apply Hg; left; apply Hd, H.
  - intros H. unfold matrix_times_vector. do 3 (apply Hg; right).
    destruct H as [H|H]; [apply Hg; left; apply Hd, H|]. apply Hg; right.
    destruct H as [H|H]; [apply Hg; left; apply Hd, H|]. apply Hg; right. apply Hg. left. apply Ht, H.
  - intros H. unfold multiply3. do 3 (apply Hg; right).
    do 5 (destruct H as [H|H]; [apply Hg; left; apply Hd, H|]; apply Hg; right). apply Hg; left; apply Hd, H.
Qed.
Print Assumptions C10_rejects_mismatch.

(** Concrete case: two cells, 2x3 matrices, transposed, items in reverse order. *)
Definition exv (dims : list nat) (f : list nat -> Z) : view Z_ring := mkView (A := Z_ring) dims f.
Example C10_instance :
  (let! y' := matrix_times_vector (K := Z_ring) (fun n => rev (seq 0 n)) "T" 2%Z
     (exv [2;2;3] (fun j => Z.of_nat (100 * nth 0 j 0 + 10 * nth 1 j 0 + nth 2 j 0)%nat)) (exv [2;2] (fun j => Z.of_nat (1 + nth 1 j 0)%nat)) 3%Z
     (exv [2;3] (fun _ => 1%Z)) in
   Ok (map (content y') [[0;0]; [0;1]; [0;2]; [1;0]; [1;1]; [1;2]]%nat)) = Ok [43; 49; 55; 643; 649; 655]%Z.
Proof. vm_compute. reflexivity. Qed.

(** ** C11 *)

(** Whenever the list of ordinals is shorter than the vector, the call reads past the end of
    the list, although every listed ordinal is valid. *)
Theorem C11_fill_refuted :
  forall (K : CRing) sched (mult : K) (ords : view nat) (vals out : view K) (n m : nat),
    fair sched -> extents ords = [m] -> extents vals = [m] -> extents out = [n] -> (0 < m)%nat -> (m < n)%nat ->
    (forall i, (i < m)%nat -> (content ords [i] < n)%nat) ->
    fill_ordinals sched mult ords vals out = UB.
Proof. exact (@fill_ordinals_short). Qed.
Print Assumptions C11_fill_refuted.

(** When the list has as many (distinct, valid) ordinals as the vector has entries, the call does what it says.
    Missing with respect to C11: shorter lists (refuted above) and longer lists with repetitions. *)
Theorem C11_fill_partial :
  forall (K : CRing) sched (mult : K) (ords : view nat) (vals out : view K) (n : nat),
    fair sched -> extents ords = [n] -> extents vals = [n] -> extents out = [n] -> (0 < n)%nat ->
    (forall i, (i < n)%nat -> (content ords [i] < n)%nat) ->
    (forall i k, (i < n)%nat -> (k < n)%nat -> content ords [i] = content ords [k] -> i = k) ->
    exists out', fill_ordinals sched mult ords vals out = Ok out' /\ extents out' = [n] /\
      (forall i, (i < n)%nat -> content out' [content ords [i]] = mult * content vals [i]).
Proof. intros. apply (fill_ordinals_ok sched mult ords vals out n n); auto. Qed.
Print Assumptions C11_fill_partial.

(** Concrete case of the defect: setting entry 2 of a vector of 3 zeros. *)
Example C11_instance :
  fill_ordinals (K := Z_ring) (fun n => seq 0 n) 1%Z (mkView (A := nat) [1]%nat (fun _ => 2%nat)) (exv [1]%nat (fun _ => 5%Z)) (exv [3]%nat (fun _ => 0%Z)) = UB.
Proof. vm_compute. reflexivity. Qed.
Example C11_partial_instance :
  (let! v := fill_ordinals (K := Z_ring) (fun n => seq 0 n) 2%Z (mkView (A := nat) [3]%nat (fun j => 2 - nth 0 j 0)%nat) (exv [3]%nat (fun j => Z.of_nat (nth 0 j 0%nat)))
    (exv [3]%nat (fun _ => 0%Z)) in Ok (map (content v) [[0];[1];[2]]%nat)) = Ok [4;2;0]%Z.
Proof. vm_compute. reflexivity. Qed.
