(** Exact solvers for one and two unknowns, used to show that the hypotheses on the solver can be met. *)
From Coq Require Import Arith Lia List Ring Field.
From Verif Require Import Base.Field Base.Sums BC.ConstraintsSpec Problem.DenseBC.
Import ListNotations.

Section F.
Context {K : CField}.
Add Field KfieldSS : (f_th K).
Local Open Scope K_scope.

Definition solver1 : @solver K := fun A b _ => fdiv (b 0%nat) (A 0%nat 0%nat).
Definition solver2 : @solver K := fun A b i =>
  let det := A 0%nat 0%nat * A 1%nat 1%nat - A 0%nat 1%nat * A 1%nat 0%nat in
  match i with
  | O => fdiv (b 0%nat * A 1%nat 1%nat - A 0%nat 1%nat * b 1%nat) det
  | _ => fdiv (A 0%nat 0%nat * b 1%nat - A 1%nat 0%nat * b 0%nat) det
  end.

Lemma one_neq_zero : (1 : K) <> 0.
Proof. exact (F_1_neq_0 (f_th K)). Qed.

Lemma solver1_ok : solver_ok 1 solver1.
Proof.
  intros A b [B HB] i Hi. assert (i = 0)%nat as -> by lia. specialize (HB 0%nat 0%nat ltac:(lia) ltac:(lia)).
  unfold mm in HB. simpl in HB. unfold mv, solver1. simpl. field.
  intros E. apply one_neq_zero. rewrite <- HB, E. ring.
Qed.

Lemma solver2_ok : solver_ok 2 solver2.
Proof.
  intros A b [B HB].
  pose proof (HB 0 0 ltac:(lia) ltac:(lia))%nat as H00. pose proof (HB 0 1 ltac:(lia) ltac:(lia))%nat as H01.
  pose proof (HB 1 0 ltac:(lia) ltac:(lia))%nat as H10. pose proof (HB 1 1 ltac:(lia) ltac:(lia))%nat as H11.
  unfold mm in *. simpl in *.
  assert (Hdet : A 0%nat 0%nat * A 1%nat 1%nat - A 0%nat 1%nat * A 1%nat 0%nat <> 0).
  { intros E. apply one_neq_zero.
    transitivity ((A 0%nat 0%nat * A 1%nat 1%nat - A 0%nat 1%nat * A 1%nat 0%nat) * (B 0%nat 0%nat * B 1%nat 1%nat - B 0%nat 1%nat * B 1%nat 0%nat)).
    - transitivity ((0 + A 0%nat 0%nat * B 0%nat 0%nat + A 0%nat 1%nat * B 1%nat 0%nat) * (0 + A 1%nat 0%nat * B 0%nat 1%nat + A 1%nat 1%nat * B 1%nat 1%nat)
        - (0 + A 0%nat 0%nat * B 0%nat 1%nat + A 0%nat 1%nat * B 1%nat 1%nat) * (0 + A 1%nat 0%nat * B 0%nat 0%nat + A 1%nat 1%nat * B 1%nat 0%nat)).
      + rewrite H00, H01, H10, H11. ring.
      + ring.
    - rewrite E. ring. }
  intros i Hi. unfold mv, solver2. destruct i as [|[|i]]; [| |lia]; simpl; field; exact Hdet.
Qed.

(** Two by two matrices with nonzero determinant are nonsingular. *)
Lemma nonsingular2 (A : matr K) : A 0%nat 0%nat * A 1%nat 1%nat - A 0%nat 1%nat * A 1%nat 0%nat <> 0 -> nonsingular 2 A.
Proof.
  intros Hdet. set (det := A 0%nat 0%nat * A 1%nat 1%nat - A 0%nat 1%nat * A 1%nat 0%nat) in *.
  exists (fun i j => match i, j with
    | O, O => fdiv (A 1%nat 1%nat) det | O, _ => fdiv (- A 0%nat 1%nat) det
    | _, O => fdiv (- A 1%nat 0%nat) det | _, _ => fdiv (A 0%nat 0%nat) det end).
  intros i j Hi Hj. unfold mm, det in *.
  destruct i as [|[|i]]; [| |lia]; (destruct j as [|[|j]]; [| |lia]); simpl; field; exact Hdet.
Qed.

Lemma nonsingular1 (A : matr K) : A 0%nat 0%nat <> 0 -> nonsingular 1 A.
Proof.
  intros H. exists (fun _ _ => finv (A 0%nat 0%nat)). intros i j Hi Hj.
  assert (i = 0)%nat as -> by lia. assert (j = 0)%nat as -> by lia. unfold mm. simpl. field. exact H.
Qed.
End F.
