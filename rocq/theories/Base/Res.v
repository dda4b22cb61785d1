(** Outcome of running a piece of C++: a value, an exception (or a Teuchos /
    Plato error report), or undefined behaviour (out-of-bounds access,
    uninitialised read, ...). *)
From Coq Require Import List Permutation.
Import ListNotations.

Inductive res (A : Type) : Type :=
| Ok (a : A)
| Throw
| UB.
Arguments Ok {A} a. Arguments Throw {A}. Arguments UB {A}.

Definition rbind {A B} (o : res A) (f : A -> res B) : res B :=
  match o with Ok x => f x | Throw => Throw | UB => UB end.
Notation "'let!' x := o 'in' k" := (rbind o (fun x => k))
  (at level 200, x pattern, o at level 100, k at level 200).

(** A bounds-checked access used where a fault is undefined behaviour. *)
Definition ub {A} (o : option A) : res A :=
  match o with Some x => Ok x | None => UB end.

Fixpoint mapR {A B} (f : A -> res B) (l : list A) : res (list B) :=
  match l with
  | [] => Ok []
  | x :: l' => let! y := f x in let! ys := mapR f l' in Ok (y :: ys)
  end.

Fixpoint foldR {A S} (f : A -> S -> res S) (l : list A) (s : S) : res S :=
  match l with
  | [] => Ok s
  | x :: l' => let! s' := f x s in foldR f l' s'
  end.

Lemma foldR_app {A S} (f : A -> S -> res S) l1 l2 s :
  foldR f (l1 ++ l2) s = rbind (foldR f l1 s) (foldR f l2).
Proof.
  revert s; induction l1 as [|x l1 IH]; intros s; simpl; [reflexivity|].
  destruct (f x s); simpl; [apply IH|reflexivity|reflexivity].
Qed.

Lemma foldR_inv {A S} (f : A -> S -> res S) (P : list A -> S -> Prop) l s :
  P [] s ->
  (forall l1 x l2 s, l = l1 ++ x :: l2 -> P l1 s -> exists s', f x s = Ok s' /\ P (l1 ++ [x]) s') ->
  exists s', foldR f l s = Ok s' /\ P l s'.
Proof.
  intros H0 Hstep.
  assert (Hgen : forall l2 l1 s, l = l1 ++ l2 -> P l1 s -> exists s', foldR f l2 s = Ok s' /\ P l s').
  { induction l2 as [|x l2 IH]; intros l1 s1 E HP.
    - rewrite app_nil_r in E. subst. exists s1. split; [reflexivity|exact HP].
    - destruct (Hstep l1 x l2 s1 E HP) as [s2 [E2 HP2]].
      simpl. rewrite E2. simpl. apply (IH (l1 ++ [x])); [|exact HP2].
      rewrite <- app_assoc. exact E. }
  apply (Hgen l [] s); [reflexivity|exact H0].
Qed.

(** A schedule of a parallel loop whose work items are taken as atomic:
    for each trip count, some order of the indices. *)
Definition schedule := nat -> list nat.
Definition fair (sched : schedule) : Prop := forall n, Permutation (sched n) (seq 0 n).
