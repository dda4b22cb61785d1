(** Bounds-checked views: a [Kokkos::View] of rank one is a list; reading uses
    [nth_error], writing uses [upd]; [None] is an access out of bounds
    (undefined behaviour in the C++ code). *)
From Coq Require Import Arith Lia List.
Import ListNotations.

Section Upd.
Context {A : Type}.

Fixpoint upd (l : list A) (i : nat) (v : A) : option (list A) :=
  match l, i with
  | [], _ => None
  | _ :: t, O => Some (v :: t)
  | x :: t, S i' => match upd t i' v with Some t' => Some (x :: t') | None => None end
  end.

Lemma upd_some l i v : i < length l -> exists l', upd l i v = Some l'.
Proof.
  revert i; induction l as [|x l IH]; intros [|i] H; simpl in *; try lia; eauto.
  destruct (IH i) as [l' ->]; [lia|]. eauto.
Qed.

Lemma upd_length l i v l' : upd l i v = Some l' -> length l' = length l.
Proof.
  revert i l'; induction l as [|x l IH]; intros [|i] l' H; simpl in *; try discriminate.
  - inversion H; reflexivity.
  - destruct (upd l i v) eqn:E; [|discriminate]. inversion H; subst. simpl. erewrite IH; eauto.
Qed.

Lemma upd_bound l i v l' : upd l i v = Some l' -> i < length l.
Proof.
  revert i l'; induction l as [|x l IH]; intros [|i] l' H; simpl in *; try discriminate; try lia.
  destruct (upd l i v) eqn:E; [|discriminate]. apply IH in E. lia.
Qed.

Lemma upd_nth_same l i v l' : upd l i v = Some l' -> nth_error l' i = Some v.
Proof.
  revert i l'; induction l as [|x l IH]; intros [|i] l' H; simpl in *; try discriminate.
  - inversion H; reflexivity.
  - destruct (upd l i v) eqn:E; [|discriminate]. inversion H; subst. simpl. eauto.
Qed.

Lemma upd_nth_other l i v l' j :
  upd l i v = Some l' -> j <> i -> nth_error l' j = nth_error l j.
Proof.
  revert i l' j; induction l as [|x l IH]; intros [|i] l' j H Hj; simpl in *; try discriminate.
  - inversion H; subst. destruct j; [lia|reflexivity].
  - destruct (upd l i v) eqn:E; [|discriminate]. inversion H; subst.
    destruct j as [|j]; [reflexivity|]. simpl. eapply IH; eauto.
Qed.

Lemma upd_nth l i v l' j d :
  upd l i v = Some l' -> nth j l' d = if Nat.eqb j i then v else nth j l d.
Proof.
  intros H. destruct (Nat.eqb_spec j i) as [->|Hne].
  - apply nth_error_nth. eapply upd_nth_same; eauto.
  - pose proof (upd_nth_other _ _ _ _ _ H Hne) as E.
    destruct (nth_error l j) eqn:E1.
    + rewrite (nth_error_nth _ _ _ E1). apply nth_error_nth. congruence.
    + apply nth_error_None in E. rewrite nth_overflow by lia.
      apply nth_error_None in E1. rewrite nth_overflow by lia. reflexivity.
Qed.

Lemma nth_error_some_nth (l : list A) i d : i < length l -> nth_error l i = Some (nth i l d).
Proof.
  revert i; induction l as [|x l IH]; intros [|i] H; simpl in *; try lia; [reflexivity|].
  apply IH. lia.
Qed.

(** Rows of a compressed layout. *)
Definition range (a b : nat) : list nat := seq a (b - a).

Lemma in_range a b i : In i (range a b) <-> a <= i < b.
Proof. unfold range. rewrite in_seq. lia. Qed.

Lemma list_eq_nth (l l' : list A) :
  length l = length l' -> (forall i, i < length l -> nth_error l i = nth_error l' i) -> l = l'.
Proof.
  revert l'; induction l as [|x l IH]; intros [|y l'] Hl H; simpl in *; try discriminate; [reflexivity|].
  pose proof (H 0 ltac:(lia)) as H0. simpl in H0. inversion H0; subst. f_equal.
  apply IH; [lia|]. intros i Hi. apply (H (S i)). lia.
Qed.

End Upd.

(** Monadic helpers for possibly-faulting code. *)
Definition obind {A B} (o : option A) (f : A -> option B) : option B :=
  match o with Some x => f x | None => None end.
Notation "'do' x <- o ; k" := (obind o (fun x => k))
  (at level 200, x pattern, o at level 100, k at level 200).

(** Sequential loop over a list of indices with possible fault. *)
Fixpoint forM {S I} (l : list I) (body : I -> S -> option S) (s : S) : option S :=
  match l with
  | [] => Some s
  | i :: l' => obind (body i s) (forM l' body)
  end.

Lemma forM_app {S I} (l1 l2 : list I) (body : I -> S -> option S) s :
  forM (l1 ++ l2) body s = obind (forM l1 body s) (forM l2 body).
Proof.
  revert s; induction l1 as [|i l1 IH]; intros s; simpl; [reflexivity|].
  destruct (body i s); simpl; [apply IH|reflexivity].
Qed.

(** Loop rule: an invariant indexed by the work already done. *)
Lemma forM_inv {S I} (body : I -> S -> option S) (P : list I -> S -> Prop) l s :
  P [] s ->
  (forall l1 i l2 s, l = l1 ++ i :: l2 -> P l1 s ->
     exists s', body i s = Some s' /\ P (l1 ++ [i]) s') ->
  exists s', forM l body s = Some s' /\ P l s'.
Proof.
  intros H0 Hstep.
  assert (Hgen : forall l2 l1 s, l = l1 ++ l2 -> P l1 s ->
            exists s', forM l2 body s = Some s' /\ P l s').
  { induction l2 as [|i l2 IH]; intros l1 s1 E HP.
    - rewrite app_nil_r in E. subst. exists s1. split; [reflexivity|exact HP].
    - destruct (Hstep l1 i l2 s1 E HP) as [s2 [E2 HP2]].
      simpl. rewrite E2. simpl. apply (IH (l1 ++ [i])); [|exact HP2].
      rewrite <- app_assoc. exact E. }
  apply (Hgen l [] s); [reflexivity|exact H0].
Qed.
