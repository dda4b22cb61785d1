(** Small facts on loops used by several proofs. *)
From Coq Require Import Arith Lia List Permutation Ring.
From Verif Require Import Base.Field Base.Sums Base.ListUpd Base.Res Base.Scatter.
Import ListNotations.

Lemma foldR_ext_in {A S} (f g : A -> S -> res S) l : 
  (forall x s, In x l -> f x s = g x s) -> forall s, foldR f l s = foldR g l s.
Proof.
  induction l as [|x l IH]; intros H s; simpl; [reflexivity|].
  rewrite H by (left; reflexivity). destruct (g x s); simpl; auto.
  apply IH. intros; apply H; right; assumption.
Qed.

Lemma mapR_ok {A B} (f : A -> res B) (g : A -> B) l :
  (forall x, In x l -> f x = Ok (g x)) -> mapR f l = Ok (map g l).
Proof.
  induction l as [|x l IH]; intros H; simpl; [reflexivity|].
  rewrite H by (left; reflexivity). rewrite IH by (intros; apply H; right; assumption). reflexivity.
Qed.

Lemma fair_in sched n i : fair sched -> (In i (sched n) <-> i < n).
Proof.
  intros Hf. split; intros H.
  - apply (Permutation_in _ (Hf n)) in H. apply in_seq in H. lia.
  - apply (Permutation_in _ (Permutation_sym (Hf n))). apply in_seq. lia.
Qed.

Lemma range_seq a m : range a (a + m) = seq a m.
Proof. unfold range. f_equal. lia. Qed.

Lemma seq_map_add a m : seq a m = map (fun k => a + k) (seq 0 m).
Proof.
  revert a; induction m as [|m IH]; intros a; simpl; [reflexivity|].
  rewrite Nat.add_0_r. f_equal. rewrite (IH (S a)), (IH 1), map_map.
  apply map_ext. intros; lia.
Qed.

Lemma map_seq_shift {A} (f : nat -> A) a m : map f (seq a m) = map (fun k => f (a + k)) (seq 0 m).
Proof. rewrite (seq_map_add a m), map_map. reflexivity. Qed.

Section K.
Context {K : CRing}.
Add Ring KringLoops : (r_th K).
Local Open Scope K_scope.

Lemma foldR_accum {A} (f : A -> K) l s :
  foldR (fun x s => Ok (s + f x)) l s = Ok (s + lsum (map f l)).
Proof.
  revert s; induction l as [|x l IH]; intros s; simpl; [f_equal; ring|].
  rewrite IH. f_equal. ring.
Qed.

(** A loop all of whose items are scattered additions is one scattered addition. *)
Lemma foldR_add_all {I} (f : I -> list K -> res (list K)) (w : I -> list (nat * K)) l :
  forall v,
  (forall i v', In i l -> length v' = length v -> f i v' = add_all (w i) v') ->
  (forall i p x, In i l -> In (p, x) (w i) -> p < length v) ->
  foldR f l v = add_all (flat_map w l) v.
Proof.
  induction l as [|i l IH]; intros v Hf Hb; simpl; [reflexivity|].
  rewrite add_all_app, Hf by (auto; left; reflexivity).
  destruct (add_all_spec (w i) v) as [v1 [E [L _]]]; [intros p x H; apply (Hb i p x); [left; reflexivity|exact H]|].
  rewrite E. simpl. apply IH.
  - intros j v' Hj Hl. apply Hf; [right; exact Hj|congruence].
  - intros j p x Hj Hin. rewrite L. apply (Hb j p x); [right; exact Hj|exact Hin].
Qed.

Lemma add_all_single p (x : K) v : add_all [(p, x)] v = add_at v p x.
Proof. unfold add_all; simpl. destruct (add_at v p x); reflexivity. Qed.

Lemma lsum_map_seq_shift a m (f : nat -> K) : lsum (map f (seq a m)) = sum m (fun k => f (a + k)%nat).
Proof. rewrite map_seq_shift. apply lsum_map_seq. Qed.

Lemma lsum_fair sched n (f : nat -> K) : fair sched -> lsum (map f (sched n)) = sum n f.
Proof.
  intros Hf. rewrite (lsum_perm _ (map f (seq 0 n))) by (apply Permutation_map, Hf). apply lsum_map_seq.
Qed.
End K.
