(** Scattered writes and scattered additions into a bounds-checked view, in any order. *)
From Coq Require Import Arith Lia List Permutation Ring.
From Verif Require Import Base.Field Base.Sums Base.ListUpd Base.Res.
Import ListNotations.

Section Write.
Context {A : Type}.

(** Perform the writes (position, value) one after the other. *)
Definition write_all (ws : list (nat * A)) (v : list A) : res (list A) :=
  foldR (fun w v => ub (upd v (fst w) (snd w))) ws v.

Lemma write_all_app w1 w2 v : write_all (w1 ++ w2) v = rbind (write_all w1 v) (write_all w2).
Proof. apply foldR_app. Qed.

Lemma write_all_spec ws v :
  (forall p x, In (p, x) ws -> p < length v) ->
  (forall p x y, In (p, x) ws -> In (p, y) ws -> x = y) ->
  exists v', write_all ws v = Ok v' /\ length v' = length v /\
    (forall p x, In (p, x) ws -> nth_error v' p = Some x) /\
    (forall p, (forall x, ~ In (p, x) ws) -> nth_error v' p = nth_error v p).
Proof.
  intros Hb Hc.
  destruct (foldR_inv (fun w v => ub (upd v (fst w) (snd w)))
    (fun l1 v' => length v' = length v /\
       (forall p x, In (p, x) l1 -> nth_error v' p = Some x) /\
       (forall p, (forall x, ~ In (p, x) l1) -> nth_error v' p = nth_error v p)) ws v) as [v' [E [H1 [H2 H3]]]].
  - repeat split; auto; contradiction.
  - intros l1 [p x] l2 v1 El [H1 [H2 H3]]. simpl.
    assert (Hp : p < length v1).
    { rewrite H1. apply (Hb p x). rewrite El. apply in_or_app. right. left. reflexivity. }
    destruct (upd_some v1 p x Hp) as [v2 E2]. rewrite E2. simpl. exists v2. split; [reflexivity|].
    split; [rewrite (upd_length _ _ _ _ E2); exact H1|]. split.
    + intros q y Hin. destruct (Nat.eq_dec q p) as [->|Hne].
      * rewrite (upd_nth_same _ _ _ _ E2). f_equal. apply (Hc p).
        -- rewrite El. apply in_or_app. right. left. reflexivity.
        -- rewrite El. apply in_app_iff in Hin as [Hin|[Hin|[]]]; apply in_or_app; [left; exact Hin|right; left; exact Hin].
      * rewrite (upd_nth_other _ _ _ _ _ E2) by exact Hne. apply H2.
        apply in_app_iff in Hin as [Hin|[Hin|[]]]; [exact Hin|]. inversion Hin; congruence.
    + intros q Hq. assert (q <> p).
      { intros ->. apply (Hq x). apply in_or_app. right. left. reflexivity. }
      rewrite (upd_nth_other _ _ _ _ _ E2) by assumption. apply H3.
      intros y Hy. apply (Hq y). apply in_or_app. left. exact Hy.
  - exists v'. auto.
Qed.

(** A parallel loop whose items only write, computed from data they do not modify. *)
Definition par_write (sched : schedule) (n : nat) (item : nat -> res (list (nat * A))) (v : list A)
  : res (list A) :=
  foldR (fun i v => let! ws := item i in write_all ws v) (sched n) v.

Lemma par_write_flat sched n item ws v :
  fair sched -> (forall i, i < n -> item i = Ok (ws i)) ->
  par_write sched n item v = write_all (flat_map ws (sched n)) v.
Proof.
  intros Hf Hi. unfold par_write.
  assert (Hb : forall i, In i (sched n) -> i < n).
  { intros i H. apply (Permutation_in _ (Hf n)) in H. apply in_seq in H. lia. }
  revert v. induction (sched n) as [|i l IH]; intros v; simpl; [reflexivity|].
  rewrite Hi by (apply Hb; left; reflexivity). simpl. rewrite write_all_app.
  destruct (write_all (ws i) v); simpl; [|reflexivity|reflexivity].
  apply IH. intros; apply Hb; right; assumption.
Qed.

Lemma par_write_spec sched n item ws v :
  fair sched -> (forall i, i < n -> item i = Ok (ws i)) ->
  (forall i p x, i < n -> In (p, x) (ws i) -> p < length v) ->
  (forall i j p x y, i < n -> j < n -> In (p, x) (ws i) -> In (p, y) (ws j) -> x = y) ->
  exists v', par_write sched n item v = Ok v' /\ length v' = length v /\
    (forall i p x, i < n -> In (p, x) (ws i) -> nth_error v' p = Some x) /\
    (forall p, (forall i x, i < n -> ~ In (p, x) (ws i)) -> nth_error v' p = nth_error v p).
Proof.
  intros Hf Hi Hb Hc. rewrite (par_write_flat _ _ _ ws) by assumption.
  assert (Hin : forall p x, In (p, x) (flat_map ws (sched n)) <-> exists i, i < n /\ In (p, x) (ws i)).
  { intros p x. rewrite in_flat_map. split; intros [i [H1 H2]]; exists i; (split; [|exact H2]).
    - apply (Permutation_in _ (Hf n)) in H1. apply in_seq in H1. lia.
    - apply (Permutation_in _ (Permutation_sym (Hf n))). apply in_seq. lia. }
  destruct (write_all_spec (flat_map ws (sched n)) v) as [v' [E [H1 [H2 H3]]]].
  - intros p x H. apply Hin in H as [i [H1 H2]]. eauto.
  - intros p x y Hx Hy. apply Hin in Hx as [i [Hi1 Hx]]. apply Hin in Hy as [j [Hj Hy]]. eauto.
  - exists v'. split; [exact E|]. split; [exact H1|]. split.
    + intros i p x Hi1 Hx. apply H2. apply Hin. eauto.
    + intros p Hp. apply H3. intros x Hx. apply Hin in Hx as [i [Hi1 Hx]]. eapply Hp; eauto.
Qed.
End Write.

Section AddS.
Context {K : CRing}.
Add Ring KringS : (r_th K).
Local Open Scope K_scope.

(** v(p) += x *)
Definition add_at (v : list K) (p : nat) (x : K) : res (list K) :=
  let! y := ub (nth_error v p) in ub (upd v p (y + x)).

(** Perform the additions (position, amount) one after the other. *)
Definition add_all (ws : list (nat * K)) (v : list K) : res (list K) :=
  foldR (fun w v => add_at v (fst w) (snd w)) ws v.

Definition amount (p : nat) (ws : list (nat * K)) : K :=
  lsum (map (fun w => if Nat.eqb (fst w) p then snd w else 0) ws).

Lemma amount_app p w1 w2 : amount p (w1 ++ w2) = amount p w1 + amount p w2.
Proof. unfold amount. rewrite map_app, lsum_app. reflexivity. Qed.

Lemma amount_perm p w1 w2 : Permutation w1 w2 -> amount p w1 = amount p w2.
Proof. intros H. apply lsum_perm. apply Permutation_map. exact H. Qed.

Lemma amount_flat_map {I} p (f : I -> list (nat * K)) l :
  amount p (flat_map f l) = lsum (map (fun i => amount p (f i)) l).
Proof. unfold amount. rewrite lsum_flat_map. reflexivity. Qed.

Lemma add_all_app w1 w2 v : add_all (w1 ++ w2) v = rbind (add_all w1 v) (add_all w2).
Proof. apply foldR_app. Qed.

Lemma add_at_spec v p x : p < length v ->
  exists v', add_at v p x = Ok v' /\ length v' = length v /\
    forall q, nth q v' 0 = nth q v 0 + (if Nat.eqb p q then x else 0).
Proof.
  intros Hp. unfold add_at. rewrite (nth_error_some_nth v p 0) by exact Hp. simpl.
  destruct (upd_some v p (nth p v 0 + x) Hp) as [v' E]. rewrite E. simpl. exists v'.
  split; [reflexivity|]. split; [eapply upd_length; eauto|].
  intros q. rewrite (upd_nth _ _ _ _ q 0 E). rewrite (Nat.eqb_sym p q).
  destruct (Nat.eqb_spec q p) as [->|]; ring.
Qed.

Lemma add_all_spec ws : forall v, (forall p x, In (p, x) ws -> p < length v) ->
  exists v', add_all ws v = Ok v' /\ length v' = length v /\
    forall q, nth q v' 0 = nth q v 0 + amount q ws.
Proof.
  induction ws as [|[p x] ws IH]; intros v Hb; simpl.
  - exists v. split; [reflexivity|]. split; [reflexivity|]. intros q. unfold amount; simpl. ring.
  - destruct (add_at_spec v p x) as [v1 [E1 [L1 H1]]]; [eapply Hb; left; reflexivity|].
    unfold add_all; simpl. rewrite E1. simpl.
    destruct (IH v1) as [v2 [E2 [L2 H2]]]; [intros; rewrite L1; eapply Hb; right; eauto|].
    exists v2. split; [exact E2|]. split; [congruence|]. intros q. rewrite H2, H1.
    unfold amount; simpl. ring.
Qed.

Lemma add_all_oob ws : forall v, (exists p x, In (p, x) ws /\ length v <= p) -> add_all ws v = UB.
Proof.
  induction ws as [|[p x] ws IH]; intros v [q [y [Hin Hq]]]; [contradiction|].
  unfold add_all; simpl. unfold add_at.
  destruct (nth_error v p) as [z|] eqn:E; simpl; [|reflexivity].
  assert (Hp : p < length v) by (apply nth_error_Some; congruence).
  destruct (upd_some v p (z + x) Hp) as [v' E']. rewrite E'. simpl.
  destruct Hin as [Hin|Hin]; [inversion Hin; subst; lia|].
  apply IH. exists q, y. split; [exact Hin|]. rewrite (upd_length _ _ _ _ E'). exact Hq.
Qed.

Lemma add_all_perm w1 w2 v : Permutation w1 w2 ->
  (forall p x, In (p, x) w1 -> p < length v) -> add_all w1 v = add_all w2 v.
Proof.
  intros Hp Hb.
  destruct (add_all_spec w1 v Hb) as [v1 [E1 [L1 H1]]].
  destruct (add_all_spec w2 v) as [v2 [E2 [L2 H2]]].
  { intros p x Hin. apply (Hb p x). eapply Permutation_in; [apply Permutation_sym; exact Hp|exact Hin]. }
  rewrite E1, E2. f_equal. apply list_eq_nth; [congruence|]. intros i Hi.
  rewrite (nth_error_some_nth v1 i 0) by lia. rewrite (nth_error_some_nth v2 i 0) by lia. f_equal.
  rewrite H1, H2. f_equal. apply amount_perm. exact Hp.
Qed.
End AddS.
