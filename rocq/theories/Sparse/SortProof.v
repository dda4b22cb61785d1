(** sortColumnEntries sorts every row, keeping (column, value) pairs together. *)
From Coq Require Import Arith Lia List Bool Permutation Sorted Ring.
From Verif Require Import Base.Field Base.Sums Base.ListUpd Base.Res Base.Scatter Base.Loops
  Sparse.CrsModel Sparse.CrsSpec.
Import ListNotations.

Section Seg.
Context {A : Type}.

Lemma segment_length a b (l : list A) : b <= length l -> length (segment a b l) = b - a.
Proof. intros H. unfold segment. rewrite firstn_length, skipn_length. lia. Qed.

Lemma nth_error_segment a b (l : list A) i :
  nth_error (segment a b l) i = if Nat.ltb i (b - a) then nth_error l (a + i) else None.
Proof.
  unfold segment. destruct (Nat.ltb_spec i (b - a)) as [H|H].
  - rewrite <- (firstn_skipn a l) at 2.
    destruct (Nat.le_gt_cases (length l) a) as [Hl|Hl].
    + rewrite skipn_all2 by exact Hl. rewrite firstn_nil, app_nil_r.
      replace (nth_error [] i) with (@None A) by (destruct i; reflexivity).
      symmetry. apply nth_error_None. rewrite firstn_length. lia.
    + rewrite nth_error_app2; rewrite firstn_length_le by lia; [|lia].
      replace (a + i - a) with i by lia.
      generalize (skipn a l) as m. revert H. generalize (b - a) as n. clear.
      intros n H m. revert n i H; induction m as [|x m IH]; intros [|n] i H; try lia; simpl.
      * reflexivity.
      * destruct i; simpl; [reflexivity|]. apply IH. lia.
  - apply nth_error_None. rewrite firstn_length. lia.
Qed.

Lemma skipn_skipn_add x y (l : list A) : skipn x (skipn y l) = skipn (y + x) l.
Proof. revert l; induction y as [|y IH]; intros l; simpl; [reflexivity|]. destruct l; [apply skipn_nil|apply IH]. Qed.

Lemma segment_split a b (l : list A) : a <= b -> l = firstn a l ++ segment a b l ++ skipn b l.
Proof.
  intros H. unfold segment. rewrite <- (firstn_skipn a l) at 1. f_equal.
  rewrite <- (firstn_skipn (b - a) (skipn a l)) at 1. f_equal. rewrite skipn_skipn_add. f_equal. lia.
Qed.

Lemma segment_ext a b (l l' : list A) : 
  (forall q, a <= q < b -> nth_error l q = nth_error l' q) -> segment a b l = segment a b l'.
Proof.
  intros H. assert (G : forall i, nth_error (segment a b l) i = nth_error (segment a b l') i).
  { intros i. rewrite !nth_error_segment. destruct (Nat.ltb_spec i (b - a)); [apply H; lia|reflexivity]. }
  revert G. generalize (segment a b l) as m, (segment a b l') as m'. clear.
  induction m as [|x m IH]; intros [|y m'] G; try reflexivity.
  - specialize (G 0). discriminate.
  - specialize (G 0). discriminate.
  - pose proof (G 0) as E. simpl in E. inversion E; subst. f_equal. apply IH. intros i. apply (G (S i)).
Qed.

Lemma nth_error_ext (l l' : list A) : (forall i, nth_error l i = nth_error l' i) -> l = l'.
Proof.
  revert l'; induction l as [|x m IH]; intros [|y m'] G; try reflexivity.
  - specialize (G 0). discriminate.
  - specialize (G 0). discriminate.
  - pose proof (G 0) as E. simpl in E. inversion E; subst. f_equal. apply IH. intros i. apply (G (S i)).
Qed.

Lemma nth_error_firstn a (l : list A) i : nth_error (firstn a l) i = if Nat.ltb i a then nth_error l i else None.
Proof.
  pose proof (nth_error_segment 0 a l i) as H. unfold segment in H. simpl in H. rewrite Nat.sub_0_r in H. exact H.
Qed.

Lemma nth_error_skipn a (l : list A) i : nth_error (skipn a l) i = nth_error l (a + i).
Proof.
  revert l; induction a as [|a IH]; intros l; simpl; [reflexivity|]. destruct l; simpl; [destruct i; reflexivity|apply IH].
Qed.

(** A permutation that fixes everything outside a segment permutes the segment. *)
Lemma perm_segment a b (l l' : list A) : a <= b -> Permutation l l' ->
  (forall q, ~ (a <= q < b) -> nth_error l q = nth_error l' q) ->
  Permutation (segment a b l) (segment a b l').
Proof.
  intros Hab HP Ho. rewrite (segment_split a b l Hab), (segment_split a b l' Hab) in HP.
  assert (E1 : firstn a l = firstn a l').
  { apply nth_error_ext. intros i. rewrite !nth_error_firstn. destruct (Nat.ltb_spec i a); [apply Ho; lia|reflexivity]. }
  assert (E2 : skipn b l = skipn b l').
  { apply nth_error_ext. intros i. rewrite !nth_error_skipn. apply Ho; lia. }
  rewrite E1, E2 in HP. apply Permutation_app_inv_l in HP. apply Permutation_app_inv_r in HP. exact HP.
Qed.

Lemma perm_swap_upd (l l1 l2 : list A) i j x y :
  nth_error l i = Some x -> nth_error l j = Some y ->
  upd l j x = Some l1 -> upd l1 i y = Some l2 -> i <> j -> Permutation l l2.
Proof.
  intros Hx Hy H1 H2 Hij. apply Permutation_sym, Permutation_nth_error.
  assert (L : length l2 = length l) by (rewrite (upd_length _ _ _ _ H2), (upd_length _ _ _ _ H1); reflexivity).
  split; [exact L|].
  exists (fun q => if Nat.eqb q i then j else if Nat.eqb q j then i else q). split.
  - intros p q. destruct (Nat.eqb_spec p i), (Nat.eqb_spec q i), (Nat.eqb_spec p j), (Nat.eqb_spec q j); lia.
  - intros q. destruct (Nat.eqb_spec q i) as [->|Hi].
    + rewrite (upd_nth_other _ _ _ _ j H2) by lia. rewrite (upd_nth_same _ _ _ _ H1). exact Hx.
    + destruct (Nat.eqb_spec q j) as [->|Hj].
      * rewrite (upd_nth_same _ _ _ _ H2). exact Hy.
      * rewrite (upd_nth_other _ _ _ _ q H2), (upd_nth_other _ _ _ _ q H1) by assumption. reflexivity.
Qed.
End Seg.

Lemma combine_upd {A B} (l : list A) (m : list B) i x y l' m' :
  upd l i x = Some l' -> upd m i y = Some m' -> upd (combine l m) i (x, y) = Some (combine l' m').
Proof.
  revert m i l' m'; induction l as [|a l IH]; intros [|b m] [|i] l' m' H1 H2; simpl in *; try discriminate.
  - inversion H1; inversion H2; reflexivity.
  - destruct (upd l i x) eqn:E1; [|discriminate]. destruct (upd m i y) eqn:E2; [|discriminate].
    inversion H1; inversion H2; subst. rewrite (IH _ _ _ _ E1 E2). reflexivity.
Qed.

Lemma nth_error_combine {A B} (l : list A) (m : list B) i :
  nth_error (combine l m) i =
  match nth_error l i, nth_error m i with Some x, Some y => Some (x, y) | _, _ => None end.
Proof.
  revert m i; induction l as [|a l IH]; intros [|b m] [|i]; simpl; try reflexivity.
  - destruct (nth_error l i); reflexivity.
  - apply IH.
Qed.

Section P.
Context {K : CRing}.
Add Ring KringSort : (r_th K).
Local Open Scope K_scope.

Definition key (s : list nat * list K) (q : nat) : nat := nth q (fst s) 0%nat.
Definition pairs (s : list nat * list K) : list (nat * K) := combine (fst s) (snd s).

(** What a sequence of exchanges within [a,b) preserves. *)
Definition keeps (a b : nat) (s s' : list nat * list K) : Prop :=
  length (fst s') = length (fst s) /\ length (snd s') = length (snd s) /\
  Permutation (pairs s) (pairs s') /\
  forall q, ~ (a <= q < b) -> nth_error (fst s') q = nth_error (fst s) q /\ nth_error (snd s') q = nth_error (snd s) q.

Lemma keeps_refl a b s : keeps a b s s.
Proof. split; [|split; [|split]]; auto. Qed.

Lemma keeps_trans a b s1 s2 s3 : keeps a b s1 s2 -> keeps a b s2 s3 -> keeps a b s1 s3.
Proof.
  intros [A1 [B1 [C1 D1]]] [A2 [B2 [C2 D2]]]. split; [congruence|]. split; [congruence|].
  split; [etransitivity; eauto|]. intros q Hq. destruct (D1 q Hq), (D2 q Hq). split; congruence.
Qed.

Lemma cmp_swap_spec a b i j s :
  a <= i < b -> a <= j < b -> b <= length (fst s) -> b <= length (snd s) ->
  exists s', cmp_swap i j s = Ok s' /\ keeps a b s s' /\
   forall q, key s' q = if Nat.ltb (key s i) (key s j)
                        then if Nat.eqb q i then key s j else if Nat.eqb q j then key s i else key s q
                        else key s q.
Proof.
  intros Hi Hj Hf Hs. unfold cmp_swap.
  rewrite (nth_error_some_nth (fst s) i 0%nat) by lia. cbn [ub rbind].
  rewrite (nth_error_some_nth (fst s) j 0%nat) by lia. cbn [ub rbind].
  fold (key s i). fold (key s j).
  destruct (Nat.ltb_spec (key s i) (key s j)) as [Hlt|Hge].
  2:{ exists s. split; [reflexivity|]. split; [apply keeps_refl|reflexivity]. }
  assert (Hij : i <> j) by (intros ->; lia).
  destruct (upd_some (fst s) j (key s i)) as [c1 E1]; [lia|]. rewrite E1. cbn [ub rbind].
  destruct (upd_some c1 i (key s j)) as [c2 E2]; [rewrite (upd_length _ _ _ _ E1); lia|]. rewrite E2. cbn [ub rbind].
  rewrite (nth_error_some_nth (snd s) j 0) by lia. cbn [ub rbind].
  rewrite (nth_error_some_nth (snd s) i 0) by lia. cbn [ub rbind].
  destruct (upd_some (snd s) j (nth i (snd s) 0)) as [v1 F1]; [lia|]. rewrite F1. cbn [ub rbind].
  destruct (upd_some v1 i (nth j (snd s) 0)) as [v2 F2]; [rewrite (upd_length _ _ _ _ F1); lia|]. rewrite F2. cbn [ub rbind].
  exists (c2, v2). split; [reflexivity|]. split.
  - split; [|split; [|split]]; simpl.
    + rewrite (upd_length _ _ _ _ E2), (upd_length _ _ _ _ E1). reflexivity.
    + rewrite (upd_length _ _ _ _ F2), (upd_length _ _ _ _ F1). reflexivity.
    + unfold pairs. simpl.
      apply (perm_swap_upd _ (combine c1 v1) _ i j (key s i, nth i (snd s) 0) (key s j, nth j (snd s) 0)).
      * rewrite nth_error_combine, (nth_error_some_nth (fst s) i 0%nat), (nth_error_some_nth (snd s) i 0) by lia. reflexivity.
      * rewrite nth_error_combine, (nth_error_some_nth (fst s) j 0%nat), (nth_error_some_nth (snd s) j 0) by lia. reflexivity.
      * apply combine_upd; assumption.
      * apply combine_upd; assumption.
      * exact Hij.
    + intros q Hq. split.
      * rewrite (upd_nth_other _ _ _ _ q E2), (upd_nth_other _ _ _ _ q E1) by lia. reflexivity.
      * rewrite (upd_nth_other _ _ _ _ q F2), (upd_nth_other _ _ _ _ q F1) by lia. reflexivity.
  - intros q. unfold key at 1. simpl. rewrite (upd_nth _ _ _ _ q 0%nat E2).
    destruct (Nat.eqb_spec q i); [reflexivity|]. rewrite (upd_nth _ _ _ _ q 0%nat E1). reflexivity.
Qed.

(** Loop over consecutive indices with an invariant indexed by the next one. *)
Lemma foldR_range {S} (f : nat -> S -> res S) (P : nat -> S -> Prop) a b s :
  a <= b -> P a s ->
  (forall i s, a <= i < b -> P i s -> exists s', f i s = Ok s' /\ P (Datatypes.S i) s') ->
  exists s', foldR f (range a b) s = Ok s' /\ P b s'.
Proof.
  intros Hab H0 Hstep. unfold range. remember (b - a)%nat as n eqn:En.
  replace b with (a + n)%nat in * by lia. clear En Hab. revert s H0. revert a Hstep.
  induction n as [|n IH]; intros a Hstep s H0; simpl.
  - exists s. split; [reflexivity|]. rewrite Nat.add_0_r. exact H0.
  - destruct (Hstep a s ltac:(lia) H0) as [s1 [E1 H1]]. rewrite E1. simpl.
    replace (a + Datatypes.S n)%nat with (Datatypes.S a + n)%nat by lia. apply IH; [|exact H1].
    intros i s' Hi. apply Hstep. lia.
Qed.

Section Row.
Variables a b : nat.
Variable s0 : list nat * list K.

Definition fits (s : list nat * list K) := b <= length (fst s) /\ b <= length (snd s) /\ keeps a b s0 s.

(** Before iteration i: the first i entries are sorted and the last of them is the maximum of the row. *)
Definition outer_inv (i : nat) (s : list nat * list K) : Prop :=
  fits s /\ (forall p q, a <= p -> p < q -> q < i -> key s p <= key s q) /\
  (a < i -> forall p, a <= p < b -> key s p <= key s (i - 1)).

Lemma fits_keeps s s' : fits s -> keeps a b s s' -> fits s'.
Proof.
  intros [A1 [B1 C1]] H. pose proof H as [A2 [B2 _]]. split; [lia|]. split; [lia|]. eapply keeps_trans; eauto.
Qed.

Lemma first_pass s : a < b -> outer_inv a s ->
  exists s', foldR (fun j s => cmp_swap a j s) (range a b) s = Ok s' /\ outer_inv (S a) s'.
Proof.
  intros Hab [Hfit _].
  destruct (foldR_range (fun j s => cmp_swap a j s)
    (fun j s => fits s /\ forall p, a <= p < j -> key s p <= key s a) a b s) as [s' [E [H1 H2]]].
  - lia.
  - split; [exact Hfit|]. intros; lia.
  - intros j s1 Hj [F1 H1]. pose proof F1 as [Fa [Fb _]].
    destruct (cmp_swap_spec a b a j s1) as [s2 [E2 [K2 H2]]]; try lia; auto.
    exists s2. split; [exact E2|]. split; [eapply fits_keeps; eauto|].
    intros p Hp. rewrite !H2. rewrite Nat.eqb_refl. destruct (Nat.ltb_spec (key s1 a) (key s1 j)).
    + destruct (Nat.eqb_spec p a); [lia|]. destruct (Nat.eqb_spec p j); [lia|].
      specialize (H1 p ltac:(lia)). lia.
    + destruct (Nat.eq_dec p j) as [->|]; [assumption|]. apply H1. lia.
  - exists s'. split; [exact E|]. split; [exact H1|]. split; [intros; lia|].
    intros _ p Hp. replace (S a - 1)%nat with a by lia. apply H2. lia.
Qed.

Lemma later_pass i s : a < i < b -> outer_inv i s ->
  exists s', foldR (fun j s => cmp_swap i j s) (range a b) s = Ok s' /\ outer_inv (S i) s'.
Proof.
  intros Hi [Hfit [Hs Hm]]. specialize (Hm ltac:(lia)).
  destruct (foldR_range (fun j s => cmp_swap i j s)
    (fun j s => fits s /\ (forall p q, a <= p -> p < q -> q < i -> key s p <= key s q) /\
       (forall p, a <= p -> p < j -> p < i -> key s p <= key s i) /\
       (forall p, a <= p < b -> key s p <= key s (if Nat.leb i j then i else i - 1))) a b s) as [s' [E [H1 [H2 [H3 H4]]]]].
  - lia.
  - split; [exact Hfit|]. split; [exact Hs|]. split; [intros; lia|].
    destruct (Nat.leb_spec i a); [lia|]. exact Hm.
  - intros j s1 Hj [F1 [H1 [H2 H3]]]. pose proof F1 as [Fa [Fb _]].
    destruct (cmp_swap_spec a b i j s1) as [s2 [E2 [K2 Hk]]]; try lia; auto.
    exists s2. split; [exact E2|]. split; [eapply fits_keeps; eauto|].
    destruct (Nat.ltb_spec (key s1 i) (key s1 j)) as [Hlt|Hge].
    + (* swap: only possible for j < i *)
      destruct (Nat.leb_spec i j) as [Hij|Hij].
      { specialize (H3 j ltac:(lia)). lia. }
      split; [|split].
      * intros p q Ha Hpq Hq. rewrite !Hk.
        destruct (Nat.eqb_spec p i); [lia|]. destruct (Nat.eqb_spec q i); [lia|].
        destruct (Nat.eqb_spec p j); destruct (Nat.eqb_spec q j); try lia.
        -- subst p. specialize (H1 j q ltac:(lia) ltac:(lia) ltac:(lia)). lia.
        -- subst q. apply H2; lia.
        -- apply H1; lia.
      * intros p Ha Hp Hpi. rewrite !Hk. rewrite Nat.eqb_refl.
        destruct (Nat.eqb_spec p i); [lia|]. destruct (Nat.eqb_spec p j); [lia|].
        apply H1; lia.
      * intros p Hp. rewrite !Hk.
        destruct (Nat.leb_spec i (S j)) as [Hsj|Hsj].
        -- rewrite Nat.eqb_refl. assert (j = i - 1)%nat by lia. rewrite <- H in H3.
           destruct (Nat.eqb_spec p i); [lia|]. destruct (Nat.eqb_spec p j); [lia|]. apply H3. lia.
        -- destruct (Nat.eqb_spec (i - 1) i); [lia|]. destruct (Nat.eqb_spec (i - 1) j); [lia|].
           destruct (Nat.eqb_spec p i); [apply H3; lia|]. destruct (Nat.eqb_spec p j); [apply H3; lia|]. apply H3; lia.
    + split; [|split].
      * intros p q Ha Hpq Hq. rewrite !Hk. apply H1; lia.
      * intros p Ha Hp Hpi. rewrite !Hk. destruct (Nat.eq_dec p j) as [->|]; [exact Hge|]. apply H2; lia.
      * intros p Hp. rewrite !Hk. specialize (H3 p Hp).
        destruct (Nat.leb_spec i j); destruct (Nat.leb_spec i (S j)); try lia.
        assert (j = i - 1)%nat by lia. subst j. lia.
  - exists s'. split; [exact E|]. destruct (Nat.leb_spec i b); [|lia].
    split; [exact H1|]. split.
    + intros p q Ha Hpq Hq. destruct (Nat.eq_dec q i) as [->|]; [apply H3; lia|apply H2; lia].
    + intros _ p Hp. replace (S i - 1)%nat with i by lia. apply H4. exact Hp.
Qed.

Lemma sort_row_spec : a <= b -> b <= length (fst s0) -> b <= length (snd s0) ->
  exists s', sort_row a b s0 = Ok s' /\ keeps a b s0 s' /\
    forall p q, a <= p -> p < q -> q < b -> key s' p <= key s' q.
Proof.
  intros Hab Hf Hv. unfold sort_row.
  destruct (foldR_range (fun i s => foldR (fun j s => cmp_swap i j s) (range a b) s) outer_inv a b s0) as [s' [E [H1 [H2 _]]]].
  - exact Hab.
  - split; [|split].
    + split; [assumption|]. split; [assumption|]. apply keeps_refl.
    + intros; lia.
    + intros; lia.
  - intros i s Hi Hinv. destruct (Nat.eq_dec i a) as [->|].
    + apply first_pass; [lia|exact Hinv].
    + apply later_pass; [lia|exact Hinv].
  - exists s'. split; [exact E|]. split; [apply H1|exact H2].
Qed.
End Row.

Lemma pairs_nth a b s s' q : keeps a b s s' -> ~ (a <= q < b) -> nth_error (pairs s') q = nth_error (pairs s) q.
Proof.
  intros [_ [_ [_ H]]] Hq. destruct (H q Hq) as [H1 H2]. unfold pairs. rewrite !nth_error_combine, H1, H2. reflexivity.
Qed.

Definition mono (rm : list nat) : Prop :=
  forall i, S i < length rm -> nth i rm 0%nat <= nth (S i) rm 0%nat.

Lemma mono_le rm : mono rm -> forall i j, i <= j -> j < length rm -> nth i rm 0%nat <= nth j rm 0%nat.
Proof.
  intros W i j Hij. induction j as [|j IH]; intros Hj.
  - replace i with 0%nat by lia. lia.
  - destruct (Nat.eq_dec i (S j)) as [->|]; [lia|].
    pose proof (IH ltac:(lia) ltac:(lia)). pose proof (W j ltac:(lia)). lia.
Qed.

Definition rseg (rm : list nat) (r : nat) (s : list nat * list K) :=
  segment (nth r rm 0%nat) (nth (S r) rm 0%nat) (pairs s).

Definition row_sorted (rm : list nat) (r : nat) (s : list nat * list K) :=
  forall p q, nth r rm 0%nat <= p -> p < q -> q < nth (S r) rm 0%nat -> key s p <= key s q.

Lemma sort_spec sched rm s :
  fair sched -> mono rm -> 0 < length rm ->
  length (fst s) = length (snd s) -> nth (length rm - 1) rm 0%nat <= length (fst s) ->
  exists s', sortColumnEntries sched rm s = Ok s' /\
    length (fst s') = length (fst s) /\ length (snd s') = length (snd s) /\
    (forall r, S r < length rm -> Permutation (rseg rm r s) (rseg rm r s') /\ row_sorted rm r s') /\
    (forall q, nth (length rm - 1) rm 0%nat <= q \/ q < nth 0 rm 0%nat ->
       nth_error (fst s') q = nth_error (fst s) q /\ nth_error (snd s') q = nth_error (snd s) q).
Proof.
  intros Hf Hm Hne Hl Hlast. unfold sortColumnEntries. set (n := (length rm - 1)%nat).
  assert (Hnd : NoDup (sched n)) by (apply (Permutation_NoDup (Permutation_sym (Hf n))), seq_NoDup).
  destruct (foldR_inv (fun r s =>
      let! a := ub (nth_error rm r) in
      let! b := ub (nth_error rm (S r)) in
      sort_row a b s)
    (fun D s' => length (fst s') = length (fst s) /\ length (snd s') = length (snd s) /\
      (forall r, r < n -> In r D -> Permutation (rseg rm r s) (rseg rm r s') /\ row_sorted rm r s') /\
      (forall r, r < n -> ~ In r D -> forall q, nth r rm 0%nat <= q < nth (S r) rm 0%nat ->
          nth_error (fst s') q = nth_error (fst s) q /\ nth_error (snd s') q = nth_error (snd s) q) /\
      (forall q, nth n rm 0%nat <= q \/ q < nth 0 rm 0%nat ->
       nth_error (fst s') q = nth_error (fst s) q /\ nth_error (snd s') q = nth_error (snd s) q)) (sched n) s)
    as [s' [E [H1 [H2 [H3 [_ H5]]]]]].
  - split; [reflexivity|]. split; [reflexivity|]. split; [intros r _ []|]. split; auto.
  - intros l1 r l2 s1 El [L1 [L2 [HD [HU HO]]]].
    assert (Hr : r < n). { apply (fair_in sched); [exact Hf|]. rewrite El. apply in_or_app. right. left. reflexivity. }
    assert (Hrl : ~ In r l1).
    { rewrite El in Hnd. apply NoDup_remove_2 in Hnd. intros H. apply Hnd. apply in_or_app. left. exact H. }
    unfold n in Hr.
    rewrite (nth_error_some_nth rm r 0%nat) by lia. cbn [ub rbind].
    rewrite (nth_error_some_nth rm (S r) 0%nat) by lia. cbn [ub rbind].
    pose proof (Hm r ltac:(lia)) as Hab.
    pose proof (mono_le rm Hm (S r) (length rm - 1) ltac:(lia) ltac:(lia)) as Hb.
    pose proof (mono_le rm Hm 0 r ltac:(lia) ltac:(lia)) as Ha0.
    destruct (sort_row_spec (nth r rm 0%nat) (nth (S r) rm 0%nat) s1) as [s2 [E2 [K2 S2]]]; try lia.
    exists s2. split; [exact E2|]. pose proof K2 as [A2 [B2 [C2 D2]]].
    assert (Hother : forall r', S r' < length rm -> r' <> r -> forall q, nth r' rm 0%nat <= q < nth (S r') rm 0%nat ->
              ~ (nth r rm 0%nat <= q < nth (S r) rm 0%nat)).
    { intros r' Hr' Hd q Hq. destruct (Nat.lt_ge_cases r' r).
      - pose proof (mono_le rm Hm (S r') r ltac:(lia) ltac:(lia)). lia.
      - pose proof (mono_le rm Hm (S r) r' ltac:(lia) ltac:(lia)). lia. }
    split; [congruence|]. split; [congruence|]. split; [|split].
    + intros r' Hr' Hin. unfold n in Hr'. apply in_app_iff in Hin. destruct (Nat.eq_dec r' r) as [->|Hd].
      * split; [|exact S2].
        replace (rseg rm r s) with (rseg rm r s1).
        -- unfold rseg. apply perm_segment; [exact Hab|exact C2|].
           intros q Hq. symmetry. apply (pairs_nth _ _ _ _ _ K2 Hq).
        -- unfold rseg. apply segment_ext. intros q Hq. unfold pairs. rewrite !nth_error_combine.
           destruct (HU r ltac:(lia) Hrl q Hq) as [-> ->]. reflexivity.
      * destruct Hin as [Hin|[Hin|[]]]; [|congruence]. destruct (HD r' ltac:(lia) Hin) as [P1 P2]. split.
        -- replace (rseg rm r' s2) with (rseg rm r' s1); [exact P1|].
           unfold rseg. apply segment_ext. intros q Hq. symmetry. apply (pairs_nth _ _ _ _ _ K2).
           apply (Hother r'); [lia|exact Hd|exact Hq].
        -- intros p q Hp Hpq Hq. unfold key. 
           pose proof (Hother r' ltac:(lia) Hd p ltac:(lia)) as Np. pose proof (Hother r' ltac:(lia) Hd q ltac:(lia)) as Nq.
           destruct (D2 p Np) as [Ep _]. destruct (D2 q Nq) as [Eq _].
           pose proof (mono_le rm Hm (S r') (length rm - 1) ltac:(lia) ltac:(lia)).
           assert (Gp : nth p (fst s2) 0%nat = nth p (fst s1) 0%nat).
           { rewrite (nth_error_some_nth (fst s2) p 0%nat), (nth_error_some_nth (fst s1) p 0%nat) in Ep by lia. congruence. }
           assert (Gq : nth q (fst s2) 0%nat = nth q (fst s1) 0%nat).
           { rewrite (nth_error_some_nth (fst s2) q 0%nat), (nth_error_some_nth (fst s1) q 0%nat) in Eq by lia. congruence. }
           rewrite Gp, Gq. apply P2; assumption.
    + intros r' Hr' Hnin q Hq. unfold n in Hr'.
      assert (r' <> r). { intros ->. apply Hnin. apply in_or_app. right. left. reflexivity. }
      assert (~ In r' l1). { intros Hi. apply Hnin. apply in_or_app. left. exact Hi. }
      destruct (D2 q (Hother r' ltac:(lia) H q Hq)) as [-> ->]. apply (HU r'); [unfold n; lia|assumption|exact Hq].
    + intros q Hq. unfold n in Hq. destruct (D2 q) as [-> ->]; [lia|]. apply HO. exact Hq.
  - exists s'. split; [exact E|]. split; [exact H1|]. split; [exact H2|]. split; [|exact H5].
    intros r Hr. apply H3; [unfold n; lia|]. apply fair_in; [exact Hf|unfold n; lia].
Qed.

(** Consequences in terms of the specification. *)
Lemma row_sorted_strong rm r s : nth (S r) rm 0%nat <= length (fst s) -> row_sorted rm r s ->
  StronglySorted le (row_cols rm (fst s) r).
Proof.
  unfold row_cols, row_sorted, key. intros Hlen H.
  set (a := nth r rm 0%nat) in *. set (b := nth (S r) rm 0%nat) in *.
  assert (G : forall l, (forall p q x y, p < q -> nth_error l p = Some x -> nth_error l q = Some y -> x <= y) ->
    StronglySorted le l).
  { induction l as [|x l IH]; intros Hl; constructor.
    - apply IH. intros p q u v Hpq Hu Hv. apply (Hl (S p) (S q)); [lia|exact Hu|exact Hv].
    - apply Forall_forall. intros y Hy. apply In_nth_error in Hy as [q Hq]. apply (Hl 0%nat (S q)); [lia|reflexivity|exact Hq]. }
  apply G. intros p q x y Hpq Hx Hy. rewrite nth_error_segment in Hx, Hy.
  destruct (Nat.ltb_spec p (b - a)); [|discriminate]. destruct (Nat.ltb_spec q (b - a)); [|discriminate].
  apply (nth_error_nth _ _ 0%nat) in Hx, Hy. rewrite <- Hx, <- Hy. apply H; lia.
Qed.

(** The dense row in terms of the pairs of the row. *)
Lemma dense_pairs rm s i j : length (fst s) = length (snd s) -> nth (S i) rm 0%nat <= length (fst s) ->
  dense_rc 1 1 rm (fst s) (snd s) i j
  = lsum (map (fun p => if Nat.eqb (fst p) j then snd p else 0) (rseg rm i s)).
Proof.
  intros Hl Hb. unfold dense_rc. rewrite !Nat.div_1_r, !Nat.mod_1_r. unfold rseg, range.
  set (a := nth i rm 0%nat) in *. set (b := nth (S i) rm 0%nat) in *. clearbody a b.
  f_equal. apply nth_error_ext. intros t. rewrite !nth_error_map, nth_error_segment.
  destruct (Nat.ltb_spec t (b - a)) as [Ht|Ht].
  - rewrite (nth_error_nth' _ 0%nat) by (rewrite seq_length; exact Ht). rewrite seq_nth by exact Ht. cbn [option_map].
    unfold pairs. rewrite nth_error_combine, (nth_error_some_nth (fst s) _ 0%nat), (nth_error_some_nth (snd s) _ 0) by lia.
    simpl. repeat rewrite ?Nat.add_0_r. reflexivity.
  - replace (nth_error (seq a (b - a)) t) with (@None nat); [reflexivity|].
    symmetry. apply nth_error_None. rewrite seq_length. exact Ht.
Qed.

Lemma sort_correct sched rm s :
  fair sched -> mono rm -> 0 < length rm ->
  length (fst s) = length (snd s) -> nth (length rm - 1) rm 0%nat <= length (fst s) ->
  exists s', sortColumnEntries sched rm s = Ok s' /\
    length (fst s') = length (fst s) /\ length (snd s') = length (snd s) /\
    sorted_rows rm (fst s') /\
    (forall r, S r < length rm -> Permutation (rseg rm r s) (rseg rm r s')) /\
    (forall i j, S i < length rm -> dense_rc 1 1 rm (fst s') (snd s') i j = dense_rc 1 1 rm (fst s) (snd s) i j).
Proof.
  intros Hf Hm Hne Hl Hlast. destruct (sort_spec sched rm s Hf Hm Hne Hl Hlast) as [s' [E [L1 [L2 [H1 _]]]]].
  exists s'. split; [exact E|]. split; [exact L1|]. split; [exact L2|].
  assert (Hb : forall r, S r < length rm -> nth (S r) rm 0%nat <= length (fst s)).
  { intros r Hr. pose proof (mono_le rm Hm (S r) (length rm - 1) ltac:(lia) ltac:(lia)). lia. }
  split; [|split].
  - intros r Hr. apply row_sorted_strong; [rewrite L1; apply Hb; exact Hr|apply H1; exact Hr].
  - intros r Hr. apply H1. exact Hr.
  - intros i j Hi. rewrite !dense_pairs by (rewrite ?L1; auto; congruence).
    apply lsum_perm, Permutation_map, Permutation_sym. apply H1. exact Hi.
Qed.
End P.
