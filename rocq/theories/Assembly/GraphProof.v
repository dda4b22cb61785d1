(** The sparsity graph: rows, and success of the lookups. *)
From Coq Require Import Arith Lia List Permutation.
From Verif Require Import Base.Field Base.Sums Base.ListUpd Base.Res Base.Scatter Base.Loops
  Sparse.CrsModel Sparse.CrsSpec Sparse.SortProof Assembly.GraphModel Assembly.GraphSpec.
Import ListNotations.

Lemma in_number {A} (l : list A) : forall s p x, In (p, x) (number s l) <-> exists t, p = s + t /\ nth_error l t = Some x.
Proof.
  induction l as [|y l IH]; intros s p x; simpl.
  - split; [tauto|]. intros [[|t] [_ H]]; discriminate.
  - rewrite IH. split.
    + intros [H|[t [-> H]]].
      * injection H as <- <-. exists 0. split; [lia|reflexivity].
      * exists (S t). split; [lia|exact H].
    + intros [[|t] [-> H]].
      * left. simpl in H. injection H as <-. f_equal. lia.
      * right. exists t. split; [lia|exact H].
Qed.

Lemma starts_le (s : nat -> nat) n : (forall i, i < n -> s i <= s (S i)) -> forall i j, i <= j -> j <= n -> s i <= s j.
Proof.
  intros H i j Hij. induction Hij as [|j Hij IH]; intros Hj; [lia|].
  etransitivity; [apply IH; lia|apply H; lia].
Qed.

Lemma starts_row (s : nat -> nat) n : (forall i, i < n -> s i <= s (S i)) ->
  forall i j p, i < n -> j < n -> s i <= p < s (S i) -> s j <= p < s (S j) -> i = j.
Proof.
  intros H i j p Hi Hj H1 H2. destruct (Nat.lt_trichotomy i j) as [L|[E|L]]; [|exact E|].
  - pose proof (starts_le s n H (S i) j ltac:(lia) ltac:(lia)). lia.
  - pose proof (starts_le s n H (S j) i ltac:(lia) ltac:(lia)). lia.
Qed.

(** Rows written by a parallel loop at consecutive positions. *)
Lemma rows_written {A} sched n item (s : nat -> nat) (L : nat -> list A) v :
  fair sched -> (forall i, i < n -> item i = Ok (number (s i) (L i))) ->
  (forall i, i < n -> s (S i) = s i + length (L i)) -> s n <= length v ->
  exists v', par_write sched n item v = Ok v' /\ length v' = length v /\
    forall i, i < n -> segment (s i) (s (S i)) v' = L i.
Proof.
  intros Hf Hi Hs Hn.
  assert (Hm : forall i, i < n -> s i <= s (S i)) by (intros i H; rewrite Hs by exact H; lia).
  destruct (par_write_spec sched n item (fun i => number (s i) (L i)) v Hf Hi) as [v' [E [L' [H1 _]]]].
  - intros i p x H H0. apply in_number in H0 as [t [-> Ht]].
    assert (t < length (L i)) by (apply nth_error_Some; congruence).
    pose proof (starts_le s n Hm (S i) n ltac:(lia) ltac:(lia)). rewrite Hs in H1 by exact H. lia.
  - intros i j p x y H H0 Hx Hy. apply in_number in Hx as [t [-> Ht]]. apply in_number in Hy as [u [E Hu]].
    assert (t < length (L i)) by (apply nth_error_Some; congruence).
    assert (u < length (L j)) by (apply nth_error_Some; congruence).
    assert (i = j). { apply (starts_row s n Hm i j (s i + t)); try assumption; rewrite Hs by assumption; lia. }
    subst j. assert (t = u) by lia. subst u. congruence.
  - exists v'. split; [exact E|]. split; [exact L'|]. intros i Hin.
    pose proof (starts_le s n Hm (S i) n ltac:(lia) ltac:(lia)) as Hb.
    apply list_eq_nth.
    + rewrite segment_length by lia. rewrite Hs by exact Hin. lia.
    + intros t Ht. rewrite segment_length in Ht by lia.
      assert (Ht' : t < length (L i)) by (rewrite Hs in Ht by exact Hin; lia).
      destruct (nth_error (L i) t) as [x|] eqn:Ex; [|apply nth_error_None in Ex; lia].
      rewrite nth_error_segment. destruct (Nat.ltb_spec t (s (S i) - s i)); [|lia].
      apply (H1 i); [exact Hin|]. apply in_number. exists t. split; [reflexivity|exact Ex].
Qed.

(** ** The row loop inserts the diagonal. *)
Fixpoint ins (r : nat) (l : list nat) : list nat :=
  match l with [] => [r] | c :: t => if Nat.ltb r c then r :: l else c :: ins r t end.

Lemma ins_perm r l : Permutation (r :: l) (ins r l).
Proof.
  induction l as [|c l IH]; simpl; [apply Permutation_refl|].
  destruct (Nat.ltb r c); [apply Permutation_refl|].
  eapply perm_trans; [apply perm_swap|]. apply perm_skip. exact IH.
Qed.

Lemma ins_length r l : length (ins r l) = S (length l).
Proof. rewrite <- (Permutation_length (ins_perm r l)). reflexivity. Qed.

Lemma row_loop_after cio off endo r : forall suf i ioh, i <> ioh -> ioh < i ->
  (forall t, t < length suf -> nth_error cio (ioh + off + t) = nth_error suf t) ->
  row_loop cio off endo r (length suf) i ioh = Ok suf.
Proof.
  induction suf as [|c suf IH]; intros i ioh Hne Hlt H; simpl; [reflexivity|].
  destruct (Nat.eqb_spec ioh i); [lia|]. cbn [rbind].
  pose proof (H 0 ltac:(simpl; lia)) as H0. rewrite Nat.add_0_r in H0. rewrite H0. cbn [nth_error ub rbind].
  rewrite IH; [reflexivity|lia|lia|]. intros t Ht.
  replace (S ioh + off + t) with (ioh + off + S t) by lia. rewrite H by (simpl; lia). reflexivity.
Qed.

Lemma row_loop_before cio off endo r : forall suf i,
  i + off + length suf = endo ->
  (forall t, t < length suf -> nth_error cio (i + off + t) = nth_error suf t) ->
  row_loop cio off endo r (S (length suf)) i i = Ok (ins r suf).
Proof.
  induction suf as [|c suf IH]; intros i He H.
  - simpl in *. rewrite Nat.eqb_refl. destruct (Nat.leb_spec endo (i + off)); [|lia]. cbn [rbind]. reflexivity.
  - change (row_loop cio off endo r (S (length (c :: suf))) i i) with
      (let! b := (if Nat.eqb i i then if Nat.leb endo (i + off) then Ok true
         else let! columnIndex := ub (nth_error cio (i + off)) in Ok (Nat.ltb r columnIndex) else Ok false) in
       if b : bool then let! rest := row_loop cio off endo r (length (c :: suf)) (S i) i in Ok (r :: rest)
       else let! c := ub (nth_error cio (i + off)) in
            let! rest := row_loop cio off endo r (length (c :: suf)) (S i) (S i) in Ok (c :: rest)).
    rewrite Nat.eqb_refl. simpl length in He. destruct (Nat.leb_spec endo (i + off)); [lia|].
    pose proof (H 0 ltac:(simpl; lia)) as H0'. rewrite Nat.add_0_r in H0'. rewrite H0'. cbn [nth_error ub rbind].
    cbn [ins]. destruct (Nat.ltb r c).
    + rewrite row_loop_after; [reflexivity|lia|lia|]. exact H.
    + simpl length. rewrite IH; [reflexivity|lia|]. intros t Ht.
      replace (S i + off + t) with (i + off + S t) by lia. rewrite H by (simpl; lia). reflexivity.
Qed.

Section G.
Variables (npc ncells nn : nat) (c2n rmo cio : list nat).
Hypothesis ST : star_graph npc ncells nn c2n rmo cio.

Definition st (i : nat) : nat := nth i rmo 0 + i.
Definition grow (r : nat) : list nat := ins r (row_cols rmo cio r).

Lemma st_mono_oh i j : i <= j -> j <= nn -> nth i rmo 0 <= nth j rmo 0.
Proof. apply (starts_le (fun i => nth i rmo 0)). apply (s_mono _ _ _ _ _ _ ST). Qed.

Lemma row_oh_len r : r < nn -> length (row_cols rmo cio r) = nth (S r) rmo 0 - nth r rmo 0.
Proof.
  intros Hr. unfold row_cols. apply segment_length. rewrite <- (s_last _ _ _ _ _ _ ST). apply st_mono_oh; lia.
Qed.

Lemma graph_row_ok r : r < nn -> graph_row rmo cio r = Ok ((st r, st (S r)), grow r).
Proof.
  intros Hr. unfold graph_row. pose proof (s_len _ _ _ _ _ _ ST) as HL.
  pose proof (s_mono _ _ _ _ _ _ ST r Hr) as Hm.
  rewrite (nth_error_some_nth rmo r 0) by lia. rewrite (nth_error_some_nth rmo (S r) 0) by lia. cbn [ub rbind].
  replace (nth (S r) rmo 0 + r + 1 - (nth r rmo 0 + r)) with (S (length (row_cols rmo cio r))).
  2:{ rewrite row_oh_len by exact Hr. lia. }
  rewrite row_loop_before.
  - cbn [rbind]. unfold st, grow. do 3 f_equal. lia.
  - rewrite row_oh_len by exact Hr. lia.
  - intros t Ht. unfold row_cols. rewrite nth_error_segment. rewrite row_oh_len in Ht by exact Hr.
    destruct (Nat.ltb_spec t (nth (S r) rmo 0 - nth r rmo 0)); [|lia]. f_equal. 
Qed.

Lemma st_S r : r < nn -> st (S r) = st r + length (grow r).
Proof.
  intros Hr. unfold grow. rewrite ins_length, row_oh_len by exact Hr.
  pose proof (s_mono _ _ _ _ _ _ ST r Hr). unfold st. lia.
Qed.

Lemma st_n : st nn = length cio + nn.
Proof. unfold st. rewrite (s_last _ _ _ _ _ _ ST). reflexivity. Qed.

Lemma in_grow r c : r < nn -> (In c (grow r) <-> c = r \/ share_element npc ncells c2n r c).
Proof.
  intros Hr. unfold grow. split.
  - intros H. apply (Permutation_in _ (Permutation_sym (ins_perm _ _))) in H. simpl in H.
    destruct H as [->|H]; [left; reflexivity|]. right. apply (s_row _ _ _ _ _ _ ST) in H; tauto.
  - intros H. apply (Permutation_in _ (ins_perm _ _)). simpl.
    destruct (Nat.eq_dec c r) as [->|Hne]; [left; reflexivity|]. right.
    apply (s_row _ _ _ _ _ _ ST); [exact Hr|]. destruct H; [contradiction|tauto].
Qed.

Lemma grow_nodup r : r < nn -> NoDup (grow r).
Proof.
  intros Hr. apply (Permutation_NoDup (ins_perm _ _)). constructor.
  - intros H. apply (s_row _ _ _ _ _ _ ST) in H; [|exact Hr]. tauto.
  - apply (s_nodup _ _ _ _ _ _ ST). exact Hr.
Qed.
End G.

Section K.
Context {K : CRing}.
Variables (npc ncells nn : nat) (c2n rmo cio : list nat).
Hypothesis MS : wf_mesh npc ncells nn c2n.
Hypothesis ST : star_graph npc ncells nn c2n rmo cio.

Lemma node_lt cell a : cell < ncells -> a < npc -> node_of npc c2n cell a < nn.
Proof.
  intros Hc Ha. apply (m_nodes _ _ _ _ MS). apply nth_In. rewrite (m_len _ _ _ _ MS). nia.
Qed.

Lemma grow_lt r c : r < nn -> In c (grow rmo cio r) -> c < nn.
Proof.
  intros Hr H. apply (in_grow npc ncells nn c2n rmo cio ST) in H; [|exact Hr].
  destruct H as [->|[cell [a [b [H1 [H2 [H3 [H4 H5]]]]]]]]; [exact Hr|]. rewrite <- H5. apply node_lt; assumption.
Qed.

Lemma create_ok I J sched : fair sched -> 0 < I -> 0 < J ->
  exists A : crs K, CreateBlockMatrix I J sched rmo cio = Ok A /\ wf_crs nn nn A /\
    c_R A = I /\ c_C A = J /\ (forall e, In e (c_ents A) -> e = r0) /\
    forall r, r < nn -> row_cols (c_rowmap A) (c_cols A) r = grow rmo cio r.
Proof.
  intros Hf HI HJ. unfold CreateBlockMatrix.
  replace (length rmo - 1) with nn by (rewrite (s_len _ _ _ _ _ _ ST); lia).
  destruct (par_write_spec sched nn
    (fun r => let! g := graph_row rmo cio r in Ok [(r, fst (fst g)); (S r, snd (fst g))])
    (fun r => [(r, st rmo r); (S r, st rmo (S r))]) (repeat 0 (S nn)) Hf) as [rm [E1 [L1 [H1 _]]]].
  - intros i Hi. rewrite (graph_row_ok npc ncells nn c2n rmo cio ST) by exact Hi. reflexivity.
  - intros i p x Hi [H|[H|[]]]; injection H as <- <-; rewrite repeat_length; lia.
  - intros i j p x y _ _ [H|[H|[]]] [G|[G|[]]]; injection H as <- <-; injection G as Hij <-; try (subst; reflexivity).
  - rewrite E1. cbn [rbind]. rewrite repeat_length in L1.
    destruct (rows_written sched nn (fun r => let! g := graph_row rmo cio r in Ok (number (fst (fst g)) (snd g)))
       (st rmo) (grow rmo cio) (repeat 0 (length cio + nn)) Hf) as [ci [E2 [L2 H2]]].
    + intros i Hi. rewrite (graph_row_ok npc ncells nn c2n rmo cio ST) by exact Hi. reflexivity.
    + intros i Hi. apply (st_S npc ncells nn c2n rmo cio ST). exact Hi.
    + rewrite repeat_length, (st_n npc ncells nn c2n rmo cio ST). lia.
    + rewrite E2. cbn [rbind]. rewrite repeat_length in L2. eexists. split; [reflexivity|].
      assert (Hrm : forall i, i <= nn -> nth i rm 0 = st rmo i).
      { intros i Hi. apply nth_error_nth. destruct (Nat.eq_dec i nn) as [->|Hne].
        - destruct nn as [|m] eqn:En.
          + unfold st. rewrite (s_first _ _ _ _ _ _ ST). 
            (* no rows: the row map keeps its initial zero *)
            destruct rm as [|z rm']; [discriminate|]. simpl.
            clear - E1 Hf. unfold par_write in E1. pose proof (Hf 0) as P. simpl in P. apply Permutation_sym, Permutation_nil in P.
            rewrite P in E1. simpl in E1. injection E1 as <- <-. reflexivity.
          + apply (H1 m); [lia|]. right; left; reflexivity.
        - apply (H1 i); [lia|]. left; reflexivity. }
      assert (Hrow : forall r, r < nn -> row_cols rm ci r = grow rmo cio r).
      { intros r Hr. unfold row_cols. rewrite !Hrm by lia. apply H2. exact Hr. }
      split; [|split; [reflexivity|split; [reflexivity|split; [|exact Hrow]]]].
      * constructor; simpl; try assumption; try reflexivity.
        -- rewrite Hrm by lia. unfold st. rewrite (s_first _ _ _ _ _ _ ST). reflexivity.
        -- intros i Hi. rewrite !Hrm by lia. rewrite (st_S npc ncells nn c2n rmo cio ST) by exact Hi. lia.
        -- rewrite Hrm by lia. rewrite L2. apply (st_n npc ncells nn c2n rmo cio ST).
        -- intros o Ho. apply In_nth_error in Ho as [p Hp].
           assert (Hpl : p < length ci) by (apply nth_error_Some; congruence).
           assert (Hrow' : exists r, r < nn /\ st rmo r <= p < st rmo (S r)).
           { assert (Hp' : p < st rmo nn) by (rewrite (st_n npc ncells nn c2n rmo cio ST); lia).
             assert (Hle : nn <= nn) by lia. revert Hp' Hle. generalize nn at 1 2. intros k. induction k as [|k IHk]; intros Hp' Hle.
             - unfold st in Hp'. rewrite (s_first _ _ _ _ _ _ ST) in Hp'. lia.
             - destruct (Nat.lt_ge_cases p (st rmo k)).
               + apply IHk; lia.
               + exists k. lia. }
           destruct Hrow' as [r [Hr Hrp]]. apply (grow_lt r); [exact Hr|]. rewrite <- Hrow by exact Hr.
           unfold row_cols. rewrite !Hrm by lia. apply (nth_error_In _ (p - st rmo r)). rewrite nth_error_segment.
           destruct (Nat.ltb_spec (p - st rmo r) (st rmo (S r) - st rmo r)); [|lia].
           replace (st rmo r + (p - st rmo r)) with p by lia. exact Hp.
        -- rewrite repeat_length, L2. lia.
      * intros e He. simpl in He. apply repeat_spec in He. exact He.
Qed.
End K.
