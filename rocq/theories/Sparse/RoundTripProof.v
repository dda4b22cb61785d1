(** Block data recovered from non-block data. *)
From Coq Require Import Arith Lia List Bool Permutation Sorted Ring.
From Verif Require Import Base.Field Base.Sums Base.ListUpd Base.Res Base.Scatter Base.Loops
  Sparse.CrsModel Sparse.CrsSpec Sparse.MatvecProof Sparse.SortProof Sparse.NonBlockProof.
Import ListNotations.

Lemma StronglySorted_app {A} (R : A -> A -> Prop) l1 l2 :
  StronglySorted R l1 -> StronglySorted R l2 -> (forall x y, In x l1 -> In y l2 -> R x y) ->
  StronglySorted R (l1 ++ l2).
Proof.
  induction l1 as [|x l1 IH]; intros H1 H2 H; simpl; [exact H2|].
  inversion H1; subst. constructor.
  - apply IH; auto. intros; apply H; [right|]; assumption.
  - apply Forall_app. split; [assumption|]. apply Forall_forall. intros y Hy. apply H; [left; reflexivity|exact Hy].
Qed.

Lemma sorted_unique {V} (l1 l2 : list (nat * V)) :
  Permutation l1 l2 -> StronglySorted lt (map fst l1) -> StronglySorted le (map fst l2) -> l1 = l2.
Proof.
  revert l2; induction l1 as [|x l1 IH]; intros l2 HP H1 H2.
  - apply Permutation_nil in HP. congruence.
  - destruct l2 as [|y l2]; [apply Permutation_sym, Permutation_nil in HP; discriminate|].
    simpl in H1, H2. inversion H1 as [|? ? S1 F1]; subst. inversion H2 as [|? ? S2 F2]; subst.
    rewrite Forall_forall in F1, F2.
    assert (E : x = y).
    { assert (Hx : In x (y :: l2)) by (apply (Permutation_in _ HP); left; reflexivity).
      assert (Hy : In y (x :: l1)) by (apply (Permutation_in _ (Permutation_sym HP)); left; reflexivity).
      destruct Hx as [Hx|Hx]; [congruence|]. destruct Hy as [Hy|Hy]; [congruence|].
      specialize (F1 (fst y) (in_map fst _ _ Hy)). specialize (F2 (fst x) (in_map fst _ _ Hx)). lia. }
    subst y. f_equal. apply IH; try assumption. apply Permutation_cons_inv in HP. exact HP.
Qed.

Section ISort.
Variable f : nat -> nat.
Fixpoint insert (x : nat) (l : list nat) : list nat :=
  match l with [] => [x] | y :: l' => if Nat.leb (f x) (f y) then x :: l else y :: insert x l' end.
Fixpoint isort (l : list nat) : list nat := match l with [] => [] | x :: l' => insert x (isort l') end.

Lemma insert_perm x l : Permutation (x :: l) (insert x l).
Proof.
  induction l as [|y l IH]; simpl; [reflexivity|]. destruct (Nat.leb (f x) (f y)); [reflexivity|].
  rewrite perm_swap. apply perm_skip. exact IH.
Qed.
Lemma isort_perm l : Permutation l (isort l).
Proof. induction l as [|x l IH]; simpl; [reflexivity|]. rewrite <- insert_perm. apply perm_skip. exact IH. Qed.
Lemma insert_sorted x l : StronglySorted le (map f l) -> StronglySorted le (map f (insert x l)).
Proof.
  induction l as [|y l IH]; simpl; intros H.
  - repeat constructor.
  - inversion H as [|? ? S1 F1]; subst. destruct (Nat.leb_spec (f x) (f y)); simpl; constructor; auto.
    + constructor; [assumption|]. eapply Forall_impl; [|exact F1]. intros; simpl in *; lia.
    + apply Forall_forall. intros z Hz. apply in_map_iff in Hz as [w [Ew Hw]].
      apply (Permutation_in _ (Permutation_sym (insert_perm x l))) in Hw. subst z.
      destruct Hw as [<-|Hw]; [lia|]. rewrite Forall_forall in F1. apply F1. apply in_map. exact Hw.
Qed.
Lemma isort_sorted l : StronglySorted le (map f (isort l)).
Proof. induction l as [|x l IH]; simpl; [constructor|]. apply insert_sorted. exact IH. Qed.
Lemma isort_strict l : NoDup (map f l) -> StronglySorted lt (map f (isort l)).
Proof.
  intros H. assert (H' : NoDup (map f (isort l))) by (eapply Permutation_NoDup; [apply Permutation_map, isort_perm|exact H]).
  pose proof (isort_sorted l) as S. revert H' S. generalize (map f (isort l)). clear.
  induction l as [|x l IH]; intros ND S; constructor.
  - inversion ND; inversion S; subst. auto.
  - inversion ND as [|? ? N1 N2]; inversion S as [|? ? S1 F1]; subst. rewrite Forall_forall in *.
    intros y Hy. specialize (F1 y Hy). assert (x <> y) by (intros ->; contradiction). lia.
Qed.
End ISort.

Lemma flat_map_seq {A} (h : nat -> nat -> A) C l : 0 < C ->
  flat_map (fun o => map (h o) (seq 0 C)) l = map (fun t => h (nth (t / C) l 0) (t mod C)) (seq 0 (length l * C)).
Proof.
  intros HC. induction l as [|x l IH]; [reflexivity|]. cbn [flat_map length Nat.mul]. rewrite seq_app, map_app. f_equal.
  - apply map_ext_in. intros k Hk. apply in_seq in Hk. rewrite Nat.div_small, Nat.mod_small by lia. reflexivity.
  - rewrite IH, (map_seq_shift _ (0 + C)). apply map_ext. intros t.
    replace (0 + C + t) with (t + 1 * C) by lia. rewrite Nat.div_add, Nat.mod_add by lia.
    replace (t / C + 1) with (S (t / C)) by lia. reflexivity.
Qed.

Lemma nth_error_map_seq {A} (h : nat -> A) n t : t < n -> nth_error (map h (seq 0 n)) t = Some (h t).
Proof.
  intros Ht. rewrite nth_error_map, (nth_error_nth' (seq 0 n) 0) by (rewrite seq_length; exact Ht).
  rewrite seq_nth by exact Ht. reflexivity.
Qed.

Section P.
Context {K : CRing}.
Add Ring KringRT : (r_th K).
Local Open Scope K_scope.

Section R.
Variables (n c : nat) (A : crs K).
Hypothesis W : wf_crs n c A.
Hypothesis ND : nodup_rows A.

Local Notation R := (c_R A).
Local Notation C := (c_C A).
Local Notation col := (fun o => nth o (c_cols A) 0%nat).
Local Notation a b := (nth b (c_rowmap A) 0%nat).

(** Offsets of row b in the order of their columns. *)
Definition so (b : nat) : list nat := isort col (rowof A b).

Lemma so_length b : length (so b) = (a (S b) - a b)%nat.
Proof. unfold so. rewrite <- (Permutation_length (isort_perm col (rowof A b))). unfold rowof, range. apply seq_length. Qed.

Lemma rowof_cols b : b < n -> map col (rowof A b) = row_cols (c_rowmap A) (c_cols A) b.
Proof.
  intros Hb. pose proof (wf_mono_le _ _ _ W (S b) n ltac:(lia) ltac:(lia)) as Hle. rewrite (w_last _ _ _ W) in Hle.
  unfold rowof, row_cols, range. apply nth_error_ext. intros t. rewrite nth_error_map, nth_error_segment.
  destruct (Nat.ltb_spec t (a (S b) - a b)) as [Ht|Ht].
  - rewrite (nth_error_nth' _ 0%nat) by (rewrite seq_length; exact Ht). rewrite seq_nth by exact Ht. simpl.
    symmetry. apply nth_error_some_nth. lia.
  - replace (nth_error (seq (a b) (a (S b) - a b)) t) with (@None nat); [reflexivity|].
    symmetry. apply nth_error_None. rewrite seq_length. exact Ht.
Qed.

Lemma so_strict b : b < n -> StronglySorted lt (map col (so b)).
Proof.
  intros Hb. apply isort_strict. rewrite rowof_cols by exact Hb. apply ND. rewrite (w_len _ _ _ W). lia.
Qed.

Definition hpair (i o k : nat) : nat * K :=
  ((col o * C + k)%nat, nth (o * (R * C) + i mod R * C + k) (c_ents A) 0).

Definition erow (i : nat) (l : list nat) : list (nat * K) := flat_map (fun o => map (hpair i o) (seq 0 C)) l.

Lemma erow_g1 i : map (g1 A i) (seq 0 (rsize (c_rowmap A) R i * C)) = erow i (rowof A (i / R)).
Proof.
  pose proof (w_C _ _ _ W) as HC. unfold erow. rewrite flat_map_seq by exact HC.
  replace (length (rowof A (i / R))) with (rsize (c_rowmap A) R i) by (unfold rowof, range; rewrite seq_length; reflexivity).
  apply map_ext_in. intros t Ht. apply in_seq in Ht.
  assert (Hu : t / C < rsize (c_rowmap A) R i) by (apply Nat.div_lt_upper_bound; lia).
  unfold g1, gen_col, hpair, rowof, range. rewrite seq_nth by exact Hu. reflexivity.
Qed.

Lemma erow_strict i l : StronglySorted lt (map col l) -> StronglySorted lt (map fst (erow i l)).
Proof.
  induction l as [|o l IH]; intros H; [constructor|]. cbn [map] in H. inversion H as [|? ? S1 F1]; subst.
  unfold erow. cbn [flat_map]. rewrite map_app. apply StronglySorted_app.
  - rewrite map_map. unfold hpair. cbn [fst].
    assert (G : forall q N k, StronglySorted lt (map (fun x => (q + x)%nat) (seq k N))).
    { intros q N. induction N as [|N IHN]; intros k; [constructor|]. simpl. constructor; [apply IHN|].
      apply Forall_forall. intros y Hy. apply in_map_iff in Hy as [z [<- Hz]]. apply in_seq in Hz. lia. }
    apply G.
  - apply IH. exact S1.
  - intros x y Hx Hy. rewrite map_map in Hx. apply in_map_iff in Hx as [k [<- Hk]]. apply in_seq in Hk.
    apply in_map_iff in Hy as [p [<- Hp]]. apply in_flat_map in Hp as [o' [Ho' Hp]].
    apply in_map_iff in Hp as [k' [<- Hk']]. unfold hpair. cbn [fst].
    rewrite Forall_forall in F1. specialize (F1 _ (in_map _ _ _ Ho')). simpl in F1. nia.
Qed.

Lemma row_of_offset o : o < length (c_cols A) -> exists b, b < n /\ a b <= o < a (S b).
Proof.
  intros Ho. rewrite <- (w_last _ _ _ W) in Ho. pose proof (w_first _ _ _ W) as H0.
  assert (G : forall m, m <= n -> o < a m -> exists b, b < m /\ a b <= o < a (S b)).
  { induction m as [|m IH]; intros Hm H; [lia|]. destruct (Nat.lt_ge_cases o (a m)).
    - destruct (IH ltac:(lia) H1) as [b [Hb Hb']]. exists b. split; [lia|exact Hb'].
    - exists m. lia. }
  apply (G n); [lia|exact Ho].
Qed.

Lemma same_row b b' o : b < n -> b' < n -> a b <= o < a (S b) -> a b' <= o < a (S b') -> b = b'.
Proof.
  intros Hb Hb' H H'. destruct (Nat.lt_trichotomy b b') as [Hlt|[E|Hlt]]; [|exact E|].
  - pose proof (wf_mono_le _ _ _ W (S b) b' ltac:(lia) ltac:(lia)). lia.
  - pose proof (wf_mono_le _ _ _ W (S b') b ltac:(lia) ltac:(lia)). lia.
Qed.

Variables (rm : list nat) (es : list (nat * K)).
Hypothesis D : nb_data n A R (g1 A) rm es.

Lemma back sched : fair sched ->
  exists A', setDataFromNonBlock sched A rm (map fst es, map snd es) = Ok A' /\
    c_rowmap A' = c_rowmap A /\ c_nrows A' = c_nrows A /\ c_ncols A' = c_ncols A /\ c_R A' = R /\ c_C A' = C /\
    length (c_cols A') = length (c_cols A) /\ length (c_ents A') = length (c_ents A) /\
    (forall b u, b < n -> u < a (S b) - a b -> nth_error (c_cols A') (a b + u) = Some (col (nth u (so b) 0%nat))) /\
    (forall b u r k, b < n -> u < a (S b) - a b -> r < R -> k < C ->
       nth_error (c_ents A') ((a b + u) * (R * C) + r * C + k) = Some (nth (nth u (so b) 0%nat * (R * C) + r * C + k) (c_ents A) 0)).
Proof.
  intros Hf. pose proof (w_R _ _ _ W) as HR. pose proof (w_C _ _ _ W) as HC. pose proof (w_len _ _ _ W) as HL.
  assert (HRC : 0 < R * C) by nia.
  unfold setDataFromNonBlock.
  destruct (sort_spec sched rm (map fst es, map snd es) Hf) as [s' [Es [L1 [L2 [Hrows _]]]]].
  { apply (nb_mono n c A R (g1 A) rm es W HR D). }
  { rewrite (nb_len _ _ _ _ _ _ D). lia. }
  { simpl. rewrite !map_length. reflexivity. }
  { simpl. rewrite map_length, (nb_len _ _ _ _ _ _ D). replace (S (n * R) - 1)%nat with (n * R)%nat by lia.
    rewrite (nb_last n c A R (g1 A) rm es W HR D). lia. }
  simpl in L1, L2. rewrite map_length in L1, L2.
  rewrite Es. cbn [rbind]. unfold numRows. rewrite (w_nrows _ _ _ W). cbn [rbind].
  rewrite Nat.div_mul by lia.
  (* the sorted rows *)
  assert (Hrow : forall i, i < n * R -> rseg rm i s' = erow i (so (i / R))).
  { intros i Hi. destruct (Hrows i) as [HP HS]; [rewrite (nb_len _ _ _ _ _ _ D); lia|].
    assert (Hb : i / R < n) by (apply Nat.div_lt_upper_bound; lia).
    symmetry. apply sorted_unique.
    - transitivity (erow i (rowof A (i / R))).
      + apply Permutation_flat_map. apply Permutation_sym, isort_perm.
      + rewrite <- erow_g1. rewrite <- (nb_rows _ _ _ _ _ _ D) by exact Hi.
        unfold rseg, pairs in HP. simpl in HP. rewrite combine_fst_snd in HP. exact HP.
    - apply erow_strict. apply so_strict. exact Hb.
    - assert (Hbd : nth (S i) rm 0%nat <= length (fst s')).
      { rewrite L1. rewrite <- (nb_last n c A R (g1 A) rm es W HR D).
        apply mono_le; [apply (nb_mono n c A R (g1 A) rm es W HR D)|lia|]. rewrite (nb_len _ _ _ _ _ _ D). lia. }
      pose proof (row_sorted_strong rm i s' Hbd HS) as G. unfold row_cols in G.
      replace (map fst (rseg rm i s')) with (segment (nth i rm 0%nat) (nth (S i) rm 0%nat) (fst s')); [exact G|].
      unfold rseg, pairs. apply nth_error_ext. intros t. rewrite nth_error_map, !nth_error_segment, nth_error_combine.
      destruct (Nat.ltb_spec t (nth (S i) rm 0%nat - nth i rm 0%nat)); [|reflexivity].
      rewrite (nth_error_some_nth (fst s') _ 0%nat), (nth_error_some_nth (snd s') _ 0) by lia. reflexivity. }
  assert (Hat : forall i t, i < n * R -> t < rsize (c_rowmap A) R i * C ->
     nth_error (fst s') (rstart (c_rowmap A) R C i + t) = Some (fst (hpair i (nth (t / C) (so (i / R)) 0%nat) (t mod C))) /\
     nth_error (snd s') (rstart (c_rowmap A) R C i + t) = Some (snd (hpair i (nth (t / C) (so (i / R)) 0%nat) (t mod C)))).
  { intros i t Hi Ht. pose proof (Hrow i Hi) as E. unfold erow in E. rewrite flat_map_seq in E by exact HC.
    apply (f_equal (fun l => nth_error l t)) in E. rewrite nth_error_map_seq in E.
    2:{ rewrite so_length. unfold rsize in Ht. exact Ht. }
    unfold rseg in E. rewrite nth_error_segment, !(nb_rm _ _ _ _ _ _ D) in E by lia.
    rewrite (rstart_succ n (c_rowmap A) R C (length (c_cols A)) HR HC HL (w_first _ _ _ W) (wf_mono _ _ _ W) (w_last _ _ _ W)) in E by exact Hi.
    destruct (Nat.ltb_spec t (rstart (c_rowmap A) R C i + rsize (c_rowmap A) R i * C - rstart (c_rowmap A) R C i)); [|lia].
    unfold pairs in E. rewrite nth_error_combine in E.
    destruct (nth_error (fst s') _) as [x|]; [|discriminate]. destruct (nth_error (snd s') _) as [y|]; [|discriminate].
    inversion E; subst. split; reflexivity. }
  (* block row map *)
  destruct (par_write_spec sched (S (n * R)) (sb_rowmap_item A rm)
     (fun i => if Nat.eqb (i mod R) 0 then [((i / R)%nat, a (i / R))] else []) (repeat 0%nat (S n)) Hf) as [brm [E1 [B1 [B2 _]]]].
  { intros i Hi. unfold sb_rowmap_item. destruct (Nat.eqb_spec (i mod R) 0) as [Em|]; [|reflexivity].
    rewrite (nth_error_some_nth rm i 0%nat) by (rewrite (nb_len _ _ _ _ _ _ D); lia). cbn [ub rbind].
    rewrite (nb_rm _ _ _ _ _ _ D) by lia.
    pose proof (Nat.div_mod i R ltac:(lia)) as Ei.
    rewrite Em, Nat.add_0_r, Nat.mul_comm in Ei. rewrite Ei at 2.
    rewrite (rstart_block n (c_rowmap A) R C (length (c_cols A)) HR HC HL (w_first _ _ _ W) (w_last _ _ _ W)). rewrite <- Nat.mul_assoc, Nat.div_mul by lia. reflexivity. }
  { intros i p x Hi Hp. destruct (Nat.eqb (i mod R) 0); [|contradiction]. destruct Hp as [Hp|[]]. inversion Hp; subst.
    rewrite repeat_length. assert (i / R <= n) by (apply Nat.div_le_upper_bound; lia). lia. }
  { intros i j p x y Hi Hj Hp Hq. destruct (Nat.eqb (i mod R) 0); [|contradiction]. destruct (Nat.eqb (j mod R) 0); [|contradiction].
    destruct Hp as [Hp|[]]. destruct Hq as [Hq|[]]. inversion Hp; inversion Hq; subst. congruence. }
  rewrite repeat_length in B1.
  assert (Hbrm : brm = c_rowmap A).
  { apply list_eq_nth; [congruence|]. intros b Hb. rewrite B1 in Hb.
    rewrite (B2 (b * R)%nat b (a b)).
    - symmetry. apply nth_error_some_nth. lia.
    - nia.
    - rewrite Nat.mod_mul, Nat.div_mul by lia. left. reflexivity. }
  rewrite E1. cbn [rbind]. subst brm. clear E1 B1 B2.
  rewrite L2.
  assert (Hne : length es = (length (c_cols A) * (R * C))%nat).
  { rewrite (nb_es _ _ _ _ _ _ D). lia. }
  rewrite Hne, Nat.div_mul by lia.
  assert (Ha : forall b, b < n -> a (S b) <= length (c_cols A)).
  { intros b Hb. rewrite <- (w_last _ _ _ W). apply (wf_mono_le _ _ _ W); lia. }
  (* columns *)
  destruct (par_write_spec sched (n * R) (sb_cols_item A rm (c_rowmap A) (fst s'))
     (fun i => if Nat.eqb (i mod R) 0 then map (fun u => ((a (i / R) + u)%nat, col (nth u (so (i / R)) 0%nat)))
        (seq 0 (a (S (i / R)) - a (i / R))) else [])
     (repeat 0%nat (length (c_cols A))) Hf) as [cols [E1 [B1 [B2 _]]]].
  { intros i Hi. assert (Hb : i / R < n) by (apply Nat.div_lt_upper_bound; lia).
    unfold sb_cols_item. rewrite (row_range_ok n c) by assumption. cbn [rbind].
    rewrite (nth_error_some_nth rm i 0%nat) by (rewrite (nb_len _ _ _ _ _ _ D); lia). cbn [ub rbind].
    rewrite (nb_rm _ _ _ _ _ _ D) by lia.
    destruct (Nat.eqb (i mod R) 0); [|reflexivity].
    unfold rowof, range. rewrite <- (map_id (seq (a (i / R)) _)). rewrite number_map.
    rewrite (mapR_ok _ (fun po => (snd po, col (nth (fst po) (so (i / R)) 0%nat)))).
    - rewrite map_map. reflexivity.
    - intros [p o] Hin. apply in_map_iff in Hin as [u [Eu Hu]]. apply in_seq in Hu. inversion Eu; subst p o.
      destruct (Hat i (u * C)%nat Hi) as [H1 _]; [unfold rsize; nia|].
      rewrite H1. cbn [ub rbind fst snd]. unfold hpair. cbn [fst].
      rewrite Nat.div_mul, Nat.mod_mul, Nat.add_0_r, Nat.div_mul by lia. reflexivity. }
  { intros i p x Hi Hp. assert (Hb : i / R < n) by (apply Nat.div_lt_upper_bound; lia). pose proof (Ha _ Hb).
    destruct (Nat.eqb (i mod R) 0); [|contradiction]. apply in_map_iff in Hp as [u [Eu Hu]]. apply in_seq in Hu.
    inversion Eu; subst. rewrite repeat_length. lia. }
  { intros i j p x y Hi Hj Hp Hq.
    assert (Hb : i / R < n) by (apply Nat.div_lt_upper_bound; lia). assert (Hb' : j / R < n) by (apply Nat.div_lt_upper_bound; lia).
    destruct (Nat.eqb (i mod R) 0); [|contradiction]. destruct (Nat.eqb (j mod R) 0); [|contradiction].
    apply in_map_iff in Hp as [u [Eu Hu]]. apply in_map_iff in Hq as [v [Ev Hv]]. apply in_seq in Hu, Hv.
    injection Eu as Ep Ex. injection Ev as Ep' Ey. subst x y. rewrite <- Ep' in Ep. clear Ep' p.
    assert (Eb : (i / R = j / R)%nat) by (apply (same_row _ _ (a (i / R) + u)%nat Hb Hb'); lia).
    rewrite Eb in Ep. rewrite Eb. replace v with u by lia. reflexivity. }
  rewrite repeat_length in B1. rewrite E1. cbn [rbind].
  (* values *)
  destruct (par_write_spec sched (n * R) (sb_vals_item A rm (c_rowmap A) (snd s'))
     (fun i => map (fun t => (((a (i / R) + t / C) * (R * C) + i mod R * C + t mod C)%nat,
                       snd (hpair i (nth (t / C) (so (i / R)) 0%nat) (t mod C)))) (seq 0 (rsize (c_rowmap A) R i * C)))
     (repeat 0 (length (c_cols A) * (R * C))) Hf) as [vals [F1 [G1 [G2 _]]]].
  { intros i Hi. assert (Hb : i / R < n) by (apply Nat.div_lt_upper_bound; lia).
    unfold sb_vals_item. rewrite (row_range_ok n c) by assumption. cbn [rbind].
    rewrite (nth_error_some_nth rm i 0%nat) by (rewrite (nb_len _ _ _ _ _ _ D); lia). cbn [ub rbind].
    rewrite (nb_rm _ _ _ _ _ _ D) by lia. unfold rowof, range. rewrite list_prod_seq by exact HC. rewrite number_map.
    fold (rsize (c_rowmap A) R i).
    rewrite (mapR_ok _ (fun pok => ((fst (snd pok) * (R * C) + i mod R * C + snd (snd pok))%nat,
        snd (hpair i (nth (fst (snd pok) - a (i / R)) (so (i / R)) 0%nat) (snd (snd pok)))))).
    - rewrite map_map. f_equal. apply map_ext. intros t. rewrite Nat.add_0_l. cbn [fst snd].
      replace (a (i / R) + t / C - a (i / R))%nat with (t / C)%nat by lia. reflexivity.
    - intros [p [o k]] Hin. apply in_map_iff in Hin as [t [Et Ht]]. apply in_seq in Ht. rewrite Nat.add_0_l in Et.
      injection Et as <- <- <-. cbn [fst snd].
      destruct (Hat i t Hi ltac:(lia)) as [_ H2]. rewrite H2. cbn [ub rbind].
      replace (a (i / R) + t / C - a (i / R))%nat with (t / C)%nat by lia. reflexivity. }
  { intros i p x Hi Hp. assert (Hb : i / R < n) by (apply Nat.div_lt_upper_bound; lia). pose proof (Ha _ Hb).
    apply in_map_iff in Hp as [t [Et Ht]]. apply in_seq in Ht. inversion Et; subst p x. rewrite repeat_length.
    assert (Hu : t / C < rsize (c_rowmap A) R i) by (apply Nat.div_lt_upper_bound; lia). unfold rsize in Hu.
    pose proof (block_idx R C (length (c_cols A)) (a (i / R) + t / C) (i mod R) (t mod C) ltac:(lia)
      (Nat.mod_upper_bound i R ltac:(lia)) (Nat.mod_upper_bound t C ltac:(lia))). lia. }
  { intros i j p x y Hi Hj Hp Hq.
    assert (Hb : i / R < n) by (apply Nat.div_lt_upper_bound; lia). assert (Hb' : j / R < n) by (apply Nat.div_lt_upper_bound; lia).
    apply in_map_iff in Hp as [u [Eu Hu]]. apply in_map_iff in Hq as [v [Ev Hv]]. apply in_seq in Hu, Hv.
    injection Eu as Ep Ex. injection Ev as Ep' Ey. subst x y. rewrite <- Ep' in Ep. clear Ep' p.
    pose proof (Nat.mod_upper_bound i R ltac:(lia)) as Mi. pose proof (Nat.mod_upper_bound j R ltac:(lia)) as Mj.
    pose proof (Nat.mod_upper_bound u C ltac:(lia)) as Mu. pose proof (Nat.mod_upper_bound v C ltac:(lia)) as Mv.
    assert (Hu' : u / C < rsize (c_rowmap A) R i) by (apply Nat.div_lt_upper_bound; lia).
    assert (Hv' : v / C < rsize (c_rowmap A) R j) by (apply Nat.div_lt_upper_bound; lia). unfold rsize in Hu', Hv'.
    assert (X1 : forall o r k, r < R -> k < C -> ((o * (R * C) + r * C + k) / (R * C) = o /\
       (o * (R * C) + r * C + k) mod (R * C) = r * C + k)%nat).
    { intros o r k Hr Hk. assert (r * C + k < R * C) by nia. rewrite <- Nat.add_assoc. split.
      - rewrite Nat.div_add_l, Nat.div_small by lia. lia.
      - rewrite Nat.add_comm, Nat.mod_add, Nat.mod_small by lia. reflexivity. }
    pose proof (X1 (a (i / R) + u / C)%nat _ _ Mi Mu) as [Y1 Y2]. pose proof (X1 (a (j / R) + v / C)%nat _ _ Mj Mv) as [Z1 Z2].
    rewrite Ep in Y1, Y2. rewrite Z1 in Y1. rewrite Z2 in Y2.
    assert (Eb : (i / R = j / R)%nat) by (apply (same_row _ _ (a (i / R) + u / C)%nat Hb Hb'); lia).
    rewrite Eb in Y1. assert (Eu : (u / C = v / C)%nat) by lia.
    assert (Er : (i mod R = j mod R)%nat) by nia. assert (Ek : (u mod C = v mod C)%nat) by nia.
    unfold hpair. cbn [snd]. rewrite Eb, Eu, Er, Ek. reflexivity. }
  rewrite repeat_length in G1. rewrite F1. cbn [rbind].
  eexists. split; [reflexivity|]. cbn [c_rowmap c_nrows c_ncols c_R c_C c_cols c_ents].
  repeat (split; [solve [reflexivity | exact B1 | exact (w_nrows _ _ _ W) | rewrite G1, (w_ents _ _ _ W); lia]|]).
  split.
  - intros b u Hb Hu. apply (B2 (b * R)%nat); [nia|]. rewrite Nat.mod_mul, Nat.div_mul by lia. simpl.
    apply in_map_iff. exists u. split; [reflexivity|]. apply in_seq. lia.
  - intros b u r k Hb Hu Hr Hk.
    assert (Ed : ((b * R + r) / R = b)%nat) by (rewrite Nat.div_add_l, Nat.div_small by lia; lia).
    assert (Em : ((b * R + r) mod R = r)%nat) by (rewrite Nat.add_comm, Nat.mod_add, Nat.mod_small by lia; reflexivity).
    assert (Ed' : ((u * C + k) / C = u)%nat) by (rewrite Nat.div_add_l, Nat.div_small by lia; lia).
    assert (Em' : ((u * C + k) mod C = k)%nat) by (rewrite Nat.add_comm, Nat.mod_add, Nat.mod_small by lia; reflexivity).
    apply (G2 (b * R + r)%nat); [nia|]. apply in_map_iff. exists (u * C + k)%nat.
    unfold hpair, rsize. cbn [snd]. rewrite Ed, Em, Ed', Em'. split; [reflexivity|]. apply in_seq. nia.
Qed.

Lemma so_sorted_id b : b < n -> StronglySorted le (row_cols (c_rowmap A) (c_cols A) b) -> so b = rowof A b.
Proof.
  intros Hb HS. pose proof (so_strict b Hb) as S1. rewrite <- rowof_cols in HS by exact Hb.
  assert (E : map (fun o => (col o, o)) (so b) = map (fun o => (col o, o)) (rowof A b)).
  { apply sorted_unique.
    - apply Permutation_map. apply Permutation_sym, isort_perm.
    - rewrite map_map. exact S1.
    - rewrite map_map. exact HS. }
  apply (f_equal (map snd)) in E. rewrite !map_map in E. simpl in E. rewrite !map_id in E. exact E.
Qed.

Lemma back_matrix sched : fair sched ->
  exists A', setDataFromNonBlock sched A rm (map fst es, map snd es) = Ok A' /\
    wf_crs n c A' /\ c_rowmap A' = c_rowmap A /\ sorted_rows (c_rowmap A') (c_cols A') /\
    (forall i j, i < n * R -> matrix A' i j = matrix A i j) /\
    (sorted_rows (c_rowmap A) (c_cols A) -> A' = A).
Proof.
  intros Hf. pose proof (w_R _ _ _ W) as HR. pose proof (w_C _ _ _ W) as HC. pose proof (w_len _ _ _ W) as HL.
  destruct (back sched Hf) as [A' [E [H1 [H2 [H3 [H4 [H5 [H6 [H7 [H8 H9]]]]]]]]]].
  exists A'. split; [exact E|].
  assert (Hso : forall b u, b < n -> u < a (S b) - a b -> In (nth u (so b) 0%nat) (rowof A b)).
  { intros b u Hb Hu. apply (Permutation_in _ (Permutation_sym (isort_perm col (rowof A b)))).
    apply nth_In. change (u < length (so b)); rewrite so_length. exact Hu. }
  split; [|split; [|split; [|split]]].
  - constructor; rewrite ?H1, ?H2, ?H3, ?H4, ?H5, ?H6, ?H7; try solve [apply W].
    + intros x Hx. apply In_nth_error in Hx as [o Ho].
      assert (Hol : o < length (c_cols A)). { rewrite <- H6. apply nth_error_Some. congruence. }
      destruct (row_of_offset o Hol) as [b [Hb Hbo]].
      pose proof (H8 b (o - a b)%nat Hb ltac:(lia)) as G. replace (a b + (o - a b))%nat with o in G by lia.
      rewrite G in Ho. inversion Ho; subst. apply (col_lt n c); [exact W|].
      apply (rowof_in n c A b); [exact W|exact Hb|]. apply Hso; [exact Hb|lia].
  - exact H1.
  - intros b Hb. rewrite H1 in *. rewrite HL in Hb.
    replace (row_cols (c_rowmap A) (c_cols A') b) with (map col (so b)).
    + apply isort_sorted.
    + unfold row_cols. apply nth_error_ext. intros t. rewrite nth_error_map, nth_error_segment.
      destruct (Nat.ltb_spec t (a (S b) - a b)) as [Ht|Ht].
      * rewrite (nth_error_some_nth (so b) t 0%nat) by (rewrite so_length; exact Ht). simpl. symmetry. apply H8; [lia|exact Ht].
      * replace (nth_error (so b) t) with (@None nat); [reflexivity|]. symmetry. apply nth_error_None. rewrite so_length. exact Ht.
  - intros i j Hi. assert (Hb : i / R < n) by (apply Nat.div_lt_upper_bound; lia).
    unfold matrix, dense_rc. rewrite H1, H4, H5. 
    transitivity (lsum (map (fun o => if Nat.eqb (col o) (j / C) then nth (R * C * o + C * (i mod R) + j mod C) (c_ents A) 0 else 0)
       (so (i / R)))).
    + unfold range. f_equal. apply nth_error_ext. intros t. rewrite !nth_error_map.
      destruct (Nat.lt_ge_cases t (a (S (i / R)) - a (i / R))) as [Ht|Ht].
      * rewrite (nth_error_nth' (seq _ _) 0%nat) by (rewrite seq_length; exact Ht). rewrite seq_nth by exact Ht. cbn [option_map].
        rewrite (nth_error_some_nth (so (i / R)) t 0%nat) by (rewrite so_length; exact Ht). cbn [option_map].
        rewrite (nth_error_nth _ _ _ (H8 _ t Hb Ht)).
        pose proof (H9 _ t (i mod R)%nat (j mod C)%nat Hb Ht (Nat.mod_upper_bound i R ltac:(lia)) (Nat.mod_upper_bound j C ltac:(lia))) as G.
        rewrite (Nat.mul_comm (R * C) (_ + t)), (Nat.mul_comm C (i mod R)). rewrite (nth_error_nth _ _ _ G).
        rewrite (Nat.mul_comm (R * C) (nth t _ _)). reflexivity.
      * replace (nth_error (seq _ _) t) with (@None nat) by (symmetry; apply nth_error_None; rewrite seq_length; exact Ht).
        replace (nth_error (so (i / R)) t) with (@None nat) by (symmetry; apply nth_error_None; rewrite so_length; exact Ht).
        reflexivity.
    + apply lsum_perm. apply Permutation_map. apply Permutation_sym. apply isort_perm.
  - intros HS.
    assert (Hid : forall b u, b < n -> u < a (S b) - a b -> nth u (so b) 0%nat = (a b + u)%nat).
    { intros b u Hb Hu. rewrite so_sorted_id; [|exact Hb|apply HS; lia]. unfold rowof, range. apply seq_nth. exact Hu. }
    assert (Ecols : c_cols A' = c_cols A).
    { apply list_eq_nth; [exact H6|]. intros o Ho. rewrite H6 in Ho. destruct (row_of_offset o Ho) as [b [Hb Hbo]].
      pose proof (H8 b (o - a b)%nat Hb ltac:(lia)) as G. rewrite Hid in G by lia.
      replace (a b + (o - a b))%nat with o in G by lia. rewrite G. symmetry. apply nth_error_some_nth. exact Ho. }
    assert (Eents : c_ents A' = c_ents A).
    { apply list_eq_nth; [exact H7|]. intros p Hp. rewrite H7, (w_ents _ _ _ W) in Hp.
      set (o := (p / (R * C))%nat). set (m := (p mod (R * C))%nat).
      assert (HRC : (R * C <> 0)%nat) by nia.
      pose proof (Nat.div_mod p (R * C) HRC) as Ep. fold o m in Ep.
      pose proof (Nat.mod_upper_bound p (R * C) HRC) as Hm. fold m in Hm.
      pose proof (Nat.div_mod m C ltac:(lia)) as Emm. pose proof (Nat.mod_upper_bound m C ltac:(lia)) as Hk.
      assert (Hr : m / C < R) by (apply Nat.div_lt_upper_bound; lia).
      assert (Ho : o < length (c_cols A)) by (apply Nat.div_lt_upper_bound; lia).
      destruct (row_of_offset o Ho) as [b [Hb Hbo]].
      pose proof (H9 b (o - a b)%nat (m / C)%nat (m mod C)%nat Hb ltac:(lia) Hr Hk) as G. rewrite Hid in G by lia.
      replace (a b + (o - a b))%nat with o in G by lia.
      replace (o * (R * C) + m / C * C + m mod C)%nat with p in G by lia.
      rewrite G. symmetry. apply nth_error_some_nth. rewrite (w_ents _ _ _ W). exact Hp. }
    destruct A', A. simpl in *. subst. reflexivity.
Qed.
End R.
End P.
