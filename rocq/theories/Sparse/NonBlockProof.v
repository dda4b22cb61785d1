(** Conversion of block data to non-block data. *)
From Coq Require Import Arith Lia List Bool Permutation Sorted Ring.
From Verif Require Import Base.Field Base.Sums Base.ListUpd Base.Res Base.Scatter Base.Loops
  Sparse.CrsModel Sparse.CrsSpec Sparse.MatvecProof Sparse.SortProof.
Import ListNotations.

Lemma list_prod_seq a m C : 0 < C ->
  list_prod (seq a m) (seq 0 C) = map (fun t => (a + t / C, t mod C)) (seq 0 (m * C)).
Proof.
  intros HC. revert a; induction m as [|m IH]; intros a; simpl; [reflexivity|].
  rewrite seq_app, map_app. f_equal.
  - apply map_ext_in. intros k Hk. apply in_seq in Hk. rewrite Nat.div_small, Nat.mod_small by lia. f_equal. lia.
  - rewrite IH, (map_seq_shift _ (0 + C)). apply map_ext. intros t.
    replace (0 + C + t) with (t + 1 * C) by lia. rewrite Nat.div_add, Nat.mod_add by lia. f_equal. lia.
Qed.

Lemma number_map {A} p (g : nat -> A) a N : number p (map g (seq a N)) = map (fun t => (p + t, g (a + t))) (seq 0 N).
Proof.
  revert p a; induction N as [|N IH]; intros p a; simpl; [reflexivity|]. rewrite !Nat.add_0_r. f_equal.
  rewrite IH, (map_seq_shift _ 1). apply map_ext. intros t. simpl.
  f_equal; [lia|f_equal; lia].
Qed.

(** A strictly increasing cover: the row starts. *)
Section Expand.
Context {K : CRing}.
Add Ring KringNB : (r_th K).
Local Open Scope K_scope.
Variables (n : nat) (rm0 : list nat) (Q C L : nat).
Hypothesis HQ : 0 < Q.
Hypothesis HC : 0 < C.
Hypothesis Hlen : length rm0 = S n.
Hypothesis Hfirst : nth 0 rm0 0%nat = 0%nat.
Hypothesis Hmono : mono rm0.
Hypothesis Hlast : nth n rm0 0%nat = L.

Definition rstart (i : nat) : nat :=
  let b := (i / Q)%nat in
  (nth b rm0 0%nat * Q * C + i mod Q * (nth (S b) rm0 0%nat - nth b rm0 0%nat) * C)%nat.

Definition rsize (i : nat) : nat := (nth (S (i / Q)) rm0 0%nat - nth (i / Q) rm0 0%nat)%nat.

Lemma div_lt_n i : i < n * Q -> i / Q < n.
Proof. intros H. apply Nat.div_lt_upper_bound; lia. Qed.

Lemma rstart_succ i : i < n * Q -> rstart (S i) = (rstart i + rsize i * C)%nat.
Proof.
  intros Hi. pose proof (div_lt_n i Hi) as Hb. unfold rstart, rsize.
  pose proof (Nat.div_mod i Q ltac:(lia)) as E. pose proof (Nat.mod_upper_bound i Q ltac:(lia)) as Hm.
  set (b := (i / Q)%nat) in *. set (r := (i mod Q)%nat) in *.
  assert (Hle : nth b rm0 0%nat <= nth (S b) rm0 0%nat) by (apply Hmono; lia).
  destruct (Nat.eq_dec (S r) Q) as [Hr|Hr].
  - assert (E1 : S i = (S b * Q)%nat) by nia. rewrite E1, Nat.div_mul, Nat.mod_mul by lia.
    rewrite <- Hr. set (x := nth b rm0 0%nat) in *. set (y := nth (S b) rm0 0%nat) in *.
    replace y with (x + (y - x))%nat at 1 by lia. set (d := (y - x)%nat). simpl. ring.
  - assert (E1 : S i = (S r + b * Q)%nat) by nia.
    rewrite E1, Nat.div_add, Nat.mod_add, (Nat.div_small (S r)), (Nat.mod_small (S r)) by lia.
    rewrite Nat.add_0_l. simpl. ring.
Qed.

Lemma rstart_block b : rstart (b * Q) = (nth b rm0 0%nat * Q * C)%nat.
Proof. unfold rstart. rewrite Nat.div_mul, Nat.mod_mul by lia. lia. Qed.

Lemma rstart_0 : rstart 0 = 0%nat.
Proof. replace 0%nat with (0 * Q)%nat by lia. rewrite rstart_block, Hfirst. reflexivity. Qed.

Lemma rstart_last : rstart (n * Q) = (L * Q * C)%nat.
Proof. rewrite rstart_block, Hlast. reflexivity. Qed.

Lemma rstart_mono i j : i <= j -> j <= n * Q -> rstart i <= rstart j.
Proof.
  intros Hij. induction j as [|j IH]; intros Hj; [replace i with 0%nat by lia; lia|].
  destruct (Nat.eq_dec i (S j)) as [->|]; [lia|]. rewrite rstart_succ by lia. specialize (IH ltac:(lia) ltac:(lia)). lia.
Qed.

Lemma rm0_le b : b < n -> nth (S b) rm0 0%nat <= L.
Proof. intros. rewrite <- Hlast. apply mono_le; [exact Hmono|lia|lia]. Qed.

(** The rows written by the items, at position [rstart i + t]. *)
Variable V : Type.
Variable g : nat -> nat -> V.   (* row, offset within the row *)

Definition rwrites (i : nat) : list (nat * V) := map (fun t => ((rstart i + t)%nat, g i t)) (seq 0 (rsize i * C)).

Lemma rwrites_spec sched item d :
  fair sched -> (forall i, i < n * Q -> item i = Ok (rwrites i)) ->
  exists es, par_write sched (n * Q) item (repeat d (L * Q * C)) = Ok es /\
    length es = (L * Q * C)%nat /\
    (forall i, i < n * Q -> segment (rstart i) (rstart (S i)) es = map (g i) (seq 0 (rsize i * C))).
Proof.
  intros Hf Hi.
  destruct (par_write_spec sched (n * Q) item rwrites (repeat d (L * Q * C)) Hf Hi) as [es [E [HL [H1 _]]]].
  - intros i p x Hin Hp. unfold rwrites in Hp. apply in_map_iff in Hp as [t [Et Ht]]. apply in_seq in Ht.
    inversion Et; subst p x. rewrite repeat_length, <- rstart_last.
    pose proof (rstart_mono (S i) (n * Q) ltac:(lia) ltac:(lia)). rewrite rstart_succ in H by lia. lia.
  - intros i j p x y Hin Hjn Hp Hq. unfold rwrites in Hp, Hq.
    apply in_map_iff in Hp as [t [Et Ht]]. apply in_map_iff in Hq as [u [Eu Hu]].
    apply in_seq in Ht, Hu. injection Et as Ep Ex. injection Eu as Ep2 Ey. subst x y. rewrite <- Ep2 in Ep. clear Ep2.
    assert (i = j).
    { destruct (Nat.lt_trichotomy i j) as [Hlt|[Heq|Hlt]]; [|exact Heq|].
      - pose proof (rstart_mono (S i) j ltac:(lia) ltac:(lia)) as M. rewrite rstart_succ in M by lia. lia.
      - pose proof (rstart_mono (S j) i ltac:(lia) ltac:(lia)) as M. rewrite rstart_succ in M by lia. lia. }
    subst j. f_equal. lia.
  - exists es. rewrite repeat_length in HL. split; [exact E|]. split; [exact HL|].
    intros i Hin. apply nth_error_ext. intros t. rewrite nth_error_segment, rstart_succ by exact Hin.
    replace (rstart i + rsize i * C - rstart i)%nat with (rsize i * C)%nat by lia.
    rewrite nth_error_map. destruct (Nat.ltb_spec t (rsize i * C)) as [Ht|Ht].
    + rewrite (nth_error_nth' (seq 0 _) 0%nat) by (rewrite seq_length; exact Ht). rewrite seq_nth by exact Ht. simpl.
      apply (H1 i); [exact Hin|]. unfold rwrites. apply in_map_iff. exists t. split; [reflexivity|]. apply in_seq. lia.
    + replace (nth_error (seq 0 (rsize i * C)) t) with (@None nat); [reflexivity|].
      symmetry. apply nth_error_None. rewrite seq_length. exact Ht.
Qed.

End Expand.

Section P.
Context {K : CRing}.
Add Ring KringNB2 : (r_th K).
Local Open Scope K_scope.

Lemma wf_mono n c (A : crs K) : wf_crs n c A -> mono (c_rowmap A).
Proof. intros W i Hi. rewrite (w_len _ _ _ W) in Hi. apply (w_mono _ _ _ W). lia. Qed.

Definition gen_col (A : crs K) Q i t :=
  (nth (nth (i / Q) (c_rowmap A) 0%nat + t / c_C A) (c_cols A) 0%nat * c_C A + t mod c_C A)%nat.

(** The (column, value) pair written at offset t of row i, stride one. *)
Definition g1 (A : crs K) (i t : nat) : nat * K :=
  (gen_col A (c_R A) i t,
   nth ((nth (i / c_R A) (c_rowmap A) 0%nat + t / c_C A) * (c_R A * c_C A) + i mod c_R A * c_C A + t mod c_C A)
       (c_ents A) 0).

Definition gs (A : crs K) (stride offset : nat) (i t : nat) : nat * K :=
  (gen_col A stride i t,
   if Nat.eqb (i mod stride) offset
   then nth ((nth (i / stride) (c_rowmap A) 0%nat + t / c_C A) * c_C A + t mod c_C A) (c_ents A) 0
   else 0).

Lemma rowmap_part n c (A : crs K) junk sched Q :
  fair sched -> wf_crs n c A -> 0 < Q ->
  exists its rm,
    mapR (nb_rowmap_item junk A Q Q) (seq 0 (S (n * Q))) = Ok its /\ existsb snd its = true /\
    par_write sched (S (n * Q))
      (fun i => let! it := nb_rowmap_item junk A Q Q i in Ok [fst it]) (repeat 0%nat (S (n * Q))) = Ok rm /\
    length rm = S (n * Q) /\
    forall i, i <= n * Q -> nth_error rm i = Some (rstart (c_rowmap A) Q (c_C A) i).
Proof.
  intros Hf W HQ.
  pose proof (w_len _ _ _ W) as Hlen.
  assert (Hit : forall i, i < S (n * Q) -> nb_rowmap_item junk A Q Q i =
     Ok ((i, rstart (c_rowmap A) Q (c_C A) i), if Nat.eqb i (n * Q) then true else false)).
  { intros i Hi. unfold nb_rowmap_item, rstart.
    assert (Hb : i / Q <= n). { apply Nat.div_le_upper_bound; lia. }
    rewrite (nth_error_some_nth (c_rowmap A) (i / Q) 0%nat) by lia. cbn [ub rbind].
    destruct (Nat.eqb_spec i (n * Q)) as [->|Hne].
    - rewrite Nat.div_mul, Nat.mod_mul by lia.
      assert (E : nth_error (c_rowmap A) (S n) = None) by (apply nth_error_None; lia). rewrite E.
      f_equal.
    - assert (i / Q < n) by (apply Nat.div_lt_upper_bound; lia).
      rewrite (nth_error_some_nth (c_rowmap A) (S (i / Q)) 0%nat) by lia. reflexivity. }
  exists (map (fun i => ((i, rstart (c_rowmap A) Q (c_C A) i), if Nat.eqb i (n * Q) then true else false)) (seq 0 (S (n * Q)))).
  destruct (par_write_spec sched (S (n * Q)) (fun i => let! it := nb_rowmap_item junk A Q Q i in Ok [fst it])
     (fun i => [(i, rstart (c_rowmap A) Q (c_C A) i)]) (repeat 0%nat (S (n * Q))) Hf) as [rm [E [HL [H1 _]]]].
  - intros i Hi. rewrite Hit by exact Hi. reflexivity.
  - intros i p x Hi [Hp|[]]. inversion Hp; subst. rewrite repeat_length. lia.
  - intros i j p x y Hi Hj [Hp|[]] [Hq|[]]. inversion Hp; inversion Hq; subst. congruence.
  - exists rm. split; [|split; [|split; [|split]]].
    + apply mapR_ok. intros i Hi. apply in_seq in Hi. apply Hit. lia.
    + apply existsb_exists. exists ((n * Q, rstart (c_rowmap A) Q (c_C A) (n * Q)), true)%nat. split; [|reflexivity].
      apply in_map_iff. exists (n * Q)%nat. rewrite Nat.eqb_refl. split; [reflexivity|]. apply in_seq. lia.
    + exact E.
    + rewrite repeat_length in HL. exact HL.
    + intros i Hi. apply (H1 i); [lia|]. left. reflexivity.
Qed.

Lemma nb_row_item_ok n c (A : crs K) rm i :
  wf_crs n c A -> i < n * c_R A ->
  nth_error rm i = Some (rstart (c_rowmap A) (c_R A) (c_C A) i) ->
  nb_row_item A rm i = Ok (rwrites (c_rowmap A) (c_R A) (c_C A) _ (g1 A) i).
Proof.
  intros W Hi Hr. pose proof (w_R _ _ _ W) as HR. pose proof (w_C _ _ _ W) as HC.
  assert (Hb : i / c_R A < n) by (apply Nat.div_lt_upper_bound; lia).
  unfold nb_row_item. rewrite (row_range_ok n c) by assumption. cbn [rbind].
  rewrite Hr. cbn [ub rbind]. unfold rowof, range. rewrite list_prod_seq by exact HC.
  fold (rsize (c_rowmap A) (c_R A) i).
  rewrite (mapR_ok _ (fun ok => ((nth (fst ok) (c_cols A) 0%nat * c_C A + snd ok)%nat,
     nth (fst ok * (c_R A * c_C A) + i mod c_R A * c_C A + snd ok) (c_ents A) 0))).
  - cbn [rbind]. f_equal. rewrite map_map. rewrite number_map. reflexivity.
  - intros [o k] Hin. apply in_map_iff in Hin as [t [Et Ht]]. apply in_seq in Ht. inversion Et; subst. clear Et.
    assert (Ho : nth (i / c_R A) (c_rowmap A) 0%nat + t / c_C A < length (c_cols A)).
    { pose proof (rm0_le n (c_rowmap A) 1 1 (length (c_cols A)) ltac:(lia) ltac:(lia) (w_len _ _ _ W) (w_first _ _ _ W) (wf_mono _ _ _ W) (w_last _ _ _ W) _ Hb) as Hle.
      assert (t / c_C A < rsize (c_rowmap A) (c_R A) i) by (apply Nat.div_lt_upper_bound; lia).
      unfold rsize in H. lia. }
    rewrite (nth_error_some_nth (c_cols A) _ 0%nat) by exact Ho. cbn [ub rbind].
    rewrite (nth_error_some_nth (c_ents A) _ 0); [reflexivity|].
    rewrite (w_ents _ _ _ W).
    pose proof (block_idx (c_R A) (c_C A) (length (c_cols A)) _ (i mod c_R A) (t mod c_C A) Ho
      (Nat.mod_upper_bound i (c_R A) ltac:(lia)) (Nat.mod_upper_bound t (c_C A) ltac:(lia))).
    rewrite (Nat.mul_comm (i mod c_R A)). rewrite (Nat.mul_comm _ (c_R A * c_C A)). exact H.
Qed.

Lemma nb_row_item_stride_ok n c (A : crs K) stride offset rm i :
  wf_crs n c A -> c_R A = 1%nat -> 0 < stride -> i < n * stride ->
  nth_error rm i = Some (rstart (c_rowmap A) stride (c_C A) i) ->
  nb_row_item_stride A stride offset rm i = Ok (rwrites (c_rowmap A) stride (c_C A) _ (gs A stride offset) i).
Proof.
  intros W HR HS Hi Hr. pose proof (w_C _ _ _ W) as HC.
  assert (Hb : i / stride < n) by (apply Nat.div_lt_upper_bound; lia).
  unfold nb_row_item_stride. rewrite (row_range_ok n c) by assumption. cbn [rbind].
  rewrite Hr. cbn [ub rbind]. unfold rowof, range. rewrite list_prod_seq by exact HC.
  fold (rsize (c_rowmap A) stride i).
  rewrite (mapR_ok _ (fun ok => ((nth (fst ok) (c_cols A) 0%nat * c_C A + snd ok)%nat,
     if Nat.eqb (i mod stride) offset then nth (fst ok * c_C A + snd ok) (c_ents A) 0 else 0))).
  - cbn [rbind]. f_equal. rewrite map_map. rewrite number_map. reflexivity.
  - intros [o k] Hin. apply in_map_iff in Hin as [t [Et Ht]]. apply in_seq in Ht. inversion Et; subst. clear Et.
    assert (Ho : nth (i / stride) (c_rowmap A) 0%nat + t / c_C A < length (c_cols A)).
    { pose proof (rm0_le n (c_rowmap A) 1 1 (length (c_cols A)) ltac:(lia) ltac:(lia) (w_len _ _ _ W) (w_first _ _ _ W) (wf_mono _ _ _ W) (w_last _ _ _ W) _ Hb) as Hle.
      assert (t / c_C A < rsize (c_rowmap A) stride i) by (apply Nat.div_lt_upper_bound; lia).
      unfold rsize in H. lia. }
    rewrite (nth_error_some_nth (c_cols A) _ 0%nat) by exact Ho. cbn [ub rbind fst snd].
    destruct (Nat.eqb (i mod stride) offset); [|reflexivity].
    rewrite (nth_error_some_nth (c_ents A) _ 0); [reflexivity|].
    rewrite (w_ents _ _ _ W), HR.
    pose proof (Nat.mod_upper_bound t (c_C A) ltac:(lia)).
    set (o := (nth (i / stride) (c_rowmap A) 0 + t / c_C A)%nat) in *.
    assert (c_C A * S o <= c_C A * length (c_cols A)) by (apply Nat.mul_le_mono_l; lia). lia.
Qed.

(** Result of the conversion, both variants. *)
Record nb_data (n : nat) (A : crs K) (Q : nat) (g : nat -> nat -> nat * K) (rm : list nat) (es : list (nat * K)) : Prop := {
  nb_len : length rm = S (n * Q);
  nb_rm : forall i, i <= n * Q -> nth i rm 0%nat = rstart (c_rowmap A) Q (c_C A) i;
  nb_es : length es = (length (c_cols A) * Q * c_C A)%nat;
  nb_rows : forall i, i < n * Q ->
     segment (nth i rm 0%nat) (nth (S i) rm 0%nat) es = map (g i) (seq 0 (rsize (c_rowmap A) Q i * c_C A))
}.

Lemma get_ok n c (A : crs K) junk sched :
  fair sched -> wf_crs n c A ->
  exists rm es, getDataAsNonBlock junk sched A 1 0 = Ok ((rm, es), true) /\
    nb_data n A (c_R A) (g1 A) rm es.
Proof.
  intros Hf W. pose proof (w_R _ _ _ W) as HR. pose proof (w_C _ _ _ W) as HC.
  unfold getDataAsNonBlock, numRows. rewrite (w_nrows _ _ _ W). cbn [rbind]. simpl (Nat.eqb 1 1). cbn [rbind].
  rewrite Nat.mul_1_r. rewrite Nat.mul_1_r.
  destruct (rowmap_part n c A junk sched (c_R A) Hf W HR) as [its [rm [E1 [E2 [E3 [L3 H3]]]]]].
  rewrite E1. cbn [rbind]. rewrite E3. cbn [rbind].
  destruct (rwrites_spec n (c_rowmap A) (c_R A) (c_C A) (length (c_cols A)) HR HC (w_len _ _ _ W) (w_first _ _ _ W)
      (wf_mono _ _ _ W) (w_last _ _ _ W) _ (g1 A) sched (nb_row_item A rm) (0%nat, 0) Hf) as [es [E4 [L4 H4]]].
  - intros i Hi. apply (nb_row_item_ok n c); try assumption. apply H3. lia.
  - rewrite <- Nat.mul_assoc in E4 at 1. rewrite E4. cbn [rbind]. rewrite E2.
    exists rm, es. split; [reflexivity|].
    assert (Hrm : forall i, i <= n * c_R A -> nth i rm 0%nat = rstart (c_rowmap A) (c_R A) (c_C A) i).
    { intros i Hi. apply nth_error_nth. apply H3. exact Hi. }
    constructor; auto. intros i Hi. rewrite !Hrm by lia. apply H4. exact Hi.
Qed.

Lemma get_stride_ok n c (A : crs K) junk sched stride offset :
  fair sched -> wf_crs n c A -> c_R A = 1%nat -> 1 < stride ->
  exists rm es, getDataAsNonBlock junk sched A stride offset = Ok ((rm, es), true) /\
    nb_data n A stride (gs A stride offset) rm es.
Proof.
  intros Hf W HR HS. pose proof (w_C _ _ _ W) as HC.
  unfold getDataAsNonBlock, numRows. rewrite (w_nrows _ _ _ W). cbn [rbind].
  destruct (Nat.eqb_spec stride 1); [lia|].
  rewrite HR, Nat.mul_1_r, Nat.mul_1_l.
  destruct (rowmap_part n c A junk sched stride Hf W ltac:(lia)) as [its [rm [E1 [E2 [E3 [L3 H3]]]]]].
  rewrite E1. cbn [rbind]. rewrite E3. cbn [rbind].
  destruct (rwrites_spec n (c_rowmap A) stride (c_C A) (length (c_cols A)) ltac:(lia) HC (w_len _ _ _ W) (w_first _ _ _ W)
      (wf_mono _ _ _ W) (w_last _ _ _ W) _ (gs A stride offset) sched (nb_row_item_stride A stride offset rm) (0%nat, 0) Hf) as [es [E4 [L4 H4]]].
  - intros i Hi. apply (nb_row_item_stride_ok n c); try assumption; [lia|]. apply H3. lia.
  - replace (length (c_cols A) * c_C A * stride)%nat with (length (c_cols A) * stride * c_C A)%nat by lia.
    rewrite E4. cbn [rbind]. rewrite E2.
    exists rm, es. split; [reflexivity|].
    assert (Hrm : forall i, i <= n * stride -> nth i rm 0%nat = rstart (c_rowmap A) stride (c_C A) i).
    { intros i Hi. apply nth_error_nth. apply H3. exact Hi. }
    constructor; auto. intros i Hi. rewrite !Hrm by lia. apply H4. exact Hi.
Qed.

Lemma combine_fst_snd {X Y} (l : list (X * Y)) : combine (map fst l) (map snd l) = l.
Proof. induction l as [|[x y] l IH]; simpl; [reflexivity|]. rewrite IH. reflexivity. Qed.

Lemma nb_mono n c (A : crs K) Q g rm es : wf_crs n c A -> 0 < Q -> nb_data n A Q g rm es -> mono rm.
Proof.
  intros W HQ D i Hi. rewrite (nb_len _ _ _ _ _ _ D) in Hi. rewrite !(nb_rm _ _ _ _ _ _ D) by lia.
  apply (rstart_mono n (c_rowmap A) Q (c_C A) (length (c_cols A)) HQ (w_C _ _ _ W) (w_len _ _ _ W) (w_first _ _ _ W)
    (wf_mono _ _ _ W) (w_last _ _ _ W)); lia.
Qed.

Lemma nb_last n c (A : crs K) Q g rm es : wf_crs n c A -> 0 < Q -> nb_data n A Q g rm es ->
  nth (n * Q) rm 0%nat = length es.
Proof.
  intros W HQ D. rewrite (nb_rm _ _ _ _ _ _ D) by lia. rewrite (nb_es _ _ _ _ _ _ D).
  apply (rstart_last n (c_rowmap A) Q (c_C A) (length (c_cols A)) HQ (w_C _ _ _ W) (w_len _ _ _ W) (w_first _ _ _ W) (w_last _ _ _ W)).
Qed.

(** Dense row: sum over the written pairs, then over blocks and local columns. *)
Lemma nb_dense n c (A : crs K) Q g rm es i j : wf_crs n c A -> 0 < Q -> nb_data n A Q g rm es -> i < n * Q ->
  dense_rc 1 1 rm (map fst es) (map snd es) i j
  = lsum (map (fun t => if Nat.eqb (fst (g i t)) j then snd (g i t) else 0) (seq 0 (rsize (c_rowmap A) Q i * c_C A))).
Proof.
  intros W HQ D Hi.
  pose proof (dense_pairs rm (map fst es, map snd es) i j) as H. simpl in H. rewrite H.
  - unfold rseg, pairs. simpl. rewrite combine_fst_snd, (nb_rows _ _ _ _ _ _ D) by exact Hi. rewrite map_map. reflexivity.
  - rewrite !map_length. reflexivity.
  - rewrite map_length, <- (nb_last n c A Q g rm es W HQ D).
    apply mono_le; [apply (nb_mono n c A Q g rm es W HQ D)|lia|]. rewrite (nb_len _ _ _ _ _ _ D). lia.
Qed.

Lemma sum_pick C k0 (c j : nat) (v : nat -> K) : 0 < C -> k0 = (j mod C)%nat ->
  sum C (fun k => if Nat.eqb (c * C + k) j then v k else 0) = if Nat.eqb c (j / C) then v k0 else 0.
Proof.
  intros HC ->. pose proof (Nat.div_mod j C ltac:(lia)) as E. pose proof (Nat.mod_upper_bound j C ltac:(lia)) as Hm.
  destruct (Nat.eqb_spec c (j / C)) as [->|Hne].
  - rewrite (sum_single C (j mod C)); [|exact Hm|].
    + destruct (Nat.eqb_spec (j / C * C + j mod C) j); [reflexivity|lia].
    + intros k Hk Hd. destruct (Nat.eqb_spec (j / C * C + k) j); [lia|reflexivity].
  - apply sum_0. intros k Hk. destruct (Nat.eqb_spec (c * C + k) j) as [E2|]; [|reflexivity].
    exfalso. apply Hne. rewrite <- E2, Nat.div_add_l, Nat.div_small by lia. lia.
Qed.

Lemma get_dense n c (A : crs K) rm es i j : wf_crs n c A -> nb_data n A (c_R A) (g1 A) rm es -> i < n * c_R A ->
  dense_rc 1 1 rm (map fst es) (map snd es) i j = matrix A i j.
Proof.
  intros W D Hi. pose proof (w_R _ _ _ W) as HR. pose proof (w_C _ _ _ W) as HC.
  rewrite (nb_dense n c A _ _ _ _ _ _ W HR D Hi). rewrite lsum_map_seq, sum_block.
  unfold matrix, dense_rc, range. fold (rsize (c_rowmap A) (c_R A) i). rewrite lsum_map_seq_shift.
  apply sum_ext. intros u Hu.
  rewrite (sum_ext _ _ (fun k => if Nat.eqb (nth (nth (i / c_R A) (c_rowmap A) 0 + u) (c_cols A) 0 * c_C A + k)%nat j
     then nth (c_R A * c_C A * (nth (i / c_R A) (c_rowmap A) 0 + u) + c_C A * (i mod c_R A) + k)%nat (c_ents A) 0 else 0)).
  - apply (sum_pick (c_C A) (j mod c_C A) _ j (fun k => nth (c_R A * c_C A * (nth (i / c_R A) (c_rowmap A) 0 + u) + c_C A * (i mod c_R A) + k)%nat (c_ents A) 0)); auto.
  - intros k Hk. unfold g1, gen_col. cbn [fst snd].
    rewrite Nat.div_add_l, (Nat.div_small k), Nat.add_0_r by lia.
    rewrite (Nat.add_comm (u * c_C A) k), Nat.mod_add, (Nat.mod_small k) by lia.
    rewrite (Nat.mul_comm (i mod c_R A)), (Nat.mul_comm _ (c_R A * c_C A)). reflexivity.
Qed.

Lemma get_stride_dense n c (A : crs K) stride offset rm es i j :
  wf_crs n c A -> c_R A = 1%nat -> 0 < stride -> nb_data n A stride (gs A stride offset) rm es -> i < n * stride ->
  dense_rc 1 1 rm (map fst es) (map snd es) i j =
  if Nat.eqb (i mod stride) offset then matrix A (i / stride) j else 0.
Proof.
  intros W HR HS D Hi. pose proof (w_C _ _ _ W) as HC.
  rewrite (nb_dense n c A _ _ _ _ _ _ W HS D Hi). rewrite lsum_map_seq.
  destruct (Nat.eqb_spec (i mod stride) offset) as [Eo|No].
  - rewrite sum_block.
    unfold matrix, dense_rc, range. rewrite HR, Nat.div_1_r, Nat.mod_1_r.
    fold (rsize (c_rowmap A) stride i). rewrite lsum_map_seq_shift.
    apply sum_ext. intros u Hu.
    rewrite (sum_ext _ _ (fun k => if Nat.eqb (nth (nth (i / stride) (c_rowmap A) 0 + u) (c_cols A) 0 * c_C A + k)%nat j
     then nth (c_C A * (nth (i / stride) (c_rowmap A) 0 + u) + k)%nat (c_ents A) 0 else 0)).
    + rewrite (sum_pick (c_C A) (j mod c_C A) _ j (fun k => nth (c_C A * (nth (i / stride) (c_rowmap A) 0 + u) + k)%nat (c_ents A) 0)); auto.
      rewrite Nat.mul_0_r, Nat.add_0_r, Nat.mul_1_l. reflexivity.
    + intros k Hk. unfold gs, gen_col. cbn [fst snd]. rewrite Eo, Nat.eqb_refl.
      rewrite Nat.div_add_l, (Nat.div_small k), Nat.add_0_r by lia.
      rewrite (Nat.add_comm (u * c_C A) k), Nat.mod_add, (Nat.mod_small k) by lia.
      rewrite (Nat.mul_comm (c_C A) (_ + u)). reflexivity.
  - apply sum_0. intros t Ht. unfold gs. cbn [fst snd].
    destruct (Nat.eqb_spec (i mod stride) offset); [congruence|]. destruct (Nat.eqb _ j); reflexivity.
Qed.

End P.
