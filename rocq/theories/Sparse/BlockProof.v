(** Non-block data with a block pattern, in any order within the rows, come back as the block matrix they represent. *)
From Coq Require Import Arith Lia List Bool Sorted Permutation.
From Verif Require Import Base.Field Base.Sums Base.ListUpd Base.Res Base.Loops Base.Scatter Sparse.CrsModel Sparse.CrsSpec
  Sparse.MatvecProof Sparse.SortProof Sparse.NonBlockProof Sparse.RoundTripProof Sparse.ProductModel Sparse.ProductSpec.
Import ListNotations.

Lemma sorted_nodup l : StronglySorted le l -> NoDup l -> StronglySorted lt l.
Proof.
  induction l as [|x l IH]; intros S N; [constructor|].
  inversion S as [|? ? S1 F1]; inversion N as [|? ? N1 N2]; subst. constructor; [apply IH; assumption|].
  rewrite Forall_forall in *. intros y Hy. specialize (F1 y Hy). assert (x <> y) by (intros ->; contradiction). lia.
Qed.

Lemma offset_row rm n p : nth 0 rm 0 = 0 -> p < nth n rm 0 -> exists i, i < n /\ nth i rm 0 <= p < nth (S i) rm 0.
Proof.
  intros H0. induction n as [|n IH]; intros H; [lia|].
  destruct (Nat.lt_ge_cases p (nth n rm 0)) as [Hp|Hp]; [destruct (IH Hp) as (i & Hi & Hi'); exists i; lia|exists n; lia].
Qed.

Lemma NoDup_app_intro {X} (l l' : list X) : NoDup l -> NoDup l' -> (forall x, In x l -> In x l' -> False) -> NoDup (l ++ l').
Proof.
  induction l as [|x l IH]; intros N N' H; [exact N'|]. inversion N as [|? ? N1 N2]; subst. cbn. constructor.
  - rewrite in_app_iff. intros [Hx|Hx]; [contradiction|]. apply (H x); [left; reflexivity|exact Hx].
  - apply IH; [exact N2|exact N'|]. intros y Hy Hy'. apply (H y); [right; exact Hy|exact Hy'].
Qed.

Section P.
Context {K : CField}.
Local Open Scope K_scope.

Lemma segment_map {A B} (f : A -> B) a b l : segment a b (map f l) = map f (segment a b l).
Proof. unfold segment. rewrite skipn_map, firstn_map. reflexivity. Qed.

Lemma in_segment {A} a b (l : list A) x : In x (segment a b l) -> In x l.
Proof.
  unfold segment. intros H. rewrite <- (firstn_skipn a l). apply in_or_app. right.
  rewrite <- (firstn_skipn (b - a) (skipn a l)). apply in_or_app. left. exact H.
Qed.

Lemma pairs_split (s : list nat * list K) : length (fst s) = length (snd s) -> s = (map fst (pairs s), map snd (pairs s)).
Proof.
  destruct s as [a b]. unfold pairs. cbn [fst snd]. revert b; induction a as [|x a IH]; intros [|y b] H; cbn in *; try discriminate; [reflexivity|].
  specialize (IH b ltac:(congruence)). injection IH as E1 E2. rewrite <- E1, <- E2. reflexivity.
Qed.

Lemma nb_row_rseg (d : nbdata K) i : rseg (fst d) i (map fst (snd d), map snd (snd d)) = nb_row d i.
Proof. unfold rseg, pairs, nb_row. cbn [fst snd]. rewrite combine_fst_snd. reflexivity. Qed.

Lemma valid_mono n c (d : nbdata K) : nb_valid n c d -> mono (fst d).
Proof. intros V i Hi. rewrite (v_len _ _ _ V) in Hi. apply (v_mono _ _ _ V). lia. Qed.

Lemma nb_cols_row (d : nbdata K) i : nb_cols d i = row_cols (fst d) (map fst (snd d)) i.
Proof. unfold nb_cols, row_cols, nb_row. rewrite segment_map. reflexivity. Qed.

(** Entries do not depend on the order within the rows. *)
Lemma entry_perm (d1 d2 : nbdata K) i j : Permutation (nb_row d1 i) (nb_row d2 i) -> entry d1 i j = entry d2 i j.
Proof. intros H. unfold entry. apply lsum_perm. apply Permutation_map. exact H. Qed.

Lemma lsum_none (l : list (nat * K)) j : ~ In j (map fst l) -> lsum (map (fun p => if Nat.eqb (fst p) j then snd p else 0) l) = 0.
Proof.
  intros H. apply lsum_map_0. intros p Hp.
  destruct (Nat.eqb_spec (fst p) j) as [E|]; [|reflexivity]. exfalso. apply H. rewrite <- E. apply in_map. exact Hp.
Qed.

Lemma entry_none (d : nbdata K) i j : ~ In j (nb_cols d i) -> entry d i j = 0.
Proof. intros H. unfold entry. apply lsum_none. exact H. Qed.

Lemma entry_some (d : nbdata K) i p : NoDup (nb_cols d i) -> In p (nb_row d i) -> entry d i (fst p) = snd p.
Proof.
  unfold entry, nb_cols. generalize (nb_row d i). intros l. induction l as [|x l IH]; intros N H; [contradiction|].
  cbn [map] in N. inversion N as [|? ? N1 N2]; subst. cbn [map lsum]. destruct H as [->|H].
  - rewrite Nat.eqb_refl. rewrite lsum_none by exact N1. rewrite (Radd_comm (r_th K)), (Radd_0_l (r_th K)). reflexivity.
  - rewrite (IH N2 H). destruct (Nat.eqb_spec (fst x) (fst p)) as [E|]; [|apply (Radd_0_l (r_th K))].
    exfalso. apply N1. rewrite E. apply in_map. exact H.
Qed.

Lemma sort_same sched n c (d1 d2 : nbdata K) : fair sched -> nb_valid n c d1 -> fst d2 = fst d1 -> length (snd d2) = length (snd d1) ->
  (forall i, i < n -> Permutation (nb_row d1 i) (nb_row d2 i)) ->
  sortColumnEntries sched (fst d1) (map fst (snd d1), map snd (snd d1)) = sortColumnEntries sched (fst d2) (map fst (snd d2), map snd (snd d2)).
Proof.
  intros Hf V E L HP. rewrite E. pose proof (v_len _ _ _ V) as HL. pose proof (v_last _ _ _ V) as Hlast. pose proof (valid_mono _ _ _ V) as Hm.
  destruct (sort_spec sched (fst d1) (map fst (snd d1), map snd (snd d1)) Hf Hm ltac:(lia)) as (s1 & E1 & A1 & B1 & P1 & _);
    [cbn; rewrite !map_length; reflexivity|cbn; rewrite map_length, HL; replace (S n - 1)%nat with n by lia; lia|].
  destruct (sort_spec sched (fst d1) (map fst (snd d2), map snd (snd d2)) Hf Hm ltac:(lia)) as (s2 & E2 & A2 & B2 & P2 & _);
    [cbn; rewrite !map_length; reflexivity|cbn; rewrite map_length, HL; replace (S n - 1)%nat with n by lia; lia|].
  rewrite E1, E2. f_equal. cbn [fst snd] in *. rewrite !map_length in *.
  rewrite (pairs_split s1), (pairs_split s2) by lia.
  assert (X : pairs s1 = pairs s2); [|rewrite X; reflexivity].
  assert (Hrow : forall i, i < n -> rseg (fst d1) i s1 = rseg (fst d1) i s2).
  { intros i Hi. destruct (P1 i ltac:(lia)) as [Q1 S1]. destruct (P2 i ltac:(lia)) as [Q2 S2].
    rewrite nb_row_rseg in Q1. rewrite <- E in Q2 at 1. rewrite nb_row_rseg in Q2.
    assert (Hb : nth (S i) (fst d1) 0%nat <= length (snd d1)) by (rewrite <- Hlast; apply mono_le; [exact Hm|lia|lia]).
    apply row_sorted_strong in S1; [|lia]. apply row_sorted_strong in S2; [|lia].
    assert (C : forall s : list nat * list K, length (fst s) = length (snd s) -> row_cols (fst d1) (fst s) i = map fst (rseg (fst d1) i s)).
    { intros s Hs. unfold row_cols, rseg. rewrite <- segment_map. f_equal. rewrite (pairs_split s Hs) at 1. reflexivity. }
    rewrite C in S1 by lia. rewrite C in S2 by lia.
    apply sorted_unique.
    - rewrite <- Q1, <- Q2. apply HP. exact Hi.
    - apply sorted_nodup; [exact S1|]. apply (Permutation_NoDup (l := nb_cols d1 i)); [|apply (v_nodup _ _ _ V); exact Hi].
      unfold nb_cols. apply Permutation_map. exact Q1.
    - exact S2. }
  apply list_eq_nth; [unfold pairs; rewrite !combine_length; lia|].
  intros p Hp. unfold pairs in Hp at 1. rewrite combine_length in Hp.
  destruct (offset_row (fst d1) n p (v_first _ _ _ V) ltac:(lia)) as (i & Hi & Hpi).
  pose proof (f_equal (fun l => nth_error l (p - nth i (fst d1) 0%nat)) (Hrow i Hi)) as G. cbn beta in G. unfold rseg in G.
  rewrite !nth_error_segment in G. destruct (Nat.ltb_spec (p - nth i (fst d1) 0%nat) (nth (S i) (fst d1) 0%nat - nth i (fst d1) 0%nat)); [|lia].
  replace (nth i (fst d1) 0%nat + (p - nth i (fst d1) 0%nat))%nat with p in G by lia. exact G.
Qed.

(** ** Data of a block matrix. *)
Lemma cols_of_expand C l j : 0 < C -> (In j (flat_map (fun q => map (fun k => (q * C + k)%nat) (seq 0 C)) l) <-> In (j / C)%nat l).
Proof.
  intros HC. rewrite in_flat_map. split.
  - intros (q & Hq & H). apply in_map_iff in H as (k & <- & Hk). apply in_seq in Hk.
    rewrite Nat.div_add_l, Nat.div_small by lia. rewrite Nat.add_0_r. exact Hq.
  - intros H. exists (j / C)%nat. split; [exact H|]. apply in_map_iff. exists (j mod C)%nat.
    pose proof (Nat.div_mod j C ltac:(lia)). pose proof (Nat.mod_upper_bound j C ltac:(lia)). split; [lia|apply in_seq; lia].
Qed.

Lemma expand_nodup C l : 0 < C -> NoDup l -> NoDup (flat_map (fun q => map (fun k => (q * C + k)%nat) (seq 0 C)) l).
Proof.
  intros HC. induction l as [|q l IH]; intros N; [constructor|]. inversion N as [|? ? N1 N2]; subst. cbn [flat_map].
  apply NoDup_app_intro.
  - apply FinFun.Injective_map_NoDup; [intros x y; lia|apply seq_NoDup].
  - apply IH. exact N2.
  - intros j Hj Hj'. apply in_map_iff in Hj as (k & <- & Hk). apply in_seq in Hk. apply cols_of_expand in Hj'; [|exact HC].
    rewrite Nat.div_add_l, Nat.div_small, Nat.add_0_r in Hj' by lia. contradiction.
Qed.

Lemma expand_length C l : length (flat_map (fun q => map (fun k => (q * C + k)%nat) (seq 0 C)) l) = (length l * C)%nat.
Proof. induction l as [|q l IH]; [reflexivity|]. cbn [flat_map length]. rewrite app_length, map_length, seq_length, IH. lia. Qed.

Definition expand (C : nat) (l : list nat) : list nat := flat_map (fun q => map (fun k => (q * C + k)%nat) (seq 0 C)) l.

Lemma row_cols_length n c (A : crs K) b : wf_crs n c A -> b < n ->
  length (row_cols (c_rowmap A) (c_cols A) b) = (nth (S b) (c_rowmap A) 0%nat - nth b (c_rowmap A) 0%nat)%nat.
Proof.
  intros W Hb. rewrite <- (rowof_cols n c A W b Hb), map_length. unfold rowof, range. apply seq_length.
Qed.

Lemma row_cols_nth n c (A : crs K) b u : wf_crs n c A -> b < n -> u < nth (S b) (c_rowmap A) 0%nat - nth b (c_rowmap A) 0%nat ->
  nth u (row_cols (c_rowmap A) (c_cols A) b) 0%nat = nth (nth b (c_rowmap A) 0%nat + u) (c_cols A) 0%nat.
Proof.
  intros W Hb Hu. rewrite <- (rowof_cols n c A W b Hb). unfold rowof, range.
  apply nth_error_nth. rewrite nth_error_map. rewrite (nth_error_nth' _ 0%nat) by (rewrite seq_length; exact Hu).
  rewrite seq_nth by exact Hu. reflexivity.
Qed.

Lemma data_cols n c (A : crs K) Q g rm es i : wf_crs n c A -> 0 < Q -> nb_data n A Q g rm es -> i < n * Q ->
  (forall t, fst (g i t) = gen_col A Q i t) ->
  nb_cols (rm, es) i = expand (c_C A) (row_cols (c_rowmap A) (c_cols A) (i / Q)).
Proof.
  intros W HQ D Hi Hg. pose proof (w_C _ _ _ W) as HC. assert (Hb : i / Q < n) by (apply Nat.div_lt_upper_bound; lia).
  unfold nb_cols, nb_row. cbn [fst snd]. rewrite (nb_rows _ _ _ _ _ _ D) by exact Hi. rewrite map_map.
  unfold expand. rewrite (flat_map_seq (fun q k => (q * c_C A + k)%nat)) by exact HC.
  rewrite (row_cols_length n c A _ W Hb). fold (rsize (c_rowmap A) Q i). apply map_ext_in. intros t Ht. apply in_seq in Ht.
  assert (Hu : t / c_C A < rsize (c_rowmap A) Q i) by (apply Nat.div_lt_upper_bound; lia).
  rewrite Hg. unfold gen_col. rewrite (row_cols_nth n c A _ _ W Hb Hu). reflexivity.
Qed.

Lemma data_valid n c (A : crs K) Q g rm es : wf_crs n c A -> nodup_rows A -> 0 < Q -> nb_data n A Q g rm es ->
  (forall i t, i < n * Q -> fst (g i t) = gen_col A Q i t) -> nb_valid (n * Q) (c * c_C A) (rm, es).
Proof.
  intros W ND HQ D Hg. pose proof (w_C _ _ _ W) as HC. constructor; cbn [fst snd].
  - apply (nb_len _ _ _ _ _ _ D).
  - rewrite (nb_rm _ _ _ _ _ _ D) by lia.
    eapply rstart_0; [exact HQ|exact HC|apply W..].
  - intros i Hi. apply (nb_mono n c A Q g rm es W HQ D). rewrite (nb_len _ _ _ _ _ _ D). lia.
  - apply (nb_last n c A Q g rm es W HQ D).
  - intros i j Hi Hj. rewrite (data_cols n c A Q g) in Hj; try assumption; [|intros; apply Hg; exact Hi].
    apply cols_of_expand in Hj; [|exact HC].
    assert (Hb : i / Q < n) by (apply Nat.div_lt_upper_bound; lia).
    assert (Hc : (j / c_C A)%nat < c).
    { apply (w_cols _ _ _ W). apply (in_segment _ _ _ _ Hj). }
    pose proof (Nat.div_mod j (c_C A) ltac:(lia)). pose proof (Nat.mod_upper_bound j (c_C A) ltac:(lia)).
    assert (c_C A * S (j / c_C A) <= c_C A * c)%nat by (apply Nat.mul_le_mono_l; lia). lia.
  - intros i Hi. rewrite (data_cols n c A Q g); try assumption; [|intros; apply Hg; exact Hi].
    apply expand_nodup; [exact HC|]. apply ND. rewrite (w_len _ _ _ W).
    assert (Hb : i / Q < n) by (apply Nat.div_lt_upper_bound; lia). lia.
Qed.

Lemma valid_bound n c (d : nbdata K) i : nb_valid n c d -> i <= n -> nth i (fst d) 0%nat <= length (snd d).
Proof. intros V Hi. rewrite <- (v_last _ _ _ V). apply mono_le; [apply (valid_mono _ _ _ V)|exact Hi|rewrite (v_len _ _ _ V); lia]. Qed.

Lemma entry_dense n c (d : nbdata K) i j : nb_valid n c d -> i < n ->
  entry d i j = dense_rc 1 1 (fst d) (map fst (snd d)) (map snd (snd d)) i j.
Proof.
  intros V Hi. pose proof (dense_pairs (fst d) (map fst (snd d), map snd (snd d)) i j) as H. cbn [fst snd] in H. rewrite H.
  - rewrite nb_row_rseg. reflexivity.
  - rewrite !map_length. reflexivity.
  - rewrite map_length. apply (valid_bound n c); [exact V|lia].
Qed.

(** What [getDataAsNonBlock] delivers. *)
Lemma get_data n c (A : crs K) junk sched : fair sched -> wf_crs n c A -> nodup_rows A ->
  exists d, getDataAsNonBlock junk sched A 1 0 = Ok (d, true) /\ nb_valid (n * c_R A) (c * c_C A) d /\
    (forall i j, i < n * c_R A -> (In j (nb_cols d i) <-> In (j / c_C A)%nat (row_cols (c_rowmap A) (c_cols A) (i / c_R A)))) /\
    (forall i j, i < n * c_R A -> entry d i j = matrix A i j).
Proof.
  intros Hf W ND. pose proof (w_R _ _ _ W) as HR. pose proof (w_C _ _ _ W) as HC.
  destruct (get_ok n c A junk sched Hf W) as (rm & es & E & D). exists (rm, es). split; [exact E|].
  assert (V : nb_valid (n * c_R A) (c * c_C A) (rm, es)) by (apply (data_valid n c A (c_R A) (g1 A)); auto).
  split; [exact V|]. split.
  - intros i j Hi. rewrite (data_cols n c A (c_R A) (g1 A)); auto. apply cols_of_expand. exact HC.
  - intros i j Hi. rewrite (entry_dense _ _ _ _ _ V Hi). apply (get_dense n c); assumption.
Qed.

Lemma get_data_stride n c (A : crs K) junk sched stride offset : fair sched -> wf_crs n c A -> nodup_rows A -> c_R A = 1%nat -> offset < stride ->
  exists d, getDataAsNonBlock junk sched A stride offset = Ok (d, true) /\ nb_valid (n * stride) (c * c_C A) d /\
    (forall i j, i < n * stride -> (In j (nb_cols d i) <-> In (j / c_C A)%nat (row_cols (c_rowmap A) (c_cols A) (i / stride)))) /\
    (forall i j, i < n * stride -> entry d i j = if Nat.eqb (i mod stride) offset then matrix A (i / stride) j else 0).
Proof.
  intros Hf W ND HR Ho. pose proof (w_C _ _ _ W) as HC. destruct (Nat.eq_dec stride 1) as [->|Hs].
  - assert (offset = 0%nat) as -> by lia. destruct (get_data n c A junk sched Hf W ND) as (d & E & V & H1 & H2).
    rewrite HR in *. exists d. split; [exact E|]. split; [exact V|]. split; [exact H1|].
    intros i j Hi. rewrite Nat.mod_1_r, Nat.div_1_r. apply H2. exact Hi.
  - destruct (get_stride_ok n c A junk sched stride offset Hf W HR ltac:(lia)) as (rm & es & E & D). exists (rm, es). split; [exact E|].
    assert (V : nb_valid (n * stride) (c * c_C A) (rm, es)).
    { apply (data_valid n c A stride (gs A stride offset)); auto. lia. }
    split; [exact V|]. split.
    + intros i j Hi. rewrite (data_cols n c A stride (gs A stride offset)); auto; [|lia]. apply cols_of_expand. exact HC.
    + intros i j Hi. rewrite (entry_dense _ _ _ _ _ V Hi). apply (get_stride_dense n c); try assumption. lia.
Qed.

(** ** Back to blocks. *)
Section Back.
Variables (n c R C : nat) (d : nbdata K) (blocks : nat -> list nat).
Hypothesis HR : 0 < R.
Hypothesis HC : 0 < C.
Hypothesis V : nb_valid (n * R) (c * C) d.
Hypothesis NB : forall b, b < n -> NoDup (blocks b).
Hypothesis HB : forall i j, i < n * R -> (In j (nb_cols d i) <-> In (j / C)%nat (blocks (i / R))).

Let BC : list (nat * nat) := flat_map (fun b => map (pair b) (blocks b)) (seq 0 n).
Let start (b : nat) : nat := length (flat_map (fun b => map (pair b) (blocks b)) (seq 0 b)).
Definition refE : crs K :=
  mkCrs (map start (seq 0 (S n))) (map snd BC)
    (map (fun p => let bq := nth (p / (R * C)) BC (0, 0)%nat in
                   entry d (fst bq * R + (p mod (R * C)) / C) (snd bq * C + p mod C)) (seq 0 (R * C * length BC)))
    (Some (n * R)%nat) (Some (c * C)%nat) R C.

Lemma start_S b : start (S b) = (start b + length (blocks b))%nat.
Proof. unfold start. rewrite seq_S, flat_map_app, app_length. cbn. rewrite app_nil_r, map_length. reflexivity. Qed.

Lemma start_le a b : a <= b -> start a <= start b.
Proof. induction b as [|b IH]; intros H; [replace a with 0%nat by lia; lia|]. destruct (Nat.eq_dec a (S b)) as [->|]; [lia|]. rewrite start_S. specialize (IH ltac:(lia)). lia. Qed.

Lemma start_n : start n = length BC.
Proof. reflexivity. Qed.

Lemma refE_rm b : b <= n -> nth b (c_rowmap refE) 0%nat = start b.
Proof. intros Hb. cbn [refE c_rowmap]. apply nth_error_nth. apply nth_error_map_seq. lia. Qed.

Lemma BC_nth b u : b < n -> u < length (blocks b) -> nth_error BC (start b + u) = Some (b, nth u (blocks b) 0%nat).
Proof.
  intros Hb Hu. unfold BC. replace n with (b + S (n - S b))%nat by lia. rewrite seq_app, flat_map_app. fold (start b).
  rewrite nth_error_app2 by (unfold start; lia). match goal with |- nth_error _ ?k = _ => replace k with u by (unfold start; lia) end.
  cbn [seq flat_map plus]. rewrite nth_error_app1 by (rewrite map_length; exact Hu). rewrite nth_error_map.
  rewrite (nth_error_some_nth (blocks b) u 0%nat) by exact Hu. reflexivity.
Qed.

Lemma BC_in b q : In (b, q) BC <-> b < n /\ In q (blocks b).
Proof.
  unfold BC. rewrite in_flat_map. split.
  - intros (b' & Hb & H). apply in_seq in Hb. apply in_map_iff in H as (q' & E & Hq). injection E as -> ->. split; [lia|exact Hq].
  - intros [Hb Hq]. exists b. split; [apply in_seq; lia|apply in_map; exact Hq].
Qed.

Lemma blocks_lt b q : b < n -> In q (blocks b) -> q < c.
Proof.
  intros Hb Hq. assert (Hi : b * R < n * R) by (apply Nat.mul_lt_mono_pos_r; assumption).
  assert (H : In (q * C)%nat (nb_cols d (b * R))) by (apply HB; [exact Hi|]; rewrite !Nat.div_mul by lia; exact Hq).
  apply (v_cols _ _ _ V) in H; [|exact Hi]. apply (Nat.mul_lt_mono_pos_r C); assumption.
Qed.

Lemma refE_wf : wf_crs n c refE.
Proof.
  constructor.
  - exact HR.
  - exact HC.
  - unfold refE. cbn [c_rowmap]. rewrite map_length, seq_length. reflexivity.
  - rewrite refE_rm by lia. reflexivity.
  - intros i Hi. rewrite !refE_rm by lia. apply start_le. lia.
  - rewrite refE_rm by lia. unfold refE. cbn [c_cols]. rewrite map_length. apply start_n.
  - intros q Hq. unfold refE in Hq. cbn [c_cols] in Hq. apply in_map_iff in Hq as ([b q'] & <- & H). apply BC_in in H as [Hb H]. apply (blocks_lt b); assumption.
  - unfold refE. cbn [c_ents c_R c_C c_cols]. rewrite !map_length, seq_length. reflexivity.
  - reflexivity.
  - reflexivity.
Qed.

Lemma refE_row b : b < n -> row_cols (c_rowmap refE) (c_cols refE) b = blocks b.
Proof.
  intros Hb. unfold row_cols. rewrite !refE_rm by lia. rewrite start_S. apply nth_error_ext. intros u. rewrite nth_error_segment.
  destruct (Nat.ltb_spec u (start b + length (blocks b) - start b)) as [Hu|Hu].
  - cbn [refE c_cols]. rewrite nth_error_map, BC_nth by (assumption || lia). cbn [option_map snd]. symmetry. apply nth_error_some_nth. lia.
  - symmetry. apply nth_error_None. lia.
Qed.

Lemma refE_nodup : nodup_rows refE.
Proof. intros b Hb. cbn [refE c_rowmap] in Hb. rewrite map_length, seq_length in Hb. rewrite refE_row by lia. apply NB. lia. Qed.

Lemma refE_erow i : i < n * R -> erow refE i (rowof refE (i / R)) = map (fun j => (j, entry d i j)) (expand C (blocks (i / R))).
Proof.
  intros Hi. assert (Hb : i / R < n) by (apply Nat.div_lt_upper_bound; lia).
  unfold erow, expand. cbn [refE c_C]. fold refE. rewrite (flat_map_seq (hpair refE i)) by exact HC.
  rewrite (flat_map_seq (fun q k => (q * C + k)%nat)) by exact HC. rewrite map_map.
  assert (L : length (rowof refE (i / R)) = length (blocks (i / R))).
  { rewrite <- (refE_row (i / R) Hb), <- (rowof_cols n c refE refE_wf (i / R) Hb), map_length. reflexivity. }
  rewrite L. apply map_ext_in. intros t Ht. apply in_seq in Ht.
  assert (Hu : t / C < length (blocks (i / R))) by (apply Nat.div_lt_upper_bound; lia).
  set (u := (t / C)%nat) in *. set (k := (t mod C)%nat). pose proof (Nat.mod_upper_bound t C ltac:(lia)) as Hk. fold k in Hk.
  assert (Eo : nth u (rowof refE (i / R)) 0%nat = (start (i / R) + u)%nat).
  { unfold rowof, range. rewrite !refE_rm by lia. rewrite start_S. apply seq_nth. lia. }
  rewrite Eo. unfold hpair. cbn [refE c_cols c_R c_C c_ents]. pose proof (BC_nth _ _ Hb Hu) as G.
  assert (Ec : nth (start (i / R) + u) (map snd BC) 0%nat = nth u (blocks (i / R)) 0%nat).
  { apply nth_error_nth. rewrite nth_error_map, G. reflexivity. }
  rewrite Ec. f_equal. apply nth_error_nth. pose proof (Nat.mod_upper_bound i R ltac:(lia)) as Hm.
  assert (HRC : (i mod R * C + k < R * C)%nat).
  { assert (S (i mod R) * C <= R * C)%nat by (apply Nat.mul_le_mono_r; lia). lia. }
  set (o := (start (i / R) + u)%nat) in *. set (w := (i mod R * C + k)%nat) in *.
  assert (Ho : o < length BC) by (apply nth_error_Some; congruence).
  replace (o * (R * C) + i mod R * C + k)%nat with (o * (R * C) + w)%nat by (unfold w; lia).
  rewrite nth_error_map_seq.
  - rewrite Nat.div_add_l, (Nat.div_small w), Nat.add_0_r by lia. rewrite (nth_error_nth _ _ _ G). cbn [fst snd].
    assert (E1 : ((o * (R * C) + w) mod (R * C) = w)%nat) by (rewrite Nat.add_comm, Nat.mod_add by lia; apply Nat.mod_small; lia).
    rewrite E1. replace (w / C)%nat with (i mod R)%nat by (unfold w; rewrite Nat.div_add_l, Nat.div_small by lia; lia).
    assert (E2 : ((o * (R * C) + w) mod C = k)%nat).
    { unfold w. replace (o * (R * C) + (i mod R * C + k))%nat with (k + (o * R + i mod R) * C)%nat by lia.
      rewrite Nat.mod_add by lia. apply Nat.mod_small. exact Hk. }
    rewrite E2. replace (i / R * R + i mod R)%nat with i by (pose proof (Nat.div_mod i R ltac:(lia)); lia). reflexivity.
  - assert (R * C * S o <= R * C * length BC)%nat by (apply Nat.mul_le_mono_l; lia). lia.
Qed.

Lemma d_row_perm i : i < n * R -> Permutation (nb_row d i) (map (fun j => (j, entry d i j)) (expand C (blocks (i / R)))).
Proof.
  intros Hi. assert (Hb : i / R < n) by (apply Nat.div_lt_upper_bound; lia).
  transitivity (map (fun j => (j, entry d i j)) (nb_cols d i)).
  - unfold nb_cols. rewrite map_map. rewrite (map_ext_in _ (fun p => p)); [rewrite map_id; reflexivity|].
    intros p Hp. rewrite (entry_some d i p (v_nodup _ _ _ V i Hi) Hp). destruct p; reflexivity.
  - apply Permutation_map. apply NoDup_Permutation.
    + apply (v_nodup _ _ _ V i Hi).
    + apply expand_nodup; [exact HC|]. apply NB. exact Hb.
    + intros j. rewrite HB by exact Hi. symmetry. apply cols_of_expand. exact HC.
Qed.

Lemma nb_row_length (e : nbdata K) N M i : nb_valid N M e -> i < N -> length (nb_row e i) = (nth (S i) (fst e) 0%nat - nth i (fst e) 0%nat)%nat.
Proof.
  intros Ve Hi. unfold nb_row, segment. rewrite firstn_length, skipn_length. pose proof (valid_bound N M e (S i) Ve ltac:(lia)). lia.
Qed.

Lemma d_rm es0 rm0 : nb_data n refE R (g1 refE) rm0 es0 -> fst d = rm0 /\ length (snd d) = length es0.
Proof.
  intros D. pose proof refE_wf as W.
  assert (V0 : nb_valid (n * R) (c * C) (rm0, es0)).
  { apply (data_valid n c refE R (g1 refE)); auto using refE_nodup. }
  assert (G : forall i, i <= n * R -> nth i (fst d) 0%nat = nth i rm0 0%nat).
  { induction i as [|i IH]; intros Hi; [rewrite (v_first _ _ _ V); symmetry; exact (v_first _ _ _ V0)|].
    pose proof (nb_row_length d _ _ i V ltac:(lia)) as L1. pose proof (nb_row_length _ _ _ i V0 ltac:(lia)) as L2. cbn [fst] in L2.
    assert (L : length (nb_row d i) = length (nb_row (rm0, es0) i)).
    { rewrite (Permutation_length (d_row_perm i ltac:(lia))). unfold nb_row at 1. cbn [fst snd].
      rewrite (nb_rows _ _ _ _ _ _ D) by lia. pose proof (erow_g1 n c refE W i) as X. cbn [refE c_R c_C] in X. fold refE in X.
      cbn [refE c_C]. fold refE. rewrite X. rewrite refE_erow by lia. reflexivity. }
    pose proof (v_mono _ _ _ V i ltac:(lia)). pose proof (v_mono _ _ _ V0 i ltac:(lia)) as M0. cbn [fst] in M0. specialize (IH ltac:(lia)). lia. }
  split.
  - apply list_eq_nth; [rewrite (v_len _ _ _ V); symmetry; exact (v_len _ _ _ V0)|].
    intros i Hi. rewrite (v_len _ _ _ V) in Hi. rewrite (nth_error_some_nth _ i 0%nat) by (rewrite (v_len _ _ _ V); exact Hi).
    rewrite (nth_error_some_nth rm0 i 0%nat) by (pose proof (v_len _ _ _ V0) as X; cbn in X; lia). f_equal. apply G. lia.
  - rewrite <- (v_last _ _ _ V), G by lia. exact (v_last _ _ _ V0).
Qed.

Lemma set_blocks (A0 : crs K) sched : fair sched -> c_R A0 = R -> c_C A0 = C -> c_nrows A0 = Some (n * R)%nat -> c_ncols A0 = Some (c * C)%nat ->
  exists A', setDataFromNonBlock sched A0 (fst d) (map fst (snd d), map snd (snd d)) = Ok A' /\
    wf_crs n c A' /\ nodup_rows A' /\ c_R A' = R /\ c_C A' = C /\
    (forall b q, b < n -> (In q (row_cols (c_rowmap A') (c_cols A') b) <-> In q (blocks b))) /\
    (forall i j, i < n * R -> matrix A' i j = entry d i j).
Proof.
  intros Hf HAR HAC Hnr Hnc. pose proof refE_wf as W.
  destruct (get_ok n c refE 0 (fun k => seq 0 k) (fun k => Permutation_refl _) W) as (rm0 & es0 & _ & D).
  cbn [refE c_R] in D. fold refE in D. destruct (d_rm es0 rm0 D) as [Erm Ees].
  assert (HP : forall i, i < n * R -> Permutation (nb_row d i) (nb_row (rm0, es0) i)).
  { intros i Hi. rewrite (d_row_perm i Hi). unfold nb_row. cbn [fst snd]. rewrite (nb_rows _ _ _ _ _ _ D) by exact Hi.
    pose proof (erow_g1 n c refE W i) as X. cbn [refE c_R c_C] in X. fold refE in X. cbn [refE c_C]. fold refE. rewrite X.
    rewrite refE_erow by exact Hi. reflexivity. }
  pose proof (sort_same sched (n * R) (c * C) d (rm0, es0) Hf V (eq_sym Erm) (eq_sym Ees) HP) as Es. cbn [fst snd] in Es.
  assert (Eset : setDataFromNonBlock sched A0 (fst d) (map fst (snd d), map snd (snd d)) = setDataFromNonBlock sched refE rm0 (map fst es0, map snd es0)).
  { unfold setDataFromNonBlock. rewrite Es, Erm. destruct (sortColumnEntries sched rm0 _) as [s| |]; cbn [rbind]; try reflexivity.
    unfold numRows. rewrite Hnr. cbn [refE c_nrows rbind c_R c_C c_ncols].
    unfold sb_rowmap_item, sb_cols_item, sb_vals_item. cbn [refE c_R c_C]. rewrite HAR, HAC, Hnc. reflexivity. }
  rewrite Eset.
  destruct (back n c refE W refE_nodup rm0 es0 D sched Hf) as (A' & E & B1 & B2 & B3 & B4 & B5 & B6 & B7 & B8 & B9).
  destruct (back_matrix n c refE W refE_nodup rm0 es0 D sched Hf) as (A'' & E' & M1 & M2 & M3 & M4 & _).
  rewrite E in E'. injection E' as <-. exists A'. split; [exact E|]. split; [exact M1|].
  assert (Hrow : forall b, b < n -> Permutation (row_cols (c_rowmap A') (c_cols A') b) (blocks b)).
  { intros b Hb. rewrite <- (refE_row b Hb) at 1. rewrite <- (rowof_cols n c refE W b Hb). symmetry. 
    transitivity (map (fun o => nth o (c_cols refE) 0%nat) (so refE b)); [apply Permutation_map; apply isort_perm|].
    replace (row_cols (c_rowmap A') (c_cols A') b) with (map (fun o => nth o (c_cols refE) 0%nat) (so refE b)); [reflexivity|].
    unfold row_cols. rewrite B1. apply nth_error_ext. intros t. rewrite nth_error_map, nth_error_segment.
    destruct (Nat.ltb_spec t (nth (S b) (c_rowmap refE) 0 - nth b (c_rowmap refE) 0)%nat) as [Ht|Ht].
    - rewrite (nth_error_some_nth (so refE b) t 0%nat) by (rewrite so_length; exact Ht). cbn [option_map]. symmetry. apply B8; assumption.
    - replace (nth_error (so refE b) t) with (@None nat); [reflexivity|]. symmetry. apply nth_error_None. rewrite so_length. exact Ht. }
  split; [|split; [exact B4|split; [exact B5|split]]].
  - intros b Hb. rewrite (w_len _ _ _ M1) in Hb. apply (Permutation_NoDup (Permutation_sym (Hrow b ltac:(lia)))). apply NB. lia.
  - intros b q Hb. split; apply Permutation_in; [|symmetry]; apply Hrow; exact Hb.
  - intros i j Hi. rewrite M4 by exact Hi. cbn [refE c_R] in *. fold refE in *.
    rewrite <- (get_dense n c refE rm0 es0 i j W D Hi).
    assert (V0 : nb_valid (n * R) (c * C) (rm0, es0)) by (apply (data_valid n c refE R (g1 refE)); auto using refE_nodup).
    rewrite (entry_perm d (rm0, es0) i j (HP i Hi)). symmetry. apply (entry_dense _ _ _ _ _ V0 Hi).
Qed.
End Back.
End P.
