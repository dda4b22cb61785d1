(** The transpose built by the parallel counting sort, and the adjoint identity. *)
From Coq Require Import Arith Lia List Bool Permutation Ring.
From Verif Require Import Base.Field Base.Sums Base.ListUpd Base.Res Base.Scatter Base.Loops Sparse.CrsModel MeshMap.MapModel MeshMap.MapSpec.
Import ListNotations.

Lemma nth_map_seq {A} (f : nat -> A) m i d : i < m -> nth i (map f (seq 0 m)) d = f i.
Proof. intros H. rewrite (nth_indep _ d (f 0)) by (rewrite map_length, seq_length; lia). rewrite map_nth, seq_nth by lia. reflexivity. Qed.
Lemma nth_error_map_seq {A} (f : nat -> A) m i : i < m -> nth_error (map f (seq 0 m)) i = Some (f i).
Proof. intros H. rewrite (nth_error_some_nth _ i (f 0)) by (rewrite map_length, seq_length; lia). f_equal. apply nth_map_seq. exact H. Qed.
Lemma upd_map_seq {A} (f : nat -> A) m i v : i < m -> upd (map f (seq 0 m)) i v = Some (map (fun k => if Nat.eqb k i then v else f k) (seq 0 m)).
Proof.
  intros H. destruct (upd_some (map f (seq 0 m)) i v) as (l & E); [rewrite map_length, seq_length; exact H|]. rewrite E. f_equal.
  pose proof (upd_length _ _ _ _ E) as L. rewrite map_length, seq_length in L.
  apply list_eq_nth; [rewrite map_length, seq_length; exact L|]. intros k Hk. rewrite L in Hk. rewrite (nth_error_map_seq _ m k Hk).
  destruct (Nat.eqb_spec k i) as [->|Hne]; [eapply upd_nth_same; exact E|]. rewrite (upd_nth_other _ _ _ _ _ E Hne). apply nth_error_map_seq. exact Hk.
Qed.
Lemma repeat_map_seq {A} (x : A) m : repeat x m = map (fun _ => x) (seq 0 m).
Proof. assert (H : forall a, repeat x m = map (fun _ => x) (seq a m)); [|apply H]. induction m as [|m IH]; intros a; cbn; [reflexivity|]. f_equal. apply IH. Qed.

Fixpoint nsum (f : nat -> nat) (n : nat) : nat := match n with O => 0 | S n' => nsum f n' + f n' end.
Lemma nsum_ext f g n : (forall i, i < n -> f i = g i) -> nsum f n = nsum g n.
Proof. induction n as [|n IH]; intros H; cbn; [reflexivity|]. rewrite IH by (intros; apply H; lia). rewrite H by lia. reflexivity. Qed.
Lemma nsum_shift f n : nsum f (S n) = f 0 + nsum (fun i => f (S i)) n.
Proof. induction n as [|n IH]; [cbn; lia|]. change (nsum f (S (S n))) with (nsum f (S n) + f (S n)). rewrite IH. cbn. lia. Qed.
Lemma nsum_mono f i j : i <= j -> nsum f i <= nsum f j.
Proof. induction 1; cbn; lia. Qed.
Lemma exscan_spec f : forall k a m acc, k = m -> exscan acc k (map f (seq a m)) = Ok (map (fun j => acc + nsum (fun i => f (a + i)) j) (seq 0 m)).
Proof.
  induction k as [|k IH]; intros a m acc <-; [reflexivity|]. cbn [seq map exscan]. rewrite (IH (S a) k (acc + f a) eq_refl). cbn [rbind]. f_equal. f_equal; [cbn; lia|].
  rewrite <- (seq_shift k 0), map_map. apply map_ext. intros j. rewrite nsum_shift. rewrite Nat.add_0_r.
  rewrite (nsum_ext (fun i => f (a + S i)) (fun i => f (S a + i))) by (intros; f_equal; lia). lia.
Qed.

Section P.
Context {K : CRing}.
Add Ring KringMM : (r_th K).
Local Open Scope K_scope.

Section Tr.
Variable n : nat.
Variable M : sparse K.
Hypothesis W : wf n M.
Notation L := (length (m_colmap M)).
Definition col (e : nat) : nat := nth e (m_colmap M) 0%nat.
Definition ent (e : nat) : K := nth e (m_entries M) 0.
Definition rowl (i : nat) : list nat := range (nth i (m_rowmap M) 0%nat) (nth (S i) (m_rowmap M) 0%nat).
Definition items : list (nat * nat) := flat_map (fun i => map (pair i) (rowl i)) (seq 0 n).

Lemma rm_le i j : (i <= j)%nat -> (j <= n)%nat -> (nth i (m_rowmap M) 0 <= nth j (m_rowmap M) 0)%nat.
Proof.
  intros H. induction H as [|j H IH]; intros Hj; [lia|]. specialize (IH ltac:(lia)). pose proof (w_mono _ _ W j ltac:(lia)). lia.
Qed.
Lemma rowl_lt i e : (i < n)%nat -> In e (rowl i) -> (e < L)%nat.
Proof. intros Hi He. apply in_range in He. pose proof (rm_le (S i) n ltac:(lia) ltac:(lia)). rewrite (w_last _ _ W) in H. lia. Qed.
Lemma items_in it : In it items -> (fst it < n)%nat /\ (snd it < L)%nat.
Proof.
  unfold items. rewrite in_flat_map. intros (i & H1 & H2). apply in_seq in H1. apply in_map_iff in H2. destruct H2 as (e & <- & He). cbn. split; [lia|]. apply (rowl_lt i); [lia|exact He].
Qed.
Lemma row_range_ok i : (i < n)%nat -> row_range (m_rowmap M) i = Ok (rowl i).
Proof.
  intros Hi. pose proof (w_len _ _ W) as E. unfold row_range. rewrite (nth_error_some_nth _ i 0%nat) by lia. cbn [ub rbind]. rewrite (nth_error_some_nth _ (S i) 0%nat) by lia. reflexivity.
Qed.
Lemma items_ok : entry_items M = Ok items.
Proof.
  unfold entry_items. rewrite (w_rows _ _ W). rewrite (mapR_ok _ (fun i => map (pair i) (rowl i))).
  - cbn [rbind]. rewrite <- flat_map_concat_map. reflexivity.
  - intros i Hi. apply in_seq in Hi. rewrite row_range_ok by lia. reflexivity.
Qed.
Lemma col_lt e : (e < L)%nat -> (col e < n)%nat.
Proof. intros H. pose proof (w_cols _ _ W) as F. rewrite Forall_forall in F. apply F. apply nth_In. exact H. Qed.
Lemma items_length : length items = L.
Proof.
  unfold items. rewrite <- (w_last _ _ W).
  assert (H : forall m, (m <= n)%nat -> length (flat_map (fun i => map (pair i) (rowl i)) (seq 0 m)) = nth m (m_rowmap M) 0%nat).
  { induction m as [|m IH]; intros Hm; [rewrite (w_first _ _ W); reflexivity|]. rewrite seq_S, flat_map_app, app_length, IH by lia. cbn [flat_map Nat.add]. rewrite app_nil_r, map_length. unfold rowl, range. rewrite seq_length. pose proof (w_mono _ _ W m ltac:(lia)). lia. }
  apply H. lia.
Qed.

(** Items of a list with a given column. *)
Definition sel (j : nat) (l : list (nat * nat)) : list (nat * nat) := filter (fun it => Nat.eqb (col (snd it)) j) l.
Definition cnt (j : nat) (l : list (nat * nat)) : nat := length (sel j l).
Lemma sel_app j l1 l2 : sel j (l1 ++ l2) = sel j l1 ++ sel j l2.
Proof. apply filter_app. Qed.
Lemma cnt_snoc j l it : cnt j (l ++ [it]) = if Nat.eqb (col (snd it)) j then S (cnt j l) else cnt j l.
Proof. unfold cnt. rewrite sel_app, app_length. cbn. destruct (Nat.eqb _ _); cbn; lia. Qed.
Lemma cnt_perm j l l' : Permutation l l' -> cnt j l = cnt j l'.
Proof. intros H. unfold cnt. apply Permutation_length. unfold sel. induction H as [|x l l' _ IH|x y l|l1 l2 l3 _ IH1 _ IH2]; cbn; [constructor| | |etransitivity; eassumption].
  - destruct (Nat.eqb _ _); [constructor; exact IH|exact IH].
  - destruct (Nat.eqb _ _), (Nat.eqb _ _); try apply Permutation_refl; constructor.
Qed.
Lemma nsum_cnt l : (forall it, In it l -> (col (snd it) < n)%nat) -> nsum (fun j => cnt j l) n = length l.
Proof.
  induction l as [|it l IH]; intros H.
  - assert (G : forall m, nsum (fun j => cnt j []) m = 0%nat) by (induction m as [|m IHm]; [reflexivity|]; cbn [nsum]; rewrite IHm; reflexivity). apply G.
  - cbn [length]. rewrite <- IH by (intros; apply H; right; assumption). specialize (H it (or_introl eq_refl)).
    assert (G : forall m, nsum (fun j => cnt j (it :: l)) m = ((if Nat.ltb (col (snd it)) m then 1 else 0) + nsum (fun j => cnt j l) m)%nat).
    { induction m as [|m IHm]; [reflexivity|]. cbn [nsum]. rewrite IHm. unfold cnt at 2, sel. cbn [filter].
      destruct (Nat.eqb_spec (col (snd it)) m) as [E|E]; destruct (Nat.ltb_spec (col (snd it)) m); destruct (Nat.ltb_spec (col (snd it)) (S m)); cbn [length]; fold (sel m l); fold (cnt m l); lia. }
    rewrite G. apply Nat.ltb_lt in H. rewrite H. reflexivity.
Qed.

Section Ord.
Variables ord1 ord2 : list (nat * nat).
Hypothesis P1 : Permutation ord1 items.
Hypothesis P2 : Permutation ord2 items.

Lemma count_ok : foldR (count_item M) ord1 (repeat 0%nat (length (m_rowmap M))) = Ok (map (fun j => cnt j items) (seq 0 (S n))).
Proof.
  rewrite (w_len _ _ W).
  destruct (foldR_inv (count_item M) (fun d s => s = map (fun j => cnt j d) (seq 0 (S n))) ord1 (repeat 0%nat (S n))) as (s & E & Hs).
  - rewrite repeat_map_seq. reflexivity.
  - intros l1 it l2 s El ->. assert (Hit : In it items) by (apply (Permutation_in _ P1); rewrite El; apply in_or_app; right; left; reflexivity).
    apply items_in in Hit. destruct Hit as [_ Hit]. pose proof (col_lt _ Hit) as Hc.
    unfold count_item. rewrite (nth_error_some_nth _ (snd it) 0%nat) by exact Hit. cbn [ub rbind]. fold (col (snd it)).
    rewrite nth_error_map_seq by lia. cbn [ub rbind]. rewrite upd_map_seq by lia. cbn [ub]. eexists. split; [reflexivity|].
    apply map_ext. intros j. rewrite cnt_snoc, Nat.eqb_sym. destruct (Nat.eqb_spec (col (snd it)) j) as [->|]; reflexivity.
  - rewrite E, Hs. f_equal. apply map_ext. intros j. apply cnt_perm. exact P1.
Qed.
Definition start (j : nat) : nat := nsum (fun k => cnt k items) j.
Lemma start_last : start n = L.
Proof. unfold start. rewrite nsum_cnt; [apply items_length|]. intros it H. apply items_in in H. apply col_lt. apply H. Qed.
Lemma start_S j : start (S j) = (start j + cnt j items)%nat.
Proof. reflexivity. Qed.
Lemma scan_ok : exscan 0 (S (m_nrows M)) (map (fun j => cnt j items) (seq 0 (S n))) = Ok (map start (seq 0 (S n))).
Proof. rewrite (w_rows _ _ W). rewrite (exscan_spec _ (S n) 0 (S n) 0 eq_refl). reflexivity. Qed.

(** Slots. *)
Lemma slot_lt j m : (j < n)%nat -> (m < cnt j items)%nat -> (start j + m < L)%nat.
Proof. intros Hj Hm. rewrite <- start_last. pose proof (nsum_mono (fun k => cnt k items) (S j) n Hj) as H. fold (start (S j)) (start n) in H. rewrite start_S in H. lia. Qed.
Lemma slot_inj j m j' m' : (m < cnt j items)%nat -> (m' < cnt j' items)%nat -> (start j + m = start j' + m')%nat -> j = j' /\ m = m'.
Proof.
  intros Hm Hm' E. destruct (Nat.lt_trichotomy j j') as [H|[->|H]].
  - pose proof (nsum_mono (fun k => cnt k items) (S j) j' H) as H1. fold (start (S j)) (start j') in H1. rewrite start_S in H1. lia.
  - split; [reflexivity|lia].
  - pose proof (nsum_mono (fun k => cnt k items) (S j') j H) as H1. fold (start (S j')) (start j) in H1. rewrite start_S in H1. lia.
Qed.

Definition fillinv (d : list (nat * nat)) (s : list nat * (list nat * list K)) : Prop :=
  fst s = map (fun j => cnt j d) (seq 0 n) /\ length (fst (snd s)) = L /\ length (snd (snd s)) = L /\ Forall (fun c => (c < n)%nat) (fst (snd s)) /\
  forall j m, (j < n)%nat -> (m < cnt j d)%nat ->
    nth (start j + m) (fst (snd s)) 0%nat = fst (nth m (sel j d) (0, 0)%nat) /\ nth (start j + m) (snd (snd s)) 0 = ent (snd (nth m (sel j d) (0, 0)%nat)).
Lemma cnt_prefix j l1 l2 : ord2 = l1 ++ l2 -> (cnt j l1 + cnt j l2 = cnt j items)%nat.
Proof. intros E. rewrite <- (cnt_perm j _ _ P2), E. unfold cnt. rewrite sel_app, app_length. reflexivity. Qed.
Lemma fill_ok : exists s, foldR (fill_item M (map start (seq 0 (S n)))) ord2
     (repeat 0%nat (m_nrows M), (repeat 0%nat (length (m_colmap M)), repeat 0 (length (m_entries M)))) = Ok s /\ fillinv ord2 s.
Proof.
  apply foldR_inv.
  - unfold fillinv. cbn [fst snd]. rewrite (w_rows _ _ W), (w_ents _ _ W), !repeat_length. split; [apply repeat_map_seq|]. do 2 (split; [reflexivity|]). split.
    + apply Forall_forall. intros c Hc. apply repeat_spec in Hc as Hc'. subst c. destruct (m_colmap M) as [|x l] eqn:E; [contradiction|]. pose proof (col_lt 0) as H. rewrite E in H. cbn in H. lia.
    + cbn. lia.
  - intros l1 it l2 [off [cm en]] El (I1 & I2 & I3 & I4 & I5). cbn [fst snd] in *.
    assert (Hit : In it items) by (apply (Permutation_in _ P2); rewrite El; apply in_or_app; right; left; reflexivity).
    apply items_in in Hit. destruct Hit as [Hrow Hit]. pose proof (col_lt _ Hit) as Hc. set (c := col (snd it)) in *.
    assert (Hslot : (cnt c l1 < cnt c items)%nat).
    { rewrite <- (cnt_prefix c l1 (it :: l2) El). unfold cnt at 3, sel. cbn [filter]. fold c. rewrite Nat.eqb_refl. cbn. lia. }
    pose proof (slot_lt c _ Hc Hslot) as Hlt.
    unfold fill_item. rewrite (nth_error_some_nth _ (snd it) 0%nat) by exact Hit. cbn [ub rbind]. fold (col (snd it)). fold c.
    subst off. rewrite nth_error_map_seq by exact Hc. cbn [ub rbind]. rewrite upd_map_seq by exact Hc. cbn [ub rbind]. rewrite nth_error_map_seq by lia. cbn [ub rbind].
    destruct (upd_some cm (start c + cnt c l1) (fst it)) as (cm' & Ecm); [lia|]. rewrite Ecm. cbn [ub rbind].
    rewrite (nth_error_some_nth _ (snd it) 0) by (rewrite (w_ents _ _ W); exact Hit). cbn [ub rbind]. fold (ent (snd it)).
    destruct (upd_some en (start c + cnt c l1) (ent (snd it))) as (en' & Een); [lia|]. rewrite Een. cbn [ub rbind].
    eexists. split; [reflexivity|]. unfold fillinv. cbn [fst snd]. split; [|split; [|split; [|split]]].
    + apply map_ext. intros j. rewrite cnt_snoc, Nat.eqb_sym. fold c. destruct (Nat.eqb_spec c j) as [->|]; reflexivity.
    + rewrite (upd_length _ _ _ _ Ecm). exact I2.
    + rewrite (upd_length _ _ _ _ Een). exact I3.
    + apply Forall_forall. intros x Hx. apply In_nth with (d := 0%nat) in Hx. destruct Hx as (k & Hk & <-). rewrite (upd_nth _ _ _ _ k 0%nat Ecm). destruct (Nat.eqb _ _); [exact Hrow|].
      rewrite Forall_forall in I4. apply I4. apply nth_In. rewrite (upd_length _ _ _ _ Ecm) in Hk. exact Hk.
    + intros j m Hj Hm. rewrite cnt_snoc in Hm. fold c in Hm. rewrite (upd_nth _ _ _ _ _ 0%nat Ecm), (upd_nth _ _ _ _ _ 0 Een). rewrite sel_app.
      pose proof (cnt_prefix j l1 (it :: l2) El) as Hpre.
      assert (Hold : (m < cnt j l1)%nat -> Nat.eqb (start j + m) (start c + cnt c l1) = false).
      { intros Hm'. apply Nat.eqb_neq. intros E. apply slot_inj in E; [|lia|exact Hslot]. destruct E as [-> ->]. lia. }
      destruct (Nat.ltb_spec m (cnt j l1)) as [Hm'|Hm'].
      * rewrite (Hold Hm'). rewrite app_nth1 by exact Hm'. apply I5; assumption.
      * destruct (Nat.eqb_spec c j) as [<-|Hne]; [|lia]. assert (m = cnt c l1) as -> by lia. rewrite Nat.eqb_refl.
        unfold cnt. rewrite app_nth2 by lia. rewrite Nat.sub_diag. cbn [sel filter]. fold c. rewrite Nat.eqb_refl. split; reflexivity.
Qed.
End Ord.

Theorem transpose_ok o1 o2 : perm_order o1 -> perm_order o2 -> exists MT ord, create_transpose o1 o2 M = Ok MT /\ wf n MT /\ Permutation ord items /\
  forall j, (j < n)%nat -> map (fun e => (nth e (m_colmap MT) 0%nat, nth e (m_entries MT) 0)) (range (nth j (m_rowmap MT) 0%nat) (nth (S j) (m_rowmap MT) 0%nat))
     = map (fun it => (fst it, ent (snd it))) (sel j ord).
Proof.
  intros H1 H2. unfold create_transpose. rewrite items_ok. cbn [rbind]. rewrite (count_ok (o1 items) (H1 items)). cbn [rbind]. rewrite scan_ok. cbn [rbind].
  destruct (fill_ok (o2 items) (H2 items)) as ([off [cm en]] & E & (F1 & F2 & F3 & F4 & F5)). cbn [fst snd] in *. rewrite E. cbn [rbind fst snd].
  eexists. exists (o2 items). split; [reflexivity|]. split; [|split; [apply H2|]].
  - split; cbn [m_rowmap m_colmap m_entries m_nrows m_ncols].
    + apply (w_colsn _ _ W).
    + apply (w_rows _ _ W).
    + rewrite map_length, seq_length. reflexivity.
    + rewrite nth_map_seq by lia. reflexivity.
    + intros i Hi. rewrite !nth_map_seq by lia. rewrite start_S. lia.
    + rewrite nth_map_seq by lia. rewrite start_last. symmetry. exact F2.
    + congruence.
    + exact F4.
  - intros j Hj. cbn [m_rowmap m_colmap m_entries]. rewrite !nth_map_seq by lia. rewrite start_S. rewrite range_seq.
    rewrite map_seq_shift. rewrite <- (cnt_perm j _ _ (H2 items)). unfold cnt.
    apply nth_ext with (d := (0%nat, 0)) (d' := (fst (0, 0)%nat, ent (snd (0, 0)%nat))); [rewrite !map_length, seq_length; reflexivity|].
    intros m Hm. rewrite map_length, seq_length in Hm. rewrite nth_map_seq by exact Hm.
    rewrite (map_nth (fun it => (fst it, ent (snd it)))). destruct (F5 j m Hj Hm) as [-> ->]. reflexivity.
Qed.
End Tr.

(** Products. *)
Definition row_dot (M : sparse K) (x : list K) (i : nat) : K :=
  lsum (map (fun e => nth e (m_entries M) 0 * nth (nth e (m_colmap M) 0%nat) x 0) (range (nth i (m_rowmap M) 0%nat) (nth (S i) (m_rowmap M) 0%nat))).
Lemma matvec_ok sched n M x out : fair sched -> wf n M -> length x = n -> length out = n ->
  map_matvec sched M x out = Ok (map (row_dot M x) (seq 0 n)).
Proof.
  intros Hf W Hx Ho. unfold map_matvec. rewrite (w_len _ _ W). replace (S n - 1)%nat with n by lia.
  destruct (par_write_spec sched n (matvec_row M x) (fun i => [(i, row_dot M x i)]) out Hf) as (v & E & H1 & H2 & H3).
  - intros i Hi. unfold matvec_row. rewrite (row_range_ok n M W i Hi). cbn [rbind].
    rewrite (foldR_ext_in _ (fun e s => Ok (s + nth e (m_entries M) 0 * nth (nth e (m_colmap M) 0%nat) x 0))).
    + rewrite foldR_accum. cbn [rbind]. unfold row_dot, rowl. repeat f_equal. ring.
    + intros e s He. pose proof (rowl_lt n M W i e Hi He) as Hl. rewrite (nth_error_some_nth _ e 0%nat) by exact Hl. cbn [ub rbind].
      rewrite (nth_error_some_nth _ e 0) by (rewrite (w_ents _ _ W); exact Hl). cbn [ub rbind].
      rewrite (nth_error_some_nth _ _ 0) by (rewrite Hx; apply (col_lt n M W e Hl)). reflexivity.
  - intros i p y Hi [Hp|[]]. inversion Hp; subst. lia.
  - intros i j p y z Hi Hj [Hp|[]] [Hq|[]]. congruence.
  - rewrite E. f_equal. apply list_eq_nth; [rewrite map_length, seq_length; lia|]. intros i Hi.
    rewrite nth_error_map_seq by lia. apply (H2 i); [lia|left; reflexivity].
Qed.
Lemma inner_sum n (x y : list K) : length x = n -> length y = n -> inner x y = sum n (fun i => nth i x 0 * nth i y 0).
Proof.
  unfold inner. revert x y. induction n as [|n IH]; intros x y Hx Hy.
  - destruct x; [reflexivity|discriminate].
  - destruct x as [|a x], y as [|b y]; try discriminate. cbn [combine map lsum fst snd]. rewrite (IH x y) by (cbn in *; lia).
    change (S n) with (1 + n)%nat. rewrite sum_split. cbn [sum nth Nat.add]. ring.
Qed.
(** Summing by a key. *)
Lemma sum_by_key (key : nat * nat -> nat) n (f : nat * nat -> K) l : (forall it, In it l -> (key it < n)%nat) ->
  sum n (fun j => lsum (map f (filter (fun it => Nat.eqb (key it) j) l))) = lsum (map f l).
Proof.
  induction l as [|it l IH]; intros H; cbn [filter map lsum].
  - apply sum_0. reflexivity.
  - rewrite <- IH by (intros; apply H; right; assumption). specialize (H it (or_introl eq_refl)).
    rewrite (sum_ext n _ (fun j => (if Nat.eqb j (key it) then f it else 0) + lsum (map f (filter (fun it => Nat.eqb (key it) j) l)))).
    + rewrite sum_add. f_equal. rewrite (sum_single n (key it)); [rewrite Nat.eqb_refl; reflexivity|exact H|]. intros j Hj Hne. apply Nat.eqb_neq in Hne. rewrite Hne. reflexivity.
    + intros j _. rewrite Nat.eqb_sym. destruct (Nat.eqb j (key it)); cbn [map lsum]; ring.
Qed.

Theorem matvec_adjoint sched o1 o2 n (M : sparse K) (x y out out' : list K) : fair sched -> perm_order o1 -> perm_order o2 -> wf n M ->
  length x = n -> length y = n -> length out = n -> length out' = n ->
  exists MT u v, create_transpose o1 o2 M = Ok MT /\ wf n MT /\ map_matvec sched M x out = Ok u /\ map_matvec sched MT y out' = Ok v /\
    length u = n /\ length v = n /\ inner y u = inner v x.
Proof.
  intros Hf H1 H2 W Hx Hy Ho Ho'. destruct (transpose_ok n M W o1 o2 H1 H2) as (MT & ord & E & WT & Hord & HT).
  exists MT, (map (row_dot M x) (seq 0 n)), (map (row_dot MT y) (seq 0 n)). split; [exact E|]. split; [exact WT|].
  split; [apply matvec_ok; assumption|]. split; [apply matvec_ok; assumption|]. do 2 (split; [rewrite map_length, seq_length; reflexivity|]).
  rewrite !(inner_sum n) by (rewrite ?map_length, ?seq_length; reflexivity || assumption).
  set (f := fun it : nat * nat => nth (fst it) y 0 * (ent M (snd it) * nth (col M (snd it)) x 0)).
  transitivity (lsum (map f (items n M))).
  - unfold items. rewrite lsum_flat_map. rewrite <- lsum_map_seq. apply f_equal. apply map_ext_in. intros i Hi. apply in_seq in Hi. rewrite nth_map_seq by lia.
    unfold row_dot. rewrite <- lsum_map_scal. rewrite map_map. reflexivity.
  - rewrite <- (lsum_perm _ _ (Permutation_map f Hord)). rewrite <- (sum_by_key (fun it => col M (snd it)) n f ord).
    + apply sum_ext. intros j Hj. rewrite nth_map_seq by exact Hj. unfold row_dot. specialize (HT j Hj).
      rewrite <- (map_map (fun e => (nth e (m_colmap MT) 0%nat, nth e (m_entries MT) 0)) (fun p => snd p * nth (fst p) y 0)). rewrite HT, map_map. cbn [fst snd].
      rewrite (Radd_comm (r_th K)) || idtac. rewrite (Rmul_comm (r_th K)). rewrite <- lsum_map_scal. apply lsum_map_ext. intros it Hit. unfold sel in Hit. apply filter_In in Hit. destruct Hit as [_ Hit]. apply Nat.eqb_eq in Hit. unfold f. rewrite Hit. ring.
    + intros it Hit. apply (Permutation_in _ Hord) in Hit. apply (items_in n M W) in Hit. apply (col_lt n M W). apply Hit.
Qed.

Theorem apply_adjoint sched o1 o2 o3 o4 n (M : sparse K) (F : option (sparse K)) first (x y out out' : list K) : fair sched -> perm_order o1 -> perm_order o2 -> perm_order o3 -> perm_order o4 ->
  wf n M -> match F with Some f => wf n f | None => True end ->
  length x = n -> length y = n -> length out = n -> length out' = n ->
  exists MT FT u v, create_transpose o1 o2 M = Ok MT /\ create_transpose_opt o3 o4 F = Ok FT /\
    map_apply sched M F first x out = Ok u /\ map_applyT sched MT FT first y out' = Ok v /\ inner y u = inner v x.
Proof.
  intros Hf H1 H2 H3 H4 W WF Hx Hy Ho Ho'. destruct F as [f|].
  - destruct (transpose_ok n M W o1 o2 H1 H2) as (MT & _ & EM & WMT & _).
    destruct (transpose_ok n f WF o3 o4 H3 H4) as (FT & _ & EF & WFT & _).
    exists MT, (Some FT). cbn [create_transpose_opt]. rewrite EF. cbn [rbind map_apply map_applyT].
    assert (Two : forall A AT B BT oa ob oc od, perm_order oa -> perm_order ob -> perm_order oc -> perm_order od -> wf n A -> wf n AT -> wf n B -> wf n BT ->
       create_transpose oa ob A = Ok AT -> create_transpose oc od B = Ok BT ->
       exists u v, (let! z := map_matvec sched A x out in map_matvec_inplace sched B z) = Ok u /\
                   (let! z := map_matvec sched BT y out' in map_matvec_inplace sched AT z) = Ok v /\ inner y u = inner v x).
    { intros A AT B BT oa ob oc od Ha Hb Hc Hd WA WAT WB WBT EA EB.
      rewrite (matvec_ok sched n A x out) by assumption. rewrite (matvec_ok sched n BT y out') by assumption. cbn [rbind]. unfold map_matvec_inplace.
      set (z := map (row_dot A x) (seq 0 n)). set (w := map (row_dot BT y) (seq 0 n)).
      assert (Lz : length z = n) by (unfold z; rewrite map_length, seq_length; reflexivity). assert (Lw : length w = n) by (unfold w; rewrite map_length, seq_length; reflexivity).
      destruct (matvec_adjoint sched oc od n B z y z out' Hf Hc Hd WB Lz Hy Lz Ho') as (BT' & u & w' & X1 & _ & X2 & X3 & X4 & X5 & X6).
      assert (BT' = BT) by congruence. subst BT'. rewrite (matvec_ok sched n BT y out') in X3 by assumption. inversion X3 as [Ew]. fold w in Ew. subst w'.
      destruct (matvec_adjoint sched oa ob n A x w out w Hf Ha Hb WA Hx Lw Ho Lw) as (AT' & z' & v & Y1 & _ & Y2 & Y3 & Y4 & Y5 & Y6).
      assert (AT' = AT) by congruence. subst AT'. rewrite (matvec_ok sched n A x out) in Y2 by assumption. inversion Y2 as [Ez]. fold z in Ez. subst z'.
      exists u, v. split; [exact X2|]. split; [exact Y3|]. congruence. }
    destruct first; cbn [negb].
    + destruct (Two f FT M MT o3 o4 o1 o2) as (u & v & A1 & A2 & A3); try assumption. exists u, v. auto.
    + destruct (Two M MT f FT o1 o2 o3 o4) as (u & v & A1 & A2 & A3); try assumption. exists u, v. auto.
  - destruct (matvec_adjoint sched o1 o2 n M x y out out' Hf H1 H2 W Hx Hy Ho Ho') as (MT & u & v & A1 & _ & A3 & A4 & _ & _ & A7).
    exists MT, None, u, v. cbn. auto.
Qed.
End P.
