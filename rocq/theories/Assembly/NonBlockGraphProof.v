(** The non-block matrix created from the mesh, and vector assembly. *)
From Coq Require Import Arith Lia List Bool Permutation Ring.
From Verif Require Import Base.Field Base.Sums Base.ListUpd Base.Res Base.Scatter Base.Loops
  Sparse.CrsModel Sparse.CrsSpec Sparse.MatvecProof Sparse.SortProof
  Assembly.GraphModel Assembly.GraphSpec Assembly.GraphProof Assembly.AssemblyModel Assembly.AssemblyProof.
Import ListNotations.

Lemma dof_cols_length D l : length (dof_cols D l) = D * length l.
Proof.
  unfold dof_cols. induction l as [|c l IH]; simpl; [lia|]. rewrite app_length, map_length, seq_length, IH. lia.
Qed.

Lemma in_dof_cols D l j : 0 < D -> (In j (dof_cols D l) <-> In (j / D) l).
Proof.
  intros HD. unfold dof_cols. rewrite in_flat_map. split.
  - intros [c [Hc Hj]]. apply in_map_iff in Hj as [k [<- Hk]]. apply in_seq in Hk.
    destruct (divmod_pos k D c ltac:(lia)) as [E _]. rewrite (Nat.mul_comm D c), E. exact Hc.
  - intros H. exists (j / D). split; [exact H|]. apply in_map_iff. exists (j mod D).
    split; [symmetry; apply Nat.div_mod; lia|]. apply in_seq. pose proof (Nat.mod_upper_bound j D ltac:(lia)). lia.
Qed.

Lemma dof_cols_nodup D l : 0 < D -> NoDup l -> NoDup (dof_cols D l).
Proof.
  intros HD. induction l as [|c l IH]; intros H; [constructor|]. inversion_clear H as [|? ? Hn Hd].
  unfold dof_cols. simpl. fold (dof_cols D l).
  assert (Hx : NoDup (map (fun k => D * c + k) (seq 0 D))).
  { apply FinFun.Injective_map_NoDup; [intros x y E; lia|apply seq_NoDup]. }
  revert Hx. assert (Hdis : forall x, In x (map (fun k => D * c + k) (seq 0 D)) -> ~ In x (dof_cols D l)).
  { intros x Hx Hx'. apply in_map_iff in Hx as [k [<- Hk]]. apply in_seq in Hk. apply in_dof_cols in Hx'; [|exact HD].
    destruct (divmod_pos k D c ltac:(lia)) as [E _]. rewrite (Nat.mul_comm D c), E in Hx'. contradiction. }
  revert Hdis. generalize (map (fun k => D * c + k) (seq 0 D)) as m. induction m as [|x m IHm]; intros Hdis Hx; simpl.
  - apply IH. exact Hd.
  - inversion_clear Hx as [|? ? Hxn Hxd]. constructor.
    + rewrite in_app_iff. intros [H|H]; [contradiction|]. apply (Hdis x); [left; reflexivity|exact H].
    + apply IHm; [|exact Hxd]. intros y Hy. apply Hdis. right. exact Hy.
Qed.

Lemma number_app {A} (l1 l2 : list A) s : number s (l1 ++ l2) = number s l1 ++ number (s + length l1) l2.
Proof.
  revert s; induction l1 as [|x l1 IH]; intros s; simpl; [f_equal; lia|]. f_equal. rewrite IH. do 2 f_equal. lia.
Qed.

Lemma number_copies {A} (l : list A) base D : 
  flat_map (fun j => number (base + j * length l) l) (seq 0 D) = number base (concat (repeat l D)).
Proof.
  revert base; induction D as [|D IH]; intros base; [reflexivity|].
  simpl (repeat l (S D)). simpl concat. rewrite number_app, <- IH.
  change (seq 0 (S D)) with (0 :: seq 1 D). rewrite <- seq_shift. cbn [flat_map].
  rewrite Nat.mul_0_l, Nat.add_0_r. f_equal.
  rewrite !flat_map_concat_map, map_map. f_equal.
  apply map_ext. intros j. f_equal. simpl. lia.
Qed.

Lemma segment_concat_repeat {A} (l : list A) D j : j < D ->
  segment (j * length l) (S j * length l) (concat (repeat l D)) = l.
Proof.
  revert j; induction D as [|D IH]; intros j Hj; [lia|]. simpl (concat _). unfold segment.
  destruct j as [|j].
  - simpl. rewrite Nat.add_0_r, Nat.sub_0_r. rewrite firstn_app, firstn_all, Nat.sub_diag. simpl. apply app_nil_r.
  - replace (S (S j) * length l - S j * length l) with (S j * length l - j * length l) by lia.
    rewrite skipn_app, skipn_all2 by (simpl; lia). simpl app.
    replace (length l + j * length l - length l) with (j * length l) by lia. apply (IH j). lia.
Qed.

Lemma length_concat_repeat {A} (l : list A) D : length (concat (repeat l D)) = D * length l.
Proof. induction D as [|D IH]; simpl; [reflexivity|]. rewrite app_length, IH. reflexivity. Qed.

Lemma segment_segment {A} a b c d (l : list A) : a + d <= b -> segment c d (segment a b l) = segment (a + c) (a + d) l.
Proof.
  intros H. apply nth_error_ext. intros t. rewrite !nth_error_segment.
  replace (a + d - (a + c)) with (d - c) by lia.
  destruct (Nat.ltb_spec t (d - c)); [|reflexivity].
  destruct (Nat.ltb_spec (c + t) (b - a)); [|lia]. f_equal. lia.
Qed.

Section K.
Context {K : CRing}.
Variables (npc ncells nn : nat) (c2n rmo cio : list nat).
Hypothesis MS : wf_mesh npc ncells nn c2n.
Hypothesis ST : star_graph npc ncells nn c2n rmo cio.

(** Sizes set as CreateBlockMatrix would set them. *)
Definition with_sizes (A : crs K) (r c : nat) : crs K :=
  mkCrs (c_rowmap A) (c_cols A) (c_ents A) (Some r) (Some c) (c_R A) (c_C A).

Lemma create_nonblock_ok D sched : fair sched -> 0 < D ->
  exists A : crs K, CreateMatrix D sched rmo cio = Ok A /\
    c_nrows A = None /\ c_ncols A = None /\
    wf_crs (nn * D) (nn * D) (with_sizes A (nn * D) (nn * D)) /\
    c_R A = 1 /\ c_C A = 1 /\ (forall e, In e (c_ents A) -> e = r0) /\
    forall i, i < nn * D -> row_cols (c_rowmap A) (c_cols A) i = dof_cols D (grow rmo cio (i / D)).
Proof.
  intros Hf HD. unfold CreateMatrix.
  replace (length rmo - 1) with nn by (rewrite (s_len _ _ _ _ _ _ ST); lia).
  pose proof (st_S npc ncells nn c2n rmo cio ST) as HS.
  set (m := fun r => length (grow rmo cio r) * D).
  assert (Hitem : forall r, r < nn -> (st rmo (S r) - st rmo r) * D = m r) by (intros r Hr; unfold m; rewrite HS by exact Hr; f_equal; lia).
  (* start of dof row i *)
  set (start := fun i => D * D * st rmo (i / D) + (i mod D) * m (i / D)).
  assert (Hst0 : forall r k, k < D -> start (D * r + k) = D * D * st rmo r + k * m r).
  { intros r k Hk. unfold start. destruct (divmod_pos k D r Hk) as [E1 E2]. rewrite (Nat.mul_comm D r), E1, E2. reflexivity. }
  assert (Hnext : forall r, r < nn -> D * D * st rmo r + D * m r = D * D * st rmo (S r)).
  { intros r Hr. rewrite HS by exact Hr. unfold m. nia. }
  assert (HstS : forall r k, r < nn -> k < S D -> start (D * r + k) = D * D * st rmo r + k * m r).
  { intros r k Hr Hk. destruct (Nat.eq_dec k D) as [->|]; [|apply Hst0; lia].
    replace (D * r + D) with (D * S r + 0) by lia. rewrite Hst0 by lia. rewrite Hnext by exact Hr. lia. }
  destruct (par_write_spec sched nn
    (fun r => let! g := graph_row rmo cio r in
         let R0 := fst (fst g) in
         let numDofsThisRow := (snd (fst g) - R0) * D in
         Ok (map (fun k => (D * r + k, D * D * R0 + k * numDofsThisRow)) (seq 0 (S D))))
    (fun r => map (fun k => (D * r + k, start (D * r + k))) (seq 0 (S D))) (repeat 0 (S (nn * D))) Hf) as [rm [E1 [L1 [H1 _]]]].
  - intros i Hi. cbv zeta. rewrite (graph_row_ok npc ncells nn c2n rmo cio ST) by exact Hi. cbn [rbind fst snd]. f_equal.
    apply map_ext_in. intros k Hk. apply in_seq in Hk. rewrite HstS by lia. rewrite Hitem by exact Hi. reflexivity.
  - intros i p x Hi H. apply in_map_iff in H as [k [E Hk]]. injection E as <- <-. apply in_seq in Hk. rewrite repeat_length. nia.
  - intros i j p x y Hi Hj H H0. apply in_map_iff in H as [k [E Hk]]. apply in_map_iff in H0 as [k' [E' Hk']].
    injection E as <- <-. injection E' as E'' <-. rewrite E''. reflexivity.
  - cbv zeta in *. rewrite E1. cbn [rbind]. rewrite repeat_length in L1.
    destruct (rows_written sched nn (fun r => let! g := graph_row rmo cio r in
         let R0 := fst (fst g) in
         let numDofsThisRow := (snd (fst g) - R0) * D in
         let first := dof_cols D (snd g) in
         Ok (flat_map (fun j => number (D * D * R0 + j * numDofsThisRow) first) (seq 0 D)))
       (fun r => D * D * st rmo r) (fun r => concat (repeat (dof_cols D (grow rmo cio r)) D))
       (repeat 0 ((length cio + nn) * (D * D))) Hf) as [ci [E2 [L2 H2]]].
    + intros i Hi. rewrite (graph_row_ok npc ncells nn c2n rmo cio ST) by exact Hi. cbn [rbind fst snd]. f_equal.
      rewrite <- number_copies. rewrite !flat_map_concat_map. f_equal. apply map_ext. intros k.
      rewrite Hitem by exact Hi. unfold m. rewrite dof_cols_length, (Nat.mul_comm D (length _)). reflexivity.
    + intros i Hi. rewrite length_concat_repeat, dof_cols_length, HS by exact Hi. nia.
    + rewrite repeat_length, (st_n npc ncells nn c2n rmo cio ST). nia.
    + cbv zeta in E2. rewrite E2. cbn [rbind]. rewrite repeat_length in L2. eexists. split; [reflexivity|].
      assert (Hrm : forall i, i <= nn * D -> nth i rm 0 = start i).
      { intros i Hi. apply nth_error_nth. pose proof (Nat.div_mod i D ltac:(lia)) as Ei.
        pose proof (Nat.mod_upper_bound i D ltac:(lia)).
        destruct (Nat.eq_dec i (nn * D)) as [->|Hne].
        - destruct nn as [|q] eqn:En.
          + unfold start. simpl. rewrite Nat.div_0_l, Nat.mod_0_l by lia. unfold st. rewrite (s_first _ _ _ _ _ _ ST).
            destruct rm as [|z rm']; [discriminate|]. simpl. 
            clear - E1 Hf. unfold par_write in E1. pose proof (Hf 0) as P. simpl in P. apply Permutation_sym, Permutation_nil in P.
            rewrite P in E1. simpl in E1. injection E1 as <- <-. f_equal. lia.
          + apply (H1 q); [lia|]. apply in_map_iff. exists D. split; [f_equal; [lia|f_equal; lia]|]. apply in_seq. lia.
        - assert (Hd : i / D < nn) by (apply Nat.div_lt_upper_bound; lia).
          apply (H1 (i / D)); [exact Hd|]. apply in_map_iff. exists (i mod D). rewrite <- Ei. split; [reflexivity|]. apply in_seq. lia. }
      assert (Hsucc : forall i, i < nn * D -> start (S i) = start i + m (i / D)).
      { intros i Hi. pose proof (Nat.div_mod i D ltac:(lia)) as Ei. pose proof (Nat.mod_upper_bound i D ltac:(lia)) as Hm.
        assert (Hd : i / D < nn) by (apply Nat.div_lt_upper_bound; lia).
        replace (S i) with (D * (i / D) + S (i mod D)) by lia. rewrite HstS by lia. unfold start. lia. }
      assert (Hrow : forall i, i < nn * D -> row_cols rm ci i = dof_cols D (grow rmo cio (i / D))).
      { intros i Hi. unfold row_cols. rewrite !Hrm by lia.
        pose proof (Nat.mod_upper_bound i D ltac:(lia)) as Hm.
        assert (Hd : i / D < nn) by (apply Nat.div_lt_upper_bound; lia).
        pose proof (H2 (i / D) Hd) as Hseg. pose proof (Hnext (i / D) Hd) as Hn'.
        assert (Em : m (i / D) = length (dof_cols D (grow rmo cio (i / D)))) by (rewrite dof_cols_length; unfold m; lia).
        rewrite <- (segment_concat_repeat (dof_cols D (grow rmo cio (i / D))) D (i mod D) Hm).
        rewrite <- Hseg. rewrite segment_segment by (rewrite <- Em; nia).
        rewrite Hsucc by exact Hi. rewrite <- Em. unfold start. f_equal; lia. }
      assert (Hlast : start (nn * D) = length ci).
      { unfold start. rewrite Nat.div_mul, Nat.mod_mul by lia. rewrite (st_n npc ncells nn c2n rmo cio ST), L2. lia. }
      split; [reflexivity|]. split; [reflexivity|].
      split; [|split; [reflexivity|split; [reflexivity|split; [|exact Hrow]]]].
      * assert (Hmono : forall i, i < nn * D -> start i <= start (S i)) by (intros i Hi; rewrite Hsucc by exact Hi; lia).
        constructor; simpl; try assumption; try reflexivity; try lia.
        -- rewrite Hrm by lia. unfold start. rewrite Nat.div_0_l, Nat.mod_0_l by lia. unfold st. rewrite (s_first _ _ _ _ _ _ ST). lia.
        -- intros i Hi. rewrite !Hrm by lia. apply Hmono. exact Hi.
        -- rewrite Hrm by lia. exact Hlast.
        -- intros o Ho. apply In_nth_error in Ho as [p Hp].
           assert (Hpl : p < length ci) by (apply nth_error_Some; congruence).
           assert (Hr' : exists r, r < nn * D /\ start r <= p < start (S r)).
           { rewrite <- Hlast in Hpl. assert (Hle : nn * D <= nn * D) by lia. revert Hpl Hle. generalize (nn * D) at 1 2. intros k. induction k as [|k IHk]; intros Hp' Hle.
             - unfold start in Hp'. rewrite Nat.div_0_l, Nat.mod_0_l in Hp' by lia. unfold st in Hp'. rewrite (s_first _ _ _ _ _ _ ST) in Hp'. lia.
             - destruct (Nat.lt_ge_cases p (start k)).
               + apply IHk; lia.
               + exists k. lia. }
           destruct Hr' as [r [Hr Hrp]].
           assert (Hin : In o (row_cols rm ci r)).
           { apply in_row_cols.
             - rewrite Hrm by lia. rewrite <- Hlast. apply (starts_le start (nn * D) Hmono); lia.
             - exists p. rewrite !Hrm by lia. split; [exact Hrp|]. apply nth_error_nth. exact Hp. }
           rewrite Hrow in Hin by exact Hr. apply in_dof_cols in Hin; [|exact HD].
           assert (Hd : r / D < nn) by (apply Nat.div_lt_upper_bound; lia).
           pose proof (grow_lt npc ncells nn c2n rmo cio MS ST _ _ Hd Hin).
           pose proof (Nat.div_mod o D ltac:(lia)). pose proof (Nat.mod_upper_bound o D ltac:(lia)). nia.
        -- rewrite repeat_length, L2. lia.
        -- f_equal; lia.
        -- f_equal; lia.
      * intros e He. simpl in He. apply repeat_spec in He. exact He.
Qed.

Lemma nonblock_lookup D (A : crs K) cell a b : 0 < D -> 
  wf_crs (nn * D) (nn * D) (with_sizes A (nn * D) (nn * D)) ->
  (forall i, i < nn * D -> row_cols (c_rowmap A) (c_cols A) i = dof_cols D (grow rmo cio (i / D))) ->
  cell < ncells -> a < npc * D -> b < npc * D ->
  exists e, MatrixEntryOrdinal npc D (c_rowmap A) (c_cols A) c2n cell a b = Ok (Some e) /\
    nth (gdof npc D c2n cell a) (c_rowmap A) 0 <= e < nth (S (gdof npc D c2n cell a)) (c_rowmap A) 0 /\
    nth e (c_cols A) 0 = gdof npc D c2n cell b.
Proof.
  intros HD W Hrow Hc Ha Hb.
  assert (Ha' : a / D < npc) by (apply Nat.div_lt_upper_bound; lia).
  assert (Hb' : b / D < npc) by (apply Nat.div_lt_upper_bound; lia).
  unfold MatrixEntryOrdinal. rewrite !(cell_node_ok npc ncells nn c2n MS) by assumption. cbn [rbind].
  replace (D * node_of npc c2n cell (a / D) + a mod D) with (gdof npc D c2n cell a) by (unfold gdof; lia).
  replace (D * node_of npc c2n cell (b / D) + b mod D) with (gdof npc D c2n cell b) by (unfold gdof; lia).
  pose proof (gdof_lt npc ncells nn c2n MS D cell a HD Hc Ha) as Hlt.
  destruct (find_in_row (nn * D) (nn * D) (with_sizes A (nn * D) (nn * D)) (gdof npc D c2n cell a) (gdof npc D c2n cell b) W Hlt) as [e [H1 [H2 H3]]].
  - simpl. rewrite Hrow by exact Hlt. apply in_dof_cols; [exact HD|].
    destruct (gdof_div npc c2n D cell a HD) as [-> _]. destruct (gdof_div npc c2n D cell b HD) as [-> _].
    apply (in_grow npc ncells nn c2n rmo cio ST); [apply (node_lt npc ncells nn c2n MS); assumption|].
    right. exists cell, (a / D), (b / D). repeat (split; [assumption|]). split; reflexivity.
  - pose proof (row_range_ok (nn * D) (nn * D) _ _ W Hlt) as Hrr. simpl in Hrr. rewrite Hrr. cbn [rbind].
    exists e. split; [exact H1|]. split; [exact H2|exact H3].
Qed.
End K.

Section V.
Context {K : CRing}.
Add Ring KringVec : (r_th K).
Local Open Scope K_scope.
Variables (npc ncells nn : nat) (c2n : list nat).
Hypothesis MS : wf_mesh npc ncells nn c2n.

Lemma lsum_list_prod (f : nat -> nat -> K) n m :
  lsum (map (fun ab => f (fst ab) (snd ab)) (list_prod (seq 0 n) (seq 0 m))) = sum n (fun a => sum m (fun b => f a b)).
Proof.
  transitivity (lsum (map (fun a => lsum (map (fun b => f a b) (seq 0 m))) (seq 0 n))).
  - induction (seq 0 n) as [|a l IH]; simpl; [reflexivity|]. rewrite map_app, lsum_app, IH, map_map. reflexivity.
  - rewrite lsum_map_seq. apply sum_ext. intros a _. apply lsum_map_seq.
Qed.

Lemma entry_ok D cell a b : cell < ncells -> a < npc -> b < D ->
  VectorEntryOrdinal npc D c2n cell a b = Ok (gdof npc D c2n cell (a * D + b)).
Proof.
  intros Hc Ha Hb. unfold VectorEntryOrdinal. rewrite (cell_node_ok npc ncells nn c2n MS) by assumption. cbn [rbind].
  unfold gdof. destruct (divmod_pos b D a Hb) as [-> ->]. reflexivity.
Qed.

Lemma vector_assembly D cells (Re : nat -> nat -> K) v out : 0 < D ->
  (forall c, In c cells -> c < ncells) -> length v = (nn * D)%nat ->
  assemble_vector npc D c2n cells Re v out ->
  exists v', out = Ok v' /\ length v' = length v /\
    forall i, nth i v' 0 = nth i v 0 + sum (length cells) (fun k => sum (npc * D) (fun a =>
       if Nat.eqb (gdof npc D c2n (nth k cells 0%nat) a) i then Re k a else 0)).
Proof.
  intros HD Hcells Hv Ho. unfold assemble_vector in Ho.
  set (ws := fun k => map (fun ab : nat * nat => (gdof npc D c2n (nth k cells 0%nat) (fst ab * D + snd ab)%nat, Re k (fst ab * D + snd ab)%nat))
                (list_prod (seq 0 npc) (seq 0 D))).
  assert (Hin : forall k, k < length cells -> nth k cells 0%nat < ncells) by (intros; apply Hcells, nth_In; assumption).
  destruct (atomic_add_spec (length cells) (vector_item npc D c2n cells Re) ws v out) as [v' [E [L H]]].
  - intros k Hk. unfold vector_item. rewrite (nth_error_some_nth cells k 0%nat) by exact Hk. cbn [ub rbind].
    apply mapR_ok. intros [a b] Hab. apply in_prod_iff in Hab as [Ha Hb]. apply in_seq in Ha, Hb. cbn [fst snd].
    rewrite entry_ok by (try apply Hin; lia). reflexivity.
  - intros k p x Hk Hx. apply in_map_iff in Hx as [[a b] [Ex Hab]]. apply in_prod_iff in Hab as [Ha Hb]. apply in_seq in Ha, Hb.
    injection Ex as <- <-. cbn [fst snd]. rewrite Hv. apply (gdof_lt npc ncells nn c2n MS); [exact HD|apply Hin; exact Hk|nia].
  - exact Ho.
  - exists v'. split; [exact E|]. split; [exact L|]. intros i. rewrite H. f_equal. apply sum_ext. intros k _.
    unfold amount, ws. rewrite map_map. cbn [fst snd].
    rewrite (lsum_list_prod (fun a b => if Nat.eqb (gdof npc D c2n (nth k cells 0%nat) (a * D + b)%nat) i then Re k (a * D + b)%nat else 0)).
    rewrite sum_block. reflexivity.
Qed.

Lemma scalar_assembly D cells (Re : nat -> nat -> K) v out : 0 < D ->
  (forall c, In c cells -> c < ncells) -> length v = (nn * D)%nat ->
  assemble_scalar_gradient npc D c2n cells Re v out ->
  exists v', out = Ok v' /\ length v' = length v /\
    forall i, nth i v' 0 = nth i v 0 + sum (length cells) (fun k => sum npc (fun a =>
       if Nat.eqb (node_of npc c2n (nth k cells 0%nat) a * D) i then Re k a else 0)).
Proof.
  intros HD Hcells Hv Ho. unfold assemble_scalar_gradient in Ho.
  set (ws := fun k => map (fun a => ((node_of npc c2n (nth k cells 0%nat) a * D)%nat, Re k a)) (seq 0 npc)).
  assert (Hin : forall k, k < length cells -> nth k cells 0%nat < ncells) by (intros; apply Hcells, nth_In; assumption).
  destruct (atomic_add_spec (length cells) (scalar_item npc D c2n cells Re) ws v out) as [v' [E [L H]]].
  - intros k Hk. unfold scalar_item. rewrite (nth_error_some_nth cells k 0%nat) by exact Hk. cbn [ub rbind].
    apply mapR_ok. intros a Ha. apply in_seq in Ha. unfold VectorEntryOrdinal.
    rewrite (cell_node_ok npc ncells nn c2n MS) by (try apply Hin; lia). cbn [rbind]. rewrite Nat.add_0_r. reflexivity.
  - intros k p x Hk Hx. apply in_map_iff in Hx as [a [Ex Ha]]. apply in_seq in Ha.
    injection Ex as <- <-. rewrite Hv. pose proof (node_lt npc ncells nn c2n MS (nth k cells 0%nat) a (Hin k Hk) ltac:(lia)). nia.
  - exact Ho.
  - exists v'. split; [exact E|]. split; [exact L|]. intros i. rewrite H. f_equal. apply sum_ext. intros k _.
    unfold amount, ws. rewrite map_map. apply lsum_map_seq.
Qed.

Lemma gather_ok D cells (state : list K) k : 0 < D ->
  (forall c, In c cells -> c < ncells) -> length state = (nn * D)%nat -> k < length cells ->
  exists row, workset_row npc D c2n cells state k = Ok row /\ length row = (npc * D)%nat /\
    forall a, a < npc * D -> nth a row 0 = nth (gdof npc D c2n (nth k cells 0%nat) a) state 0.
Proof.
  intros HD Hcells Hs Hk. unfold workset_row. rewrite (nth_error_some_nth cells k 0%nat) by exact Hk. cbn [ub rbind].
  assert (Hin : nth k cells 0%nat < ncells) by (apply Hcells, nth_In; assumption).
  exists (map (fun ab : nat * nat => nth (gdof npc D c2n (nth k cells 0%nat) (fst ab * D + snd ab)%nat) state 0) (list_prod (seq 0 npc) (seq 0 D))).
  split; [|split].
  - apply mapR_ok. intros [a b] Hab. apply in_prod_iff in Hab as [Ha Hb]. apply in_seq in Ha, Hb. cbn [fst snd].
    rewrite entry_ok by (try assumption; lia). cbn [rbind]. rewrite (nth_error_some_nth state _ 0); [reflexivity|].
    rewrite Hs. apply (gdof_lt npc ncells nn c2n MS); [exact HD|exact Hin|nia].
  - rewrite map_length, prod_length, !seq_length. reflexivity.
  - intros a Ha. 
    assert (Ea : nth_error (list_prod (seq 0 npc) (seq 0 D)) a = Some ((a / D)%nat, (a mod D)%nat)).
    { clear - Ha HD.
      assert (G : forall m s a, a < m * D -> nth_error (list_prod (seq s m) (seq 0 D)) a = Some ((s + a / D)%nat, (a mod D)%nat)).
      { induction m as [|m IH]; intros s b Hb; [simpl in Hb; lia|]. simpl list_prod.
        destruct (Nat.lt_ge_cases b D) as [H|H].
        - rewrite nth_error_app1 by (rewrite map_length, seq_length; exact H). rewrite nth_error_map.
          rewrite (nth_error_nth' _ 0%nat) by (rewrite seq_length; exact H). rewrite seq_nth by exact H. simpl.
          rewrite Nat.div_small, Nat.mod_small by exact H. do 2 f_equal. lia.
        - rewrite nth_error_app2 by (rewrite map_length, seq_length; exact H). rewrite map_length, seq_length.
          rewrite IH by (simpl in Hb; lia). f_equal.
          replace b with (b - D + 1 * D)%nat at 3 4 by lia. rewrite Nat.div_add, Nat.mod_add by lia. f_equal. lia. }
      rewrite G by exact Ha. reflexivity. }
    apply nth_error_nth. rewrite nth_error_map, Ea. simpl. do 3 f_equal.
    rewrite (Nat.mul_comm (a / D)). symmetry. apply Nat.div_mod. lia.
Qed.

(** Scatter is the adjoint of gather. *)
Lemma gather_scatter D cells (Re : nat -> nat -> K) (w : nat -> K) : 0 < D ->
  (forall c, In c cells -> c < ncells) ->
  dot (nn * D) (fun i => sum (length cells) (fun k => sum (npc * D) (fun a =>
       if Nat.eqb (gdof npc D c2n (nth k cells 0%nat) a) i then Re k a else 0))) w
  = sum (length cells) (fun k => sum (npc * D) (fun a => Re k a * w (gdof npc D c2n (nth k cells 0%nat) a))).
Proof.
  intros HD Hcells. unfold dot.
  rewrite (sum_ext _ _ (fun i => sum (length cells) (fun k => sum (npc * D) (fun a =>
     if Nat.eqb (gdof npc D c2n (nth k cells 0%nat) a) i then Re k a * w i else 0)))).
  - rewrite sum_swap. apply sum_ext. intros k Hk. rewrite sum_swap. apply sum_ext. intros a Ha.
    rewrite sum_delta; [reflexivity|]. apply (gdof_lt npc ncells nn c2n MS); [exact HD|apply Hcells, nth_In; exact Hk|exact Ha].
  - intros i _. rewrite <- sum_scal_r. apply sum_ext. intros k _. rewrite <- sum_scal_r. apply sum_ext. intros a _.
    destruct (Nat.eqb _ i); ring.
Qed.
End V.
