(** Assembly adds exactly the element contributions. *)
From Coq Require Import Arith Lia List Bool Permutation Ring.
From Verif Require Import Base.Field Base.Sums Base.ListUpd Base.Res Base.Scatter Base.Loops
  Sparse.CrsModel Sparse.CrsSpec Sparse.MatvecProof Sparse.SortProof
  Assembly.GraphModel Assembly.GraphSpec Assembly.GraphProof Assembly.AssemblyModel.
Import ListNotations.

Lemma concat_map_flat {A B} (f : A -> list B) l : concat (map f l) = flat_map f l.
Proof. induction l; simpl; congruence. Qed.

Lemma find_entry_ok ci c es :
  (forall e, In e es -> e < length ci) -> (exists e, In e es /\ nth e ci 0 = c) ->
  exists e, find_entry ci es c = Ok (Some e) /\ In e es /\ nth e ci 0 = c.
Proof.
  induction es as [|e es IH]; intros Hb [e' [Hin He']]; [contradiction|]. simpl.
  rewrite (nth_error_some_nth ci e 0) by (apply Hb; left; reflexivity). cbn [ub rbind].
  destruct (Nat.eqb_spec (nth e ci 0) c) as [E|E].
  - exists e. split; [reflexivity|]. split; [left; reflexivity|exact E].
  - destruct Hin as [->|Hin]; [contradiction|].
    destruct IH as [e2 [H1 [H2 H3]]]; [intros; apply Hb; right; assumption|exists e'; tauto|].
    exists e2. split; [exact H1|]. split; [right; exact H2|exact H3].
Qed.

Lemma in_row_cols rm ci r c : nth (S r) rm 0 <= length ci ->
  (In c (row_cols rm ci r) <-> exists e, nth r rm 0 <= e < nth (S r) rm 0 /\ nth e ci 0 = c).
Proof.
  intros Hl. unfold row_cols. split.
  - intros H. apply In_nth_error in H as [t Ht]. rewrite nth_error_segment in Ht.
    destruct (Nat.ltb_spec t (nth (S r) rm 0 - nth r rm 0)); [|discriminate].
    exists (nth r rm 0 + t). split; [lia|]. apply nth_error_nth. exact Ht.
  - intros [e [He Hc]]. apply (nth_error_In _ (e - nth r rm 0)). rewrite nth_error_segment.
    destruct (Nat.ltb_spec (e - nth r rm 0) (nth (S r) rm 0 - nth r rm 0)); [|lia].
    replace (nth r rm 0 + (e - nth r rm 0)) with e by lia. rewrite <- Hc. apply nth_error_some_nth. lia.
Qed.

Lemma divmod_pos b c q : b < c -> (q * c + b) / c = q /\ (q * c + b) mod c = b.
Proof.
  intros H. split.
  - rewrite Nat.div_add_l by lia. rewrite Nat.div_small by exact H. lia.
  - rewrite Nat.add_comm, Nat.mod_add by lia. apply Nat.mod_small. exact H.
Qed.

Section K.
Context {K : CRing}.
Add Ring KringAsm : (r_th K).
Local Open Scope K_scope.

Lemma atomic_add_spec n item (ws : nat -> list (nat * K)) v out :
  (forall k, k < n -> item k = Ok (ws k)) ->
  (forall k p x, k < n -> In (p, x) (ws k) -> p < length v) ->
  atomic_add_outcome n item v out ->
  exists v', out = Ok v' /\ length v' = length v /\
    forall q, nth q v' 0 = nth q v 0 + sum n (fun k => amount q (ws k)).
Proof.
  intros Hi Hb Ho. unfold atomic_add_outcome in Ho.
  rewrite (mapR_ok item ws) in Ho by (intros k Hk; apply in_seq in Hk; apply Hi; lia).
  destruct Ho as [w [Hp ->]]. rewrite concat_map_flat in Hp.
  destruct (add_all_spec w v) as [v' [E [L H]]].
  { intros p x Hx. apply (Permutation_in _ Hp) in Hx. apply in_flat_map in Hx as [k [Hk Hx]].
    apply in_seq in Hk. apply (Hb k p x); [lia|exact Hx]. }
  exists v'. split; [exact E|]. split; [exact L|]. intros q. rewrite H. f_equal.
  rewrite (amount_perm q _ _ Hp), amount_flat_map. apply lsum_map_seq.
Qed.

(** At least one outcome exists, whatever the items do. *)
Lemma atomic_add_total n (item : nat -> res (list (nat * K))) v : exists out, atomic_add_outcome n item v out.
Proof.
  unfold atomic_add_outcome. destruct (mapR item (seq 0 n)) as [wss| |]; eauto.
Qed.

Lemma addresses_bound n c (A : crs K) p i j : wf_crs n c A -> i < n * c_R A -> addresses A p i j -> p < length (c_ents A).
Proof.
  intros W Hi [e [He [_ ->]]]. rewrite (w_ents _ _ _ W).
  pose proof (w_R _ _ _ W) as HR. pose proof (w_C _ _ _ W) as HC.
  assert (Hr : (i / c_R A < n)%nat) by (apply Nat.div_lt_upper_bound; lia).
  pose proof (wf_mono_le n c A W (S (i / c_R A)) n ltac:(lia) ltac:(lia)) as Hm. rewrite (w_last _ _ _ W) in Hm.
  pose proof (Nat.mod_upper_bound i (c_R A) ltac:(lia)). pose proof (Nat.mod_upper_bound j (c_C A) ltac:(lia)).
  assert (He' : e < length (c_cols A)) by lia.
  assert (H1 : (e * c_R A + i mod c_R A + 1 <= length (c_cols A) * c_R A)%nat) by nia.
  assert (H2 : ((e * c_R A + i mod c_R A + 1) * c_C A <= length (c_cols A) * c_R A * c_C A)%nat) by (apply Nat.mul_le_mono_r; exact H1).
  nia.
Qed.

Lemma sum_pick {I : Type} (l : list I) (P : I -> bool) (x : K) : 
  lsum (map (fun o => if P o then x else 0) l) = lsum (map (fun o => x) (filter P l)).
Proof. induction l as [|a l IH]; simpl; [reflexivity|]. destruct (P a); simpl; rewrite IH; ring. Qed.

(** Effect on the dense matrix of a value stored at an address. *)
Lemma dense_at n c (A : crs K) p i0 j0 (x : K) i j : wf_crs n c A -> i0 < n * c_R A -> i < n * c_R A -> addresses A p i0 j0 ->
  lsum (map (fun o => if Nat.eqb (nth o (c_cols A) 0%nat) (j / c_C A)
                      then (if Nat.eqb p (c_R A * c_C A * o + c_C A * (i mod c_R A) + j mod c_C A) then x else 0) else 0)
            (range (nth (i / c_R A) (c_rowmap A) 0%nat) (nth (S (i / c_R A)) (c_rowmap A) 0%nat)))
  = if Nat.eqb i0 i && Nat.eqb j0 j then x else 0.
Proof.
  intros W Hi0 Hi [e [He [Hc Hp]]].
  pose proof (w_R _ _ _ W) as HR. pose proof (w_C _ _ _ W) as HC.
  set (R := c_R A) in *. set (C := c_C A) in *.
  assert (Hr0 : (i0 / R < n)%nat) by (apply Nat.div_lt_upper_bound; lia).
  assert (Hr : (i / R < n)%nat) by (apply Nat.div_lt_upper_bound; lia).
  pose proof (Nat.mod_upper_bound i R ltac:(lia)) as Hm1. pose proof (Nat.mod_upper_bound j C ltac:(lia)) as Hm2.
  pose proof (Nat.mod_upper_bound i0 R ltac:(lia)) as Hm3. pose proof (Nat.mod_upper_bound j0 C ltac:(lia)) as Hm4.
  assert (Hpos : forall o, p = (R * C * o + C * (i mod R) + j mod C)%nat <->
      (o = e /\ i mod R = i0 mod R /\ j mod C = j0 mod C)%nat).
  { intros o. rewrite Hp. split.
    - intros E.
      assert (E1 : ((e * R + i0 mod R) * C + j0 mod C = (o * R + i mod R) * C + j mod C)%nat) by nia.
      destruct (divmod_pos (j0 mod C) C (e * R + i0 mod R) Hm4) as [D1 D2].
      destruct (divmod_pos (j mod C) C (o * R + i mod R) Hm2) as [D3 D4].
      rewrite E1 in D1, D2. rewrite D3 in D1. rewrite D4 in D2.
      destruct (divmod_pos (i0 mod R) R e Hm3) as [D5 D6]. destruct (divmod_pos (i mod R) R o Hm1) as [D7 D8].
      rewrite <- D1 in D5, D6. rewrite D7 in D5. rewrite D8 in D6. split; [exact D5|]. split; [exact D6|exact D2].
    - intros [-> [-> ->]]. nia. }
  rewrite (lsum_map_ext _ (fun o => if Nat.eqb o e && (Nat.eqb i0 i && Nat.eqb j0 j) then x else 0)).
  - destruct (Nat.eqb i0 i && Nat.eqb j0 j) eqn:B.
    + apply andb_prop in B as [B1 B2]. apply Nat.eqb_eq in B1, B2. subst i0 j0.
      unfold range. rewrite lsum_map_seq_shift.
      rewrite (sum_single _ (e - nth (i / R) (c_rowmap A) 0)%nat).
      * replace (nth (i / R) (c_rowmap A) 0 + (e - nth (i / R) (c_rowmap A) 0))%nat with e by lia.
        rewrite Nat.eqb_refl. reflexivity.
      * lia.
      * intros k Hk Hne. destruct (Nat.eqb_spec (nth (i / R) (c_rowmap A) 0 + k)%nat e); [lia|reflexivity].
    + apply lsum_map_0. intros o _. rewrite andb_false_r. reflexivity.
  - intros o Ho. apply in_range in Ho.
    destruct (Nat.eqb_spec (nth o (c_cols A) 0%nat) (j / C)%nat) as [E1|E1];
    destruct (Nat.eqb_spec p (R * C * o + C * (i mod R) + j mod C)%nat) as [E2|E2]; try reflexivity.
    + apply Hpos in E2 as [-> [E3 E4]]. rewrite Nat.eqb_refl.
      assert (Erow : (i0 / R = i / R)%nat).
      { apply (starts_row (fun k => nth k (c_rowmap A) 0%nat) n (w_mono _ _ _ W) _ _ e Hr0 Hr He Ho). }
      assert (Ecol : (j0 / C = j / C)%nat) by congruence.
      assert (i0 = i) by (rewrite (Nat.div_mod i0 R), (Nat.div_mod i R) by lia; congruence).
      assert (j0 = j) by (rewrite (Nat.div_mod j0 C), (Nat.div_mod j C) by lia; congruence).
      subst i0 j0. rewrite !Nat.eqb_refl. reflexivity.
    + destruct (Nat.eqb_spec o e) as [->|]; [|reflexivity].
      destruct (Nat.eqb_spec i0 i) as [->|]; [|reflexivity]. destruct (Nat.eqb_spec j0 j) as [->|]; [|reflexivity].
      exfalso. apply E2. apply Hpos. tauto.
    + destruct (Nat.eqb_spec o e) as [->|]; [|reflexivity].
      destruct (Nat.eqb_spec i0 i) as [->|]; [|reflexivity]. destruct (Nat.eqb_spec j0 j) as [->|]; [|reflexivity].
      exfalso. apply E1. exact Hc.
    + destruct (Nat.eqb_spec o e) as [->|]; [|reflexivity].
      destruct (Nat.eqb_spec i0 i) as [->|]; [|reflexivity]. destruct (Nat.eqb_spec j0 j) as [->|]; [|reflexivity].
      exfalso. apply E1. exact Hc.
Qed.

Lemma dense_add n c A (v v' : list K) (m : nat) (ws : nat -> list (nat * K)) i j : wf_crs n c A ->
  (forall q, nth q v' 0 = nth q v 0 + sum m (fun k => amount q (ws k))) ->
  matrix (with_entries A v') i j = matrix (with_entries A v) i j +
   sum m (fun k => lsum (map (fun w => lsum (map (fun o => if Nat.eqb (nth o (c_cols A) 0%nat) (j / c_C A)
       then (if Nat.eqb (fst w) (c_R A * c_C A * o + c_C A * (i mod c_R A) + j mod c_C A) then snd w else 0) else 0)
            (range (nth (i / c_R A) (c_rowmap A) 0%nat) (nth (S (i / c_R A)) (c_rowmap A) 0%nat)))) (ws k))).
Proof.
  intros W H. unfold matrix, dense_rc, with_entries. simpl.
  set (l := range _ _). 
  rewrite (lsum_map_ext _ (fun o => (if Nat.eqb (nth o (c_cols A) 0%nat) (j / c_C A) then
      nth (c_R A * c_C A * o + c_C A * (i mod c_R A) + j mod c_C A) v 0 else 0) +
     (if Nat.eqb (nth o (c_cols A) 0%nat) (j / c_C A) then sum m (fun k => amount (c_R A * c_C A * o + c_C A * (i mod c_R A) + j mod c_C A) (ws k)) else 0))).
  2:{ intros o _. destruct (Nat.eqb (nth o (c_cols A) 0%nat) (j / c_C A)%nat); [apply H|ring]. }
  rewrite lsum_map_add. f_equal.
  rewrite (lsum_map_ext _ (fun o => sum m (fun k => if Nat.eqb (nth o (c_cols A) 0%nat) (j / c_C A)
     then amount (c_R A * c_C A * o + c_C A * (i mod c_R A) + j mod c_C A) (ws k) else 0))).
  2:{ intros o _. destruct (Nat.eqb (nth o (c_cols A) 0%nat) (j / c_C A)%nat); [reflexivity|]. symmetry. apply sum_0. reflexivity. }
  rewrite lsum_swap_sum. apply sum_ext. intros k _. unfold amount.
  generalize (ws k). intros wk. clear.
  induction l as [|o l IH]; simpl.
  - symmetry. apply lsum_map_0. reflexivity.
  - rewrite IH, lsum_map_add. f_equal.
    destruct (Nat.eqb (nth o (c_cols A) 0%nat) (j / c_C A)%nat); [reflexivity|].
    symmetry. apply lsum_map_0. reflexivity.
Qed.

(** Generic assembly: every lookup returns the address of (gi, gj). *)
Lemma assemble_generic n c (A : crs K) lookup (ord : nat * nat -> nat * nat) nr nc cells (Ke : nat -> nat -> nat -> K)
    (gi gj : nat -> nat -> nat -> nat) item v out :
  wf_crs n c A -> length v = length (c_ents A) ->
  (forall k, item k = let! cell := ub (nth_error cells k) in
     mapR (fun ab : nat * nat => let! o := lookup cell (fst (ord ab)) (snd (ord ab)) in at_entry o (Ke k (fst ab) (snd ab)))
       (list_prod (seq 0 nr) (seq 0 nc))) ->
  (forall cell a b, In cell cells -> a < nr -> b < nc ->
     exists p, lookup cell (fst (ord (a,b))) (snd (ord (a,b))) = Ok (Some p) /\
       addresses A p (gi cell a b) (gj cell a b) /\ gi cell a b < n * c_R A) ->
  atomic_add_outcome (length cells) item v out ->
  exists v', out = Ok v' /\ length v' = length v /\
    forall i j, i < n * c_R A ->
      matrix (with_entries A v') i j = matrix (with_entries A v) i j +
        sum (length cells) (fun k => sum nr (fun a => sum nc (fun b =>
          if Nat.eqb (gi (nth k cells 0%nat) a b) i && Nat.eqb (gj (nth k cells 0%nat) a b) j then Ke k a b else 0))).
Proof.
  intros W Hv Hitem Hl Ho.
  set (pos := fun cell a b => match lookup cell (fst (ord (a,b))) (snd (ord (a,b))) with Ok (Some p) => p | _ => 0%nat end).
  assert (Hpos : forall cell a b, In cell cells -> a < nr -> b < nc ->
     lookup cell (fst (ord (a,b))) (snd (ord (a,b))) = Ok (Some (pos cell a b)) /\
       addresses A (pos cell a b) (gi cell a b) (gj cell a b) /\ gi cell a b < n * c_R A).
  { intros cell a b H1 H2 H3. destruct (Hl cell a b H1 H2 H3) as [p [E H]]. unfold pos. rewrite E. split; [reflexivity|exact H]. }
  set (ws := fun k => map (fun ab : nat * nat => (pos (nth k cells 0%nat) (fst ab) (snd ab), Ke k (fst ab) (snd ab)))
                (list_prod (seq 0 nr) (seq 0 nc))).
  assert (Hin : forall k, k < length cells -> In (nth k cells 0%nat) cells) by (intros; apply nth_In; assumption).
  destruct (atomic_add_spec (length cells) item ws v out) as [v' [E [L H]]].
  - intros k Hk. rewrite Hitem, (nth_error_some_nth cells k 0%nat) by exact Hk. cbn [ub rbind].
    apply mapR_ok. intros [a b] Hab. apply in_prod_iff in Hab as [Ha Hb]. apply in_seq in Ha, Hb.
    cbn [fst snd]. destruct (Hpos (nth k cells 0%nat) a b) as [E _]; [apply Hin; exact Hk|lia|lia|].
    rewrite E. reflexivity.
  - intros k p x Hk Hx. apply in_map_iff in Hx as [[a b] [Ex Hab]]. apply in_prod_iff in Hab as [Ha Hb]. apply in_seq in Ha, Hb.
    injection Ex as <- <-. rewrite Hv. cbn [fst snd].
    destruct (Hpos (nth k cells 0%nat) a b) as [_ [H1 H2]]; [apply Hin; exact Hk|lia|lia|].
    apply (addresses_bound n c A _ _ _ W H2 H1).
  - exact Ho.
  - exists v'. split; [exact E|]. split; [exact L|]. intros i j Hi.
    rewrite (dense_add n c A v v' (length cells) ws i j W H). f_equal.
    apply sum_ext. intros k Hk. unfold ws. rewrite map_map.
    rewrite (lsum_map_ext _ (fun ab => if Nat.eqb (gi (nth k cells 0%nat) (fst ab) (snd ab)) i && Nat.eqb (gj (nth k cells 0%nat) (fst ab) (snd ab)) j
        then Ke k (fst ab) (snd ab) else 0)).
    + transitivity (lsum (map (fun a => lsum (map (fun b => if Nat.eqb (gi (nth k cells 0%nat) a b) i && Nat.eqb (gj (nth k cells 0%nat) a b) j
         then Ke k a b else 0) (seq 0 nc))) (seq 0 nr))).
      * clear. induction (seq 0 nr) as [|a l IH]; simpl; [reflexivity|]. rewrite map_app, lsum_app, IH. f_equal.
        rewrite map_map. reflexivity.
      * rewrite lsum_map_seq. apply sum_ext. intros a _. apply lsum_map_seq.
    + intros [a b] Hab. apply in_prod_iff in Hab as [Ha Hb]. apply in_seq in Ha, Hb. cbn [fst snd].
      destruct (Hpos (nth k cells 0%nat) a b) as [_ [H1 H2]]; [apply Hin; exact Hk|lia|lia|].
      apply (dense_at n c A _ _ _ _ i j W H2 Hi H1).
Qed.

(** ** The lookups *)
Section L.
Variables (npc ncells nn : nat) (c2n : list nat).
Hypothesis MS : wf_mesh npc ncells nn c2n.

Local Notation complete := (complete npc ncells c2n).

Lemma cell_node_ok cell a : cell < ncells -> a < npc -> cell_node npc c2n cell a = Ok (node_of npc c2n cell a).
Proof.
  intros Hc Ha. unfold cell_node, node_of. rewrite (nth_error_some_nth c2n _ 0%nat); [reflexivity|].
  rewrite (m_len _ _ _ _ MS). nia.
Qed.

Lemma gdof_div D cell a : 0 < D -> (gdof npc D c2n cell a / D = node_of npc c2n cell (a / D))%nat /\
   (gdof npc D c2n cell a mod D = a mod D)%nat.
Proof. intros HD. apply divmod_pos. apply Nat.mod_upper_bound. lia. Qed.

Lemma gdof_lt D cell a : 0 < D -> cell < ncells -> a < npc * D -> (gdof npc D c2n cell a < nn * D)%nat.
Proof.
  intros HD Hc Ha. assert (H : (a / D < npc)%nat) by (apply Nat.div_lt_upper_bound; lia).
  pose proof (node_lt npc ncells nn c2n MS cell (a / D) Hc H). unfold gdof.
  pose proof (Nat.mod_upper_bound a D ltac:(lia)). nia.
Qed.

Lemma find_in_row n c (A : crs K) u w : wf_crs n c A -> u < n -> In w (row_cols (c_rowmap A) (c_cols A) u) ->
  exists e, find_entry (c_cols A) (rowof A u) w = Ok (Some e) /\
    nth u (c_rowmap A) 0%nat <= e < nth (S u) (c_rowmap A) 0%nat /\ nth e (c_cols A) 0%nat = w.
Proof.
  intros W Hu Hin.
  assert (Hb : nth (S u) (c_rowmap A) 0%nat <= length (c_cols A)).
  { rewrite <- (w_last _ _ _ W). apply (wf_mono_le n c A W); lia. }
  apply (in_row_cols _ _ _ _ Hb) in Hin as [e [He Hc]].
  destruct (find_entry_ok (c_cols A) w (rowof A u)) as [e' [H1 [H2 H3]]].
  - intros x Hx. apply in_range in Hx. lia.
  - exists e. split; [apply in_range; exact He|exact Hc].
  - exists e'. split; [exact H1|]. split; [apply in_range in H2; exact H2|exact H3].
Qed.

Lemma block_lookup (A : crs K) cell a b : wf_crs nn nn A -> complete A -> cell < ncells ->
  a < npc * c_R A -> b < npc * c_C A ->
  exists p, BlockMatrixEntryOrdinal npc (c_R A) (c_C A) (c_rowmap A) (c_cols A) c2n cell a b = Ok (Some p) /\
    addresses A p (gdof npc (c_R A) c2n cell a) (gdof npc (c_C A) c2n cell b).
Proof.
  intros W Hcomp Hc Ha Hb. pose proof (w_R _ _ _ W) as HR. pose proof (w_C _ _ _ W) as HC.
  assert (Ha' : (a / c_R A < npc)%nat) by (apply Nat.div_lt_upper_bound; lia).
  assert (Hb' : (b / c_C A < npc)%nat) by (apply Nat.div_lt_upper_bound; lia).
  pose proof (node_lt npc ncells nn c2n MS cell _ Hc Ha') as Hu.
  destruct (find_in_row nn nn A _ _ W Hu (Hcomp cell _ _ Hc Ha' Hb')) as [e [H1 [H2 H3]]].
  unfold BlockMatrixEntryOrdinal. rewrite !cell_node_ok by assumption. cbn [rbind].
  rewrite (row_range_ok nn nn) by assumption. cbn [rbind]. rewrite H1. cbn [rbind option_map].
  eexists. split; [reflexivity|]. exists e.
  destruct (gdof_div (c_R A) cell a HR) as [E1 E2]. destruct (gdof_div (c_C A) cell b HC) as [E3 E4].
  rewrite E1, E2, E3, E4. split; [exact H2|]. split; [exact H3|reflexivity].
Qed.

Lemma transpose_lookup (A : crs K) cell a b : wf_crs nn nn A -> c_R A = c_C A -> complete A -> cell < ncells ->
  a < npc * c_R A -> b < npc * c_R A ->
  exists p, BlockMatrixTransposeEntryOrdinal npc (c_R A) (c_rowmap A) (c_cols A) c2n cell a b = Ok (Some p) /\
    addresses A p (gdof npc (c_R A) c2n cell b) (gdof npc (c_R A) c2n cell a).
Proof.
  intros W ES Hcomp Hc Ha Hb.
  destruct (block_lookup A cell b a W Hcomp Hc Hb ltac:(rewrite <- ES; exact Ha)) as [p [H1 H2]].
  exists p. split.
  - rewrite <- H1. unfold BlockMatrixTransposeEntryOrdinal, BlockMatrixEntryOrdinal. rewrite <- ES.
    pose proof (w_R _ _ _ W) as HR.
    assert (Ha' : (a / c_R A < npc)%nat) by (apply Nat.div_lt_upper_bound; lia).
    assert (Hb' : (b / c_R A < npc)%nat) by (apply Nat.div_lt_upper_bound; lia).
    rewrite !cell_node_ok by assumption. reflexivity.
  - rewrite <- ES in H2. exact H2.
Qed.
End L.
End K.
