(** Sparse matrix-vector product: proof. *)
From Coq Require Import Arith Lia List Bool Permutation Ring.
From Verif Require Import Base.Field Base.Sums Base.ListUpd Base.Res Base.Scatter Base.Loops
  Sparse.CrsModel Sparse.CrsSpec.
Import ListNotations.

Section P.
Context {K : CRing}.
Add Ring KringMV : (r_th K).
Local Open Scope K_scope.

Definition rowof (A : crs K) i := range (nth i (c_rowmap A) 0%nat) (nth (S i) (c_rowmap A) 0%nat).

Lemma wf_mono_le n c (A : crs K) : wf_crs n c A -> forall i j, i <= j -> j <= n ->
  nth i (c_rowmap A) 0%nat <= nth j (c_rowmap A) 0%nat.
Proof.
  intros W i j Hij. induction j as [|j IH]; intros Hj.
  - replace i with 0%nat by lia. lia.
  - destruct (Nat.eq_dec i (S j)) as [->|]; [lia|].
    pose proof (IH ltac:(lia) ltac:(lia)). pose proof (w_mono _ _ _ W j ltac:(lia)). lia.
Qed.

Lemma row_range_ok n c (A : crs K) i : wf_crs n c A -> i < n -> row_range (c_rowmap A) i = Ok (rowof A i).
Proof.
  intros W Hi. pose proof (w_len _ _ _ W) as L. unfold row_range.
  rewrite (nth_error_some_nth _ i 0%nat) by lia. cbn [ub rbind].
  rewrite (nth_error_some_nth _ (S i) 0%nat) by lia. reflexivity.
Qed.

Lemma rowof_in n c (A : crs K) i o : wf_crs n c A -> i < n -> In o (rowof A i) -> o < length (c_cols A).
Proof.
  intros W Hi H. apply in_range in H. pose proof (wf_mono_le _ _ _ W (S i) n ltac:(lia) ltac:(lia)).
  rewrite (w_last _ _ _ W) in H0. lia.
Qed.

Lemma col_lt n c (A : crs K) o : wf_crs n c A -> o < length (c_cols A) -> nth o (c_cols A) 0%nat < c.
Proof. intros W H. apply (w_cols _ _ _ W). apply nth_In. exact H. Qed.

Lemma block_idx R C L o r k : o < L -> r < R -> k < C -> R * C * o + C * r + k < R * C * L.
Proof.
  intros Ho Hr Hk. assert (C * r + k < R * C) by nia.
  assert (R * C * S o <= R * C * L) by (apply Nat.mul_le_mono_l; lia). nia.
Qed.

Definition bdot (A : crs K) (x : list K) (o r : nat) : K :=
  sum (c_C A) (fun k => nth (c_R A * c_C A * o + c_C A * r + k) (c_ents A) 0
                        * nth (c_C A * nth o (c_cols A) 0%nat + k) x 0).

Definition row_adds (A : crs K) (x : list K) (i : nat) : list (nat * K) :=
  flat_map (fun o => map (fun r => ((c_R A * i + r)%nat, bdot A x o r)) (seq 0 (c_R A))) (rowof A i).

Lemma inner_ok (ents x : list K) C nc e0 :
  e0 + C <= length ents -> C * nc + C <= length x ->
  foldR (fun colDof (si : K * nat) =>
          let! e := ub (nth_error ents (snd si)) in
          let! xv := ub (nth_error x colDof) in
          Ok (fst si + e * xv, S (snd si)))
        (seq (C * nc) C) (0, e0)
  = Ok (sum C (fun k => nth (e0 + k) ents 0 * nth (C * nc + k) x 0), (e0 + C)%nat).
Proof.
  intros He Hx.
  assert (G : forall m, m <= C -> foldR (fun colDof (si : K * nat) =>
          let! e := ub (nth_error ents (snd si)) in
          let! xv := ub (nth_error x colDof) in
          Ok (fst si + e * xv, S (snd si))) (seq (C * nc) m) (0, e0)
     = Ok (sum m (fun k => nth (e0 + k) ents 0 * nth (C * nc + k) x 0), (e0 + m)%nat)).
  { induction m as [|m IH]; intros Hm; [simpl; rewrite Nat.add_0_r; reflexivity|].
    rewrite seq_S, foldR_app, IH by lia. simpl.
    rewrite (nth_error_some_nth ents _ 0) by lia. simpl.
    rewrite (nth_error_some_nth x _ 0) by lia. simpl. rewrite Nat.add_succ_r. reflexivity. }
  apply G. lia.
Qed.

Lemma block_rows_ok n c (A : crs K) x i o y :
  wf_crs n c A -> i < n -> o < length (c_cols A) -> length x = (c * c_C A)%nat ->
  length y = (n * c_R A)%nat ->
  block_rows A x i (nth o (c_cols A) 0%nat) o y
  = add_all (map (fun r => ((c_R A * i + r)%nat, bdot A x o r)) (seq 0 (c_R A))) y.
Proof.
  intros W Hi Ho Hx Hy. unfold block_rows. rewrite !range_seq.
  assert (Hrow : c_R A * i + c_R A <= length y) by (rewrite Hy; nia).
  set (F := fun row (s : list K * nat) => _).
  assert (G : forall m, m <= c_R A -> forall y, c_R A * i + c_R A <= length y ->
     foldR F (seq (c_R A * i) m) (y, (c_R A * c_C A * o)%nat)
     = let! y' := add_all (map (fun r => ((c_R A * i + r)%nat, bdot A x o r)) (seq 0 m)) y in
       Ok (y', (c_R A * c_C A * o + c_C A * m)%nat)).
  { induction m as [|m IH]; intros Hm v Hv.
    - simpl. rewrite Nat.mul_0_r, Nat.add_0_r. reflexivity.
    - rewrite !seq_S, map_app, foldR_app, add_all_app, IH by (lia || assumption).
      destruct (add_all_spec (map (fun r => ((c_R A * i + r)%nat, bdot A x o r)) (seq 0 m)) v) as [v1 [E [L1 _]]].
      { intros p z Hin. apply in_map_iff in Hin as [r [Er Hr]]. apply in_seq in Hr. inversion Er; subst. lia. }
      rewrite E. cbn [rbind]. rewrite Nat.add_0_l. cbn [seq map foldR]. unfold F at 1. cbn [fst snd].
      rewrite inner_ok.
      + cbn [rbind fst snd]. rewrite add_all_single.
        replace (sum _ _) with (bdot A x o m) by reflexivity.
        destruct (add_at v1 (c_R A * i + m) (bdot A x o m)); simpl; try reflexivity.
        f_equal. f_equal. lia.
      + rewrite (w_ents _ _ _ W).
        assert (c_R A * c_C A * S o <= c_R A * c_C A * length (c_cols A)) by (apply Nat.mul_le_mono_l; lia).
        assert (c_C A * S m <= c_C A * c_R A) by (apply Nat.mul_le_mono_l; lia). lia.
      + rewrite Hx. pose proof (col_lt _ _ _ o W Ho).
        assert (c_C A * S (nth o (c_cols A) 0%nat) <= c_C A * c)%nat by (apply Nat.mul_le_mono_l; lia). lia. }
  rewrite G by (lia || assumption). destruct (add_all _ y); reflexivity.
Qed.

Lemma matvec_block_item_ok n c (A : crs K) x i y :
  wf_crs n c A -> i < n -> length x = (c * c_C A)%nat -> length y = (n * c_R A)%nat ->
  matvec_block_item A x i y = add_all (row_adds A x i) y.
Proof.
  intros W Hi Hx Hy. unfold matvec_block_item. rewrite (row_range_ok n c) by assumption. cbn [rbind].
  unfold row_adds. apply foldR_add_all.
  - intros o v' Ho Hl. pose proof (rowof_in n c A i o W Hi Ho).
    rewrite (nth_error_some_nth (c_cols A) o 0%nat) by assumption. cbn [ub rbind].
    apply (block_rows_ok n c); try assumption. congruence.
  - intros o p z Ho Hin. apply in_map_iff in Hin as [r [Er Hr]]. apply in_seq in Hr. inversion Er; subst.
    rewrite Hy. nia.
Qed.

Lemma matvec_item_ok n c (A : crs K) x i y :
  wf_crs n c A -> i < n -> c_R A = 1%nat -> c_C A = 1%nat ->
  length x = (c * c_C A)%nat -> length y = (n * c_R A)%nat ->
  matvec_item A x i y = add_all [(i, lsum (map (fun o => bdot A x o 0) (rowof A i)))] y.
Proof.
  intros W Hi HR HC Hx Hy. unfold matvec_item. rewrite (row_range_ok n c) by assumption. cbn [rbind].
  rewrite (foldR_ext_in _ (fun o s => Ok (s + bdot A x o 0))).
  - rewrite foldR_accum. cbn [rbind]. rewrite add_all_single. f_equal. ring.
  - intros o s Ho. pose proof (rowof_in n c A i o W Hi Ho) as Ho'.
    pose proof (col_lt _ _ _ o W Ho').
    rewrite (nth_error_some_nth (c_cols A) o 0%nat) by assumption. cbn [ub rbind].
    rewrite (nth_error_some_nth (c_ents A) o 0) by (rewrite (w_ents _ _ _ W), HR, HC; lia). cbn [ub rbind].
    rewrite (nth_error_some_nth x _ 0) by (rewrite Hx, HC; lia). cbn [ub rbind].
    unfold bdot. rewrite HR, HC. simpl. repeat rewrite ?Nat.add_0_r. f_equal. ring.
Qed.

Lemma amount_row_adds n c (A : crs K) x i q : wf_crs n c A -> 
  amount q (row_adds A x i) =
  if Nat.eqb (q / c_R A) i then lsum (map (fun o => bdot A x o (q mod c_R A)) (rowof A i)) else 0.
Proof.
  intros W. pose proof (w_R _ _ _ W) as HR. unfold row_adds. rewrite amount_flat_map.
  assert (Hq : (q = c_R A * (q / c_R A) + q mod c_R A)%nat) by (apply Nat.div_mod; lia).
  assert (Hm : q mod c_R A < c_R A) by (apply Nat.mod_upper_bound; lia).
  destruct (Nat.eqb_spec (q / c_R A) i) as [E|E].
  - apply lsum_map_ext. intros o _. unfold amount. rewrite map_map. simpl.
    rewrite lsum_map_seq. rewrite (sum_single _ (q mod c_R A)); [|exact Hm|].
    + rewrite <- E, <- Hq, Nat.eqb_refl. reflexivity.
    + intros r Hr Hne. destruct (Nat.eqb_spec (c_R A * i + r) q); [|reflexivity].
      exfalso. apply Hne. nia.
  - apply lsum_map_0. intros o _. unfold amount. rewrite map_map. apply lsum_map_0.
    intros r Hr. apply in_seq in Hr. simpl.
    destruct (Nat.eqb_spec (c_R A * i + r) q); [|reflexivity]. exfalso. apply E.
    rewrite <- e. rewrite (Nat.mul_comm (c_R A) i), Nat.div_add_l by lia. rewrite Nat.div_small by lia. lia.
Qed.

(** The row sums are the dense product. *)
Lemma row_is_dense n c (A : crs K) x q : wf_crs n c A -> q / c_R A < n ->
  lsum (map (fun o => bdot A x o (q mod c_R A)) (rowof A (q / c_R A)))
  = sum (c * c_C A) (fun j => matrix A q j * nth j x 0).
Proof.
  intros W Hq. pose proof (w_C _ _ _ W) as HC. rewrite sum_block.
  unfold matrix, dense_rc. fold (rowof A (q / c_R A)).
  set (f := fun b k o => (if Nat.eqb (nth o (c_cols A) 0%nat) b
                      then nth (c_R A * c_C A * o + c_C A * (q mod c_R A) + k) (c_ents A) 0 else 0)
                      * nth (b * c_C A + k) x 0).
  rewrite (sum_ext c _ (fun b => sum (c_C A) (fun k => lsum (map (f b k) (rowof A (q / c_R A)))))).
  2:{ intros b Hb. apply sum_ext. intros k Hk.
      rewrite Nat.div_add_l, (Nat.div_small k), Nat.add_0_r by lia.
      rewrite (Nat.add_comm (b * c_C A) k), Nat.mod_add, (Nat.mod_small k) by lia.
      rewrite (Nat.add_comm k). unfold f. generalize (rowof A (q / c_R A)) as l.
      induction l as [|o l IH]; simpl; [ring|]. rewrite <- IH. ring. }
  rewrite (sum_ext c _ (fun b => lsum (map (fun o => sum (c_C A) (fun k => f b k o)) (rowof A (q / c_R A)))))
    by (intros; symmetry; rewrite lsum_swap_sum; reflexivity).
  rewrite <- lsum_swap_sum.
  apply lsum_map_ext. intros o Ho. pose proof (rowof_in n c A _ o W Hq Ho) as Ho'.
  pose proof (col_lt _ _ _ o W Ho').
  rewrite (sum_single c (nth o (c_cols A) 0%nat)); [|assumption|].
  - unfold bdot, f. apply sum_ext. intros k Hk. rewrite Nat.eqb_refl. rewrite (Nat.mul_comm (nth o (c_cols A) 0%nat)). reflexivity.
  - intros b Hb Hne. apply sum_0. intros k Hk. unfold f.
    destruct (Nat.eqb_spec (nth o (c_cols A) 0%nat) b); [congruence|ring].
Qed.

Lemma matvec_correct n c (A : crs K) sched x y :
  fair sched -> wf_crs n c A -> length x = (c * c_C A)%nat -> length y = (n * c_R A)%nat ->
  exists y', matvec sched A x y = Ok y' /\ length y' = length y /\
    forall i, i < n * c_R A -> nth i y' 0 = nth i y 0 + sum (c * c_C A) (fun j => matrix A i j * nth j x 0).
Proof.
  intros Hf W Hx Hy. pose proof (w_R _ _ _ W) as HR. pose proof (w_C _ _ _ W) as HC.
  unfold matvec, numCols, numRows. rewrite (w_nrows _ _ _ W), (w_ncols _ _ _ W). cbn [rbind].
  rewrite Hx, Hy, !Nat.eqb_refl. cbn [negb rbind]. rewrite (w_len _ _ _ W). replace (S n - 1)%nat with n by lia.
  set (w := if isBlock A then row_adds A x
            else fun i => [(i, lsum (map (fun o => bdot A x o 0) (rowof A i)))]).
  assert (Hb : forall i p z, In i (sched n) -> In (p, z) (w i) -> p < length y).
  { intros i p z Hi Hin. apply fair_in in Hi; [|exact Hf]. unfold w in Hin. rewrite Hy.
    destruct (isBlock A).
    - unfold row_adds in Hin. apply in_flat_map in Hin as [o [_ Hin]].
      apply in_map_iff in Hin as [r [Er Hr]]. apply in_seq in Hr. inversion Er; subst. nia.
    - destruct Hin as [E|[]]. inversion E; subst. nia. }
  assert (HB : isBlock A = false -> c_R A = 1%nat /\ c_C A = 1%nat).
  { unfold isBlock. intros H. apply Nat.ltb_ge in H. nia. }
  assert (E : (if isBlock A then foldR (matvec_block_item A x) (sched n) y
              else foldR (matvec_item A x) (sched n) y) = add_all (flat_map w (sched n)) y).
  { unfold w. destruct (isBlock A) eqn:EB; apply foldR_add_all; try exact Hb.
    - intros i v Hi Hl. apply fair_in in Hi; [|exact Hf]. apply (matvec_block_item_ok n c); auto. congruence.
    - intros i v Hi Hl. apply fair_in in Hi; [|exact Hf]. destruct (HB eq_refl).
      apply (matvec_item_ok n c); auto. congruence. }
  rewrite E.
  destruct (add_all_spec (flat_map w (sched n)) y) as [y' [E' [L H]]].
  { intros p z Hin. apply in_flat_map in Hin as [i [Hi Hin]]. eauto. }
  exists y'. split; [exact E'|]. split; [congruence|]. intros q Hq. rewrite H. f_equal.
  assert (Hq' : q / c_R A < n) by (apply Nat.div_lt_upper_bound; lia).
  rewrite amount_flat_map. rewrite lsum_fair by exact Hf.
  rewrite <- (row_is_dense n c) by assumption.
  rewrite (sum_single n (q / c_R A)); [|assumption|].
  - unfold w. destruct (isBlock A) eqn:EB.
    + rewrite (amount_row_adds n c) by assumption. rewrite Nat.eqb_refl. reflexivity.
    + destruct (HB eq_refl) as [R1 C1]. rewrite R1, Nat.div_1_r. unfold amount. simpl.
      rewrite Nat.eqb_refl. ring.
  - intros i Hi Hne. unfold w. destruct (isBlock A) eqn:EB.
    + rewrite (amount_row_adds n c) by assumption. destruct (Nat.eqb_spec (q / c_R A) i); [congruence|reflexivity].
    + destruct (HB eq_refl) as [R1 C1]. rewrite R1, Nat.div_1_r in Hne. unfold amount. simpl.
      destruct (Nat.eqb_spec i q); [congruence|ring].
Qed.

End P.
