(** Proofs about the sparse products. *)
From Coq Require Import Arith Lia List Bool Sorted Permutation Field.
From Verif Require Import Base.Field Base.Sums Base.ListUpd Base.Res Base.Loops Base.Scatter Sparse.CrsModel Sparse.CrsSpec
  Sparse.MatvecProof Sparse.SortProof Sparse.NonBlockProof Sparse.RoundTripProof Sparse.ProductModel Sparse.ProductSpec Sparse.BlockProof.
Import ListNotations.

Section P.
Context {K : CField}.
Add Field KfieldPr : (f_th K).
Local Open Scope K_scope.

(** ** Product and difference *)
Lemma mult_ok (spgemm : spgemm_t K) junk sched n m m2 c (A B Out : crs K) :
  spgemm_ok spgemm -> fair sched -> wf_crs n m A -> nodup_rows A -> wf_crs m2 c B -> nodup_rows B ->
  (m * c_C A = m2 * c_R B)%nat ->
  c_R Out = c_R A -> c_C Out = c_C B -> c_nrows Out = Some (n * c_R A)%nat -> c_ncols Out = Some (c * c_C B)%nat ->
  exists P, MatrixMatrixMultiply spgemm junk sched A B Out = Ok P /\
    wf_crs n c P /\ nodup_rows P /\ c_R P = c_R A /\ c_C P = c_C B /\
    (forall i j, i < n * c_R A -> matrix P i j = sum (m * c_C A) (fun k => matrix A i k * matrix B k j)).
Proof.
  intros Hg Hf WA NA WB NB Hin HR HC Hnr Hnc.
  unfold MatrixMatrixMultiply, numRows, numCols. rewrite (w_nrows _ _ _ WA), (w_ncols _ _ _ WA), (w_nrows _ _ _ WB), (w_ncols _ _ _ WB), Hnr, Hnc.
  cbn [rbind]. rewrite <- Hin, !Nat.eqb_refl. cbn [negb].
  destruct (get_data n m A junk sched Hf WA NA) as (d1 & E1 & V1 & C1 & M1).
  destruct (get_data m2 c B junk sched Hf WB NB) as (d2 & E2 & V2 & C2 & M2).
  rewrite E1, E2. cbn [rbind fst]. rewrite <- Hin in *.
  destruct (Hg _ _ _ d1 d2 V1 V2) as (V & Cp & Ent).
  set (d := spgemm _ _ _ d1 d2) in *.
  pose proof (w_R _ _ _ WA) as HRA. pose proof (w_C _ _ _ WA) as HCA. pose proof (w_C _ _ _ WB) as HCB. pose proof (w_R _ _ _ WB) as HRB.
  destruct (set_blocks n c (c_R A) (c_C B) d
    (fun b => nodup Nat.eq_dec (flat_map (fun k => row_cols (c_rowmap B) (c_cols B) (k / c_R B)) (expand (c_C A) (row_cols (c_rowmap A) (c_cols A) b)))))
    with (A0 := Out) (sched := sched) as (P & EP & WP & NP & RP & CP & _ & MP); try assumption.
  - intros b Hb. apply NoDup_nodup.
  - intros i j Hi. rewrite nodup_In, in_flat_map. rewrite (Cp i j Hi).
    assert (Hb : i / c_R A < n) by (apply Nat.div_lt_upper_bound; lia).
    split.
    + intros (k & H1 & H2). assert (Hk : k < m * c_C A) by (apply (v_cols _ _ _ V1 i); assumption).
      exists k. split; [apply cols_of_expand; [exact HCA|]; apply C1; assumption|]. apply C2; assumption.
    + intros (k & H1 & H2). apply cols_of_expand in H1; [|exact HCA]. apply C1 in H1; [|exact Hi].
      assert (Hk : k < m * c_C A) by (apply (v_cols _ _ _ V1 i); assumption).
      exists k. split; [exact H1|]. apply C2; assumption.
  - exists P. split; [exact EP|]. split; [exact WP|]. split; [exact NP|]. split; [exact RP|]. split; [exact CP|].
    intros i j Hi. rewrite MP, Ent by exact Hi. apply sum_ext. intros k Hk. rewrite M1, M2 by lia. reflexivity.
Qed.

Lemma minus_ok (spadd : spadd_t K) junk sched n c (A B : crs K) off :
  spadd_ok spadd -> fair sched -> wf_crs n c A -> nodup_rows A -> wf_crs n c B -> nodup_rows B ->
  c_R B = 1%nat -> c_C B = c_C A -> off < c_R A ->
  exists P, MatrixMinusMatrix spadd junk sched A B off = Ok P /\
    wf_crs n c P /\ nodup_rows P /\ c_R P = c_R A /\ c_C P = c_C A /\
    (forall i j, i < n * c_R A -> matrix P i j = matrix A i j - (if Nat.eqb (i mod c_R A) off then matrix B (i / c_R A) j else 0)).
Proof.
  intros Ha Hf WA NA WB NB HR HC Ho.
  unfold MatrixMinusMatrix, numRows, numCols. rewrite (w_nrows _ _ _ WA), (w_ncols _ _ _ WA), (w_nrows _ _ _ WB), (w_ncols _ _ _ WB).
  cbn [rbind]. rewrite HC, !Nat.eqb_refl. cbn [negb].
  destruct (get_data n c A junk sched Hf WA NA) as (d1 & E1 & V1 & C1 & M1).
  destruct (get_data_stride n c B junk sched (c_R A) off Hf WB NB HR Ho) as (d2 & E2 & V2 & C2 & M2).
  rewrite E1, E2. cbn [rbind fst]. rewrite HC in V2.
  destruct (Ha _ _ d1 d2 1 (- (1)) V1 V2) as (V & Cp & Ent).
  set (d := spadd d1 1 d2 (- (1))) in *.
  pose proof (w_R _ _ _ WA) as HRA. pose proof (w_C _ _ _ WA) as HCA.
  destruct (set_blocks n c (c_R A) (c_C A) d
    (fun b => nodup Nat.eq_dec (row_cols (c_rowmap A) (c_cols A) b ++ row_cols (c_rowmap B) (c_cols B) b)))
    with (A0 := A) (sched := sched) as (P & EP & WP & NP & RP & CP & _ & MP); try assumption; try reflexivity.
  - intros b Hb. apply NoDup_nodup.
  - intros i j Hi. rewrite nodup_In, in_app_iff, (Cp i j Hi), (C1 i j Hi), (C2 i j Hi), HC. reflexivity.
  - apply (w_nrows _ _ _ WA).
  - apply (w_ncols _ _ _ WA).
  - exists P. split; [exact EP|]. split; [exact WP|]. split; [exact NP|]. split; [exact RP|]. split; [exact CP|].
    intros i j Hi. rewrite MP, Ent, M1, M2 by exact Hi. ring.
Qed.

(** ** Division by the row sums *)
Lemma foldR_add_all {I} (w : I -> list (nat * K)) l v : foldR (fun x => add_all (w x)) l v = add_all (flat_map w l) v.
Proof.
  revert v; induction l as [|x l IH]; intros v; [reflexivity|]. cbn [foldR flat_map]. rewrite add_all_app.
  destruct (add_all (w x) v); cbn [rbind]; [apply IH|reflexivity|reflexivity].
Qed.

Lemma foldR_map {A B S} (f : A -> B) (g : B -> S -> Res.res S) l s : foldR g (map f l) s = foldR (fun x => g (f x)) l s.
Proof. revert s; induction l as [|x l IH]; intros s; [reflexivity|]. cbn. destruct (g (f x) s); cbn; auto. Qed.

Definition pos (A : crs K) (o i j : nat) : nat := (c_R A * c_C A * o + c_C A * i + j)%nat.

Lemma pos_lt n c (A : crs K) o i j : wf_crs n c A -> o < length (c_cols A) -> i < c_R A -> j < c_C A -> pos A o i j < length (c_ents A).
Proof.
  intros W Ho Hi Hj. rewrite (w_ents _ _ _ W). unfold pos.
  assert (c_C A * S i <= c_C A * c_R A)%nat by (apply Nat.mul_le_mono_l; lia).
  assert (c_R A * c_C A * S o <= c_R A * c_C A * length (c_cols A))%nat by (apply Nat.mul_le_mono_l; lia). lia.
Qed.

Lemma pos_inj (A : crs K) o i j o' i' j' : i < c_R A -> j < c_C A -> i' < c_R A -> j' < c_C A ->
  pos A o i j = pos A o' i' j' -> o = o' /\ i = i' /\ j = j'.
Proof.
  intros Hi Hj Hi' Hj' E. unfold pos in E.
  assert (c_C A * S i <= c_C A * c_R A)%nat by (apply Nat.mul_le_mono_l; lia).
  assert (c_C A * S i' <= c_C A * c_R A)%nat by (apply Nat.mul_le_mono_l; lia).
  assert (Eo : o = o').
  { apply (f_equal (fun x => x / (c_R A * c_C A))%nat) in E. rewrite <- !Nat.add_assoc, !(Nat.mul_comm (c_R A * c_C A)) in E.
    rewrite !Nat.div_add_l, !Nat.div_small in E by lia. lia. }
  subst o'. assert (E' : (i * c_C A + j = i' * c_C A + j')%nat) by lia.
  assert (Ei : i = i').
  { apply (f_equal (fun x => x / c_C A)%nat) in E'. rewrite !Nat.div_add_l, !Nat.div_small in E' by lia. lia. }
  subst. lia.
Qed.

Lemma rowsum_eq n c (A : crs K) q : wf_crs n c A -> q < n * c_R A ->
  rowsum c A q = lsum (map (fun o => sum (c_C A) (fun j => nth (pos A o (q mod c_R A) j) (c_ents A) 0)) (rowof A (q / c_R A))).
Proof.
  intros W Hq. pose proof (w_R _ _ _ W) as HR. pose proof (w_C _ _ _ W) as HC.
  assert (Hb : q / c_R A < n) by (apply Nat.div_lt_upper_bound; lia).
  pose proof (row_is_dense n c A (repeat 1 (c * c_C A)) q W Hb) as H.
  unfold rowsum. transitivity (sum (c * c_C A) (fun j => matrix A q j * nth j (repeat 1 (c * c_C A)) 0)).
  - apply sum_ext. intros j Hj. rewrite (nth_error_nth (repeat 1 _) j 0 (x := 1)); [ring|]. apply nth_error_repeat. exact Hj.
  - rewrite <- H. apply lsum_map_ext. intros o Ho. unfold bdot, pos. apply sum_ext. intros j Hj.
    assert (Hc : nth o (c_cols A) 0%nat < c) by (apply (col_lt n c); [exact W|]; apply (rowof_in n c A (q / c_R A)); assumption).
    rewrite (nth_error_nth (repeat 1 _) _ 0 (x := 1)); [ring|]. apply nth_error_repeat.
    assert (S (nth o (c_cols A) 0) * c_C A <= c * c_C A)%nat by (apply Nat.mul_le_mono_r; lia). lia.
Qed.

Lemma in_prod_seq R C ij : In ij (list_prod (seq 0 R) (seq 0 C)) <-> fst ij < R /\ snd ij < C.
Proof. destruct ij as [i j]. rewrite in_prod_iff, !in_seq. cbn. lia. Qed.

Lemma RowSum_ok n c (A : crs K) b rs : wf_crs n c A -> b < n -> length rs = (n * c_R A)%nat ->
  exists rs', RowSum A b rs = Ok rs' /\ length rs' = length rs /\
    forall q, q < n * c_R A -> nth q rs' 0 = nth q rs 0 + (if Nat.eqb (q / c_R A) b then rowsum c A q else 0).
Proof.
  intros W Hb HL. pose proof (w_R _ _ _ W) as HR. pose proof (w_C _ _ _ W) as HC.
  unfold RowSum. rewrite (row_range_ok n c) by assumption. cbn [rbind].
  set (w := fun o => map (fun ij : nat * nat => ((b * c_R A + fst ij)%nat, nth (pos A o (fst ij) (snd ij)) (c_ents A) 0)) (list_prod (seq 0 (c_R A)) (seq 0 (c_C A)))).
  rewrite (foldR_ext_in _ (fun o => add_all (w o))).
  - rewrite foldR_add_all. destruct (add_all_spec (flat_map w (rowof A b)) rs) as (rs' & E & L & H).
    + intros p x Hin. apply in_flat_map in Hin as (o & Ho & Hin). unfold w in Hin. apply in_map_iff in Hin as (ij & Eij & Hij).
      apply in_prod_seq in Hij. injection Eij as <- _. rewrite HL.
      assert (S b * c_R A <= n * c_R A)%nat by (apply Nat.mul_le_mono_r; lia). lia.
    + exists rs'. split; [exact E|]. split; [exact L|]. intros q Hq. rewrite H. f_equal. rewrite amount_flat_map.
      pose proof (Nat.mod_upper_bound q (c_R A) ltac:(lia)) as Hm. pose proof (Nat.div_mod q (c_R A) ltac:(lia)) as Eq.
      assert (G : forall o, amount q (w o) = if Nat.eqb (q / c_R A) b then sum (c_C A) (fun j => nth (pos A o (q mod c_R A) j) (c_ents A) 0) else 0).
      { intros o. unfold amount, w. rewrite map_map. cbn [fst snd]. rewrite list_prod_seq by exact HC. rewrite map_map. cbn [fst snd].
        rewrite lsum_map_seq, sum_block.
        rewrite (sum_ext _ _ (fun i => if Nat.eqb (b * c_R A + i) q then sum (c_C A) (fun j => nth (pos A o i j) (c_ents A) 0) else 0)).
        - destruct (Nat.eqb_spec (q / c_R A) b) as [Eb|Eb].
          + rewrite (sum_single _ (q mod c_R A)); [|exact Hm|].
            * subst b. replace (Nat.eqb (q / c_R A * c_R A + q mod c_R A) q) with true; [reflexivity|symmetry; apply Nat.eqb_eq; lia].
            * intros i Hi Hne. subst b. destruct (Nat.eqb_spec (q / c_R A * c_R A + i) q); [lia|reflexivity].
          + apply sum_0. intros i Hi. destruct (Nat.eqb_spec (b * c_R A + i) q) as [E'|]; [|reflexivity].
            exfalso. apply Eb. rewrite <- E'. rewrite Nat.div_add_l, Nat.div_small by lia. lia.
        - intros i Hi. destruct (Nat.eqb_spec (b * c_R A + i) q) as [E'|E'].
          + apply sum_ext. intros j Hj. replace ((i * c_C A + j) / c_C A)%nat with i by (rewrite Nat.div_add_l, Nat.div_small by lia; lia).
            replace ((i * c_C A + j) mod c_C A)%nat with j by (rewrite Nat.add_comm, Nat.mod_add, Nat.mod_small by lia; reflexivity).
            cbn [plus]. rewrite (proj2 (Nat.eqb_eq _ _) E'). reflexivity.
          + apply sum_0. intros j Hj. replace ((i * c_C A + j) / c_C A)%nat with i by (rewrite Nat.div_add_l, Nat.div_small by lia; lia).
            cbn [plus]. rewrite (proj2 (Nat.eqb_neq _ _) E'). reflexivity. }
      rewrite (lsum_map_ext _ _ _ (fun o _ => G o)). destruct (Nat.eqb_spec (q / c_R A) b) as [Eb|Eb].
      * rewrite (rowsum_eq n c A q W Hq), Eb. reflexivity.
      * apply lsum_map_0. reflexivity.
  - intros o s Ho. unfold add_all, w. rewrite foldR_map. apply foldR_ext_in. intros ij s' Hij. apply in_prod_seq in Hij as [Hi Hj]. cbn [fst snd].
    assert (Hol : o < length (c_cols A)) by (apply (rowof_in n c A b); assumption).
    rewrite (nth_error_some_nth (c_ents A) _ 0) by (apply (pos_lt n c); assumption). reflexivity.
Qed.

Definition apply_all (f : K -> K -> K) (ws : list (nat * K)) (v : list K) : Res.res (list K) :=
  foldR (fun w v => let! x := ub (nth_error v (fst w)) in ub (upd v (fst w) (f x (snd w)))) ws v.

Lemma apply_all_app f w1 w2 v : apply_all f (w1 ++ w2) v = rbind (apply_all f w1 v) (apply_all f w2).
Proof. apply foldR_app. Qed.

Lemma foldR_apply_all {I} f (w : I -> list (nat * K)) l v : foldR (fun x => apply_all f (w x)) l v = apply_all f (flat_map w l) v.
Proof.
  revert v; induction l as [|x l IH]; intros v; [reflexivity|]. cbn [foldR flat_map]. rewrite apply_all_app.
  destruct (apply_all f (w x) v); cbn [rbind]; [apply IH|reflexivity|reflexivity].
Qed.

Lemma apply_all_spec f ws : forall v, NoDup (map fst ws) -> (forall p x, In (p, x) ws -> p < length v) ->
  exists v', apply_all f ws v = Ok v' /\ length v' = length v /\
    (forall p x, In (p, x) ws -> nth p v' 0 = f (nth p v 0) x) /\
    (forall p, ~ In p (map fst ws) -> nth p v' 0 = nth p v 0).
Proof.
  induction ws as [|[p x] ws IH]; intros v ND Hb; [exists v; repeat split; contradiction|].
  cbn [map fst] in ND. inversion ND as [|? ? N1 N2]; subst.
  assert (Hp : p < length v) by (apply (Hb p x); left; reflexivity).
  unfold apply_all. cbn [foldR fst snd]. rewrite (nth_error_some_nth v p 0) by exact Hp. cbn [ub rbind].
  destruct (upd_some v p (f (nth p v 0) x) Hp) as [v1 E1]. rewrite E1. cbn [ub rbind].
  pose proof (upd_length _ _ _ _ E1) as L1.
  destruct (IH v1 N2) as (v' & E & L & H1 & H2); [intros q y Hq; rewrite L1; apply (Hb q y); right; exact Hq|].
  exists v'. split; [exact E|]. split; [lia|]. split.
  - intros q y [Eq|Hin].
    + injection Eq as <- <-. rewrite H2 by exact N1. rewrite (upd_nth v p _ v1 p 0 E1), Nat.eqb_refl. reflexivity.
    + rewrite (H1 q y Hin). f_equal. rewrite (upd_nth v p _ v1 q 0 E1). destruct (Nat.eqb_spec q p) as [->|]; [|reflexivity].
      exfalso. apply N1. apply in_map_iff. exists (p, y). split; [reflexivity|exact Hin].
  - intros q Hq. cbn [map fst] in Hq. rewrite H2 by (intros X; apply Hq; right; exact X).
    rewrite (upd_nth v p _ v1 q 0 E1). destruct (Nat.eqb_spec q p) as [->|]; [|reflexivity]. exfalso. apply Hq. left. reflexivity.
Qed.

Lemma NoDup_flat_map {A B} (f : A -> list B) l : NoDup l -> (forall x, In x l -> NoDup (f x)) ->
  (forall x y z, In x l -> In y l -> In z (f x) -> In z (f y) -> x = y) -> NoDup (flat_map f l).
Proof.
  induction l as [|a l IH]; intros ND H1 H2; [constructor|]. inversion ND as [|? ? N1 N2]; subst. cbn [flat_map]. apply NoDup_app_intro.
  - apply H1. left. reflexivity.
  - apply IH; [exact N2| |].
    + intros x Hx. apply H1. right. exact Hx.
    + intros x y z Hx Hy. apply H2; right; assumption.
  - intros z Hz Hz'. apply in_flat_map in Hz' as (y & Hy & Hz'). assert (a = y) by (apply (H2 a y z); [left; reflexivity|right; exact Hy|exact Hz|exact Hz']).
    subst y. contradiction.
Qed.

Lemma Diag_ok n c (A : crs K) b diag es : wf_crs n c A -> b < n -> length diag = (n * c_R A)%nat -> length es = length (c_ents A) ->
  exists es', DiagonalInverseMultiply A b diag es = Ok es' /\ length es' = length es /\
    forall b' o i j, b' < n -> In o (rowof A b') -> i < c_R A -> j < c_C A ->
      nth (pos A o i j) es' 0 = if Nat.eqb b' b then fdiv (nth (pos A o i j) es 0) (nth (b * c_R A + i) diag 0) else nth (pos A o i j) es 0.
Proof.
  intros W Hb HL HE. pose proof (w_R _ _ _ W) as HR. pose proof (w_C _ _ _ W) as HC.
  unfold DiagonalInverseMultiply. rewrite (row_range_ok n c) by assumption. cbn [rbind].
  set (w := fun o => map (fun ij : nat * nat => (pos A o (fst ij) (snd ij), nth (b * c_R A + fst ij) diag 0)) (list_prod (seq 0 (c_R A)) (seq 0 (c_C A)))).
  assert (Hol : forall o, In o (rowof A b) -> o < length (c_cols A)) by (intros o Ho; apply (rowof_in n c A b); assumption).
  assert (Hw : forall o p x, In (p, x) (w o) <-> exists i j, i < c_R A /\ j < c_C A /\ p = pos A o i j /\ x = nth (b * c_R A + i) diag 0).
  { intros o p x. unfold w. rewrite in_map_iff. split.
    - intros ([i j] & E & H). apply in_prod_seq in H as [Hi Hj]. cbn [fst snd] in *. injection E as <- <-. exists i, j. auto.
    - intros (i & j & Hi & Hj & -> & ->). exists (i, j). split; [reflexivity|]. apply in_prod_seq. split; assumption. }
  rewrite (foldR_ext_in _ (fun o => apply_all fdiv (w o))).
  - rewrite foldR_apply_all. destruct (apply_all_spec fdiv (flat_map w (rowof A b)) es) as (es' & E & L & H1 & H2).
    + rewrite flat_map_concat_map, concat_map, map_map, <- flat_map_concat_map. apply NoDup_flat_map.
      * unfold rowof, range. apply seq_NoDup.
      * intros o Ho. unfold w. rewrite map_map. cbn [fst].
        assert (G : forall l, NoDup l -> (forall ij, In ij l -> fst ij < c_R A /\ snd ij < c_C A) -> NoDup (map (fun ij : nat * nat => pos A o (fst ij) (snd ij)) l)).
        { induction l as [|ij l IH]; intros N H; [constructor|]. inversion N as [|? ? N1 N2]; subst. cbn [map]. constructor.
          - intros X. apply in_map_iff in X as (ij' & E' & X). destruct (H ij ltac:(left; reflexivity)) as [A1 A2].
            destruct (H ij' ltac:(right; exact X)) as [A3 A4]. apply pos_inj in E' as (_ & E1 & E2); try assumption.
            destruct ij, ij'. cbn in *. subst. contradiction.
          - apply IH; [exact N2|]. intros; apply H; right; assumption. }
        apply G.
        -- rewrite list_prod_seq by exact HC. apply FinFun.Injective_map_NoDup; [|apply seq_NoDup].
           intros x y E'. injection E' as E1 E2. rewrite (Nat.div_mod x (c_C A)), (Nat.div_mod y (c_C A)) by lia. cbn in E1. lia.
        -- intros ij Hij. apply in_prod_seq. exact Hij.
      * intros o o' p Ho Ho' Hp Hp'. apply in_map_iff in Hp as ([p1 x1] & E1 & Hp). apply in_map_iff in Hp' as ([p2 x2] & E2 & Hp').
        cbn in E1, E2. subst. apply Hw in Hp as (i & j & Hi & Hj & E1 & _). apply Hw in Hp' as (i' & j' & Hi' & Hj' & E2 & _).
        rewrite E1 in E2. apply pos_inj in E2; tauto.
    + intros p x Hin. apply in_flat_map in Hin as (o & Ho & Hin). apply Hw in Hin as (i & j & Hi & Hj & -> & _). rewrite HE.
      apply (pos_lt n c); auto.
    + exists es'. split; [exact E|]. split; [exact L|]. intros b' o i j Hb' Ho Hi Hj. destruct (Nat.eqb_spec b' b) as [->|Hne].
      * apply H1. apply in_flat_map. exists o. split; [exact Ho|]. apply Hw. exists i, j. auto.
      * apply H2. intros X. apply in_map_iff in X as ([p x] & E' & X). cbn in E'. subst p. apply in_flat_map in X as (o' & Ho' & X).
        apply Hw in X as (i' & j' & Hi' & Hj' & E' & _). apply pos_inj in E' as (-> & _); try assumption. apply Hne.
        unfold rowof in Ho, Ho'. apply in_range in Ho, Ho'. apply (same_row n c A W b' b o'); assumption.
  - intros o s Ho. unfold apply_all, w. rewrite foldR_map. apply foldR_ext_in. intros ij s' Hij. apply in_prod_seq in Hij as [Hi Hj]. cbn [fst snd].
    unfold pos. destruct (ub (nth_error s' (c_R A * c_C A * o + c_C A * fst ij + snd ij))) as [e| |]; cbn [rbind]; try reflexivity.
    rewrite (nth_error_some_nth diag _ 0); [reflexivity|]. rewrite HL. assert (S b * c_R A <= n * c_R A)%nat by (apply Nat.mul_le_mono_r; lia). lia.
Qed.

Lemma divide_ok sched n cc c (C D : crs K) : fair sched -> wf_crs n cc C -> wf_crs n c D -> c_R D = c_R C ->
  exists D', RowSummedInverseMultiply sched C D = Ok D' /\ wf_crs n c D' /\
    c_rowmap D' = c_rowmap D /\ c_cols D' = c_cols D /\ c_R D' = c_R D /\ c_C D' = c_C D /\
    (forall i j, i < n * c_R D -> matrix D' i j = fdiv (matrix D i j) (rowsum cc C i)).
Proof.
  intros Hf WC WD HR. pose proof (w_R _ _ _ WD) as HRD. pose proof (w_C _ _ _ WD) as HCD.
  unfold RowSummedInverseMultiply. rewrite (w_len _ _ _ WC). replace (S n - 1)%nat with n by lia.
  unfold numRows. rewrite (w_nrows _ _ _ WC). cbn [rbind].
  set (done := fun (l : list nat) b => existsb (Nat.eqb b) l).
  assert (Hd : forall l b, done l b = true <-> In b l).
  { intros l b. unfold done. rewrite existsb_exists. split; [intros (x & Hx & E); apply Nat.eqb_eq in E; subst; exact Hx|].
    intros H. exists b. split; [exact H|apply Nat.eqb_refl]. }
  destruct (foldR_inv (fun b (s : list K * list K) =>
      let! rs := RowSum C b (fst s) in
      let! es := DiagonalInverseMultiply D b rs (snd s) in
      Ok (rs, es))
    (fun l s => length (fst s) = (n * c_R C)%nat /\ length (snd s) = length (c_ents D) /\
       (forall q, q < n * c_R C -> nth q (fst s) 0 = if done l (q / c_R C)%nat then rowsum cc C q else 0) /\
       (forall b o i j, b < n -> In o (rowof D b) -> i < c_R D -> j < c_C D ->
          nth (pos D o i j) (snd s) 0 = if done l b then fdiv (nth (pos D o i j) (c_ents D) 0) (rowsum cc C (b * c_R D + i)) else nth (pos D o i j) (c_ents D) 0))
    (sched n) (repeat 0 (n * c_R C), c_ents D)) as ((rs & es) & E & L1 & L2 & H1 & H2).
  - cbn [fst snd]. split; [apply repeat_length|]. split; [reflexivity|]. split; [|reflexivity].
    intros q Hq. cbn. apply nth_repeat.
  - intros l1 b l2 [rs es] El (L1 & L2 & H1 & H2). cbn [fst snd] in *.
    assert (Hb : b < n) by (apply (fair_in sched n b Hf); rewrite El; apply in_or_app; right; left; reflexivity).
    assert (Hn : done l1 b = false).
    { destruct (done l1 b) eqn:X; [|reflexivity]. exfalso. apply Hd in X.
      pose proof (Permutation_NoDup (Permutation_sym (Hf n)) (seq_NoDup n 0)) as N. rewrite El in N. apply NoDup_remove_2 in N. apply N. apply in_or_app. left. exact X. }
    destruct (RowSum_ok n cc C b rs WC Hb L1) as (rs' & E1 & L1' & G1). rewrite E1. cbn [rbind].
    destruct (Diag_ok n c D b rs' es WD Hb ltac:(congruence) L2) as (es' & E2 & L2' & G2). rewrite E2. cbn [rbind].
    exists (rs', es'). split; [reflexivity|]. cbn [fst snd]. split; [congruence|]. split; [congruence|].
    assert (Ha : forall x, done (l1 ++ [b]) x = (done l1 x || Nat.eqb x b)%bool).
    { intros x. unfold done. rewrite existsb_app. cbn. rewrite Bool.orb_false_r. reflexivity. }
    assert (G1' : forall q, q < n * c_R C -> nth q rs' 0 = if done (l1 ++ [b]) (q / c_R C)%nat then rowsum cc C q else 0).
    { intros q Hq. rewrite G1, H1, Ha by exact Hq. destruct (Nat.eqb_spec (q / c_R C) b) as [Eb|].
      - rewrite Eb, Hn. cbn. ring.
      - rewrite Bool.orb_false_r. ring. }
    split; [exact G1'|].
    intros b' o i j Hb' Ho Hi Hj. rewrite (G2 b' o i j Hb' Ho Hi Hj), Ha. rewrite (H2 b' o i j Hb' Ho Hi Hj).
    destruct (Nat.eqb_spec b' b) as [->|]; [|rewrite Bool.orb_false_r; reflexivity].
    rewrite Hn. cbn [orb]. f_equal. rewrite HR in *. rewrite G1'.
    + rewrite Nat.div_add_l, (Nat.div_small i), Nat.add_0_r by lia. rewrite Ha, Nat.eqb_refl, Bool.orb_true_r. reflexivity.
    + assert (S b * c_R C <= n * c_R C)%nat by (apply Nat.mul_le_mono_r; lia). lia.
  - cbn [fst snd] in *. rewrite E. cbn [rbind snd]. eexists. split; [reflexivity|]. split.
    + constructor; cbn [c_R c_C c_rowmap c_cols c_ents c_nrows c_ncols]; try solve [apply WD]. rewrite L2. apply (w_ents _ _ _ WD).
    + split; [reflexivity|]. split; [reflexivity|]. split; [reflexivity|]. split; [reflexivity|].
      intros q j Hq. assert (Hb : q / c_R D < n) by (apply Nat.div_lt_upper_bound; lia).
      pose proof (Nat.mod_upper_bound q (c_R D) ltac:(lia)) as Hm. pose proof (Nat.mod_upper_bound j (c_C D) ltac:(lia)) as Hj.
      unfold matrix, dense_rc. cbn [c_R c_C c_rowmap c_cols c_ents]. fold (rowof D (q / c_R D)).
      rewrite (lsum_map_ext _ (fun o => finv (rowsum cc C q) * (if Nat.eqb (nth o (c_cols D) 0%nat) (j / c_C D) then nth (pos D o (q mod c_R D) (j mod c_C D)) (c_ents D) 0 else 0))).
      * rewrite lsum_map_scal. rewrite (Fdiv_def (f_th K)). apply (Rmul_comm (r_th K)).
      * intros o Ho. destruct (Nat.eqb _ _); [|ring]. fold (pos D o (q mod c_R D) (j mod c_C D)).
        rewrite (H2 (q / c_R D)%nat o _ _ Hb Ho Hm Hj).
        replace (done (sched n) (q / c_R D)%nat) with true by (symmetry; apply Hd; apply fair_in; assumption).
        replace (q / c_R D * c_R D + q mod c_R D)%nat with q by (pose proof (Nat.div_mod q (c_R D) ltac:(lia)); lia).
        rewrite (Fdiv_def (f_th K)). apply (Rmul_comm (r_th K)).
Qed.

(** ** Condensation *)
Lemma condense_ok spgemm spadd junk sched n m cc c (A B C D : crs K) off :
  spgemm_ok spgemm -> spadd_ok spadd -> fair sched ->
  wf_crs n c A -> nodup_rows A -> wf_crs n m B -> nodup_rows B -> wf_crs m cc C -> wf_crs m c D -> nodup_rows D ->
  c_R B = 1%nat -> c_R C = c_C B -> c_R D = c_C B -> c_C D = c_C A -> off < c_R A ->
  exists A' D', Condense spgemm spadd junk sched A B C D off = Ok (A', D') /\
    wf_crs n c A' /\ nodup_rows A' /\ c_R A' = c_R A /\ c_C A' = c_C A /\
    wf_crs m c D' /\ c_rowmap D' = c_rowmap D /\ c_cols D' = c_cols D /\ c_R D' = c_R D /\ c_C D' = c_C D /\
    (forall k j, k < m * c_R D -> matrix D' k j = fdiv (matrix D k j) (rowsum cc C k)) /\
    (forall i j, i < n * c_R A -> matrix A' i j = matrix A i j -
        (if Nat.eqb (i mod c_R A) off then sum (m * c_C B) (fun k => matrix B (i / c_R A) k * fdiv (matrix D k j) (rowsum cc C k)) else 0)).
Proof.
  intros Hg Ha Hf WA NA WB NB WC WD ND RB RC RD CD Ho.
  destruct (divide_ok sched m cc c C D Hf WC WD ltac:(congruence)) as (D' & E1 & WD' & F1 & F2 & F3 & F4 & MD).
  unfold Condense. rewrite E1. cbn [rbind]. unfold numRows at 1, numCols at 1. rewrite (w_nrows _ _ _ WB), (w_ncols _ _ _ WD'). cbn [rbind].
  assert (ND' : nodup_rows D') by (unfold nodup_rows; rewrite F1, F2; exact ND).
  destruct (mult_ok spgemm junk sched n m m c B D' (mkCrs [] [] [] (Some (n * c_R B)%nat) (Some (c * c_C D')%nat) (c_R B) (c_C D'))) as (P & E2 & WP & NP & RP & CP & MP);
    try assumption; try reflexivity; [rewrite F3; congruence|].
  rewrite E2. cbn [rbind].
  destruct (minus_ok spadd junk sched n c A P off Ha Hf WA NA WP NP ltac:(congruence) ltac:(congruence) Ho) as (A' & E3 & WA' & NA' & RA' & CA' & MA').
  rewrite E3. cbn [rbind]. exists A', D'. split; [reflexivity|]. split; [exact WA'|]. split; [exact NA'|]. split; [exact RA'|]. split; [exact CA'|].
  split; [exact WD'|]. split; [exact F1|]. split; [exact F2|]. split; [exact F3|]. split; [exact F4|]. split; [exact MD|].
  intros i j Hi. rewrite MA' by exact Hi. f_equal. f_equal. destruct (Nat.eqb (i mod c_R A) off); [|reflexivity].
  assert (Hb : i / c_R A < n) by (apply Nat.div_lt_upper_bound; [|lia]; pose proof (w_R _ _ _ WA); lia).
  rewrite MP by (rewrite RB; lia). apply sum_ext. intros k Hk. rewrite MD by (rewrite RD; exact Hk). reflexivity.
Qed.
End P.
