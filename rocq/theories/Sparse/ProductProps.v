(** Sparse products and static condensation (C88). *)
From Coq Require Import ZArith QArith Qcanon Arith Lia List Bool Permutation.
From Verif Require Import Base.Field Base.Sums Base.ListUpd Base.Res Sparse.CrsModel Sparse.CrsSpec
  Sparse.SortProof Sparse.RoundTripProof Sparse.ProductModel Sparse.ProductSpec Sparse.BlockProof Sparse.ProductProof.
Import ListNotations.
Local Open Scope nat_scope.

(** The product: every entry of the result is the sum of the products, each stored once, for blocks of any sizes on either side. *)
Theorem C88_product :
  forall (K : CField) (spgemm : spgemm_t K) (junk : nat) (sched : schedule) (n m m2 c : nat) (A B Out : crs K),
    spgemm_ok spgemm -> fair sched -> wf_crs n m A -> nodup_rows A -> wf_crs m2 c B -> nodup_rows B ->
    m * c_C A = m2 * c_R B ->
    c_R Out = c_R A -> c_C Out = c_C B -> c_nrows Out = Some (n * c_R A) -> c_ncols Out = Some (c * c_C B) ->
    exists P, MatrixMatrixMultiply spgemm junk sched A B Out = Ok P /\
      wf_crs n c P /\ nodup_rows P /\ c_R P = c_R A /\ c_C P = c_C B /\
      (forall i j, i < n * c_R A -> matrix P i j = sum (m * c_C A) (fun k => rmul (matrix A i k) (matrix B k j))).
Proof. exact @mult_ok. Qed.
Print Assumptions C88_product.

(** Shapes that do not fit are refused, and so are matrices whose sizes were never set. *)
Theorem C88_product_refuses :
  forall (K : CField) (spgemm : spgemm_t K) (junk : nat) (sched : schedule) (A B Out : crs K),
    (c_nrows A = None \/ c_ncols A = None \/ c_nrows B = None \/ c_ncols B = None \/ c_nrows Out = None \/ c_ncols Out = None \/
     c_ncols A <> c_nrows B \/ c_nrows Out <> c_nrows A \/ c_ncols Out <> c_ncols B) ->
    MatrixMatrixMultiply spgemm junk sched A B Out = Throw.
Proof.
  intros K spgemm junk sched A B Out H. unfold MatrixMatrixMultiply, numRows, numCols.
  destruct (c_nrows A) as [r1|]; [|reflexivity]. destruct (c_ncols A) as [c1|]; [|reflexivity].
  destruct (c_nrows B) as [r2|]; [|reflexivity]. destruct (c_ncols B) as [c2|]; [|reflexivity].
  destruct (c_nrows Out) as [ro|]; [|reflexivity]. destruct (c_ncols Out) as [co|]; [|reflexivity]. cbn [rbind].
  destruct (Nat.eqb_spec r2 c1) as [->|]; [|reflexivity]. destruct (Nat.eqb_spec ro r1) as [->|]; [|reflexivity].
  destruct (Nat.eqb_spec co c2) as [->|]; [|reflexivity]. exfalso.
  repeat (destruct H as [H|H]; [congruence|]). congruence.
Qed.
Print Assumptions C88_product_refuses.

(** The difference: the second matrix, of one row per block row of the first, is subtracted from the rows of the given offset. *)
Theorem C88_difference :
  forall (K : CField) (spadd : spadd_t K) (junk : nat) (sched : schedule) (n c : nat) (A B : crs K) (off : nat),
    spadd_ok spadd -> fair sched -> wf_crs n c A -> nodup_rows A -> wf_crs n c B -> nodup_rows B ->
    c_R B = 1 -> c_C B = c_C A -> off < c_R A ->
    exists P, MatrixMinusMatrix spadd junk sched A B off = Ok P /\
      wf_crs n c P /\ nodup_rows P /\ c_R P = c_R A /\ c_C P = c_C A /\
      (forall i j, i < n * c_R A -> matrix P i j = rsub (matrix A i j) (if Nat.eqb (i mod c_R A) off then matrix B (i / c_R A) j else r0)).
Proof. exact @minus_ok. Qed.
Print Assumptions C88_difference.

(** Division by the row sums: D keeps its pattern and every entry is divided by the sum of the entries of that row of C. *)
Theorem C88_divide :
  forall (K : CField) (sched : schedule) (n cc c : nat) (C D : crs K),
    fair sched -> wf_crs n cc C -> wf_crs n c D -> c_R D = c_R C -> (forall i, i < n * c_R C -> rowsum cc C i <> r0) ->
    exists D', RowSummedInverseMultiply sched C D = Ok D' /\ wf_crs n c D' /\
      c_rowmap D' = c_rowmap D /\ c_cols D' = c_cols D /\ c_R D' = c_R D /\ c_C D' = c_C D /\
      (forall i j, i < n * c_R D -> rmul (rowsum cc C i) (matrix D' i j) = matrix D i j).
Proof.
  intros K sched n cc c C D Hf WC WD HR Hnz. destruct (divide_ok sched n cc c C D Hf WC WD HR) as (D' & E & W & F1 & F2 & F3 & F4 & M).
  exists D'. repeat (split; [assumption|]). intros i j Hi. rewrite M by exact Hi.
  pose proof (Hnz i ltac:(congruence)) as Hx. rewrite (Fdiv_def (f_th K)).
  rewrite (Rmul_comm (r_th K)), <- (Rmul_assoc (r_th K)), (Finv_l (f_th K)) by exact Hx.
  rewrite (Rmul_comm (r_th K)). apply (Rmul_1_l (r_th K)).
Qed.
Print Assumptions C88_divide.

(** Static condensation. *)
Theorem C88_condense :
  forall (K : CField) (spgemm : spgemm_t K) (spadd : spadd_t K) (junk : nat) (sched : schedule) (n m cc c : nat) (A B C D : crs K) (off : nat),
    spgemm_ok spgemm -> spadd_ok spadd -> fair sched ->
    wf_crs n c A -> nodup_rows A -> wf_crs n m B -> nodup_rows B -> wf_crs m cc C -> wf_crs m c D -> nodup_rows D ->
    c_R B = 1 -> c_R C = c_C B -> c_R D = c_C B -> c_C D = c_C A -> off < c_R A ->
    (forall k, k < m * c_C B -> rowsum cc C k <> r0) ->
    exists A' D', Condense spgemm spadd junk sched A B C D off = Ok (A', D') /\
      wf_crs n c A' /\ nodup_rows A' /\ c_R A' = c_R A /\ c_C A' = c_C A /\
      wf_crs m c D' /\ (forall k j, k < m * c_C B -> rmul (rowsum cc C k) (matrix D' k j) = matrix D k j) /\
      (forall i j, i < n * c_R A -> matrix A' i j = rsub (matrix A i j)
         (if Nat.eqb (i mod c_R A) off then sum (m * c_C B) (fun k => rmul (matrix B (i / c_R A) k) (fdiv (matrix D k j) (rowsum cc C k))) else r0)).
Proof.
  intros K spgemm spadd junk sched n m cc c A B C D off Hg Ha Hf WA NA WB NB WC WD ND RB RC RD CD Ho Hnz.
  destruct (condense_ok spgemm spadd junk sched n m cc c A B C D off Hg Ha Hf WA NA WB NB WC WD ND RB RC RD CD Ho)
    as (A' & D' & E & WA' & NA' & R1 & C1 & WD' & F1 & F2 & F3 & F4 & MD & MA).
  exists A', D'. split; [exact E|]. repeat (split; [assumption|]). split; [|exact MA].
  intros k j Hk. rewrite MD by congruence. rewrite (Fdiv_def (f_th K)).
  rewrite (Rmul_comm (r_th K)), <- (Rmul_assoc (r_th K)), (Finv_l (f_th K)) by (apply Hnz; exact Hk).
  rewrite (Rmul_comm (r_th K)). apply (Rmul_1_l (r_th K)).
Qed.
Print Assumptions C88_condense.

(** The numbers of rows are not compared: subtracting a matrix of a different height hands the kernel data of different sizes. *)
Theorem C88_heights_unchecked :
  exists (A B : crs Qc_field), c_nrows A = Some 2 /\ c_nrows B = Some 3 /\
    forall spadd junk, exists d1 d2, getDataAsNonBlock junk (fun k => seq 0 k) A 1 0 = Ok (d1, true) /\
      getDataAsNonBlock junk (fun k => seq 0 k) B (c_R A) 0 = Ok (d2, true) /\ length (fst d1) <> length (fst d2) /\
      MatrixMinusMatrix spadd junk (fun k => seq 0 k) A B 0 =
      let d := spadd d1 (Q2Qc 1) d2 (Qcopp (Q2Qc 1)) in setDataFromNonBlock (fun k => seq 0 k) A (fst d) (map fst (snd d), map snd (snd d)).
Proof.
  exists (mkCrs (K := Qc_field) [0; 1; 2] [0; 1] [Q2Qc 1; Q2Qc 1] (Some 2) (Some 2) 1 1),
         (mkCrs (K := Qc_field) [0; 1; 2; 3] [0; 1; 0] [Q2Qc 1; Q2Qc 1; Q2Qc 1] (Some 3) (Some 2) 1 1).
  split; [reflexivity|]. split; [reflexivity|]. intros spadd junk. eexists _, _.
  split; [reflexivity|]. split; [reflexivity|]. split; [cbn; lia|]. reflexivity.
Qed.
Print Assumptions C88_heights_unchecked.

(** ** Kernels that meet the specification, and a case. *)
Section Reference.
Context {K : CField}.
Local Open Scope K_scope.
Definition of_rows (n : nat) (f : nat -> list (nat * K)) : nbdata K :=
  (map (fun i => length (flat_map f (seq 0 i))) (seq 0 (S n)), flat_map f (seq 0 n)).

Lemma of_rows_rm n f i : (i <= n)%nat -> nth i (fst (of_rows n f)) 0%nat = length (flat_map f (seq 0 i)).
Proof. intros Hi. cbn [of_rows fst]. apply nth_error_nth. apply (nth_error_map_seq (fun i => length (flat_map f (seq 0 i)))). lia. Qed.

Lemma of_rows_row n f i : (i < n)%nat -> nb_row (of_rows n f) i = f i.
Proof.
  intros Hi. unfold nb_row. rewrite !of_rows_rm by lia. cbn [of_rows snd]. replace n with (i + S (n - S i))%nat by lia.
  rewrite seq_S, (seq_app i), !flat_map_app. cbn [seq flat_map plus]. rewrite app_nil_r, app_length. unfold segment.
  rewrite skipn_app, skipn_all, Nat.sub_diag. cbn [skipn app].
  replace (length (flat_map f (seq 0 i)) + length (f i) - length (flat_map f (seq 0 i)))%nat with (length (f i) + 0)%nat by lia.
  rewrite firstn_app_2. cbn. apply app_nil_r.
Qed.

Lemma of_rows_valid n c f : (forall i, (i < n)%nat -> NoDup (map fst (f i))) -> (forall i j, (i < n)%nat -> In j (map fst (f i)) -> (j < c)%nat) ->
  nb_valid n c (of_rows n f).
Proof.
  intros H1 H2. constructor.
  - cbn [of_rows fst]. rewrite map_length, seq_length. reflexivity.
  - rewrite of_rows_rm by lia. reflexivity.
  - intros i Hi. rewrite !of_rows_rm by lia. rewrite seq_S, flat_map_app, app_length. lia.
  - rewrite of_rows_rm by lia. reflexivity.
  - intros i j Hi. unfold nb_cols. rewrite of_rows_row by exact Hi. apply H2. exact Hi.
  - intros i Hi. unfold nb_cols. rewrite of_rows_row by exact Hi. apply H1. exact Hi.
Qed.

Definition tab (v : nat -> K) (l : list nat) : list (nat * K) := map (fun j => (j, v j)) l.
Lemma tab_fst v l : map fst (tab v l) = l.
Proof. unfold tab. rewrite map_map. cbn. apply map_id. Qed.
Lemma entry_tab n v l i j : (i < n)%nat -> NoDup (l i) -> (~ In j (l i) -> v i j = 0) -> entry (of_rows n (fun i => tab (v i) (l i))) i j = v i j.
Proof.
  intros Hi N H0. destruct (in_dec Nat.eq_dec j (l i)) as [Hin|Hni].
  - apply (entry_some (of_rows n (fun i => tab (v i) (l i))) i (j, v i j)).
    + unfold nb_cols. rewrite of_rows_row by exact Hi. rewrite tab_fst. exact N.
    + rewrite of_rows_row by exact Hi. unfold tab. apply in_map_iff. exists j. split; [reflexivity|exact Hin].
  - rewrite H0 by exact Hni. apply entry_none. unfold nb_cols. rewrite of_rows_row by exact Hi. rewrite tab_fst. exact Hni.
Qed.

Definition ref_spgemm : spgemm_t K := fun n1 n2 c d1 d2 =>
  of_rows n1 (fun i => tab (fun j => sum n2 (fun k => entry d1 i k * entry d2 k j)) (nodup Nat.eq_dec (flat_map (nb_cols d2) (nb_cols d1 i)))).
Definition ref_spadd : spadd_t K := fun d1 a d2 b =>
  of_rows (length (fst d1) - 1) (fun i => tab (fun j => a * entry d1 i j + b * entry d2 i j) (nodup Nat.eq_dec (nb_cols d1 i ++ nb_cols d2 i))).

Add Ring KringRef : (r_th K).
Lemma ref_spgemm_ok : spgemm_ok ref_spgemm.
Proof.
  intros n1 n2 c d1 d2 V1 V2. unfold ref_spgemm.
  set (l := fun i => nodup Nat.eq_dec (flat_map (nb_cols d2) (nb_cols d1 i))).
  assert (Hl : forall i j, In j (l i) <-> exists k, In k (nb_cols d1 i) /\ In j (nb_cols d2 k)).
  { intros i j. unfold l. rewrite nodup_In, in_flat_map. reflexivity. }
  assert (HN : forall i, NoDup (l i)) by (intros i; apply NoDup_nodup).
  split; [|split].
  - apply of_rows_valid; intros i; rewrite tab_fst; [intros _; apply HN|]. intros j Hi Hj. apply Hl in Hj as (k & Hk & Hj).
    apply (v_cols _ _ _ V2 k j); [|exact Hj]. apply (v_cols _ _ _ V1 i k); assumption.
  - intros i j Hi. unfold nb_cols at 1. rewrite of_rows_row by exact Hi. rewrite tab_fst. apply Hl.
  - intros i j Hi. apply (entry_tab n1 (fun i j => sum n2 (fun k => entry d1 i k * entry d2 k j)) l i j Hi (HN i)).
    intros Hni. apply sum_0. intros k Hk. destruct (in_dec Nat.eq_dec k (nb_cols d1 i)) as [Hk1|Hk1].
    + rewrite (entry_none d2 k j); [ring|]. intros X. apply Hni. apply Hl. exists k. split; assumption.
    + rewrite (entry_none d1 i k Hk1). ring.
Qed.

Lemma ref_spadd_ok : spadd_ok ref_spadd.
Proof.
  intros n c d1 d2 a b V1 V2. unfold ref_spadd. rewrite (v_len _ _ _ V1). replace (S n - 1)%nat with n by lia.
  set (l := fun i => nodup Nat.eq_dec (nb_cols d1 i ++ nb_cols d2 i)).
  assert (Hl : forall i j, In j (l i) <-> In j (nb_cols d1 i) \/ In j (nb_cols d2 i)).
  { intros i j. unfold l. rewrite nodup_In, in_app_iff. reflexivity. }
  assert (HN : forall i, NoDup (l i)) by (intros i; apply NoDup_nodup).
  split; [|split].
  - apply of_rows_valid; intros i; rewrite tab_fst; [intros _; apply HN|]. intros j Hi Hj.
    apply Hl in Hj as [Hj|Hj]; [apply (v_cols _ _ _ V1 i j)|apply (v_cols _ _ _ V2 i j)]; assumption.
  - intros i j Hi. unfold nb_cols at 1. rewrite of_rows_row by exact Hi. rewrite tab_fst. apply Hl.
  - intros i j Hi. apply (entry_tab n (fun i j => a * entry d1 i j + b * entry d2 i j) l i j Hi (HN i)).
    intros Hni. rewrite (entry_none d1 i j), (entry_none d2 i j); [ring| |]; intros X; apply Hni, Hl; auto.
Qed.
End Reference.

(** Two nodes with a displacement and a pressure each (offset 1), one projected component per node; the condensed block fills the
    off-diagonal blocks of a block-diagonal A. *)
Definition q (z : Z) : Qc := Q2Qc (inject_Z z).
Definition exA88 : crs Qc_field := mkCrs (K := Qc_field) [0; 1; 2] [0; 1] (map q [4; 1; 1; 4; 5; 2; 2; 5])%Z (Some 4) (Some 4) 2 2.
Definition exB88 : crs Qc_field := mkCrs (K := Qc_field) [0; 2; 4] [1; 0; 0; 1] (map q [1; 2; 3; 4])%Z (Some 2) (Some 2) 1 1.
Definition exC88 : crs Qc_field := mkCrs (K := Qc_field) [0; 2; 4] [0; 1; 0; 1] (map q [1; 1; 1; 3])%Z (Some 2) (Some 2) 1 1.
Definition exD88 : crs Qc_field := mkCrs (K := Qc_field) [0; 1; 3] [1; 0; 1] (map q [2; 4; 4; 8; 12; 16])%Z (Some 2) (Some 4) 1 2.

Lemma exA88_wf : wf_crs 2 2 exA88 /\ nodup_rows exA88.
Proof.
  split; [constructor; cbn; try lia; try reflexivity|].
  - intros i Hi. destruct i as [|[|i]]; cbn; lia.
  - intros i Hi. cbn in Hi. destruct i as [|[|i]]; [| |lia]; vm_compute; repeat constructor; cbn; intuition discriminate.
Qed.
Lemma exB88_wf : wf_crs 2 2 exB88 /\ nodup_rows exB88.
Proof.
  split; [constructor; cbn; try lia; try reflexivity|].
  - intros i Hi. destruct i as [|[|i]]; cbn; lia.
  - intros i Hi. cbn in Hi. destruct i as [|[|i]]; [| |lia]; vm_compute; repeat constructor; cbn; intuition discriminate.
Qed.
Lemma exC88_wf : wf_crs 2 2 exC88.
Proof.
  constructor; cbn; try lia; try reflexivity.
  - intros i Hi. destruct i as [|[|i]]; cbn; lia.
Qed.
Lemma exD88_wf : wf_crs 2 2 exD88 /\ nodup_rows exD88.
Proof.
  split; [constructor; cbn; try lia; try reflexivity|].
  - intros i Hi. destruct i as [|[|i]]; cbn; lia.
  - intros i Hi. cbn in Hi. destruct i as [|[|i]]; [| |lia]; vm_compute; repeat constructor; cbn; intuition discriminate.
Qed.

(** Row sums 2 and 4; A' is A on rows 0 and 2 and A - B R^-1 D on rows 1 and 3. *)
Example C88_instance :
  (forall k, k < 2 -> rowsum 2 exC88 k <> Q2Qc 0) /\
  (let! r := Condense ref_spgemm ref_spadd 7 (fun k => rev (seq 0 k)) exA88 exB88 exC88 exD88 1 in
   Ok (map (fun i => map (fun j => this (matrix (fst r) i j)) (seq 0 4)) (seq 0 4))) =
  Ok [[4; 1; 0; 0]; [0; 2; -5; -8]; [0; 0; 5; 2]; [-4; -8; -13; -17]]%Q.
Proof.
  split; [intros k Hk; destruct k as [|[|k]]; [| |lia]; vm_compute; discriminate|vm_compute; reflexivity].
Qed.
