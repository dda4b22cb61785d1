(** C125: the linear solvers are given the assembled system.  C126: solver settings and failures. *)
From Coq Require Import String Reals ZArith List Arith Bool Lia.
From Verif Require Import Base.Field Base.Sums Base.ListUpd Base.Res Base.Scatter Base.Loops Sparse.CrsModel Sparse.CrsSpec Sparse.MatvecProof Sparse.SparseProps Solvers.SolversModel.
Import ListNotations.

Section K.
Context {K : CRing}.
Add Ring KringSolvers : (r_th K).
Local Open Scope K_scope.

(** One term of a sum over local positions. *)
Lemma local_single (a m p : nat) (f : nat -> K) : (0 < m)%nat -> sum m (fun l => if Nat.eqb (a * m + l) p then f l else 0) = if Nat.eqb a (p / m) then f (p mod m)%nat else 0.
Proof.
  intros Hm. pose proof (Nat.div_mod p m ltac:(lia)) as D. pose proof (Nat.mod_upper_bound p m ltac:(lia)) as L.
  destruct (Nat.eqb_spec a (p / m)) as [->|N].
  - rewrite (sum_single m (p mod m) _ L). { rewrite (proj2 (Nat.eqb_eq _ _)) by nia. reflexivity. }
    intros j _ Hj. destruct (Nat.eqb_spec (p / m * m + j) p); [exfalso; apply Hj; nia|reflexivity].
  - apply sum_0. intros j Hj. destruct (Nat.eqb_spec (a * m + j) p) as [E|]; [|reflexivity]. exfalso. apply N. rewrite <- E. rewrite Nat.div_add_l by lia. rewrite Nat.div_small by exact Hj. lia.
Qed.
Lemma if_and (a b : bool) (x : K) : (if andb a b then x else 0) = if a then if b then x else 0 else 0.
Proof. destruct a, b; reflexivity. Qed.
Lemma if_sum (b : bool) n (f : nat -> K) : (if b then sum n f else 0) = sum n (fun i => if b then f i else 0).
Proof. destruct b; [reflexivity|]. symmetry. apply sum_0. intros; reflexivity. Qed.

(** ** Tpetra *)
Definition tpetra_list (A : crs K) (n : nat) : list (nat * (nat * K)) :=
  flat_map (fun i => flat_map (fun o => flat_map (fun lr => map (fun lc => ((i * c_R A + lr)%nat, ((nth o (c_cols A) 0%nat * c_C A + lc)%nat, nth (o * (c_R A * c_C A) + lr * c_C A + lc) (c_ents A) 0)))
    (seq 0 (c_C A))) (seq 0 (c_R A))) (rowof A i)) (seq 0 n).
Lemma ent_ok n c (A : crs K) i o lr lc : wf_crs n c A -> (i < n)%nat -> In o (rowof A i) -> (lr < c_R A)%nat -> (lc < c_C A)%nat ->
  nth_error (c_ents A) (o * (c_R A * c_C A) + lr * c_C A + lc) = Some (nth (o * (c_R A * c_C A) + lr * c_C A + lc) (c_ents A) 0).
Proof.
  intros W Hi Ho Hr Hc. apply nth_error_some_nth. rewrite (w_ents _ _ _ W). pose proof (rowof_in _ _ _ _ _ W Hi Ho) as L. pose proof (block_idx (c_R A) (c_C A) (length (c_cols A)) o lr lc L Hr Hc). lia.
Qed.
Lemma col_ok n c (A : crs K) i o : wf_crs n c A -> (i < n)%nat -> In o (rowof A i) -> nth_error (c_cols A) o = Some (nth o (c_cols A) 0%nat).
Proof. intros W Hi Ho. apply nth_error_some_nth. exact (rowof_in _ _ _ _ _ W Hi Ho). Qed.
Lemma tpetra_row_ok n c (A : crs K) i : wf_crs n c A -> (i < n)%nat -> tpetra_row A i = Ok (flat_map (fun o => flat_map (fun lr => map (fun lc => ((i * c_R A + lr)%nat, ((nth o (c_cols A) 0%nat * c_C A + lc)%nat, nth (o * (c_R A * c_C A) + lr * c_C A + lc) (c_ents A) 0)))
    (seq 0 (c_C A))) (seq 0 (c_R A))) (rowof A i)).
Proof.
  intros W Hi. unfold tpetra_row. rewrite (row_range_ok _ _ _ _ W Hi). cbn [rbind].
  rewrite (mapR_ok _ (fun o => flat_map (fun lr => map (fun lc => ((i * c_R A + lr)%nat, ((nth o (c_cols A) 0%nat * c_C A + lc)%nat, nth (o * (c_R A * c_C A) + lr * c_C A + lc) (c_ents A) 0)))
    (seq 0 (c_C A))) (seq 0 (c_R A)))).
  { cbn [rbind]. rewrite flat_map_concat_map. reflexivity. }
  intros o Ho. rewrite (col_ok _ _ _ _ _ W Hi Ho). cbn [ub rbind].
  rewrite (mapR_ok _ (fun lr => map (fun lc => ((i * c_R A + lr)%nat, ((nth o (c_cols A) 0%nat * c_C A + lc)%nat, nth (o * (c_R A * c_C A) + lr * c_C A + lc) (c_ents A) 0))) (seq 0 (c_C A)))).
  { cbn [rbind]. rewrite flat_map_concat_map. reflexivity. }
  intros lr Hr. apply in_seq in Hr. apply mapR_ok. intros lc Hc. apply in_seq in Hc. rewrite (ent_ok n c A i o lr lc W Hi Ho ltac:(lia) ltac:(lia)). reflexivity.
Qed.
Lemma tpetra_ok n c (A : crs K) ndofs : wf_crs n c A -> (n * c_R A = ndofs)%nat -> (c * c_C A = ndofs)%nat -> tpetra_matrix ndofs A = Ok (tpetra_list A n).
Proof.
  intros W Hn Hc. unfold tpetra_matrix. rewrite (w_len _ _ _ W). replace (S n - 1)%nat with n by lia. rewrite (proj2 (Nat.eqb_eq _ _) Hn). cbn [negb].
  rewrite (mapR_ok _ (fun i => flat_map (fun o => flat_map (fun lr => map (fun lc => ((i * c_R A + lr)%nat, ((nth o (c_cols A) 0%nat * c_C A + lc)%nat, nth (o * (c_R A * c_C A) + lr * c_C A + lc) (c_ents A) 0)))
    (seq 0 (c_C A))) (seq 0 (c_R A))) (rowof A i))).
  2: { intros i Hi. apply in_seq in Hi. apply (tpetra_row_ok _ _ _ _ W). lia. }
  cbn [rbind]. rewrite <- flat_map_concat_map. fold (tpetra_list A n). assert (F : forallb (fun e => Nat.ltb (fst (snd e)) ndofs) (tpetra_list A n) = true); [|rewrite F; reflexivity].
  apply forallb_forall. intros e He. unfold tpetra_list in He. apply in_flat_map in He as (i & Hi & He). apply in_flat_map in He as (o & Ho & He). apply in_flat_map in He as (lr & Hr & He). apply in_map_iff in He as (lc & <- & Hl).
  apply in_seq in Hi, Hl. cbn [fst snd]. apply Nat.ltb_lt. pose proof (col_lt _ _ _ _ W (rowof_in n c A i o W ltac:(lia) Ho)) as L. nia.
Qed.
Lemma tpetra_entry n c (A : crs K) i j : wf_crs n c A -> (i < n * c_R A)%nat -> inserted (tpetra_list A n) i j = matrix A i j.
Proof.
  intros W Hi. pose proof (w_R _ _ _ W) as R0. pose proof (w_C _ _ _ W) as C0. unfold inserted, tpetra_list. rewrite lsum_flat_map, lsum_map_seq.
  assert (Q : (i / c_R A < n)%nat) by (apply Nat.div_lt_upper_bound; lia).
  transitivity (sum n (fun i' => if Nat.eqb i' (i / c_R A) then lsum (map (fun o => if Nat.eqb (nth o (c_cols A) 0%nat) (j / c_C A) then nth (c_R A * c_C A * o + c_C A * (i mod c_R A) + j mod c_C A) (c_ents A) 0 else 0) (rowof A i')) else 0)).
  - apply sum_ext. intros i' _. rewrite lsum_flat_map.
    transitivity (lsum (map (fun o => if Nat.eqb i' (i / c_R A) then (if Nat.eqb (nth o (c_cols A) 0%nat) (j / c_C A) then nth (c_R A * c_C A * o + c_C A * (i mod c_R A) + j mod c_C A) (c_ents A) 0 else 0) else 0) (rowof A i'))).
    2: { destruct (Nat.eqb i' (i / c_R A)); [reflexivity|]. apply lsum_map_0. intros; reflexivity. }
    apply lsum_map_ext. intros o _. rewrite lsum_flat_map, lsum_map_seq.
    transitivity (sum (c_R A) (fun lr => if Nat.eqb (i' * c_R A + lr) i then (if Nat.eqb (nth o (c_cols A) 0%nat) (j / c_C A) then nth (o * (c_R A * c_C A) + lr * c_C A + j mod c_C A) (c_ents A) 0 else 0) else 0)).
    + apply sum_ext. intros lr _. rewrite map_map, lsum_map_seq. cbn [fst snd].
      rewrite (sum_ext _ _ (fun lc => if Nat.eqb (i' * c_R A + lr) i then (if Nat.eqb (nth o (c_cols A) 0%nat * c_C A + lc) j then nth (o * (c_R A * c_C A) + lr * c_C A + lc) (c_ents A) 0 else 0) else 0)) by (intros; apply if_and).
      rewrite <- if_sum. destruct (Nat.eqb _ i); [|reflexivity]. apply (local_single _ _ _ (fun lc => nth (o * (c_R A * c_C A) + lr * c_C A + lc) (c_ents A) 0) C0).
    + rewrite (local_single i' (c_R A) i (fun lr => if Nat.eqb (nth o (c_cols A) 0%nat) (j / c_C A) then nth (o * (c_R A * c_C A) + lr * c_C A + j mod c_C A) (c_ents A) 0 else 0) R0).
      destruct (Nat.eqb i' _); [|reflexivity]. destruct (Nat.eqb _ (j / c_C A)); [|reflexivity]. f_equal. lia.
  - rewrite (sum_single n (i / c_R A) _ Q). { rewrite Nat.eqb_refl. reflexivity. } intros i' _ Hi'. rewrite (proj2 (Nat.eqb_neq _ _) Hi'). reflexivity.
Qed.
(** ** Epetra *)
Definition epetra_block (A : crs K) (o : nat) : list K := flat_map (fun j => map (fun k => nth (o * (c_C A * c_R A) + j * c_C A + k) (c_ents A) 0) (seq 0 (c_C A))) (seq 0 (c_R A)).
Definition epetra_list (A : crs K) (n : nat) : list (nat * (nat * list K)) := flat_map (fun i => map (fun o => (i, (nth o (c_cols A) 0%nat, epetra_block A o))) (rowof A i)) (seq 0 n).
Lemma epetra_ok n c (A : crs K) m : wf_crs n c A -> (m <= n)%nat -> epetra_matrix m A = Ok (epetra_list A m).
Proof.
  intros W Hm. unfold epetra_matrix. rewrite (mapR_ok _ (fun i => map (fun o => (i, (nth o (c_cols A) 0%nat, epetra_block A o))) (rowof A i))).
  { cbn [rbind]. rewrite <- flat_map_concat_map. reflexivity. }
  intros i Hi. apply in_seq in Hi. unfold epetra_row. rewrite (row_range_ok n c A i W ltac:(lia)). cbn [rbind]. apply mapR_ok. intros o Ho. rewrite (col_ok n c A i o W ltac:(lia) Ho). cbn [ub rbind].
  rewrite (mapR_ok _ (fun j => map (fun k => nth (o * (c_C A * c_R A) + j * c_C A + k) (c_ents A) 0) (seq 0 (c_C A)))).
  { cbn [rbind]. unfold epetra_block. rewrite flat_map_concat_map. reflexivity. }
  intros j Hj. apply in_seq in Hj. apply mapR_ok. intros k Hk. apply in_seq in Hk.
  rewrite (Nat.mul_comm (c_C A) (c_R A)), (ent_ok n c A i o j k W ltac:(lia) Ho ltac:(lia) ltac:(lia)). reflexivity.
Qed.
Lemma nth_rows (f : nat -> nat -> K) C R r k : (r < R)%nat -> (k < C)%nat -> nth (r * C + k) (flat_map (fun j => map (f j) (seq 0 C)) (seq 0 R)) 0 = f r k.
Proof.
  intros Hr Hk. revert f r Hr. induction R as [|R IH]; intros f r Hr; [lia|]. cbn [seq flat_map]. destruct r as [|r].
  - cbn [Nat.mul Nat.add]. rewrite app_nth1 by (rewrite map_length, seq_length; exact Hk). rewrite (nth_indep _ 0 (f 0%nat 0%nat)) by (rewrite map_length, seq_length; exact Hk). rewrite map_nth, seq_nth by exact Hk. reflexivity.
  - rewrite app_nth2 by (rewrite map_length, seq_length; nia). rewrite map_length, seq_length. replace (S r * C + k - C)%nat with (r * C + k)%nat by nia.
    rewrite <- seq_shift, flat_map_concat_map, map_map, <- flat_map_concat_map. apply (IH (fun j => f (S j))). lia.
Qed.
Lemma epetra_entry n c (A : crs K) i j m d : wf_crs n c A -> c_R A = d -> c_C A = d -> (m <= n)%nat -> (i < m * d)%nat -> submitted d (epetra_list A m) i j = matrix A i j.
Proof.
  intros W HR HC Hm Hi. pose proof (w_R _ _ _ W) as R0. assert (Q : (i / d < m)%nat) by (apply Nat.div_lt_upper_bound; lia).
  unfold submitted, epetra_list. rewrite lsum_flat_map, lsum_map_seq. rewrite (sum_single m (i / d) _ Q).
  - rewrite map_map. cbn [fst snd]. unfold matrix, dense_rc. rewrite HR, HC. apply lsum_map_ext. intros o _. rewrite Nat.eqb_refl. cbn [andb]. destruct (Nat.eqb _ _); [|reflexivity].
    unfold epetra_block. rewrite HR, HC. rewrite (nth_rows (fun j k => nth (o * (d * d) + j * d + k) (c_ents A) 0)) by (apply Nat.mod_upper_bound; lia). f_equal. lia.
  - intros i' _ Hi'. apply lsum_map_0. intros e He. apply in_map_iff in He as (o & <- & _). cbn [fst snd]. rewrite (proj2 (Nat.eqb_neq _ _) Hi'). reflexivity.
Qed.
End K.

(** ** C125 *)
(** Two matrices agree on the first [m] rows and columns; [y] solves the system. *)
Definition agree {K : CRing} (m : nat) (M N : nat -> nat -> K) : Prop := forall i j, (i < m)%nat -> (j < m)%nat -> M i j = N i j.
Definition solves {K : CRing} (m : nat) (M : nat -> nat -> K) (b y : list K) : Prop := length y = m /\ forall i, (i < m)%nat -> sum m (fun j => rmul (M i j) (nth j y r0)) = nth i b r0.
(** A library that keeps the length of the vector. *)
Definition keeps {K : CRing} (lib : library K) : Prop := forall m M x b, length x = m -> length b = m -> length (fst (lib m M x b)) = m.

Theorem C125_tpetra : forall (K : CRing) n c (A : crs K) ndofs (lib : library K) x b, wf_crs n c A -> (n * c_R A = ndofs)%nat -> (c * c_C A = ndofs)%nat -> length x = ndofs -> length b = ndofs -> keeps lib ->
  exists M, agree ndofs M (matrix A) /\ tpetra_solve ndofs lib A x b = Ok (fst (lib ndofs M x b)).
Proof.
  intros K n c A ndofs lib x b W Hn Hc Hx Hb L. exists (inserted (tpetra_list A n)). split.
  - intros i j Hi _. apply (tpetra_entry n c A i j W). rewrite Hn. exact Hi.
  - unfold tpetra_solve, from_vector, to_vector. rewrite (tpetra_ok n c A ndofs W Hn Hc). cbn [rbind]. rewrite (proj2 (Nat.eqb_eq _ _) Hx), (proj2 (Nat.eqb_eq _ _) Hb). cbn [rbind].
    pose proof (L ndofs (inserted (tpetra_list A n)) x b Hx Hb) as E. destruct (lib ndofs _ x b) as [y st]. cbn [fst] in E. rewrite (proj2 (Nat.eqb_eq _ _) E). reflexivity.
Qed.
Print Assumptions C125_tpetra.
Theorem C125_epetra : forall (K : CRing) n (A : crs K) d (lib : library K) x b, wf_crs n n A -> c_R A = d -> c_C A = d -> length x = (n * d)%nat -> length b = (n * d)%nat -> keeps lib ->
  exists M, agree (n * d) M (matrix A) /\ epetra_solve n d lib A x b = Ok (fst (lib (n * d)%nat M x b)).
Proof.
  intros K n A d lib x b W HR HC Hx Hb L. exists (submitted d (epetra_list A n)). split.
  - intros i j Hi _. exact (epetra_entry n n A i j n d W HR HC (le_n n) Hi).
  - unfold epetra_solve, from_vector, to_vector. rewrite (epetra_ok n n A n W (le_n n)). cbn [rbind]. rewrite (proj2 (Nat.eqb_eq _ _) Hx), (proj2 (Nat.eqb_eq _ _) Hb). cbn [rbind].
    pose proof (L (n * d)%nat (submitted d (epetra_list A n)) x b Hx Hb) as E. destruct (lib (n * d)%nat _ x b) as [y st]. cbn [fst] in E. rewrite (proj2 (Nat.eqb_eq _ _) E). reflexivity.
Qed.
Print Assumptions C125_epetra.
(** AmgX, in a build without assertions or with a last block row that is not empty, when the library neither fails nor diverges fatally. *)
Lemma amgx_check_ok {K : CRing} n (A : crs K) d x b : wf_crs n n A -> c_R A = d -> c_C A = d -> length x = (n * d)%nat -> length b = (n * d)%nat ->
  (forall i, (S i < n)%nat -> nth (S i) (c_rowmap A) 0%nat < length (c_cols A))%nat -> amgx_check d A x b = true.
Proof.
  intros W HR HC Hx Hb HL. pose proof (w_R _ _ _ W) as D0. rewrite HR in D0. unfold amgx_check. rewrite Hx, Nat.div_mul, Nat.mod_mul, (w_len _ _ _ W), !Nat.eqb_refl by lia. rewrite (proj2 (Nat.eqb_eq _ _) Hb).
  rewrite (w_ents _ _ _ W), HR, HC. replace (d * d * length (c_cols A))%nat with (length (c_cols A) * d * d)%nat by lia. rewrite Nat.eqb_refl. cbn [andb].
  apply forallb_forall. intros i Hi. apply in_seq in Hi. rewrite (proj2 (Nat.leb_le _ _) (w_mono _ _ _ W i ltac:(lia))). cbn [andb]. apply andb_true_intro. split.
  - destruct (Nat.eqb_spec i (n - 1)) as [->|N].
    + apply Nat.eqb_eq. replace (S (n - 1)) with n by lia. apply (w_last _ _ _ W).
    + apply Nat.ltb_lt. apply HL. lia.
  - apply forallb_forall. intros o Ho. apply Nat.ltb_lt. apply (col_lt n n A o W). apply (rowof_in n n A i o W); [lia|exact Ho].
Qed.
Theorem C125_amgx : forall (K : CRing) debug fatal n (A : crs K) d (lib : library K) x b, wf_crs n n A -> c_R A = d -> c_C A = d -> length x = (n * d)%nat -> length b = (n * d)%nat ->
  (debug = true -> forall i, (S i < n)%nat -> nth (S i) (c_rowmap A) 0%nat < length (c_cols A))%nat ->
  exists M, agree (n * d) M (matrix A) /\ amgx_solve debug fatal d lib A x b = match snd (lib (n * d)%nat M x b) with Failed => Throw | Diverged => if fatal then Throw else Ok (fst (lib (n * d)%nat M x b)) | _ => Ok (fst (lib (n * d)%nat M x b)) end.
Proof.
  intros K debug fatal n A d lib x b W HR HC Hx Hb HL. exists (uploaded (amgx_matrix d A x)). split.
  - intros i j _ _. unfold uploaded, amgx_matrix, matrix. cbn. rewrite HR, HC. reflexivity.
  - unfold amgx_solve. replace (andb debug (negb (amgx_check d A x b))) with false.
    2: { destruct debug; [|reflexivity]. rewrite (amgx_check_ok n A d x b W HR HC Hx Hb (HL eq_refl)). reflexivity. }
    rewrite Hx. destruct (lib (n * d)%nat _ x b) as [y []]; reflexivity.
Qed.
Print Assumptions C125_amgx.
(** So an answer that solves the system of the library solves the assembled system: the code's own product of the matrix with it is the right-hand side. *)
Theorem C125_solution : forall (K : CRing) n (A : crs K) d (lib : library K) x b sched, fair sched -> wf_crs n n A -> c_R A = d -> c_C A = d -> length x = (n * d)%nat -> length b = (n * d)%nat ->
  (forall M, agree (n * d) M (matrix A) -> solves (n * d) M b (fst (lib (n * d)%nat M x b))) -> keeps lib ->
  forall y, epetra_solve n d lib A x b = Ok y \/ tpetra_solve (n * d) lib A x b = Ok y \/ amgx_solve false false d lib A x b = Ok y -> matvec sched A y (repeat r0 (n * d)) = Ok b.
Proof.
  intros K n A d lib x b sched HF W HR HC Hx Hb HS HK y Hy.
  assert (S0 : solves (n * d) (matrix A) b y).
  { assert (Q : exists M, agree (n * d) M (matrix A) /\ y = fst (lib (n * d)%nat M x b)).
    { destruct Hy as [H|[H|H]].
      - destruct (C125_epetra K n A d lib x b W HR HC Hx Hb HK) as (M & HM & E). exists M. split; [exact HM|congruence].
      - destruct (C125_tpetra K n n A (n * d) lib x b W ltac:(rewrite HR; reflexivity) ltac:(rewrite HC; reflexivity) Hx Hb HK) as (M & HM & E). exists M. split; [exact HM|congruence].
      - destruct (C125_amgx K false false n A d lib x b W HR HC Hx Hb ltac:(discriminate)) as (M & HM & E). exists M. split; [exact HM|]. rewrite E in H. destruct (snd _); congruence. }
    destruct Q as (M & HM & ->). destruct (HS M HM) as [L E]. split; [exact L|]. intros i Hi. rewrite <- (E i Hi). apply sum_ext. intros j Hj. rewrite (HM i j Hi Hj). reflexivity. }
  destruct S0 as [L E]. destruct (C09_matvec K n n A sched y (repeat r0 (n * d)) HF W) as (z & Ez & Lz & Hz). { rewrite HC. exact L. } { rewrite HR. apply repeat_length. }
  rewrite Ez. f_equal. rewrite repeat_length in Lz. apply (nth_ext z b r0 r0); [congruence|]. intros i Hi. rewrite Lz in Hi. rewrite Hz by (rewrite HR; exact Hi). rewrite HC, (E i Hi).
  rewrite nth_repeat. apply (Radd_0_l (r_th K)).
Qed.
Print Assumptions C125_solution.
(** Vectors of the wrong length are refused, by Tpetra also a matrix of the wrong size. *)
Theorem C125_rejects : forall (K : CRing) n c (A : crs K) nodes d (lib : library K) x b, wf_crs n c A ->
  ((n * c_R A <> nodes * d)%nat -> tpetra_solve (nodes * d) lib A x b = Throw) /\
  ((n * c_R A = nodes * d)%nat -> (c * c_C A = nodes * d)%nat -> length x <> (nodes * d)%nat \/ length b <> (nodes * d)%nat -> tpetra_solve (nodes * d) lib A x b = Throw) /\
  (nodes = n -> length x <> (nodes * d)%nat \/ length b <> (nodes * d)%nat -> epetra_solve nodes d lib A x b = Throw).
Proof.
  intros K n c A nodes d lib x b W. split; [|split].
  - intros N. unfold tpetra_solve, tpetra_matrix. rewrite (w_len _ _ _ W). replace (S n - 1)%nat with n by lia. rewrite (proj2 (Nat.eqb_neq _ _) N). reflexivity.
  - intros Hn Hc H. unfold tpetra_solve, from_vector. rewrite (tpetra_ok n c A _ W Hn Hc). cbn [rbind]. destruct (Nat.eqb_spec (length x) (nodes * d)) as [E|E]; [|reflexivity]. cbn [rbind].
    destruct H as [H|H]; [contradiction|]. rewrite (proj2 (Nat.eqb_neq _ _) H). reflexivity.
  - intros -> H. unfold epetra_solve, from_vector. rewrite (epetra_ok n c A n W (le_n n)). cbn [rbind]. destruct (Nat.eqb_spec (length x) (n * d)) as [E|E]; [|reflexivity]. cbn [rbind].
    destruct H as [H|H]; [contradiction|]. rewrite (proj2 (Nat.eqb_neq _ _) H). reflexivity.
Qed.
Print Assumptions C125_rejects.
(** Epetra does not notice a matrix with more rows than the mesh has nodes: the library is given the first rows only, and the answer is handed out. *)
Theorem C125_rows_refuted : exists (A : crs Z_ring), wf_crs 2 2 A /\ forall lib : library Z_ring, (forall m M x b, length (fst (lib m M x b)) = m) ->
  exists M y, epetra_solve 1 1 lib A [0%Z] [1%Z] = Ok y /\ y = fst (lib 1%nat M [0%Z] [1%Z]) /\ M 0%nat 0%nat = 2%Z /\ matrix A 1%nat 1%nat = 5%Z /\ M 1%nat 1%nat = 0%Z.
Proof.
  exists (mkCrs (K := Z_ring) [0; 1; 2]%nat [0; 1]%nat [2%Z; 5%Z] (Some 2%nat) (Some 2%nat) 1 1). split.
  { constructor; cbn; try lia; try reflexivity. intros [|[|i]] Hi; cbn; lia. }
  intros lib H. set (M := submitted (K := Z_ring) 1 [(0%nat, (0%nat, [2%Z]))]). pose proof (H 1%nat M [0%Z] [1%Z]) as L. destruct (lib 1%nat M [0%Z] [1%Z]) as [y st] eqn:E. cbn [fst] in L. exists M, y.
  split; [|split; [rewrite E; reflexivity|repeat split]]. unfold epetra_solve. change (epetra_matrix 1 _) with (Ok [(0%nat, (0%nat, [2%Z]))]). cbn [rbind from_vector length Nat.eqb Nat.mul Nat.add]. change (submitted 1 _) with M. rewrite E. unfold to_vector. rewrite L. reflexivity.
Qed.
Print Assumptions C125_rows_refuted.
(** The assertions of a debug build refuse a well-formed matrix whose last block row is empty. *)
Theorem C125_assertion_refuted : exists (A : crs Z_ring), wf_crs 2 2 A /\ amgx_check 1 A [0%Z; 0%Z] [0%Z; 0%Z] = false.
Proof.
  exists (mkCrs (K := Z_ring) [0; 1; 1]%nat [0]%nat [2%Z] (Some 2%nat) (Some 2%nat) 1 1). split; [|reflexivity].
  constructor; cbn; try lia; try reflexivity. intros [|[|i]] Hi; cbn; lia.
Qed.
Print Assumptions C125_assertion_refuted.

(** ** C126 *)
(** Epetra runs with the user's number of iterations and tolerance, and Tpetra with the user's number of iterations. *)
Theorem C126_settings_partial : forall p, (forall n, p "Iterations"%string = Some (PInt n) -> fst (epetra_settings p) = n) /\ (forall t, p "Tolerance"%string = Some (PDouble t) -> snd (epetra_settings p) = t) /\
  (forall n t, p "Iterations"%string = Some (PInt n) -> tpetra_settings p = Ok t -> forall it tol, tp_options t = Defaults it tol -> it = n) /\
  (forall k t, p "Solver Options"%string = Some (PSub k) -> tpetra_settings p = Ok t -> tp_options t = UserOptions k) /\
  (forall s t, p "Solver"%string = Some (PString s) -> tpetra_settings p = Ok t -> tp_solver t = s).
Proof.
  intros p. unfold epetra_settings, tpetra_settings. cbn [fst snd]. repeat split.
  - intros n ->. reflexivity.
  - intros t ->. reflexivity.
  - intros n t E. rewrite E. destruct (match p "Solver"%string with Some (PString s) => Ok s | _ => _ end) as [s| |]; try discriminate. cbn [rbind].
    destruct (match p "Solver Options"%string with Some (PSub k) => Ok (UserOptions k) | _ => _ end) as [o| |] eqn:O; try discriminate. cbn [rbind]. intros Q. injection Q as <-. cbn [tp_options]. intros it tol ->.
    repeat match type of O with context [match ?x with _ => _ end] => destruct x; try discriminate end; injection O as -> _; reflexivity.
  - intros k t E. rewrite E. destruct (match p "Solver"%string with Some (PString s) => Ok s | _ => _ end) as [s| |]; try discriminate. cbn [rbind]. intros Q. injection Q as <-. reflexivity.
  - intros s t E. rewrite E. cbn [rbind]. destruct (match p "Solver Options"%string with Some (PSub k) => Ok (UserOptions k) | _ => _ end) as [o| |]; try discriminate. cbn [rbind]. intros Q. injection Q as <-. reflexivity.
Qed.
Print Assumptions C126_settings_partial.
(** Tpetra never uses the user's tolerance: as a double it is ignored, as an integer it is refused. *)
Theorem C126_tolerance_refuted : forall p, p "Solver Package"%string = None -> p "Solver Options"%string = None ->
  (forall tol, p "Tolerance"%string = Some (PDouble tol) -> exists t it, tpetra_settings p = Ok t /\ tp_options t = Defaults it default_tolerance) /\
  (forall n, p "Tolerance"%string = Some (PInt n) -> tpetra_settings p = Throw).
Proof.
  intros p HP HO. split.
  - intros tol E. unfold tpetra_settings. rewrite HP, HO, E. cbn [String.eqb Ascii.eqb Bool.eqb]. destruct (p "Solver"%string) as [[]|]; cbn [rbind]; do 2 eexists; (split; [reflexivity|reflexivity]).
  - intros n E. unfold tpetra_settings. rewrite HP, HO, E. cbn [String.eqb Ascii.eqb Bool.eqb]. destruct (p "Solver"%string) as [[]|]; reflexivity.
Qed.
Print Assumptions C126_tolerance_refuted.
(** A solver that did not converge is reported as an error only by AmgX, and only if it failed, or if it diverged and 'Divergence is Fatal' is set. *)
Theorem C126_failure_partial : forall (K : CRing) fatal n (A : crs K) d (lib : library K) x b, wf_crs n n A -> c_R A = d -> c_C A = d -> length x = (n * d)%nat -> length b = (n * d)%nat ->
  (forall M, snd (lib (n * d)%nat M x b) = Failed) \/ (fatal = true /\ forall M, snd (lib (n * d)%nat M x b) = Diverged) -> amgx_solve false fatal d lib A x b = Throw.
Proof.
  intros K fatal n A d lib x b W HR HC Hx Hb H. destruct (C125_amgx K false fatal n A d lib x b W HR HC Hx Hb ltac:(discriminate)) as (M & _ & E). rewrite E. destruct H as [H|[-> H]]; rewrite H; reflexivity.
Qed.
Print Assumptions C126_failure_partial.
Theorem C126_failure_refuted : forall (K : CRing) n (A : crs K) d x b y st, wf_crs n n A -> c_R A = d -> c_C A = d -> length x = (n * d)%nat -> length b = (n * d)%nat -> length y = (n * d)%nat ->
  let lib : library K := fun _ _ _ _ => (y, st) in
  tpetra_solve (n * d) lib A x b = Ok y /\ epetra_solve n d lib A x b = Ok y /\ (st = NotConverged \/ st = Diverged -> amgx_solve false false d lib A x b = Ok y).
Proof.
  intros K n A d x b y st W HR HC Hx Hb Hy lib. split; [|split].
  - unfold tpetra_solve, from_vector, to_vector. rewrite (tpetra_ok n n A (n * d) W) by (rewrite ?HR, ?HC; reflexivity). cbn [rbind]. rewrite (proj2 (Nat.eqb_eq _ _) Hx), (proj2 (Nat.eqb_eq _ _) Hb). cbn [rbind lib].
    rewrite (proj2 (Nat.eqb_eq _ _) Hy). reflexivity.
  - unfold epetra_solve, from_vector, to_vector. rewrite (epetra_ok n n A n W (le_n n)). cbn [rbind]. rewrite (proj2 (Nat.eqb_eq _ _) Hx), (proj2 (Nat.eqb_eq _ _) Hb). cbn [rbind lib].
    rewrite (proj2 (Nat.eqb_eq _ _) Hy). reflexivity.
  - intros H. unfold amgx_solve. cbn [andb lib]. destruct H; subst st; reflexivity.
Qed.
Print Assumptions C126_failure_refuted.
(** The stack: the one asked for, if it was compiled in; without a request AmgX, Tpetra or Epetra, the first that was compiled in. *)
Theorem C126_stack : forall amgx tpetra p,
  (forall s, p "Solver Stack"%string = Some (PString s) ->
     (s = "Epetra"%string -> solver_stack amgx tpetra p = Ok Epetra) /\ (s = "Tpetra"%string -> solver_stack amgx tpetra p = if tpetra then Ok Tpetra else Throw) /\
     (s = "AmgX"%string -> solver_stack amgx tpetra p = if amgx then Ok AmgX else Throw) /\ (s <> "Epetra" -> s <> "Tpetra" -> s <> "AmgX" -> solver_stack amgx tpetra p = Throw)%string) /\
  (p "Solver Stack"%string = None -> solver_stack amgx tpetra p = Ok (if amgx then AmgX else if tpetra then Tpetra else Epetra)).
Proof.
  intros amgx tpetra p. unfold solver_stack. split.
  - intros s ->. repeat split; try (intros ->; reflexivity). intros A B C. rewrite (proj2 (String.eqb_neq _ _) A), (proj2 (String.eqb_neq _ _) B), (proj2 (String.eqb_neq _ _) C). reflexivity.
  - intros ->. destruct amgx, tpetra; reflexivity.
Qed.
Print Assumptions C126_stack.
(** Packages other than Belos, IFpack2 and MueLu are refused by every solve. *)
Theorem C126_packages : forall t, tpetra_packages t = Throw <-> (tp_package t <> "Belos" \/ (tp_prec_package t <> "IFpack2" /\ tp_prec_package t <> "MueLu"))%string.
Proof.
  intros t. unfold tpetra_packages. destruct (String.eqb_spec (tp_prec_package t) "IFpack2"), (String.eqb_spec (tp_prec_package t) "MueLu"), (String.eqb_spec (tp_package t) "Belos"); cbn [orb]; split; intros H; try discriminate; try reflexivity;
    try (left; assumption); try (right; split; assumption); destruct H as [H|[H1 H2]]; contradiction.
Qed.
Print Assumptions C126_packages.

(** Two nodes with two unknowns each, three blocks. *)
Definition small_crs : crs Z_ring := mkCrs (K := Z_ring) [0; 2; 3]%nat [0; 1; 1]%nat [2; 1; 0; 3; 5; 0; 0; 5; 1; 0; 0; 1]%Z (Some 4%nat) (Some 4%nat) 2 2.
Lemma small_wf : wf_crs 2 2 small_crs.
Proof. constructor; cbn; try lia; try reflexivity. intros [|[|i]] Hi; cbn; lia. Qed.
Example C125_reachable : let lib : library Z_ring := fun _ _ _ _ => ([1; 1; -1; 2]%Z, Converged) in
  tpetra_solve 4 lib small_crs [0; 0; 0; 0]%Z [-2; 13; -1; 2]%Z = Ok [1; 1; -1; 2]%Z /\ epetra_solve 2 2 lib small_crs [0; 0; 0; 0]%Z [-2; 13; -1; 2]%Z = Ok [1; 1; -1; 2]%Z /\
  amgx_solve true true 2 lib small_crs [0; 0; 0; 0]%Z [-2; 13; -1; 2]%Z = Ok [1; 1; -1; 2]%Z /\ matvec (seq 0) small_crs [1; 1; -1; 2]%Z (repeat 0%Z 4) = Ok [-2; 13; -1; 2]%Z.
Proof. repeat split; reflexivity. Qed.
(** Twenty iterations asked for: both stacks use them; the tolerance reaches Epetra only. *)
Definition user_list : params := fun k => if String.eqb k "Iterations" then Some (PInt 20) else if String.eqb k "Tolerance" then Some (PDouble (/ 100)) else if String.eqb k "Solver" then Some (PString "CG") else None.
Example C126_reachable : epetra_settings user_list = (20%Z, (/ 100)%R) /\ tpetra_settings user_list = Ok (mkTpetra "Belos" "CG" (Defaults 20 default_tolerance) "IFpack2" "ILUT") /\
  solver_stack false true user_list = Ok Tpetra /\ tpetra_packages (mkTpetra "Belos" "CG" (Defaults 20 default_tolerance) "IFpack2" "ILUT") = Ok tt.
Proof. repeat split; reflexivity. Qed.
