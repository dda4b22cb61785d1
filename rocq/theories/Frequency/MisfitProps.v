(** C150: the frequency response misfit. *)
From Coq Require Import Arith Lia List Bool Reals Lra.
From Verif Require Import Base.Field Base.Sums Base.Res Problem.DenseBC Element.ElementSpec Element.ElementProof Frequency.FreqProblemModel.
Import ListNotations.
Local Open Scope R_scope.

(** ** Specification *)
(** Half the sum of the squared differences of all numbers at the corners of the cells, cell by cell: a vertex counts as often as cells meet there. *)
Definition mismatch (d : nat) (conn : list (nat -> nat)) (e u : nat -> R) : R :=
  fold_right Rplus 0 (map (fun node => / 2 * rs (S d) (fun a => rs (2 * d) (fun c => (u (node a * (2 * d) + c)%nat - e (node a * (2 * d) + c)%nat) ^ 2))) conn).
(** The state has the measured numbers at every corner. *)
Definition agrees (d : nat) (conn : list (nat -> nat)) (e u : nat -> R) : Prop :=
  forall node a c, In node conn -> (a <= d)%nat -> (c < 2 * d)%nat -> u (node a * (2 * d) + c)%nat = e (node a * (2 * d) + c)%nat.
Definition tells {F : Type} (eqb : F -> F -> bool) : Prop := forall x y, eqb x y = true <-> x = y.
(** Row [k] belongs to the [k]-th frequency: field f, with index c, is number c at every vertex. *)
Definition row_holds (nd nn : nat) (fields : list (nat * (nat -> R))) (row : nat -> R) : Prop :=
  forall c v a, In (c, v) fields -> (a < nn)%nat -> row (a * nd + c)%nat = v a.

(** ** Lemmas *)
Lemma fold_sum n (f : nat -> R) : forall t, fold_left (fun t i => t + f i) (seq 0 n) t = t + rs n f.
Proof.
  unfold rs. induction n as [|n IH]; intros t; [cbn; lra|]. rewrite seq_S, fold_left_app, IH. cbn [fold_left sum]. rewrite Nat.add_0_l.
  change (@radd R_ring) with Rplus. lra.
Qed.
Lemma fold_sum2 n m (f : nat -> nat -> R) : forall t, fold_left (fun t a => fold_left (fun t i => t + f a i) (seq 0 m) t) (seq 0 n) t = t + rs n (fun a => rs m (f a)).
Proof.
  intros t. rewrite <- fold_sum. revert t. induction (seq 0 n) as [|a l IH]; intros t; [reflexivity|]. cbn [fold_left]. rewrite fold_sum. apply IH.
Qed.
Lemma rs_double m (f : nat -> R) : rs (2 * m) f = rs m f + rs m (fun i => f (m + i)%nat).
Proof. unfold rs. replace (2 * m)%nat with (m + m)%nat by lia. exact (sum_split (K := R_ring) m m f). Qed.
Lemma gather_at nd node (u : nat -> R) a c : (c < nd)%nat -> gather_state (K := R_ring) nd node u (nd * a + c)%nat = u (node a * nd + c)%nat.
Proof.
  intros H. unfold gather_state. rewrite (Nat.mul_comm nd a). rewrite Nat.div_add_l by lia. rewrite (Nat.div_small c nd H), Nat.add_0_r.
  rewrite (Nat.add_comm (a * nd) c), Nat.mod_add by lia. rewrite (Nat.mod_small c nd H). reflexivity.
Qed.
Lemma rs_ext n f g : (forall i, (i < n)%nat -> f i = g i) -> rs n f = rs n g. Proof. exact (rsum_ext n f g). Qed.
Lemma misfit_cell_spec d node e u :
  misfit_cell (K := R_ring) (/ 2) d (gather_state (K := R_ring) (2 * d) node e) (gather_state (K := R_ring) (2 * d) node u) =
  / 2 * rs (S d) (fun a => rs (2 * d) (fun c => (u (node a * (2 * d) + c)%nat - e (node a * (2 * d) + c)%nat) ^ 2)).
Proof.
  unfold misfit_cell. change (@rmul R_ring) with Rmult. change (@radd R_ring) with Rplus. change (@rsub R_ring) with Rminus. change (@r0 R_ring) with 0.
  change (rcar R_ring) with R. f_equal. rewrite fold_sum2, Rplus_0_l. apply rs_ext. intros a Ha. rewrite rs_double.
  transitivity (rs d (fun i => (u (node a * (2 * d) + i)%nat - e (node a * (2 * d) + i)%nat) ^ 2 + (u (node a * (2 * d) + (d + i))%nat - e (node a * (2 * d) + (d + i))%nat) ^ 2)).
  - apply rs_ext. intros i Hi. rewrite <- !Nat.add_assoc. rewrite !gather_at by lia. ring.
  - exact (rsum_add d _ _).
Qed.
Lemma rs_nonneg n f : (forall i, (i < n)%nat -> 0 <= f i) -> 0 <= rs n f.
Proof. unfold rs. induction n as [|n IH]; intros H; cbn [sum]; change (@radd R_ring) with Rplus; [apply Rle_refl|]. specialize (IH ltac:(intros; apply H; lia)). specialize (H n ltac:(lia)). lra. Qed.
Lemma rs_zero n f : (forall i, (i < n)%nat -> 0 <= f i) -> rs n f = 0 -> forall i, (i < n)%nat -> f i = 0.
Proof.
  unfold rs. induction n as [|n IH]; intros H E i Hi; [lia|]. cbn [sum] in E. change (@radd R_ring) with Rplus in E.
  assert (P : 0 <= rs n f) by (apply rs_nonneg; intros; apply H; lia). unfold rs in P. pose proof (H n ltac:(lia)) as Pn.
  destruct (Nat.eq_dec i n) as [->|]; [lra|]. apply IH; [intros; apply H; lia|lra|lia].
Qed.
Lemma cell_nonneg d node e u : 0 <= / 2 * rs (S d) (fun a => rs (2 * d) (fun c => (u (node a * (2 * d) + c)%nat - e (node a * (2 * d) + c)%nat) ^ 2)).
Proof. apply Rmult_le_pos; [lra|]. apply rs_nonneg. intros a _. apply rs_nonneg. intros c _. apply pow2_ge_0. Qed.
Lemma mismatch_nonneg d conn e u : 0 <= mismatch d conn e u.
Proof. unfold mismatch. induction conn as [|node conn IH]; cbn [map fold_right]; [lra|]. pose proof (cell_nonneg d node e u). lra. Qed.
Lemma mismatch_zero d conn e u : mismatch d conn e u = 0 <-> agrees d conn e u.
Proof.
  unfold agrees. induction conn as [|node conn IH]; [split; [intros _ ? ? ? []|reflexivity]|].
  assert (M : mismatch d (node :: conn) e u = / 2 * rs (S d) (fun a => rs (2 * d) (fun c => (u (node a * (2 * d) + c)%nat - e (node a * (2 * d) + c)%nat) ^ 2)) + mismatch d conn e u) by reflexivity.
  rewrite M. pose proof (cell_nonneg d node e u) as P. pose proof (mismatch_nonneg d conn e u) as Q. split.
  - intros E node' a c [<-|Hin] Ha Hc; [|apply IH; auto; lra].
    assert (E0 : rs (S d) (fun a => rs (2 * d) (fun c => (u (node a * (2 * d) + c)%nat - e (node a * (2 * d) + c)%nat) ^ 2)) = 0) by lra.
    pose proof (rs_zero (S d) _ ltac:(intros; apply rs_nonneg; intros; apply pow2_ge_0) E0 a ltac:(lia)) as E1. cbv beta in E1.
    pose proof (rs_zero (2 * d) _ ltac:(intros; apply pow2_ge_0) E1 c Hc) as E2. cbv beta in E2. cbn [pow] in E2.
    assert ((u (node a * (2 * d) + c)%nat - e (node a * (2 * d) + c)%nat) * (u (node a * (2 * d) + c)%nat - e (node a * (2 * d) + c)%nat) = 0) as E3 by lra.
    apply Rmult_integral in E3. lra.
  - intros H. assert (mismatch d conn e u = 0) as -> by (apply IH; intros; apply H; auto; right; assumption). rewrite Rplus_0_r.
    assert (rs (S d) (fun a => rs (2 * d) (fun c => (u (node a * (2 * d) + c)%nat - e (node a * (2 * d) + c)%nat) ^ 2)) = 0) as ->; [|lra].
    apply rsum_0. intros a Ha. apply rsum_0. intros c Hc. rewrite (H node a c) by (try (left; reflexivity); lia). ring.
Qed.
Lemma find_at {F : Type} (eqb : F -> F -> bool) : tells eqb -> forall w ws, In w ws -> nth_error ws (find_index eqb w ws) = Some w.
Proof.
  intros T w ws. induction ws as [|v ws IH]; intros H; [destruct H|]. cbn [find_index]. destruct (eqb v w) eqn:E; [apply T in E; subst; reflexivity|].
  destruct H as [->|H]; [assert (eqb w w = true) by (apply T; reflexivity); congruence|]. cbn. apply IH. exact H.
Qed.
Lemma find_none {F : Type} (eqb : F -> F -> bool) : tells eqb -> forall w ws, ~ In w ws -> find_index eqb w ws = length ws.
Proof.
  intros T w ws. induction ws as [|v ws IH]; intros H; [reflexivity|]. cbn [find_index length]. destruct (eqb v w) eqn:E; [apply T in E; subst; exfalso; apply H; left; reflexivity|].
  rewrite IH; [reflexivity|]. intros K. apply H. right. exact K.
Qed.

(** ** Theorems *)
(** The contribution of one frequency that is listed once: the mismatch with its own row. *)
Theorem C150_value : forall (F : Type) (eqb : F -> F -> bool) d ws rows conn k w e u, tells eqb -> NoDup ws -> nth_error ws k = Some w -> nth_error rows k = Some e ->
  exists v, misfit_value (K := R_ring) (/ 2) d eqb ws rows conn w u = Ok v /\ v = mismatch d conn e u /\ 0 <= v /\ (v = 0 <-> agrees d conn e u).
Proof.
  intros F eqb d ws rows conn k w e u T N Hk He.
  assert (E : find_index eqb w ws = k).
  { apply (proj1 (NoDup_nth_error ws) N); [|rewrite Hk; apply find_at; [exact T|apply nth_error_In with k; exact Hk]].
    apply nth_error_Some. rewrite find_at; [discriminate|exact T|apply nth_error_In with k; exact Hk]. }
  unfold misfit_value. rewrite E, He. eexists. split; [reflexivity|].
  assert (M : lsum (K := R_ring) (map (fun node => misfit_cell (K := R_ring) (/ 2) d (gather_state (K := R_ring) (2 * d) node e) (gather_state (K := R_ring) (2 * d) node u)) conn) = mismatch d conn e u).
  { unfold mismatch. clear. induction conn as [|node conn IH]; [reflexivity|]. cbn [map lsum fold_right]. change (@radd R_ring) with Rplus. rewrite IH. f_equal. apply misfit_cell_spec. }
  rewrite M. split; [reflexivity|]. split; [apply mismatch_nonneg|apply mismatch_zero].
Qed.
Print Assumptions C150_value.
(** A frequency that is not listed: the row behind the last one is used. *)
Theorem C150_unlisted : forall (K : CRing) (F : Type) (eqb : F -> F -> bool) half d ws (rows : list (vect K)) conn w u, tells eqb -> length rows = length ws -> ~ In w ws ->
  misfit_value half d eqb ws rows conn w u = UB.
Proof.
  intros K F eqb half d ws rows conn w u T L H. unfold misfit_value. rewrite (find_none eqb T w ws H), <- L. rewrite (proj2 (nth_error_None rows (length rows))) by lia. reflexivity.
Qed.
Print Assumptions C150_unlisted.
(** The data are read for the first frequency... *)
Lemma row_keep nd (f : nat * (nat -> R)) : forall (l : list nat) (r : nat -> R) k, (forall a, In a l -> k <> (nd * a + fst f)%nat) ->
  fold_left (fun (r : nat -> R) a => fun k => if Nat.eqb k (nd * a + fst f) then snd f a else r k) l r k = r k.
Proof.
  induction l as [|a l IH]; intros r k H; [reflexivity|]. cbn [fold_left]. rewrite IH by (intros b Hb; apply H; right; exact Hb).
  destruct (Nat.eqb_spec k (nd * a + fst f)) as [E|E]; [exfalso; apply (H a (or_introl eq_refl)); exact E|reflexivity].
Qed.
Lemma row_set nd (f : nat * (nat -> R)) : forall (l : list nat) (r : nat -> R) a, In a l -> (0 < nd)%nat ->
  fold_left (fun (r : nat -> R) a => fun k => if Nat.eqb k (nd * a + fst f) then snd f a else r k) l r (nd * a + fst f)%nat = snd f a.
Proof.
  induction l as [|b l IH]; intros r a H Hn; [destruct H|]. cbn [fold_left]. destruct (in_dec Nat.eq_dec a l) as [I|I]; [apply IH; assumption|].
  destruct H as [->|H]; [|contradiction]. rewrite row_keep.
  - rewrite Nat.eqb_refl. reflexivity.
  - intros c Hc E. apply I. assert (a = c) as -> by nia. exact Hc.
Qed.
Theorem C150_data_partial : forall nd nn nf names ids, length ids = length names -> length names = nd -> NoDup ids -> (forall c, In c ids -> (c < nd)%nat) -> (0 < nf)%nat ->
  exists rows, read_data (K := R_ring) nd nn nf (Some names) (Some ids) = Ok rows /\ length rows = nf /\
    forall row, nth_error rows 0 = Some row -> row_holds nd nn (combine ids names) row.
Proof.
  intros nd nn nf names ids L1 L2 N B P. unfold read_data. rewrite L1, L2, !Nat.eqb_refl.
  assert (Bt : forallb (fun i => Nat.ltb i nd) ids = true) by (apply forallb_forall; intros c Hc; apply Nat.ltb_lt; apply B; exact Hc). rewrite Bt. cbn [orb].
  eexists. split; [reflexivity|]. unfold read_fields. destruct nf as [|n]; [lia|]. split; [cbn; rewrite repeat_length; reflexivity|].
  intros row E. injection E as <-. intros c v a Hin Ha.
  assert (G : forall fs (r : nat -> R), NoDup (map fst fs) -> (forall f, In f fs -> (fst f < nd)%nat) -> In (c, v) fs ->
    fold_left (fun (r : nat -> R) f => fold_left (fun (r : nat -> R) a => fun k => if Nat.eqb k (nd * a + fst f) then snd f a else r k) (seq 0 nn) r) fs r (a * nd + c)%nat = v a).
  { assert (Keep : forall fs (r : nat -> R), (forall f, In f fs -> (fst f < nd)%nat) -> ~ In c (map fst fs) -> (c < nd)%nat ->
      fold_left (fun (r : nat -> R) f => fold_left (fun (r : nat -> R) a => fun k => if Nat.eqb k (nd * a + fst f) then snd f a else r k) (seq 0 nn) r) fs r (a * nd + c)%nat = r (a * nd + c)%nat).
    { induction fs as [|f fs IH]; intros r Hb Hn Hc; [reflexivity|]. cbn [fold_left]. rewrite IH; [|intros g Hg; apply Hb; right; exact Hg|intros I; apply Hn; right; exact I|exact Hc].
      apply row_keep. intros b _ E. assert (fst f < nd)%nat by (apply Hb; left; reflexivity). apply Hn. left.
      assert (a = b) as -> by nia. lia. }
    induction fs as [|f fs IH]; intros r Nd Hb I; [destruct I|]. cbn [fold_left]. cbn [map] in Nd. apply NoDup_cons_iff in Nd as [Hx Nd'].
    destruct I as [->|I]; [|apply IH; auto; intros g Hg; apply Hb; right; exact Hg].
    rewrite Keep; [|intros g Hg; apply Hb; right; exact Hg|exact Hx|apply (Hb (c, v)); left; reflexivity].
    replace (a * nd + c)%nat with (nd * a + fst (c, v))%nat by (cbn; lia). apply (row_set nd (c, v)); [apply in_seq; lia|]. specialize (Hb (c, v) (or_introl eq_refl)). cbn in Hb. lia. }
  assert (Mf : map fst (combine ids names) = ids).
  { clear -L1. revert names L1. induction ids as [|i ids IH]; intros [|x names] L; try discriminate L; [reflexivity|]. cbn. rewrite IH; [reflexivity|injection L as L; exact L]. }
  apply G; [exact (eq_ind_r (@NoDup nat) N Mf)| |exact Hin]. intros [c' v'] Hf. apply B. apply in_combine_l in Hf. exact Hf.
Qed.
Print Assumptions C150_data_partial.
(** ... and not for the others: with two frequencies and one measured field that is not zero the second row does not hold it. *)
Theorem C150_data_refuted : ~ (forall nd nn nf names ids rows, length ids = length names -> length names = nd -> NoDup ids -> (forall c, In c ids -> (c < nd)%nat) ->
  read_data (K := R_ring) nd nn nf (Some names) (Some ids) = Ok rows -> forall k row, nth_error rows k = Some row -> row_holds nd nn (combine ids names) row).
Proof.
  intros H.
  assert (N : NoDup [0; 1]%nat) by (repeat constructor; cbn; intuition lia).
  specialize (H 2%nat 1%nat 2%nat [(fun _ => 1); (fun _ => 1)] [0; 1]%nat _ eq_refl eq_refl N ltac:(intros c [<-|[<-|[]]]; lia) eq_refl 1%nat _ eq_refl 0%nat (fun _ => 1) 0%nat (or_introl eq_refl) ltac:(lia)).
  cbn in H. lra.
Qed.
Print Assumptions C150_data_refuted.
Theorem C150_rejected : forall (K : CRing) nd nn nf (names : option (list (nat -> K))) ids,
  (names = None \/ ids = None \/ (exists ns is, names = Some ns /\ ids = Some is /\ (length is <> length ns \/ length ns <> nd))) -> read_data nd nn nf names ids = Throw.
Proof.
  intros K nd nn nf names ids [->|[->|(ns & js & -> & -> & H)]]; [reflexivity|destruct names; reflexivity|]. unfold read_data.
  destruct (Nat.eqb_spec (length js) (length ns)) as [E|E]; [|reflexivity]. destruct (Nat.eqb_spec (length ns) nd) as [E'|E']; [|reflexivity]. destruct H; contradiction.
Qed.
Print Assumptions C150_rejected.
(** The objective of a solution should be the sum over the frequencies of the mismatch with the measurement of the frequency. *)
Theorem C150_objective_refuted : ~ (forall (F : Type) (eqb : F -> F -> bool) zero d ws rows conn states, tells eqb -> NoDup ws -> length rows = length ws -> length states = length ws ->
  misfit_objective (K := R_ring) (/ 2) d eqb zero ws rows conn states = Ok (fold_right Rplus 0 (map (fun eu => mismatch d conn (fst eu) (snd eu)) (combine rows states)))).
Proof.
  intros H.
  assert (T : tells Nat.eqb) by (intros x y; apply Nat.eqb_eq).
  assert (N : NoDup [5]%nat) by (constructor; [intros []|constructor]).
  specialize (H nat Nat.eqb 0%nat 1%nat [5%nat] [(fun _ => 0)] [] [(fun _ => 0)] T N eq_refl eq_refl). cbn in H. discriminate H.
Qed.
Print Assumptions C150_objective_refuted.
(** Whenever frequency zero is not among the frequencies the objective of a solution is undefined. *)
Theorem C150_objective_undefined : forall (K : CRing) (F : Type) (eqb : F -> F -> bool) zero half d ws (rows : list (vect K)) conn states, tells eqb -> length rows = length ws -> ~ In zero ws -> states <> [] ->
  misfit_objective half d eqb zero ws rows conn states = UB.
Proof.
  intros K F eqb zero half d ws rows conn states T L H Hs. unfold misfit_objective. destruct states as [|u us]; [contradiction|]. cbn [foldR].
  rewrite (C150_unlisted K F eqb half d ws rows conn zero u T L H). reflexivity.
Qed.
Print Assumptions C150_objective_undefined.
(** With the single frequency zero it is the mismatch. *)
Theorem C150_objective_partial : forall (F : Type) (eqb : F -> F -> bool) zero d e conn u, tells eqb ->
  misfit_objective (K := R_ring) (/ 2) d eqb zero [zero] [e] conn [u] = Ok (mismatch d conn e u).
Proof.
  intros F eqb zero d e conn u T. unfold misfit_objective. cbn [foldR].
  destruct (C150_value F eqb d [zero] [e] conn 0%nat zero e u T ltac:(constructor; [intros []|constructor]) eq_refl eq_refl) as (v & Ev & -> & _). rewrite Ev. cbn [rbind].
  f_equal. change (@radd R_ring) with Rplus. change (@r0 R_ring) with 0. req. lra.
Qed.
Print Assumptions C150_objective_partial.

(** A bar of two cells, two frequencies: the misfit of a state that differs in one number at the shared vertex counts it twice. *)
Example C150_nonvacuous : exists v, misfit_value (K := R_ring) (/ 2) 1 Nat.eqb [3; 7]%nat [(fun _ => 0); (fun _ => 1)] [(fun a => a); (fun a => S a)] 7%nat (fun k => if Nat.eqb k 2 then 3 else 1) = Ok v /\ v = 4.
Proof.
  destruct (C150_value nat Nat.eqb 1%nat [3; 7]%nat [(fun _ => 0); (fun _ => 1)] [(fun a => a); (fun a => S a)] 1%nat 7%nat (fun _ => 1) (fun k => if Nat.eqb k 2 then 3 else 1)) as (v & Ev & E & _).
  - intros x y. apply Nat.eqb_eq.
  - repeat constructor; cbn; intuition lia.
  - reflexivity.
  - reflexivity.
  - exists v. split; [exact Ev|]. rewrite E. unfold mismatch, rs. cbn [map fold_right sum Nat.mul Nat.add Nat.eqb]. change (@radd R_ring) with Rplus. change (@r0 R_ring) with 0. cbn [pow]. req. lra.
Qed.
