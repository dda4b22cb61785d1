(** From the abstract locations to CRS and block CRS data. *)
From Coq Require Import Arith Lia List Bool Ring Relations Wf_nat.
From Verif Require Import Base.Field Base.Sums Base.ListUpd
  BC.ConstraintsModel BC.ConstraintsSpec BC.ConstraintsProof.
Import ListNotations.

(** List helpers. *)
Lemma flat_mapM_some {A B} (f : A -> option (list B)) g l :
  (forall x, In x l -> f x = Some (g x)) -> flat_mapM f l = Some (flat_map g l).
Proof.
  induction l as [|x l IH]; intros H; simpl; [reflexivity|].
  rewrite H by (left; reflexivity). simpl. rewrite IH by (intros; apply H; right; assumption).
  reflexivity.
Qed.

Lemma mapM_some {A B} (f : A -> option B) g l :
  (forall x, In x l -> f x = Some (g x)) -> mapM f l = Some (map g l).
Proof.
  induction l as [|x l IH]; intros H; simpl; [reflexivity|].
  rewrite H by (left; reflexivity). simpl. rewrite IH by (intros; apply H; right; assumption).
  reflexivity.
Qed.

Lemma mapM_map {A B C} (f : B -> option C) (g : A -> B) l : mapM f (map g l) = mapM (fun x => f (g x)) l.
Proof. induction l as [|x l IH]; simpl; [reflexivity|]. rewrite IH. reflexivity. Qed.

Lemma flat_map_flat_map {A B C} (f : B -> list C) (g : A -> list B) l :
  flat_map f (flat_map g l) = flat_map (fun x => flat_map f (g x)) l.
Proof. induction l as [|x l IH]; simpl; [reflexivity|]. rewrite flat_map_app, IH. reflexivity. Qed.

Lemma flat_map_map {A B C} (f : B -> list C) (g : A -> B) l :
  flat_map f (map g l) = flat_map (fun x => f (g x)) l.
Proof. induction l as [|x l IH]; simpl; [reflexivity|]. rewrite IH. reflexivity. Qed.

Lemma flat_map_ext_in {A B} (f g : A -> list B) l :
  (forall x, In x l -> f x = g x) -> flat_map f l = flat_map g l.
Proof.
  induction l as [|x l IH]; intros H; simpl; [reflexivity|].
  rewrite H by (left; reflexivity). rewrite IH by (intros; apply H; right; assumption). reflexivity.
Qed.

Lemma flat_map_nil {A B} (f : A -> list B) l : (forall x, In x l -> f x = []) -> flat_map f l = [].
Proof.
  induction l as [|x l IH]; intros H; simpl; [reflexivity|].
  rewrite H by (left; reflexivity). apply IH. intros; apply H; right; assumption.
Qed.

Lemma flat_map_select {B} (g : nat -> list B) a k N :
  a <= k < a + N -> flat_map (fun x => if Nat.eqb x k then g x else []) (seq a N) = g k.
Proof.
  revert a; induction N as [|N IH]; intros a Hk; [lia|]. simpl.
  destruct (Nat.eqb_spec a k) as [->|Hne].
  - rewrite flat_map_nil; [apply app_nil_r|]. intros x Hx. apply in_seq in Hx.
    destruct (Nat.eqb_spec x k); [lia|reflexivity].
  - apply IH. lia.
Qed.

Lemma NoDup_flat_map {A B} (f : A -> list B) l :
  NoDup l -> (forall x, In x l -> NoDup (f x)) ->
  (forall x y b, In x l -> In y l -> In b (f x) -> In b (f y) -> x = y) ->
  NoDup (flat_map f l).
Proof.
  induction l as [|x l IH]; intros Hl Hf Hd; simpl; [constructor|].
  inversion Hl; subst.
  assert (Happ : forall (l1 l2 : list B), NoDup l1 -> NoDup l2 -> (forall b, In b l1 -> ~ In b l2) -> NoDup (l1 ++ l2)).
  { induction l1 as [|b l1 IH1]; intros l2 Hn1 Hn2 Hdd; simpl; [exact Hn2|].
    inversion Hn1; subst. constructor.
    - rewrite in_app_iff. intros [H|H]; [auto|]. apply (Hdd b); [left; reflexivity|exact H].
    - apply IH1; auto. intros; apply Hdd; right; assumption. }
  apply Happ.
  - apply Hf. left. reflexivity.
  - apply IH; auto.
    + intros; apply Hf; right; assumption.
    + intros a b0 b1 Ha Hb. apply Hd; right; assumption.
  - intros b Hb H. apply in_flat_map in H as [y [Hy Hby]].
    assert (x = y) by (eapply Hd; [left; reflexivity|right; exact Hy|exact Hb|exact Hby]).
    subst. contradiction.
Qed.

Lemma map_flat_map {A B C} (h : B -> C) (f : A -> list B) l :
  map h (flat_map f l) = flat_map (fun x => map h (f x)) l.
Proof. induction l as [|x l IH]; simpl; [reflexivity|]. rewrite map_app, IH. reflexivity. Qed.

Lemma divmod_eq N a b : b < N -> (N * a + b) / N = a /\ (N * a + b) mod N = b.
Proof.
  intros H. assert (Hd : a = (N * a + b) / N).
  { apply (Nat.div_unique (N * a + b) N a b); lia. }
  split; [auto|]. symmetry. apply (Nat.mod_unique _ _ a); lia.
Qed.

Lemma dof_eqb N a b r : b < N ->
  Nat.eqb (N * a + b) r = (Nat.eqb a (r / N) && Nat.eqb b (r mod N)).
Proof.
  intros H. destruct (divmod_eq N a b H) as [H1 H2].
  destruct (Nat.eqb_spec (N * a + b) r) as [<-|Hne].
  - rewrite H1, H2, !Nat.eqb_refl. reflexivity.
  - destruct (Nat.eqb_spec a (r / N)) as [->|]; [|reflexivity].
    destruct (Nat.eqb_spec b (r mod N)) as [->|]; [|reflexivity].
    exfalso. apply Hne. rewrite <- Nat.div_mod by lia. reflexivity.
Qed.

Section Conn.
Context {K : CRing}.
Add Ring Kring3 : (r_th K).
Local Open Scope K_scope.
Variables (N n : nat) (g : graph).
Hypothesis HN : (0 < N)%nat.
Hypothesis Hwf : wf_graph n g.

Definition offs (i : nat) : list nat := range (nth i (rowmap g) 0%nat) (nth (S i) (rowmap g) 0%nat).
Definition col (o : nat) : nat := nth o (colidx g) 0%nat.
Definition locs (i : nat) : list (nat * nat) :=
  flat_map (fun o => map (fun lc => ((N * N * o + N * (i mod N) + lc)%nat, (N * col o + lc)%nat))
                         (seq 0 N)) (offs (i / N)).

Lemma rm_mono i j : i <= j <= n -> nth i (rowmap g) 0%nat <= nth j (rowmap g) 0%nat.
Proof.
  intros H. induction j as [|j IH]; [replace i with 0%nat by lia; lia|].
  destruct (Nat.eq_dec i (S j)) as [->|]; [lia|].
  pose proof (wf_mono _ _ Hwf j ltac:(lia)). specialize (IH ltac:(lia)). lia.
Qed.

Lemma offs_bound i o : i < n -> In o (offs i) -> o < length (colidx g) /\ col o < n.
Proof.
  intros Hi Ho. unfold offs in Ho. apply in_range in Ho.
  pose proof (rm_mono (S i) n ltac:(lia)). rewrite (wf_last _ _ Hwf) in H.
  assert (o < length (colidx g)) by lia. split; [assumption|].
  apply (wf_cols _ _ Hwf). unfold col. apply nth_In. assumption.
Qed.

Lemma offs_inj i j o : i < n -> j < n -> In o (offs i) -> In o (offs j) -> i = j.
Proof.
  unfold offs. rewrite !in_range. intros Hi Hj H1 H2.
  destruct (lt_eq_lt_dec i j) as [[H|H]|H]; [|exact H|].
  - pose proof (rm_mono (S i) j ltac:(lia)). lia.
  - pose proof (rm_mono (S j) i ltac:(lia)). lia.
Qed.

Lemma row_offsets_some i : i < n -> row_offsets g i = Some (offs i).
Proof.
  intros Hi. unfold row_offsets. pose proof (wf_len _ _ Hwf).
  rewrite (nth_error_some_nth _ _ 0%nat) by lia. cbn [obind].
  rewrite (nth_error_some_nth _ _ 0%nat) by lia. reflexivity.
Qed.

Lemma col_some o : o < length (colidx g) -> nth_error (colidx g) o = Some (col o).
Proof. intros. apply nth_error_some_nth. assumption. Qed.

Lemma has_col_offs i c : i < n -> has_col g i c <-> exists o, In o (offs i) /\ col o = c.
Proof.
  intros Hi. unfold has_col, offs. split.
  - intros [o [Ho E]]. exists o. split; [apply in_range; exact Ho|]. unfold col. apply nth_error_nth. exact E.
  - intros [o [Ho E]]. exists o. pose proof (offs_bound i o Hi Ho) as [Hl _].
    split; [apply in_range in Ho; exact Ho|]. rewrite col_some by assumption. congruence.
Qed.

Lemma node_lt i : i < (n * N)%nat -> (i / N < n)%nat.
Proof. intros. apply Nat.div_lt_upper_bound; lia. Qed.

Lemma in_locs i o c : In (o, c) (locs i) <->
  exists p lc, In p (offs (i / N)) /\ lc < N /\ o = (N * N * p + N * (i mod N) + lc)%nat /\ c = (N * col p + lc)%nat.
Proof.
  unfold locs. rewrite in_flat_map. split.
  - intros [p [Hp H]]. apply in_map_iff in H as [lc [E Hlc]]. inversion E; subst.
    apply in_seq in Hlc. exists p, lc. repeat split; auto; lia.
  - intros [p [lc [Hp [Hlc [-> ->]]]]]. exists p. split; [exact Hp|].
    apply in_map_iff. exists lc. split; [reflexivity|]. apply in_seq. lia.
Qed.

(** Decoding an entry ordinal. *)
Lemma ord_dec p a b : (a < N)%nat -> (b < N)%nat ->
  ((N * N * p + N * a + b) / N / N = p)%nat /\ (((N * N * p + N * a + b) / N) mod N = a)%nat /\
  ((N * N * p + N * a + b) mod N = b)%nat.
Proof.
  intros Ha Hb. replace (N * N * p + N * a + b)%nat with (N * (N * p + a) + b)%nat by ring.
  destruct (divmod_eq N (N * p + a) b Hb) as [-> ->].
  destruct (divmod_eq N p a Ha) as [-> ->]. auto.
Qed.

Lemma ord_inj p a b p' a' b' : a < N -> b < N -> a' < N -> b' < N ->
  (N * N * p + N * a + b)%nat = (N * N * p' + N * a' + b')%nat -> p = p' /\ a = a' /\ b = b'.
Proof.
  intros Ha Hb Ha' Hb' E.
  destruct (ord_dec p a b Ha Hb) as [E1 [E2 E3]]. destruct (ord_dec p' a' b' Ha' Hb') as [E1' [E2' E3']].
  rewrite E in *. repeat split; congruence.
Qed.

Lemma modN i : (i mod N < N)%nat.
Proof. apply Nat.mod_upper_bound. lia. Qed.

Variables e0 : list K.
Hypothesis He0 : length e0 = (N * N * length (colidx g))%nat.

Lemma locs_bound i o c : i < (n * N)%nat -> In (o, c) (locs i) -> o < length e0 /\ c < (n * N)%nat.
Proof.
  intros Hi H. apply in_locs in H as [p [lc [Hp [Hlc [-> ->]]]]].
  pose proof (offs_bound _ _ (node_lt i Hi) Hp) as [Hpl Hcl]. pose proof (modN i).
  rewrite He0. split; nia.
Qed.

Lemma locs_inj i i' o c c' : i < (n * N)%nat -> i' < (n * N)%nat ->
  In (o, c) (locs i) -> In (o, c') (locs i') -> i = i' /\ c = c'.
Proof.
  intros Hi Hi' H H'. apply in_locs in H as [p [lc [Hp [Hlc [E ->]]]]].
  apply in_locs in H' as [p' [lc' [Hp' [Hlc' [E' ->]]]]].
  rewrite E in E'. apply ord_inj in E' as [-> [Em ->]]; auto using modN. split; [|reflexivity].
  pose proof (offs_inj _ _ _ (node_lt i Hi) (node_lt i' Hi') Hp Hp') as Ed.
  rewrite (Nat.div_mod i N), (Nat.div_mod i' N) by lia. congruence.
Qed.

Lemma locs_nd i : i < (n * N)%nat -> NoDup (map fst (locs i)).
Proof.
  intros Hi. unfold locs. rewrite map_flat_map. apply NoDup_flat_map.
  - unfold offs, range. apply seq_NoDup.
  - intros p _. rewrite map_map. simpl.
    assert (H : forall a k, NoDup (map (fun x => (N * N * p + N * (i mod N) + x)%nat) (seq a k))).
    { intros a k. revert a. induction k as [|k IH]; intros a; simpl; constructor; [|apply IH].
      intros Hin. apply in_map_iff in Hin as [x [E Hx]]. apply in_seq in Hx. lia. }
    apply H.
  - intros p p' b _ _ H H'. rewrite map_map in H, H'. simpl in H, H'.
    apply in_map_iff in H as [lc [<- Hlc]]. apply in_map_iff in H' as [lc' [E Hlc']].
    apply in_seq in Hlc, Hlc'. apply ord_inj in E as [-> _]; auto using modN; lia.
Qed.

Lemma locs_row c lc : c < n -> lc < N -> offs ((N * c + lc) / N) = offs c.
Proof. intros. destruct (divmod_eq N c lc H0) as [-> _]. reflexivity. Qed.

Lemma locs_sym i o c : i < (n * N)%nat -> In (o, c) (locs i) -> exists o', In (o', i) (locs c).
Proof.
  intros Hi H. pose proof (node_lt i Hi) as Hn. apply in_locs in H as [p [lc [Hp [Hlc [_ ->]]]]].
  pose proof (offs_bound _ _ Hn Hp) as [_ Hc].
  assert (Hh : has_col g (col p) (i / N)).
  { apply (wf_sym _ _ Hwf); [exact Hn|]. apply has_col_offs; [exact Hn|]. eauto. }
  apply has_col_offs in Hh as [q [Hq Eq]]; [|exact Hc].
  exists (N * N * q + N * ((N * col p + lc) mod N) + i mod N)%nat. apply in_locs.
  exists q, (i mod N). rewrite locs_row by assumption. repeat split; auto using modN.
  rewrite Eq. apply Nat.div_mod. lia.
Qed.

Lemma locs_diag i : i < (n * N)%nat -> exists o, In (o, i) (locs i).
Proof.
  intros Hi. pose proof (node_lt i Hi) as Hn.
  pose proof (wf_diag _ _ Hwf _ Hn) as Hh. apply has_col_offs in Hh as [q [Hq Eq]]; [|exact Hn].
  exists (N * N * q + N * (i mod N) + i mod N)%nat. apply in_locs. exists q, (i mod N).
  repeat split; auto using modN. rewrite Eq. apply Nat.div_mod. lia.
Qed.

(** Every stored entry belongs to some row. *)
Lemma locs_cover o : o < length e0 -> exists i c, i < (n * N)%nat /\ In (o, c) (locs i).
Proof.
  intros Ho. set (p := (o / N / N)%nat). set (a := ((o / N) mod N)%nat). set (b := (o mod N)%nat).
  assert (Eo : o = (N * N * p + N * a + b)%nat).
  { unfold p, a, b. pose proof (Nat.div_mod o N ltac:(lia)). pose proof (Nat.div_mod (o / N) N ltac:(lia)). nia. }
  assert (Hp : p < length (colidx g)).
  { apply Nat.div_lt_upper_bound; [lia|]. apply Nat.div_lt_upper_bound; [lia|]. lia. }
  assert (exists r, r < n /\ In p (offs r)) as [r [Hr Hpr]].
  { assert (Hk : forall k, k <= n -> p < nth k (rowmap g) 0%nat -> exists r, r < k /\ In p (offs r)).
    { induction k as [|k IH]; intros Hk Hpk.
      - rewrite (wf_first _ _ Hwf) in Hpk. lia.
      - destruct (lt_dec p (nth k (rowmap g) 0%nat)) as [H|H].
        + destruct (IH ltac:(lia) H) as [r [H1 H2]]. exists r. split; [lia|exact H2].
        + exists k. split; [lia|]. unfold offs. apply in_range. lia. }
    apply Hk; [lia|]. rewrite (wf_last _ _ Hwf). exact Hp. }
  assert (Ha : a < N) by apply modN.
  exists (N * r + a)%nat, (N * col p + b)%nat. split; [nia|].
  apply in_locs. exists p, b. destruct (divmod_eq N r a Ha) as [-> ->]. repeat split; auto. apply modN.
Qed.

(** *** The work items are the abstract ones *)
Lemma clear_eq r c lc : c < n -> lc < N ->
  clear_col_block N g r (r mod N) c lc = Some (gclear (K := K) locs r (N * c + lc)%nat).
Proof.
  intros Hc Hlc. unfold clear_col_block. rewrite row_offsets_some by assumption. simpl.
  erewrite flat_mapM_some.
  2:{ intros o Ho. rewrite col_some by (eapply offs_bound; eauto). simpl. reflexivity. }
  f_equal. unfold gclear, locs. rewrite flat_map_flat_map, locs_row by assumption.
  apply flat_map_ext_in. intros o Ho. rewrite flat_map_map. simpl.
  destruct (divmod_eq N c lc Hlc) as [_ ->].
  rewrite dof_eqb by apply modN. rewrite Nat.eqb_refl, andb_true_r.
  destruct (Nat.eqb (col o) (r / N)) eqn:E.
  - rewrite <- (flat_map_select (fun x => [Wr (N * N * o + N * lc + x)%nat (0 : K)]) 0 (r mod N) N)
      by (pose proof (modN r); lia).
    apply flat_map_ext_in. intros x Hx. apply in_seq in Hx. rewrite dof_eqb by lia. rewrite E. reflexivity.
  - symmetry. apply flat_map_nil. intros x Hx. apply in_seq in Hx. rewrite dof_eqb by lia. rewrite E. reflexivity.
Qed.

Lemma item_eq r v : r < (n * N)%nat -> bc_item_block N g r v = Some (gitem (K := K) locs r v).
Proof.
  intros Hr. unfold bc_item_block. rewrite row_offsets_some by (apply node_lt; exact Hr). simpl.
  unfold gitem. unfold locs at 2. rewrite flat_map_flat_map. apply flat_mapM_some. intros o Ho.
  rewrite flat_map_map. apply flat_mapM_some. intros lc Hlc. apply in_seq in Hlc.
  pose proof (offs_bound _ _ (node_lt r Hr) Ho) as [Hol Hoc].
  rewrite col_some by assumption. simpl. unfold gpart. simpl.
  destruct (Nat.eqb (N * col o + lc) r) eqn:E; [reflexivity|].
  rewrite clear_eq by (auto; lia). reflexivity.
Qed.

(** *** Dense views *)
Lemma lsum_select a k m (f : nat -> K) :
  a <= k < a + m -> lsum (map (fun x => if Nat.eqb x k then f x else 0) (seq a m)) = f k.
Proof.
  revert a; induction m as [|m IH]; intros a Hk; [lia|]. simpl.
  destruct (Nat.eqb_spec a k) as [->|Hne].
  - rewrite lsum_map_0; [ring|]. intros x Hx. apply in_seq in Hx.
    destruct (Nat.eqb_spec x k); [lia|reflexivity].
  - rewrite IH by lia. ring.
Qed.

Lemma gdense_dense i j : gdense e0 locs i j = dense N g e0 i j.
Proof.
  unfold gdense, dense, locs. rewrite lsum_flat_map. apply lsum_map_ext. intros o Ho.
  rewrite map_map. simpl. fold (col o). destruct (Nat.eqb (col o) (j / N)) eqn:E.
  - rewrite <- (lsum_select 0 (j mod N) N (fun x => nth (N * N * o + N * (i mod N) + x) e0 0))
      by (pose proof (modN j); lia).
    apply lsum_map_ext. intros x Hx. apply in_seq in Hx. rewrite dof_eqb by lia. rewrite E. reflexivity.
  - apply lsum_map_0. intros x Hx. apply in_seq in Hx. rewrite dof_eqb by lia. rewrite E. reflexivity.
Qed.

Lemma lsum_unique {A} (P : A -> bool) (f : A -> K) l a :
  NoDup l -> In a l -> P a = true -> (forall x, In x l -> P x = true -> x = a) ->
  lsum (map (fun x => if P x then f x else 0) l) = f a.
Proof.
  induction l as [|x l IH]; intros Hnd Ha HP Hu; [contradiction|].
  inversion Hnd; subst. simpl. destruct Ha as [->|Ha].
  - rewrite HP. rewrite lsum_map_0; [ring|]. intros y Hy. destruct (P y) eqn:E; [|reflexivity].
    exfalso. assert (y = a) by (apply Hu; [right; exact Hy|exact E]). subst. contradiction.
  - rewrite IH; auto; [|intros; apply Hu; [right|]; assumption].
    destruct (P x) eqn:E; [|ring]. exfalso.
    assert (x = a) by (apply Hu; [left; reflexivity|exact E]). subst. contradiction.
Qed.

Lemma dense_in_locs i j o : j < (n * N)%nat -> In o (offs (i / N)) -> Nat.eqb (col o) (j / N) = true ->
  In ((N * N * o + N * (i mod N) + j mod N)%nat, j) (locs i).
Proof.
  intros Hj Ho E. apply Nat.eqb_eq in E. apply in_locs. exists o, (j mod N)%nat.
  repeat split; auto using modN. rewrite E. apply Nat.div_mod. lia.
Qed.

Lemma dense_delta (e1 : list K) i j : i < (n * N)%nat -> j < (n * N)%nat ->
  (forall o c, In (o, c) (locs i) -> c = j -> nth o e1 0 = delta i j) ->
  dense N g e1 i j = delta i j.
Proof.
  intros Hi Hj H. unfold dense. fold (offs (i / N)). unfold delta in *.
  destruct (Nat.eqb_spec i j) as [<-|Hne].
  - pose proof (node_lt i Hi) as Hn. pose proof (wf_diag _ _ Hwf _ Hn) as Hh.
    apply has_col_offs in Hh as [q [Hq Eq]]; [|exact Hn].
    rewrite (lsum_unique (fun o => Nat.eqb (nth o (colidx g) 0%nat) (i / N))
               (fun o => nth (N * N * o + N * (i mod N) + i mod N) e1 0) _ q).
    + eapply H; [|reflexivity]. apply dense_in_locs; auto. apply Nat.eqb_eq. exact Eq.
    + apply seq_NoDup.
    + exact Hq.
    + apply Nat.eqb_eq. exact Eq.
    + intros x Hx E. apply Nat.eqb_eq in E.
      assert (Hx' : In x (offs (i / N))) by exact Hx.
      pose proof (offs_bound _ _ Hn Hx') as [Hxl _]. pose proof (offs_bound _ _ Hn Hq) as [Hql _].
      unfold offs in Hq. apply in_range in Hq. unfold offs in Hx'. apply in_range in Hx'.
      apply (wf_nodup _ _ Hwf (i / N) x q (i / N)); auto.
      * rewrite col_some by assumption. unfold col. congruence.
      * rewrite col_some by assumption. congruence.
  - apply lsum_map_0. intros o Ho. destruct (Nat.eqb (nth o (colidx g) 0%nat) (j / N)) eqn:E; [|reflexivity].
    eapply H; [|reflexivity]. apply dense_in_locs; auto.
Qed.

Lemma dense_same (e1 : list K) i j : i < (n * N)%nat -> j < (n * N)%nat ->
  (forall o c, In (o, c) (locs i) -> c = j -> nth o e1 0 = nth o e0 0) ->
  dense N g e1 i j = dense N g e0 i j.
Proof.
  intros Hi Hj H. unfold dense. apply lsum_map_ext. intros o Ho.
  destruct (Nat.eqb (nth o (colidx g) 0%nat) (j / N)) eqn:E; [|reflexivity].
  eapply H; [|reflexivity]. apply dense_in_locs; auto.
Qed.

End Conn.

(** ** The list of conditions *)
Section BcList.
Context {K : CRing}.
Local Open Scope K_scope.

Definition bcs_of (scale : K) (dofs : list nat) (vals : list K) : list (nat * K) :=
  map (fun dv => (fst dv, scale * snd dv)) (combine dofs vals).

Lemma bc_list_some scale dofs (vals : list K) : length vals = length dofs ->
  bc_list scale dofs vals = Some (bcs_of scale dofs vals).
Proof.
  unfold bc_list, bcs_of. revert vals; induction dofs as [|d dofs IH]; intros [|v vals] H; simpl in *; try discriminate.
  - reflexivity.
  - rewrite <- seq_shift, mapM_map. simpl. rewrite IH by lia. reflexivity.
Qed.

Lemma bcs_fst scale dofs (vals : list K) : length vals = length dofs ->
  map fst (bcs_of scale dofs vals) = dofs.
Proof.
  unfold bcs_of. rewrite map_map. simpl. revert vals; induction dofs as [|d dofs IH]; intros [|v vals] H; simpl in *; try discriminate.
  - reflexivity.
  - f_equal. apply IH. lia.
Qed.

Lemma constrained_in dofs i : constrained dofs i = true <-> In i dofs.
Proof.
  unfold constrained. rewrite existsb_exists. split.
  - intros [x [Hx E]]. apply Nat.eqb_eq in E. subst. exact Hx.
  - intros H. exists i. split; [exact H|apply Nat.eqb_refl].
Qed.

Lemma prescribed_some scale dofs (vals : list K) d v : length vals = length dofs ->
  prescribed scale dofs vals d = Some v -> In (d, v) (bcs_of scale dofs vals).
Proof.
  unfold prescribed, bcs_of. intros _. destruct (find _ _) as [[d' w]|] eqn:E; [|discriminate].
  intros H; inversion H; subst. apply find_some in E as [E1 E2]. simpl in E2. apply Nat.eqb_eq in E2. subst.
  apply in_map_iff. exists (d, w). auto.
Qed.

Lemma prescribed_none scale dofs (vals : list K) d : length vals = length dofs ->
  prescribed scale dofs vals d = None <-> constrained dofs d = false.
Proof.
  intros Hl. unfold prescribed.
  assert (H : constrained dofs d = true <-> exists w, find (fun dv => Nat.eqb (fst dv) d) (combine dofs vals) = Some (d, w)).
  { rewrite constrained_in. revert vals Hl. induction dofs as [|x dofs IH]; intros [|v vals] Hl; simpl in *; try discriminate.
    - split; [contradiction|]. intros [w E]. discriminate.
    - destruct (Nat.eqb_spec x d) as [->|Hne].
      + split; [eauto|auto].
      + rewrite <- IH by lia. split; [intros [?|?]; [contradiction|assumption]|auto]. }
  destruct (find _ _) as [[d' w]|] eqn:E.
  - split; [discriminate|]. intros Hc. pose proof (find_some _ _ E) as [_ E2]. simpl in E2. apply Nat.eqb_eq in E2. subst.
    assert (constrained dofs d = true) by (apply H; eauto). congruence.
  - split; [|reflexivity]. intros _. destruct (constrained dofs d); [|reflexivity].
    destruct (proj1 H eq_refl) as [w Hw]. discriminate.
Qed.
End BcList.

(** ** Main result for block CRS data *)
Section Main.
Context {K : CRing}.
Add Ring Kring4 : (r_th K).
Local Open Scope K_scope.
Variables (N n : nat) (g : graph) (scale : K) (dofs : list nat) (vals : list K) (m : mem K).
Hypothesis HN : (0 < N)%nat.
Hypothesis Hwf : wf_graph n g.
Hypothesis He0 : length (ents m) = (N * N * length (colidx g))%nat.
Hypothesis Hb0 : length (rhs m) = (n * N)%nat.
Hypothesis Hlen : length vals = length dofs.
Hypothesis Hnd : compatible scale dofs vals.
Hypothesis Hdn : forall d, In d dofs -> d < (n * N)%nat.

Let bcs := bcs_of scale dofs vals.
Let locs := locs N g.

Lemma bcs_nd' : zdup bcs.
Proof.
  unfold bcs, bcs_of, zdup. clear -Hnd. unfold compatible in Hnd.
  induction (combine dofs vals) as [|a l IH]; simpl; constructor.
  - inversion Hnd; subst. apply Forall_map. simpl. assumption.
  - apply IH. inversion Hnd; assumption.
Qed.
Lemma bcs_n' : forall d, In d (map fst bcs) -> d < (n * N)%nat.
Proof. unfold bcs. rewrite bcs_fst by exact Hlen. exact Hdn. Qed.

Lemma items_eq : mapM (fun dv => bc_item_block N g (fst dv) (snd dv)) bcs = Some (items locs bcs).
Proof.
  apply mapM_some. intros bc Hbc. eapply item_eq; eauto. apply bcs_n'. apply in_map. exact Hbc.
Qed.

Definition rhs_spec (i : nat) : K :=
  match prescribed scale dofs vals i with
  | Some v => v
  | None => vec (rhs m) i - lsum (map (fun dv => dense N g (ents m) (fst dv) i * (scale * snd dv)) (combine dofs vals))
  end.

Lemma phase1_use m1 : par_result m (items locs bcs) m1 -> 
  length (ents m1) = length (ents m) /\ length (rhs m1) = length (rhs m) /\
  (forall i o c, i < (n * N)%nat -> In (o, c) (locs i) -> D bcs i \/ D bcs c -> nth o (ents m1) 0 = delta i c) /\
  (forall i o c, i < (n * N)%nat -> In (o, c) (locs i) -> ~ (D bcs i \/ D bcs c) -> nth o (ents m1) 0 = nth o (ents m) 0) /\
  (forall c, c < (n * N)%nat -> ~ D bcs c -> nth c (rhs m1) 0 = nth c (rhs m) 0 + pends (ents m) c (items locs bcs)).
Proof.
  intros H. destruct m as [e b]; simpl in *.
  eapply (phase1 (n * N)); eauto using bcs_nd', bcs_n'.
  - intros; eapply locs_bound; eauto.
  - intros; eapply locs_inj; eauto.
  - intros; eapply locs_nd; eauto.
  - intros; eapply locs_sym; eauto.
Qed.

Theorem block_safe : apply_safe (bc_item_block N g) scale dofs vals m.
Proof.
  exists bcs, (items locs bcs). split; [apply bc_list_some; exact Hlen|]. split; [apply items_eq|]. split.
  - intros c Hc. destruct m as [e b]; simpl in *.
    assert (HB : forall i o c, i < (n * N)%nat -> In (o, c) (locs i) -> o < length e /\ c < (n * N)%nat)
      by (intros; eapply locs_bound; eauto).
    assert (HI : Inv (n * N) e b locs bcs c).
    { eapply Inv_steps; [exact HB| | | |apply bcs_nd'|apply bcs_n'|exact Hc].
      - intros; eapply locs_inj; eauto.
      - intros; eapply locs_nd; eauto.
      - intros; eapply locs_sym; eauto. }
    eapply Inv_not_faulty; [exact HB|apply bcs_n'| |exact HI]. lia.
  - intros m1 Hm1 c Hc. apply phase1_use in Hm1 as [_ [Hl _]].
    eapply (Inv2_not_faulty (n * N)); [apply bcs_n'| |eapply Inv2_steps; eauto using bcs_nd', bcs_n'].
    lia.
Qed.

Theorem block_exists : exists m', applyBlockConstraints N g scale dofs vals m m'.
Proof.
  destruct block_safe as [bcs0 [ts [E1 [E2 [H1 H2]]]]].
  destruct (run_to_end _ H1) as [c1 [Hs1 Hf1]].
  assert (Hp1 : par_result m ts (fst c1)) by (exists c1; auto).
  destruct (run_to_end _ (H2 _ Hp1)) as [c2 [Hs2 Hf2]].
  exists (fst c2), bcs0, ts, (fst c1). repeat split; auto. exists c2; auto.
Qed.

Lemma result_use m' : applyBlockConstraints N g scale dofs vals m m' ->
  length (ents m') = length (ents m) /\ length (rhs m') = length (rhs m) /\
  (forall i o c, i < (n * N)%nat -> In (o, c) (locs i) -> D bcs i \/ D bcs c -> nth o (ents m') 0 = delta i c) /\
  (forall i o c, i < (n * N)%nat -> In (o, c) (locs i) -> ~ (D bcs i \/ D bcs c) -> nth o (ents m') 0 = nth o (ents m) 0) /\
  (forall i, i < (n * N)%nat -> vec (rhs m') i = rhs_spec i).
Proof.
  intros [bcs0 [ts [m1 [E1 [E2 [H1 H2]]]]]].
  rewrite bc_list_some in E1 by exact Hlen. inversion E1; subst bcs0. clear E1.
  fold bcs in E2, H2. rewrite items_eq in E2. inversion E2; subst ts. clear E2.
  apply phase1_use in H1 as [Hl1 [Hl2 [H3 [H4 H5]]]].
  apply phase2 in H2 as [Ee [Hl [Hv Hf]]]; auto using bcs_nd'.
  rewrite Ee. split; [exact Hl1|]. split; [congruence|]. split; [exact H3|]. split; [exact H4|].
  intros i Hi. unfold rhs_spec, vec. destruct (prescribed scale dofs vals i) as [v|] eqn:Ep.
  - apply Hv. apply prescribed_some; auto.
  - apply prescribed_none in Ep; [|exact Hlen].
    assert (HD : ~ D bcs i).
    { unfold D, bcs. rewrite bcs_fst by exact Hlen. intros Hin. apply constrained_in in Hin. congruence. }
    rewrite Hf by exact HD. rewrite H5 by auto. rewrite (pends_items (n * N) (ents m) (rhs m) locs bcs ltac:(lia) i HD).
    unfold bcs, bcs_of. rewrite map_map. simpl.
    rewrite (lsum_map_ext _ (fun dv => dense N g (ents m) (fst dv) i * (scale * snd dv))).
    + ring.
    + intros dv _. unfold locs. rewrite (gdense_dense N g HN) by exact He0. reflexivity.
Qed.

Lemma D_constr i : D bcs i <-> constrained dofs i = true.
Proof. unfold D, bcs. rewrite bcs_fst by exact Hlen. symmetry. apply constrained_in. Qed.

Theorem block_result m' : applyBlockConstraints N g scale dofs vals m m' ->
  length (ents m') = length (ents m) /\ length (rhs m') = length (rhs m) /\
  (forall i j, i < (n * N)%nat -> j < (n * N)%nat ->
     dense N g (ents m') i j = constrained_matrix dofs (dense N g (ents m)) i j) /\
  (forall i, i < (n * N)%nat -> vec (rhs m') i = rhs_spec i).
Proof.
  intros H. apply result_use in H as [Hl1 [Hl2 [H3 [H4 H5]]]].
  split; [exact Hl1|]. split; [exact Hl2|]. split; [|exact H5].
  intros i j Hi Hj. unfold constrained_matrix.
  destruct (constrained dofs i || constrained dofs j) eqn:E.
  - eapply (dense_delta N n g HN Hwf (ents m) He0); auto. intros o c Hin ->. apply (H3 i o j); auto.
    rewrite !D_constr. apply orb_true_iff in E. exact E.
  - eapply dense_same; eauto. intros o c Hin ->. apply (H4 i o j); auto.
    rewrite !D_constr. apply orb_false_iff in E. intuition congruence.
Qed.

Theorem block_unique m1 m2 :
  applyBlockConstraints N g scale dofs vals m m1 ->
  applyBlockConstraints N g scale dofs vals m m2 -> m1 = m2.
Proof.
  intros H1 H2. apply result_use in H1 as [La1 [Lb1 [H3 [H4 H5]]]].
  apply result_use in H2 as [La2 [Lb2 [H3' [H4' H5']]]].
  destruct m1 as [e1 b1], m2 as [e2 b2]; simpl in *. f_equal.
  - apply list_eq_nth; [congruence|]. intros o Ho.
    rewrite (nth_error_some_nth _ _ 0) by lia. rewrite (nth_error_some_nth e2 _ 0) by lia. f_equal.
    destruct (locs_cover N n g HN Hwf (ents m) He0 o ltac:(lia)) as [i [c [Hi Hin]]].
    destruct (constrained dofs i || constrained dofs c) eqn:E.
    + assert (HD : D bcs i \/ D bcs c) by (rewrite !D_constr; apply orb_true_iff; exact E).
      rewrite (H3 i o c), (H3' i o c); auto.
    + assert (HD : ~ (D bcs i \/ D bcs c)) by (rewrite !D_constr; apply orb_false_iff in E; intuition congruence).
      rewrite (H4 i o c), (H4' i o c); auto.
  - apply list_eq_nth; [congruence|]. intros i Hi.
    rewrite (nth_error_some_nth _ _ 0) by lia. rewrite (nth_error_some_nth b2 _ 0) by lia. f_equal.
    change (vec b1 i = vec b2 i). rewrite H5, H5' by lia. reflexivity.
Qed.

(** Linear algebra: solving the constrained system. *)
Lemma sum_constrained k (G f : nat -> K) (l : list (nat * K)) :
  zdup l -> (forall d, In d (map fst l) -> d < k) -> (forall d v, In (d, v) l -> f d = v) ->
  sum k (fun j => if constrained (map fst l) j then G j * f j else 0) =
  lsum (map (fun dv => G (fst dv) * snd dv) l).
Proof.
  induction l as [|[d v] l IH]; intros Hn Hk Hf.
  - apply sum_0. reflexivity.
  - inversion Hn; subst. simpl.
    rewrite <- IH; auto; [|intros; apply Hk; right; assumption|intros; apply Hf; right; assumption].
    destruct (constrained (map fst l) d) eqn:Ed.
    + assert (Hz : v = 0).
      { apply constrained_in in Ed. apply in_map_iff in Ed as [[d' w] [E Hin]]. simpl in E. subst.
        rewrite Forall_forall in H1. destruct (H1 _ Hin eq_refl) as [H _]. exact H. }
      subst v. transitivity (0 + sum k (fun j => if constrained (map fst l) j then G j * f j else 0)); [|ring].
      transitivity (sum k (fun j => if constrained (map fst l) j then G j * f j else 0)); [|ring].
      apply sum_ext. intros j _. unfold constrained in *. simpl.
      destruct (Nat.eqb_spec j d) as [->|]; simpl; [rewrite Ed; reflexivity|reflexivity].
    + rewrite <- (Hf d v) by (left; reflexivity).
      rewrite <- (sum_delta k d (fun j => G j * f j)) by (apply Hk; left; reflexivity).
      rewrite <- sum_add. apply sum_ext. intros j _. unfold constrained in *. simpl.
      rewrite (Nat.eqb_sym j d). destruct (Nat.eqb_spec d j) as [<-|]; simpl; [|ring].
      rewrite Ed. ring.
Qed.

Lemma prescribed_all d v : In (d, v) bcs -> prescribed scale dofs vals d = Some v.
Proof.
  unfold prescribed, bcs, bcs_of. rewrite in_map_iff. intros [[d' w] [E Hin]]. inversion E; subst; clear E. simpl in *.
  pose proof Hnd as Hz. unfold compatible in Hz. clear -Hin Hz.
  induction (combine dofs vals) as [|[y u] l IH]; [contradiction|]. simpl.
  inversion Hz; subst. destruct (Nat.eqb_spec y d) as [->|Hne].
  - destruct Hin as [E|Hin]; [inversion E; reflexivity|].
    rewrite Forall_forall in H1. destruct (H1 _ Hin eq_refl) as [E1 E2]. simpl in *. congruence.
  - apply IH; [|exact H2]. destruct Hin as [E|Hin]; [inversion E; contradiction|exact Hin].
Qed.

Theorem constrained_system m' x :
  symmetric_where_needed (n * N) (dense N g (ents m)) scale dofs vals ->
  applyBlockConstraints N g scale dofs vals m m' ->
  (solves (n * N) (dense N g (ents m')) (vec (rhs m')) x <->
   solves_constrained (n * N) (dense N g (ents m)) (vec (rhs m)) scale dofs vals x).
Proof.
  intros Hsym H. apply block_result in H as [_ [_ [HA Hb]]].
  set (A := dense N g (ents m)) in *. set (M := (n * N)%nat) in *.
  assert (Hrowc : forall i, i < M -> constrained dofs i = true -> mv M (dense N g (ents m')) x i = x i).
  { intros i Hi Hc. unfold mv. rewrite <- (sum_delta M i x Hi). apply sum_ext. intros j Hj.
    rewrite HA by auto. unfold constrained_matrix. rewrite Hc. simpl.
    destruct (Nat.eqb i j); ring. }
  assert (Hcomb : forall i f, i < M -> (forall d v, prescribed scale dofs vals d = Some v -> f d = v) ->
            sum M (fun j => if constrained dofs j then A i j * f j else 0) =
            lsum (map (fun dv => A (fst dv) i * (scale * snd dv)) (combine dofs vals))).
  { intros i f Hi Hf.
    pose proof (sum_constrained M (A i) f bcs bcs_nd' bcs_n') as E.
    unfold bcs at 2 in E. rewrite bcs_fst in E by exact Hlen. rewrite E.
    - unfold bcs, bcs_of. rewrite map_map. simpl. apply lsum_map_ext. intros [d v] Hin. simpl.
      symmetry. apply Hsym; assumption.
    - intros d v Hin. apply Hf. apply prescribed_all. exact Hin. }
  assert (Hrowf : forall i, i < M -> constrained dofs i = false ->
            mv M A x i = mv M (dense N g (ents m')) x i + sum M (fun j => if constrained dofs j then A i j * x j else 0)).
  { intros i Hi Hc. unfold mv. rewrite <- sum_add. apply sum_ext. intros j Hj. rewrite HA by auto.
    unfold constrained_matrix. rewrite Hc. simpl. destruct (constrained dofs j) eqn:Ej; [|ring].
    destruct (Nat.eqb_spec i j) as [->|]; [congruence|ring]. }
  split.
  - intros Hs. assert (Hpr : forall d v, prescribed scale dofs vals d = Some v -> x d = v).
    { intros d v Hp. assert (Hc : constrained dofs d = true).
      { destruct (constrained dofs d) eqn:E; [reflexivity|].
        apply (prescribed_none scale dofs vals d Hlen) in E. congruence. }
      assert (Hd : d < M) by (apply Hdn; apply constrained_in; exact Hc).
      rewrite <- (Hrowc d Hd Hc). rewrite Hs by exact Hd. rewrite Hb by exact Hd.
      unfold rhs_spec. rewrite Hp. reflexivity. }
    split; [exact Hpr|]. intros i Hi Hc. rewrite Hrowf by auto. rewrite (Hcomb i x Hi Hpr).
    rewrite Hs by exact Hi. rewrite Hb by exact Hi. unfold rhs_spec.
    rewrite (proj2 (prescribed_none scale dofs vals i Hlen) Hc). fold A. ring.
  - intros [Hpr Hfree] i Hi. rewrite Hb by exact Hi. unfold rhs_spec.
    destruct (prescribed scale dofs vals i) as [v|] eqn:Ep.
    + assert (Hc : constrained dofs i = true).
      { destruct (constrained dofs i) eqn:E; [reflexivity|].
        apply (prescribed_none scale dofs vals i Hlen) in E. congruence. }
      rewrite Hrowc by auto. apply Hpr. exact Ep.
    + apply prescribed_none in Ep; [|exact Hlen]. pose proof (Hrowf i Hi Ep) as E.
      rewrite Hfree in E by auto. rewrite (Hcomb i x Hi Hpr) in E. fold A. rewrite E. ring.
Qed.
End Main.

(** ** Non-block data are the case N = 1 *)
Lemma flat_mapM_ext {A B} (f h : A -> option (list B)) l : (forall x, f x = h x) -> flat_mapM f l = flat_mapM h l.
Proof. intros H. induction l as [|x l IH]; simpl; [reflexivity|]. rewrite H, IH. reflexivity. Qed.

Lemma clear_col_1 {K : CRing} g r c : clear_col (K := K) g r c = clear_col_block 1 g r 0 c 0.
Proof.
  unfold clear_col, clear_col_block. destruct (row_offsets g c) as [os'|]; [|reflexivity]. cbn [obind].
  apply flat_mapM_ext. intros o1. destruct (nth_error (colidx g) o1) as [cc|]; [|reflexivity]. cbn [obind].
  replace (1 * cc + 0)%nat with cc by lia. replace (1 * 1 * o1 + 1 * 0 + 0)%nat with o1 by lia. reflexivity.
Qed.

Lemma bc_item_1 {K : CRing} g r (v : K) : bc_item g r v = bc_item_block 1 g r v.
Proof.
  unfold bc_item, bc_item_block. rewrite Nat.div_1_r, Nat.mod_1_r.
  destruct (row_offsets g r) as [os|]; [|reflexivity]. cbn [obind].
  apply flat_mapM_ext. intros o. cbn [seq flat_mapM].
  destruct (nth_error (colidx g) o) as [c|]; [|reflexivity]. cbn [obind].
  replace (1 * c + 0)%nat with c by lia.
  replace (1 * 1 * o + 1 * 0 + 0)%nat with o by lia.
  destruct (Nat.eqb c r); [reflexivity|].
  rewrite <- clear_col_1.
  destruct (clear_col g r c); cbn [obind]; [rewrite app_nil_r|]; reflexivity.
Qed.

Lemma mapM_ext {A B} (f h : A -> option B) l : (forall x, f x = h x) -> mapM f l = mapM h l.
Proof. intros H. induction l as [|x l IH]; simpl; [reflexivity|]. rewrite H, IH. reflexivity. Qed.

Lemma apply_1 {K : CRing} g scale dofs (vals : list K) m m' :
  applyConstraints g scale dofs vals m m' <-> applyBlockConstraints 1 g scale dofs vals m m'.
Proof.
  unfold applyConstraints, applyBlockConstraints, apply_result.
  split; intros [bcs [ts [m1 [H1 [H2 H3]]]]]; exists bcs, ts, m1; (split; [exact H1|]; split; [|exact H3]).
  - rewrite <- H2. apply mapM_ext. intros dv. symmetry. apply bc_item_1.
  - rewrite <- H2. apply mapM_ext. intros dv. apply bc_item_1.
Qed.

Lemma safe_1 {K : CRing} g scale dofs (vals : list K) m :
  apply_safe (bc_item_block 1 g) scale dofs vals m -> apply_safe (bc_item g) scale dofs vals m.
Proof.
  intros [bcs [ts [H1 [H2 H3]]]]. exists bcs, ts. split; [exact H1|]. split; [|exact H3].
  rewrite <- H2. apply mapM_ext. intros dv. apply bc_item_1.
Qed.

Section Mul0.
Context {K : CRing}.
Add Ring Kring5 : (r_th K).
Lemma mul_0_r (x : K) : rmul x r0 = r0.
Proof. ring. Qed.
End Mul0.

(** ** Corollaries in the form stated by the properties *)
Lemma NoDup_compatible {K : CRing} (scale : K) dofs vals : NoDup dofs -> compatible scale dofs vals.
Proof.
  unfold compatible. revert vals. induction dofs as [|d l IH]; intros vals H; simpl; [constructor|].
  destruct vals as [|v vals]; [constructor|]. inversion H; subst. constructor; [|auto].
  apply Forall_forall. intros [d' w] Hin E. simpl in *. subst. exfalso.
  apply in_combine_l in Hin. contradiction.
Qed.

Lemma symmetric_needed {K : CRing} n (A : nat -> nat -> K) scale dofs vals :
  (forall d, In d dofs -> d < n) -> symmetric n A -> symmetric_where_needed n A scale dofs vals.
Proof.
  intros Hd Hs d v i Hin Hi. rewrite (Hs d i); auto. apply Hd. eapply in_combine_l; eauto.
Qed.

Lemma enforces_1 (K : CRing) (n : nat) (g : graph) (scale : K) (dofs : list nat) (vals : list K)
         (m m' : mem K) (x : nat -> K) :
    wf_graph n g ->
    length (ents m) = length (colidx g) -> length (rhs m) = n ->
    length vals = length dofs -> NoDup dofs -> (forall d, In d dofs -> d < n) ->
    symmetric n (dense 1 g (ents m)) ->
    applyConstraints g scale dofs vals m m' ->
    (solves n (dense 1 g (ents m')) (vec (rhs m')) x <->
     solves_constrained n (dense 1 g (ents m)) (vec (rhs m)) scale dofs vals x).
Proof.
  intros Hwf He Hb Hl Hnd Hd Hs H. apply apply_1 in H.
  replace n with (n * 1) by lia.
  apply (constrained_system 1 n g scale dofs vals m); auto; try lia.
  - apply NoDup_compatible. exact Hnd.
  - intros d Hin. apply Hd in Hin. lia.
  - rewrite Nat.mul_1_r. apply symmetric_needed; auto.
Qed.

Lemma block_deterministic (K : CRing) (N n : nat) (g : graph) (scale : K) (dofs : list nat) (vals : list K) (m : mem K) :
    0 < N -> wf_graph n g ->
    length (ents m) = N * N * length (colidx g) -> length (rhs m) = n * N ->
    length vals = length dofs -> compatible scale dofs vals -> (forall d, In d dofs -> d < n * N) ->
    apply_safe (bc_item_block N g) scale dofs vals m /\
    exists m', applyBlockConstraints N g scale dofs vals m m' /\
      forall m'', applyBlockConstraints N g scale dofs vals m m'' -> m'' = m'.
Proof.
  intros. split; [eapply block_safe; eauto|].
  assert (exists m', applyBlockConstraints N g scale dofs vals m m') as [m' Hm] by (eapply block_exists; eauto).
  exists m'. split; [exact Hm|]. intros m'' Hm''. eapply block_unique; eauto.
Qed.

Lemma nonblock_deterministic (K : CRing) (n : nat) (g : graph) (scale : K) (dofs : list nat) (vals : list K) (m : mem K) :
    wf_graph n g ->
    length (ents m) = length (colidx g) -> length (rhs m) = n ->
    length vals = length dofs -> compatible scale dofs vals -> (forall d, In d dofs -> d < n) ->
    apply_safe (bc_item g) scale dofs vals m /\
    exists m', applyConstraints g scale dofs vals m m' /\
      forall m'', applyConstraints g scale dofs vals m m'' -> m'' = m'.
Proof.
  intros Hwf He Hb Hl Hc Hd.
  destruct (block_deterministic K 1 n g scale dofs vals m) as [H1 [m' [H2 H3]]]; auto; try lia.
  - intros d Hin. apply Hd in Hin. lia.
  - split; [apply safe_1; exact H1|]. exists m'. split; [apply apply_1; exact H2|].
    intros m'' H. apply H3. apply apply_1. exact H.
Qed.

Lemma step_wf (K : CRing) : well_founded (fun c2 c1 : cfg K => step c1 c2).
Proof.
  apply (well_founded_lt_compat (cfg K) (fun a => weight (snd a))).
  intros a b H. apply step_weight. exact H.
Qed.

Lemma block_content (K : CRing) (N n : nat) (g : graph) (scale : K) (dofs : list nat) (vals : list K) (m m' : mem K) :
    0 < N -> wf_graph n g ->
    length (ents m) = N * N * length (colidx g) -> length (rhs m) = n * N ->
    length vals = length dofs -> compatible scale dofs vals -> (forall d, In d dofs -> d < n * N) ->
    applyBlockConstraints N g scale dofs vals m m' ->
    (forall i j, i < n * N -> j < n * N ->
       dense N g (ents m') i j =
       if constrained dofs i || constrained dofs j then (if Nat.eqb i j then r1 else r0)
       else dense N g (ents m) i j) /\
    (forall i, i < n * N ->
       vec (rhs m') i =
       match prescribed scale dofs vals i with
       | Some v => v
       | None => rsub (vec (rhs m) i)
           (lsum (map (fun dv => rmul (dense N g (ents m) (fst dv) i) (rmul scale (snd dv)))
                      (combine dofs vals)))
       end).
Proof.
  intros HN Hwf He Hb Hl Hc Hd H.
  destruct (block_result N n g scale dofs vals m HN Hwf He Hb Hl Hc Hd m' H) as [_ [_ [H1 H2]]].
  split; assumption.
Qed.

Lemma zero_values (K : CRing) (N n : nat) (g : graph) (scale : K) (dofs : list nat) (vals : list K)
         (m m' : mem K) (x : nat -> K) :
    0 < N -> wf_graph n g ->
    length (ents m) = N * N * length (colidx g) -> length (rhs m) = n * N ->
    length vals = length dofs -> (forall d, In d dofs -> d < n * N) ->
    (forall v, In v vals -> rmul scale v = r0) ->
    applyBlockConstraints N g scale dofs vals m m' ->
    (solves (n * N) (dense N g (ents m')) (vec (rhs m')) x <->
     (forall d, In d dofs -> x d = r0) /\
     (forall i, i < n * N -> ~ In i dofs -> mv (n * N) (dense N g (ents m)) x i = vec (rhs m) i)).
Proof.
  intros HN Hwf He Hb Hl Hd Hz H.
  assert (Hzz : forall d v, In (d, v) (combine dofs vals) -> rmul scale v = r0)
    by (intros d v Hin; apply Hz; eapply in_combine_r; eauto).
  assert (Hc : compatible scale dofs vals).
  { unfold compatible. clear -Hzz. induction (combine dofs vals) as [|[a v] l IH]; constructor.
    - apply Forall_forall. intros [b w] Hin _. simpl. split; eapply Hzz; [left; reflexivity|right; exact Hin].
    - apply IH. intros; eapply Hzz; right; eauto. }
  rewrite (constrained_system N n g scale dofs vals m HN Hwf He Hb Hl Hc Hd m' x); [|
    intros d v i Hin Hi; rewrite (Hzz _ _ Hin); rewrite !mul_0_r; reflexivity | exact H].
  unfold solves_constrained.
  assert (Hp : forall d v, prescribed scale dofs vals d = Some v -> v = r0 /\ In d dofs).
  { intros d v Hp. apply prescribed_some in Hp; [|exact Hl]. unfold bcs_of in Hp.
    apply in_map_iff in Hp as [[d' w] [E Hin]]. inversion E; subst. simpl.
    split; [eapply Hzz; eauto|eapply in_combine_l; eauto]. }
  split; intros [H1 H2]; split.
  - intros d Hin. destruct (prescribed scale dofs vals d) as [v|] eqn:Ep.
    + rewrite (H1 d v Ep). apply (Hp d v Ep).
    + apply prescribed_none in Ep; [|exact Hl]. apply constrained_in in Hin. congruence.
  - intros i Hi Hn. apply H2; [exact Hi|]. destruct (constrained dofs i) eqn:E; [|reflexivity].
    apply constrained_in in E. contradiction.
  - intros d v Ep. destruct (Hp d v Ep) as [-> Hin]. apply H1. exact Hin.
  - intros i Hi Hc'. apply H2; [exact Hi|]. intros Hin. apply constrained_in in Hin. congruence.
Qed.
