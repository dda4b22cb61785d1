(** Proofs about the batched dense algebra. *)
From Coq Require Import Arith Lia List Bool Permutation Ring Ascii.
From Verif Require Import Base.Field Base.Sums Base.ListUpd Base.Res Base.Loops Blas.View Blas.BlasModel Blas.BlasSpec.
Import ListNotations.

Section Generic.
Context {A : Type}.

Lemma cell_loop sched n (body : nat -> view A -> res (view A)) (P : nat -> list nat -> Prop) (F : list nat -> A -> A) v :
  fair sched ->
  (forall c v1, c < n -> extents v1 = extents v -> exists v2, body c v1 = Ok v2 /\ changed v1 v2 (P c) F) ->
  (forall c c' j, P c j -> P c' j -> c = c') ->
  exists v', foldR body (sched n) v = Ok v' /\ changed v v' (fun j => exists c, c < n /\ P c j) F.
Proof.
  intros Hf Hb Hd.
  destruct (foldR_inv body (fun l v' => extents v' = extents v /\
     (forall j c, In c l -> P c j -> content v' j = F j (content v j)) /\
     (forall j, (forall c, In c l -> ~ P c j) -> content v' j = content v j)) (sched n) v) as [v' [E [H1 [H2 H3]]]].
  - repeat split; auto; contradiction.
  - intros l1 c l2 v1 El [H1 [H2 H3]].
    assert (Hc : c < n). { apply (fair_in sched n c Hf). rewrite El. apply in_or_app. right. left. reflexivity. }
    destruct (Hb c v1 Hc H1) as [v2 [E2 [G1 [G2 G3]]]]. exists v2. split; [exact E2|].
    split; [congruence|].
    assert (Hn : ~ In c l1).
    { pose proof (fair_nodup sched n Hf) as ND. rewrite El in ND. apply NoDup_remove_2 in ND.
      intros H. apply ND. apply in_or_app. left. exact H. }
    split.
    + intros j c' Hin HP. apply in_app_iff in Hin as [Hin|[<-|[]]].
      * rewrite G3; [apply (H2 j c' Hin HP)|]. intros HP'. apply Hn. rewrite (Hd c c' j HP' HP). exact Hin.
      * rewrite G2 by exact HP. rewrite H3; [reflexivity|]. intros c' Hin HP'. apply Hn. rewrite (Hd c c' j HP HP'). exact Hin.
    + intros j Hj. rewrite G3.
      * apply H3. intros c' Hin. apply Hj. apply in_or_app. left. exact Hin.
      * apply Hj. apply in_or_app. right. left. reflexivity.
  - exists v'. split; [exact E|]. split; [exact H1|]. split.
    + intros j [c [Hc HP]]. apply (H2 j c); [apply (fair_in sched n c Hf), Hc|exact HP].
    + intros j Hj. apply H3. intros c Hc HP. apply Hj. exists c. split; [apply (fair_in sched n c Hf), Hc|exact HP].
Qed.

Lemma fold_unique {I} (idx : I -> list nat) (h : I -> A -> A) l i x :
  In i l -> NoDup (map idx l) ->
  fold_left (fun x k => if idx_eqb (idx i) (idx k) then h k x else x) l x = h i x.
Proof.
  revert x. induction l as [|k l IH]; intros x Hi Hn; [contradiction|]. simpl in Hn. inversion Hn as [|? ? Hk Hn']; subst.
  simpl. destruct Hi as [->|Hi].
  - destruct (idx_eqb_spec (idx i) (idx i)) as [_|C]; [|congruence]. apply fold_skip.
    intros k' Hk' E. apply Hk. rewrite <- E. apply in_map. exact Hk'.
  - destruct (idx_eqb_spec (idx i) (idx k)) as [E|_]; [|apply IH; assumption].
    exfalso. apply Hk. rewrite <- E. apply in_map. exact Hi.
Qed.

Lemma vset_modify (v : view A) idx x : vset v idx x = vmodify v idx (fun _ => Ok x).
Proof. unfold vmodify, vset, vget. destruct (in_bounds (extents v) idx); reflexivity. Qed.

(** A loop that replaces each of the listed (distinct) entries once. *)
Lemma replace_loop {I} (idx : I -> list nat) (g : I -> A -> res A) (F : list nat -> A -> A) l v :
  (forall i, In i l -> in_bounds (extents v) (idx i) = true) ->
  (forall i x, In i l -> g i x = Ok (F (idx i) x)) ->
  NoDup (map idx l) ->
  exists v', foldR (fun i v => vmodify v (idx i) (g i)) l v = Ok v' /\ changed v v' (fun j => In j (map idx l)) F.
Proof.
  intros Hb Hg Hn. destruct (modify_loop idx g (fun i => F (idx i)) l v Hb Hg) as [v' [E [He Hc]]].
  exists v'. split; [exact E|]. split; [exact He|]. split; intros j Hj; rewrite Hc.
  - apply in_map_iff in Hj as [i [<- Hi]]. apply (fold_unique idx (fun i => F (idx i))); assumption.
  - apply fold_skip. intros i Hi Ej. apply Hj. rewrite <- Ej. apply in_map. exact Hi.
Qed.

Lemma nodup_map_inj {I} (idx : I -> list nat) l : NoDup l -> (forall a b, idx a = idx b -> a = b) -> NoDup (map idx l).
Proof.
  intros Hn Hi. induction Hn as [|a l Ha Hn IH]; simpl; constructor; [|exact IH].
  intros H. apply in_map_iff in H as [b [E Hb]]. apply Hi in E. subst. contradiction.
Qed.

Lemma NoDup_app_intro {X} (l l' : list X) : NoDup l -> NoDup l' -> (forall x, In x l -> In x l' -> False) -> NoDup (l ++ l').
Proof.
  intros H H' Hd. induction H as [|a l Ha H IH]; simpl; [exact H'|]. constructor.
  - intros Hin. apply in_app_iff in Hin as [Hin|Hin]; [contradiction|]. apply (Hd a); [left; reflexivity|exact Hin].
  - apply IH. intros x Hx. apply Hd. right. exact Hx.
Qed.

Lemma nodup_prod {X Y} (l : list X) (l' : list Y) : NoDup l -> NoDup l' -> NoDup (list_prod l l').
Proof.
  intros H H'. induction H as [|a l Ha H IH]; simpl; [constructor|].
  apply NoDup_app_intro.
  - clear -H'. induction H' as [|b l' Hb H' IH]; simpl; constructor; [|exact IH].
    intros Hin. apply in_map_iff in Hin as [c [E Hc]]. inversion E; subst. contradiction.
  - exact IH.
  - intros [x y] H1 H2. apply in_map_iff in H1 as [b [E _]]. inversion E; subst. apply in_prod_iff in H2 as [H2 _]. contradiction.
Qed.
End Generic.

(** Extents of matching arguments. *)
Section K.
Context {K : CRing}.
Add Ring KringBlas : (r_th K).
Local Open Scope K_scope.
Notation vw := (view K).

Lemma fold_additive {I} (cond : I -> bool) (f : I -> K) l : forall x,
  fold_left (fun x i => if cond i then x + f i else x) l x = x + lsum (map (fun i => if cond i then f i else 0) l).
Proof.
  induction l as [|i l IH]; intros x; simpl; [ring|]. rewrite IH. destruct (cond i); ring.
Qed.

(** A loop that adds to entries, the same entry being possibly hit several times. *)
Lemma additive_loop {I} (idx : I -> list nat) (g : I -> K -> res K) (f : I -> K) l (v : vw) :
  (forall i, In i l -> in_bounds (extents v) (idx i) = true) ->
  (forall i x, In i l -> g i x = Ok (x + f i)) ->
  exists v', foldR (fun i v => vmodify v (idx i) (g i)) l v = Ok v' /\ extents v' = extents v /\
    forall j, content v' j = content v j + lsum (map (fun i => if idx_eqb j (idx i) then f i else 0) l).
Proof.
  intros Hb Hg. destruct (modify_loop idx g (fun i x => x + f i) l v Hb Hg) as [v' [E [He Hc]]].
  exists v'. split; [exact E|]. split; [exact He|]. intros j. rewrite Hc. apply fold_additive.
Qed.

Lemma lsum_prod (f : nat -> nat -> K) n m :
  lsum (map (fun rk : nat * nat => f (fst rk) (snd rk)) (list_prod (seq 0 n) (seq 0 m))) = sum n (fun r => sum m (fun k => f r k)).
Proof.
  rewrite <- lsum_map_seq. generalize (seq 0 n) as l. induction l as [|r l IH]; simpl; [reflexivity|].
  rewrite map_app, lsum_app, IH, map_map. simpl. f_equal. rewrite lsum_map_seq. reflexivity.
Qed.

Lemma in_bounds1 n i : (i < n)%nat -> in_bounds [n] [i] = true.
Proof. intros H. simpl. rewrite andb_true_r. apply Nat.ltb_lt. exact H. Qed.
Lemma in_bounds2 n m i j : (i < n)%nat -> (j < m)%nat -> in_bounds [n; m] [i; j] = true.
Proof. intros H1 H2. simpl. rewrite andb_true_r. apply andb_true_intro. split; apply Nat.ltb_lt; assumption. Qed.
Lemma in_bounds3 n m p i j k : (i < n)%nat -> (j < m)%nat -> (k < p)%nat -> in_bounds [n; m; p] [i; j; k] = true.
Proof. intros H1 H2 H3. simpl. rewrite andb_true_r. repeat (apply andb_true_intro; split); apply Nat.ltb_lt; assumption. Qed.

Lemma vget1 {A} (v : view A) n i : extents v = [n] -> (i < n)%nat -> vget v [i] = Ok (content v [i]).
Proof. intros E H. unfold vget. rewrite E, in_bounds1 by exact H. reflexivity. Qed.
Lemma vget2 {A} (v : view A) n m i j : extents v = [n; m] -> (i < n)%nat -> (j < m)%nat -> vget v [i; j] = Ok (content v [i; j]).
Proof. intros E H1 H2. unfold vget. rewrite E, in_bounds2 by assumption. reflexivity. Qed.
Lemma vget3 {A} (v : view A) n m p i j k : extents v = [n; m; p] -> (i < n)%nat -> (j < m)%nat -> (k < p)%nat ->
  vget v [i; j; k] = Ok (content v [i; j; k]).
Proof. intros E H1 H2 H3. unfold vget. rewrite E, in_bounds3 by assumption. reflexivity. Qed.

Lemma vsize1 {A} (v : view A) n : extents v = [n] -> vsize v = n.
Proof. intros E. unfold vsize. rewrite E. simpl. lia. Qed.
Lemma nonempty2 {A} (v : view A) n m : extents v = [n; m] -> (0 < n)%nat -> (0 < m)%nat -> Nat.eqb (vsize v) 0 = false.
Proof. intros E H1 H2. apply Nat.eqb_neq. unfold vsize. rewrite E. simpl. nia. Qed.
Lemma nonempty3 {A} (v : view A) n m p : extents v = [n; m; p] -> (0 < n)%nat -> (0 < m)%nat -> (0 < p)%nat -> Nat.eqb (vsize v) 0 = false.
Proof.
  intros E H1 H2 H3. apply Nat.eqb_neq. unfold vsize. rewrite E. simpl. assert (0 < m * p)%nat by nia. nia.
Qed.

(** *** vectors *)
Lemma vec_loop sched n (g : nat -> K -> res K) (F : nat -> K -> K) (v : vw) :
  fair sched -> extents v = [n] -> (forall i x, (i < n)%nat -> g i x = Ok (F i x)) ->
  exists v', foldR (fun i v => vmodify v [i] (g i)) (sched n) v = Ok v' /\ extents v' = [n] /\
    forall i, (i < n)%nat -> content v' [i] = F i (content v [i]).
Proof.
  intros Hf E Hg.
  destruct (cell_loop sched n (fun i v => vmodify v [i] (g i)) (fun i j => j = [i]) (fun j => F (hd 0%nat j)) v Hf) as [v' [E' [H1 [H2 H3]]]].
  - intros c v1 Hc E1. unfold vmodify, vget, vset. rewrite E1, E, in_bounds1 by exact Hc. cbn [rbind].
    rewrite Hg by exact Hc. cbn [rbind]. eexists. split; [reflexivity|]. split; [simpl; congruence|].
    split; intros j Hj; simpl; destruct (idx_eqb_spec j [c]) as [Ej|Ej]; try congruence. subst. reflexivity.
  - intros c c' j -> Ej. congruence.
  - exists v'. split; [exact E'|]. split; [congruence|]. intros i Hi. rewrite H2; [reflexivity|]. exists i. auto.
Qed.

Lemma differ_refl n : negb (Nat.eqb n n) = false.
Proof. rewrite Nat.eqb_refl. reflexivity. Qed.

Lemma fill1_ok sched (x : K) v n : fair sched -> extents v = [n] -> (0 < n)%nat ->
  exists v', fill1 sched x v = Ok v' /\ extents v' = [n] /\ forall i, (i < n)%nat -> content v' [i] = x.
Proof.
  intros Hf E Hn. unfold fill1, guard. rewrite (vsize1 v n E).
  destruct (Nat.eqb_spec n 0%nat) as [C|_]; [lia|].
  destruct (vec_loop sched n (fun _ _ => Ok x) (fun _ _ => x) v Hf E) as [v' [E' H]]; [reflexivity|].
  exists v'. split; [|exact H]. rewrite <- E'. apply foldR_ext_in. intros i s _. apply vset_modify.
Qed.

Lemma copy1_ok sched (inp out : vw) n : fair sched -> extents inp = [n] -> extents out = [n] ->
  exists v', copy1 sched inp out = Ok v' /\ extents v' = [n] /\ forall i, (i < n)%nat -> content v' [i] = content inp [i].
Proof.
  intros Hf E1 E2. unfold copy1, guard. rewrite (vsize1 inp n E1), (vsize1 out n E2), differ_refl.
  destruct (vec_loop sched n (fun i _ => vget inp [i]) (fun i _ => content inp [i]) out Hf E2) as [v' [E' H]].
  { intros i x Hi. apply (vget1 inp n); assumption. }
  exists v'. split; [|exact H]. rewrite <- E'. apply foldR_ext_in. intros i s Hi.
  apply (fair_in sched n i Hf) in Hi. rewrite (vget1 inp n) by assumption. cbn [rbind]. rewrite vset_modify.
  reflexivity.
Qed.

Lemma scale1_ok sched (a : K) v n : fair sched -> extents v = [n] -> (0 < n)%nat ->
  exists v', scale1 sched a v = Ok v' /\ extents v' = [n] /\ forall i, (i < n)%nat -> content v' [i] = a * content v [i].
Proof.
  intros Hf E Hn. unfold scale1, guard. rewrite (vsize1 v n E). destruct (Nat.eqb_spec n 0%nat) as [C|_]; [lia|].
  destruct (vec_loop sched n (fun _ x => Ok (x * a)) (fun _ x => a * x) v Hf E) as [v' [E' H]].
  { intros i x _. f_equal. ring. }
  exists v'. split; assumption.
Qed.

Lemma axpy1_ok sched (a : K) (inp out : vw) n : fair sched -> extents inp = [n] -> extents out = [n] ->
  exists v', axpy1 sched a inp out = Ok v' /\ extents v' = [n] /\
    forall i, (i < n)%nat -> content v' [i] = a * content inp [i] + content out [i].
Proof.
  intros Hf E1 E2. unfold axpy1, guard. rewrite (vsize1 inp n E1), (vsize1 out n E2), differ_refl.
  apply (vec_loop sched n (fun i y => let! x := vget inp [i] in Ok (y + a * x)) (fun i y => a * content inp [i] + y) out Hf E2).
  intros i x Hi. rewrite (vget1 inp n) by assumption. cbn [rbind]. f_equal. ring.
Qed.

Lemma update1_ok sched (a b : K) (inp out : vw) n : fair sched -> extents inp = [n] -> extents out = [n] ->
  exists v', update1 sched a inp b out = Ok v' /\ extents v' = [n] /\
    forall i, (i < n)%nat -> content v' [i] = a * content inp [i] + b * content out [i].
Proof.
  intros Hf E1 E2. unfold update1, guard. rewrite (vsize1 inp n E1), (vsize1 out n E2), differ_refl.
  apply (vec_loop sched n (fun i y => let! x := vget inp [i] in Ok (a * x + b * y)) (fun i y => a * content inp [i] + b * y) out Hf E2).
  intros i x Hi. rewrite (vget1 inp n) by assumption. reflexivity.
Qed.

Lemma reduce_ok sched n (g : nat -> res K) (f : nat -> K) : fair sched -> (forall i, (i < n)%nat -> g i = Ok (f i)) ->
  foldR (fun i s => let! x := g i in Ok (s + x)) (sched n) 0 = Ok (sum n f).
Proof.
  intros Hf Hg. rewrite (foldR_ext_in _ (fun i s => Ok (s + f i))).
  - rewrite foldR_accum, (lsum_fair sched n f Hf). f_equal. ring.
  - intros i s Hi. apply (fair_in sched n i Hf) in Hi. rewrite Hg by exact Hi. reflexivity.
Qed.

Lemma dot1_ok sched (v1 v2 : vw) n : fair sched -> extents v1 = [n] -> extents v2 = [n] ->
  dot1 sched v1 v2 = Ok (sum n (fun i => content v1 [i] * content v2 [i])).
Proof.
  intros Hf E1 E2. unfold dot1, guard. rewrite (vsize1 v1 n E1), (vsize1 v2 n E2), differ_refl.
  rewrite <- (reduce_ok sched n (fun i => let! a := vget v1 [i] in let! b := vget v2 [i] in Ok (a * b)) _ Hf).
  - apply foldR_ext_in. intros i s _. destruct (vget v1 [i]); [|reflexivity|reflexivity]. cbn [rbind].
    destruct (vget v2 [i]); reflexivity.
  - intros i Hi. rewrite (vget1 v1 n), (vget1 v2 n) by assumption. reflexivity.
Qed.

Lemma local_sum_ok sched (v : vw) n : fair sched -> extents v = [n] -> (0 < n)%nat ->
  local_sum sched v = Ok (sum n (fun i => content v [i])).
Proof.
  intros Hf E Hn. unfold local_sum, guard. rewrite (vsize1 v n E). destruct (Nat.eqb_spec n 0%nat) as [C|_]; [lia|].
  apply (reduce_ok sched n (fun i => vget v [i])); [exact Hf|]. intros i Hi. apply (vget1 v n); assumption.
Qed.

Lemma extract1_ok stride offset sched (from to : vw) n m : fair sched -> extents from = [m] -> extents to = [n] ->
  (0 < n)%nat -> ((n - 1) * stride + offset < m)%nat ->
  exists v', extract1 stride offset sched from to = Ok v' /\ extents v' = [n] /\
    forall i, (i < n)%nat -> content v' [i] = content from [(i * stride + offset)%nat].
Proof.
  intros Hf E1 E2 Hn Hm. unfold extract1, guard, extent. rewrite (vsize1 from m E1), (vsize1 to n E2), E2. cbn [nth].
  destruct (Nat.eqb_spec m 0%nat) as [C|_]; [subst m; inversion Hm|]. destruct (Nat.eqb_spec n 0%nat) as [C|_]; [lia|].
  assert (Hb : forall i, (i < n)%nat -> (i * stride + offset < m)%nat) by (intros i Hi; pose proof (Nat.mul_le_mono_r i (n - 1) stride ltac:(lia)); lia).
  destruct (vec_loop sched n (fun i _ => vget from [(i * stride + offset)%nat]) (fun i _ => content from [(i * stride + offset)%nat]) to Hf E2) as [v' [E' H]].
  { intros i x Hi. apply (vget1 from m); auto. }
  exists v'. split; [|exact H]. rewrite <- E'. apply foldR_ext_in. intros i s Hi.
  apply (fair_in sched n i Hf) in Hi. rewrite (vget1 from m) by auto. cbn [rbind]. rewrite vset_modify. reflexivity.
Qed.

(** *** worksets *)

Lemma changed_ext {A} (v v' : view A) (P Q : list nat -> Prop) F :
  (forall j, P j <-> Q j) -> changed v v' P F -> changed v v' Q F.
Proof. intros H [H1 [H2 H3]]. split; [exact H1|]. split; intros j Hj; [apply H2|apply H3]; rewrite H; exact Hj. Qed.

Lemma changed_trans {A} (v v1 v2 : view A) (P : list nat -> Prop) F G :
  changed v v1 P F -> changed v1 v2 P G -> changed v v2 P (fun j x => G j (F j x)).
Proof.
  intros [H1 [H2 H3]] [G1 [G2 G3]]. split; [congruence|]. split; intros j Hj.
  - rewrite G2, H2 by exact Hj. reflexivity.
  - rewrite G3, H3 by exact Hj. reflexivity.
Qed.

Lemma row_loop2 (n M R : nat) c (pos : nat -> nat) (g : nat -> K -> res K) (F : list nat -> K -> K) (v : vw) :
  extents v = [n; M] -> (c < n)%nat -> (forall i, (i < R)%nat -> (pos i < M)%nat) -> (forall i k, pos i = pos k -> i = k) ->
  (forall i x, (i < R)%nat -> g i x = Ok (F [c; pos i] x)) ->
  exists v', foldR (fun i v => vmodify v [c; pos i] (g i)) (seq 0 R) v = Ok v' /\
    changed v v' (fun j => exists i, (i < R)%nat /\ j = [c; pos i]) F.
Proof.
  intros E Hc Hp Hinj Hg.
  destruct (replace_loop (fun i => [c; pos i]) g F (seq 0 R) v) as [v' [E' H]].
  - intros i Hi. apply in_seq in Hi. rewrite E. apply in_bounds2; [exact Hc|]. apply Hp. lia.
  - intros i x Hi. apply in_seq in Hi. apply Hg. lia.
  - apply nodup_map_inj; [apply seq_NoDup|]. intros a b Eab. inversion Eab as [Eb]. apply Hinj. exact Eb.
  - exists v'. split; [exact E'|]. apply (changed_ext _ _ _ _ _) with (2 := H). intros j. rewrite in_map_iff. split.
    + intros [i [<- Hi]]. apply in_seq in Hi. exists i. split; [lia|reflexivity].
    + intros [i [Hi ->]]. exists i. split; [reflexivity|]. apply in_seq. lia.
Qed.

Lemma block_loop3 (n M P R C : nat) c (g : nat * nat -> K -> res K) (F : list nat -> K -> K) (v : vw) :
  extents v = [n; M; P] -> (c < n)%nat -> (R <= M)%nat -> (C <= P)%nat ->
  (forall r k x, (r < R)%nat -> (k < C)%nat -> g (r, k) x = Ok (F [c; r; k] x)) ->
  exists v', foldR (fun rk v => vmodify v [c; fst rk; snd rk] (g rk)) (list_prod (seq 0 R) (seq 0 C)) v = Ok v' /\
    changed v v' (fun j => exists r k, (r < R)%nat /\ (k < C)%nat /\ j = [c; r; k]) F.
Proof.
  intros E Hc HR HC Hg.
  assert (Hin : forall rk, In rk (list_prod (seq 0 R) (seq 0 C)) <-> (fst rk < R)%nat /\ (snd rk < C)%nat).
  { intros [r k]. rewrite in_prod_iff, !in_seq. simpl. lia. }
  destruct (replace_loop (fun rk => [c; fst rk; snd rk]) g F (list_prod (seq 0 R) (seq 0 C)) v) as [v' [E' H]].
  - intros rk Hi. apply Hin in Hi. rewrite E. apply in_bounds3; [exact Hc|lia|lia].
  - intros [r k] x Hi. apply Hin in Hi. apply Hg; apply Hi.
  - apply nodup_map_inj; [apply nodup_prod; apply seq_NoDup|]. intros [r k] [r' k'] Eab. simpl in Eab. congruence.
  - exists v'. split; [exact E'|]. apply (changed_ext _ _ _ _ _) with (2 := H). intros j. rewrite in_map_iff. split.
    + intros [[r k] [<- Hi]]. apply Hin in Hi. exists r, k. simpl in *. tauto.
    + intros [r [k [Hr [Hk ->]]]]. exists (r, k). split; [reflexivity|]. apply Hin. auto.
Qed.

Lemma ws2_loop sched n M R (g : nat -> nat -> K -> res K) (F : list nat -> K -> K) (v : vw) (body : nat -> vw -> res vw) :
  fair sched -> extents v = [n; M] -> (R <= M)%nat ->
  (forall c v1, (c < n)%nat -> extents v1 = [n; M] -> exists v2, body c v1 = Ok v2 /\
     changed v1 v2 (fun j => exists i, (i < R)%nat /\ j = [c; i]) F) ->
  exists v', foldR body (sched n) v = Ok v' /\ changed v v' (at2 n R) F.
Proof.
  intros Hf E HR Hb.
  destruct (cell_loop sched n body (fun c j => exists i, (i < R)%nat /\ j = [c; i]) F v Hf) as [v' [E' H]].
  - intros c v1 Hc E1. apply Hb; [exact Hc|congruence].
  - intros c c' j [i [_ ->]] [i' [_ Ej]]. congruence.
  - exists v'. split; [exact E'|]. apply (changed_ext _ _ _ _ _) with (2 := H). intros j. unfold at2. split.
    + intros [c [Hc [i [Hi ->]]]]. eauto.
    + intros [c [i [Hc [Hi ->]]]]. eauto.
Qed.

Lemma ws3_loop sched n0 n M P R C (F : list nat -> K -> K) (v : vw) (body : nat -> vw -> res vw) :
  fair sched -> extents v = [n0; M; P] ->
  (forall c v1, (c < n)%nat -> extents v1 = [n0; M; P] -> exists v2, body c v1 = Ok v2 /\
     changed v1 v2 (fun j => exists r k, (r < R)%nat /\ (k < C)%nat /\ j = [c; r; k]) F) ->
  exists v', foldR body (sched n) v = Ok v' /\ changed v v' (at3 n R C) F.
Proof.
  intros Hf E Hb.
  destruct (cell_loop sched n body (fun c j => exists r k, (r < R)%nat /\ (k < C)%nat /\ j = [c; r; k]) F v Hf) as [v' [E' H]].
  - intros c v1 Hc E1. apply Hb; [exact Hc|congruence].
  - intros c c' j [r [k [_ [_ ->]]]] [r' [k' [_ [_ Ej]]]]. congruence.
  - exists v'. split; [exact E'|]. apply (changed_ext _ _ _ _ _) with (2 := H). intros j. unfold at3. split.
    + intros [c [Hc [r [k [Hr [Hk ->]]]]]]. exists c, r, k. auto.
    + intros [c [r [k [Hc [Hr [Hk ->]]]]]]. eauto 10.
Qed.


Lemma fill2_ok sched (a : K) x n M : fair sched -> extents x = [n; M] -> (0 < n)%nat -> (0 < M)%nat ->
  exists x', fill2 sched a x = Ok x' /\ changed x x' (at2 n M) (fun _ _ => a).
Proof.
  intros Hf E Hn HM. unfold fill2, guard. rewrite (nonempty2 x n M) by assumption. unfold extent at 2. rewrite E. cbn [nth].
  apply (ws2_loop sched n M M (fun _ _ x => Ok x)); [exact Hf|exact E|lia|]. intros c v1 Hc E1. unfold extent. rewrite E1. cbn [nth].
  destruct (row_loop2 n M M c (fun i => i) (fun _ _ => Ok a) (fun _ _ => a) v1 E1 Hc) as [v2 [E2 H]]; auto.
  exists v2. split; [|exact H]. rewrite <- E2. apply foldR_ext_in. intros. apply vset_modify.
Qed.

Lemma scale2_ok sched (a : K) x n M : fair sched -> extents x = [n; M] -> (0 < n)%nat -> (0 < M)%nat ->
  exists x', scale2 sched a x = Ok x' /\ changed x x' (at2 n M) (fun _ e => a * e).
Proof.
  intros Hf E Hn HM. unfold scale2, guard. rewrite (nonempty2 x n M) by assumption. unfold extent. rewrite E. cbn [nth].
  apply (ws2_loop sched n M M (fun _ _ x => Ok x)); [exact Hf|exact E|lia|]. intros c v1 Hc E1.
  apply (row_loop2 n M M c (fun i => i)); auto.
Qed.

Lemma update2_ok sched (a b : K) x y n M : fair sched -> extents x = [n; M] -> extents y = [n; M] ->
  exists y', update2 sched a x b y = Ok y' /\ changed y y' (at2 n M) (fun j e => a * content x j + b * e).
Proof.
  intros Hf E Ey. unfold update2, guard, extent. rewrite E, Ey. cbn [nth]. rewrite !differ_refl.
  apply (ws2_loop sched n M M (fun _ _ x => Ok x)); [exact Hf|exact Ey|lia|]. intros c v1 Hc E1.
  apply (row_loop2 n M M c (fun i => i)); auto. intros i e Hi. rewrite (vget2 x n M) by assumption. reflexivity.
Qed.

Lemma axpy2_ok D off sched (a : K) inp out n M MO : fair sched -> extents inp = [n; M] -> extents out = [n; MO] ->
  (0 < n)%nat -> (0 < M)%nat -> (off < D)%nat -> (D * M <= MO)%nat ->
  exists out', axpy2 D off sched a inp out = Ok out' /\ extents out' = extents out /\
    (forall c i, (c < n)%nat -> (i < M)%nat -> content out' [c; (D * i + off)%nat] = a * content out [c; (D * i + off)%nat] + content inp [c; i]) /\
    (forall j, (forall c i, (c < n)%nat -> (i < M)%nat -> j <> [c; (D * i + off)%nat]) -> content out' j = content out j).
Proof.
  intros Hf E Eo Hn HM Hoff HMO. unfold axpy2, guard.
  assert (0 < MO)%nat by nia.
  rewrite (nonempty2 out n MO), (nonempty2 inp n M) by assumption. unfold extent. rewrite E, Eo. cbn [nth]. rewrite differ_refl.
  destruct (cell_loop sched n
    (fun c out => foldR (fun i out => vmodify out [c; (D * i + off)%nat] (fun e => let! f := vget inp [c; i] in Ok (a * e + f))) (seq 0 M) out)
    (fun c j => exists i, (i < M)%nat /\ j = [c; (D * i + off)%nat])
    (fun j e => a * e + content inp [e0 j; (e1 j / D)%nat]) out Hf) as [out' [E' [H1 [H2 H3]]]].
  - intros c v1 Hc E1. rewrite Eo in E1. apply (row_loop2 n MO M c (fun i => (D * i + off)%nat)); auto.
    + intros i Hi. nia.
    + intros i k Hik. nia.
    + intros i e Hi. rewrite (vget2 inp n M) by assumption. cbn [rbind nth]. repeat f_equal.
      rewrite Nat.mul_comm, Nat.div_add_l, (Nat.div_small off D) by lia. lia.
  - intros c c' j [i [_ ->]] [i' [_ Ej]]. congruence.
  - exists out'. split; [exact E'|]. split; [congruence|]. split.
    + intros c i Hc Hi. rewrite H2 by eauto. cbn [nth]. repeat f_equal.
      rewrite Nat.mul_comm, Nat.div_add_l, (Nat.div_small off D) by lia. lia.
    + intros j Hj. apply H3. intros [c [Hc [i [Hi ->]]]]. apply (Hj c i Hc Hi eq_refl).
Qed.

(** The accumulation stage of matrix_times_vector. *)
Lemma lsum_pick R C r0' (f : nat -> nat -> K) c : (r0' < R)%nat ->
  lsum (map (fun rk : nat * nat => if idx_eqb [c; r0'] [c; fst rk] then f (fst rk) (snd rk) else 0) (list_prod (seq 0 R) (seq 0 C))) =
  sum C (fun k => f r0' k).
Proof.
  intros Hr. rewrite (lsum_prod (fun r k => if idx_eqb [c; r0'] [c; r] then f r k else 0)).
  rewrite (sum_single R r0' _ Hr).
  - apply sum_ext. intros k _. destruct (idx_eqb_spec [c; r0'] [c; r0']); congruence.
  - intros r _ Hne. apply sum_0. intros k _. destruct (idx_eqb_spec [c; r0'] [c; r]); congruence.
Qed.
Lemma lsum_pick_col R C k0 (f : nat -> nat -> K) c : (k0 < C)%nat ->
  lsum (map (fun rk : nat * nat => if idx_eqb [c; k0] [c; snd rk] then f (fst rk) (snd rk) else 0) (list_prod (seq 0 R) (seq 0 C))) =
  sum R (fun r => f r k0).
Proof.
  intros Hk. rewrite (lsum_prod (fun r k => if idx_eqb [c; k0] [c; k] then f r k else 0)).
  apply sum_ext. intros r _. rewrite (sum_single C k0 _ Hk).
  - destruct (idx_eqb_spec [c; k0] [c; k0]); congruence.
  - intros k _ Hne. destruct (idx_eqb_spec [c; k0] [c; k]); congruence.
Qed.

Lemma mtv_N_ok sched t (a b : K) A x y n R C X Y : fair sched -> is_N t = true ->
  extents A = [n; R; C] -> extents x = [n; X] -> extents y = [n; Y] ->
  (0 < n)%nat -> (0 < R)%nat -> (0 < C)%nat -> (C <= X)%nat -> (R <= Y)%nat ->
  exists y', matrix_times_vector sched t a A x b y = Ok y' /\
    changed y y' (at2 n R) (fun j e => b * e + sum C (fun k => a * content A [e0 j; e1 j; k] * content x [e0 j; k])).
Proof.
  intros Hf Ht EA Ex Ey Hn HR HC HX HY. unfold matrix_times_vector, guard.
  rewrite (nonempty3 A n R C), (nonempty2 x n X), (nonempty2 y n Y) by (assumption || lia).
  unfold extent. rewrite EA, Ex, Ey. cbn [nth]. rewrite !differ_refl, Ht. cbn [orb negb].
  apply (ws2_loop sched n Y R (fun _ _ x => Ok x)); [exact Hf|exact Ey|exact HY|]. intros c v1 Hc E1.
  destruct (row_loop2 n Y R c (fun i => i) (fun _ e => Ok (b * e)) (fun _ e => b * e) v1 E1 Hc) as [v2 [E2 [H1 [H2 H3]]]]; auto.
  { intros; lia. }
  rewrite E2. cbn [rbind].
  destruct (additive_loop (fun rk : nat * nat => [c; fst rk])
     (fun rk e => let! m := vget A [c; fst rk; snd rk] in let! f := vget x [c; snd rk] in Ok (e + a * m * f))
     (fun rk => a * content A [c; fst rk; snd rk] * content x [c; snd rk]) (list_prod (seq 0 R) (seq 0 C)) v2) as [v3 [E3 [G1 G2]]].
  - intros [r k] Hi. apply in_prod_iff in Hi as [Hr Hk]. apply in_seq in Hr, Hk. rewrite H1, E1. apply in_bounds2; simpl; lia.
  - intros [r k] e Hi. apply in_prod_iff in Hi as [Hr Hk]. apply in_seq in Hr, Hk. cbn [fst snd].
    rewrite (vget3 A n R C), (vget2 x n X) by lia || assumption. reflexivity.
  - exists v3. split; [exact E3|]. split; [congruence|]. split.
    + intros j [i [Hi ->]]. rewrite G2, H2 by eauto. cbn [nth]. f_equal.
      apply (lsum_pick R C i (fun r k => a * content A [c; r; k] * content x [c; k]) c Hi).
    + intros j Hj. rewrite G2, H3 by exact Hj. rewrite lsum_map_0; [ring|]. intros [r k] Hi.
      apply in_prod_iff in Hi as [Hr Hk]. apply in_seq in Hr. cbn [fst snd].
      destruct (idx_eqb_spec j [c; r]) as [->|_]; [|reflexivity]. exfalso. apply Hj. exists r. split; [lia|reflexivity].
Qed.

Lemma mtv_T_ok sched t (a b : K) A x y n R C X Y : fair sched -> is_N t = false -> is_T t = true ->
  extents A = [n; R; C] -> extents x = [n; X] -> extents y = [n; Y] ->
  (0 < n)%nat -> (0 < R)%nat -> (0 < C)%nat -> (R <= X)%nat -> (C <= Y)%nat ->
  exists y', matrix_times_vector sched t a A x b y = Ok y' /\
    changed y y' (at2 n C) (fun j e => b * e + sum R (fun r => a * content A [e0 j; r; e1 j] * content x [e0 j; r])).
Proof.
  intros Hf Ht Ht' EA Ex Ey Hn HR HC HX HY. unfold matrix_times_vector, guard.
  rewrite (nonempty3 A n R C), (nonempty2 x n X), (nonempty2 y n Y) by (assumption || lia).
  unfold extent. rewrite EA, Ex, Ey. cbn [nth]. rewrite !differ_refl, Ht, Ht'. cbn [orb negb].
  apply (ws2_loop sched n Y C (fun _ _ x => Ok x)); [exact Hf|exact Ey|exact HY|]. intros c v1 Hc E1.
  destruct (row_loop2 n Y C c (fun i => i) (fun _ e => Ok (b * e)) (fun _ e => b * e) v1 E1 Hc) as [v2 [E2 [H1 [H2 H3]]]]; auto.
  { intros; lia. }
  rewrite E2. cbn [rbind].
  destruct (additive_loop (fun rk : nat * nat => [c; snd rk])
     (fun rk e => let! m := vget A [c; fst rk; snd rk] in let! f := vget x [c; fst rk] in Ok (e + a * m * f))
     (fun rk => a * content A [c; fst rk; snd rk] * content x [c; fst rk]) (list_prod (seq 0 R) (seq 0 C)) v2) as [v3 [E3 [G1 G2]]].
  - intros [r k] Hi. apply in_prod_iff in Hi as [Hr Hk]. apply in_seq in Hr, Hk. rewrite H1, E1. apply in_bounds2; simpl; lia.
  - intros [r k] e Hi. apply in_prod_iff in Hi as [Hr Hk]. apply in_seq in Hr, Hk. cbn [fst snd].
    rewrite (vget3 A n R C), (vget2 x n X) by lia || assumption. reflexivity.
  - exists v3. split; [exact E3|]. split; [congruence|]. split.
    + intros j [i [Hi ->]]. rewrite G2, H2 by eauto. cbn [nth]. f_equal.
      apply (lsum_pick_col R C i (fun r k => a * content A [c; r; k] * content x [c; r]) c Hi).
    + intros j Hj. rewrite G2, H3 by exact Hj. rewrite lsum_map_0; [ring|]. intros [r k] Hi.
      apply in_prod_iff in Hi as [Hr Hk]. apply in_seq in Hk. cbn [fst snd].
      destruct (idx_eqb_spec j [c; k]) as [->|_]; [|reflexivity]. exfalso. apply Hj. exists k. split; [lia|reflexivity].
Qed.

Lemma identity3_ok R C sched (M : vw) n P Q : fair sched -> extents M = [n; P; Q] -> (0 < n)%nat -> (0 < P)%nat -> (0 < Q)%nat ->
  (R <= P)%nat -> (C <= Q)%nat ->
  exists M', identity3 R C sched n M = Ok M' /\ changed M M' (at3 n R C) (fun j _ => if Nat.eqb (e1 j) (e2 j) then 1 else 0).
Proof.
  intros Hf E Hn HP HQ HR HC. unfold identity3, guard. rewrite (nonempty3 M n P Q) by assumption.
  unfold extent. rewrite E. cbn [nth]. rewrite differ_refl.
  apply (ws3_loop sched n n P Q R C); [exact Hf|exact E|]. intros c v1 Hc E1.
  destruct (block_loop3 n P Q R C c (fun rk _ => Ok (if Nat.eqb (fst rk) (snd rk) then 1 else 0))
     (fun j _ => if Nat.eqb (e1 j) (e2 j) then 1 else 0) v1 E1 Hc HR HC) as [v2 [E2 H]]; auto.
  exists v2. split; [|exact H]. rewrite <- E2. apply foldR_ext_in. intros. apply vset_modify.
Qed.

Lemma fill3_ok R C sched (a : K) (M : vw) n m P Q : fair sched -> extents M = [n; P; Q] -> (0 < m)%nat -> (m <= n)%nat -> (0 < P)%nat -> (0 < Q)%nat ->
  (R <= P)%nat -> (C <= Q)%nat ->
  exists M', fill3 R C sched m a M = Ok M' /\ changed M M' (at3 m R C) (fun _ _ => a).
Proof.
  intros Hf E Hm Hmn HP HQ HR HC. unfold fill3, guard. rewrite (nonempty3 M n P Q) by (assumption || lia).
  destruct (Nat.eqb_spec m 0%nat) as [Z|_]; [lia|].
  apply (ws3_loop sched n m P Q R C); [exact Hf|exact E|]. intros c v1 Hc E1.
  destruct (block_loop3 n P Q R C c (fun _ _ => Ok a) (fun _ _ => a) v1 E1 ltac:(lia) HR HC) as [v2 [E2 H]]; auto.
  exists v2. split; [|exact H]. rewrite <- E2. apply foldR_ext_in. intros. apply vset_modify.
Qed.

Lemma update3_ok sched (a b : K) A B n nA nB P Q : fair sched -> extents A = [nA; P; Q] -> extents B = [nB; P; Q] ->
  (0 < n)%nat -> (0 < P)%nat -> (0 < Q)%nat -> (n <= nA)%nat -> (n <= nB)%nat ->
  exists B', update3 sched n a A b B = Ok B' /\ changed B B' (at3 n P Q) (fun j e => a * content A j + b * e).
Proof.
  intros Hf EA EB Hn HP HQ HA HB. unfold update3, guard.
  rewrite (nonempty3 A nA P Q), (nonempty3 B nB P Q) by (assumption || lia).
  unfold extent. rewrite EA, EB. cbn [nth]. rewrite !differ_refl. destruct (Nat.eqb_spec n 0%nat) as [Z|_]; [lia|].
  apply (ws3_loop sched nB n P Q P Q); [exact Hf|exact EB|]. intros c v1 Hc E1.
  apply (block_loop3 nB P Q P Q c); auto; [lia|]. intros r k e Hr Hk. cbn [fst snd].
  rewrite (vget3 A nA P Q) by (assumption || lia). reflexivity.
Qed.

Lemma multiply3_ok sched (a b : K) A B C n R I Q : fair sched -> extents A = [n; R; I] -> extents B = [n; I; Q] -> extents C = [n; R; Q] ->
  (0 < n)%nat -> (0 < R)%nat -> (0 < I)%nat -> (0 < Q)%nat ->
  exists C', multiply3 sched n a A B b C = Ok C' /\
    changed C C' (at3 n R Q) (fun j e => b * e + sum I (fun m => a * content A [e0 j; e1 j; m] * content B [e0 j; m; e2 j])).
Proof.
  intros Hf EA EB EC Hn HR HI HQ. unfold multiply3, guard.
  rewrite (nonempty3 A n R I), (nonempty3 B n I Q), (nonempty3 C n R Q) by assumption.
  unfold extent. rewrite EA, EB, EC. cbn [nth]. rewrite !differ_refl.
  apply (ws3_loop sched n n R Q R Q); [exact Hf|exact EC|]. intros c v1 Hc E1.
  destruct (block_loop3 n R Q R Q c (fun _ e => Ok (b * e)) (fun _ e => b * e) v1 E1 Hc) as [v2 [E2 H2]]; auto.
  rewrite E2. cbn [rbind].
  destruct (block_loop3 n R Q R Q c (fun rk e => Ok (e + sum I (fun m => a * content A [c; fst rk; m] * content B [c; m; snd rk])))
     (fun j e => e + sum I (fun m => a * content A [e0 j; e1 j; m] * content B [e0 j; m; e2 j])) v2) as [v3 [E3 H3]]; auto.
  { destruct H2 as [H2 _]. congruence. }
  exists v3. split.
  - rewrite <- E3. apply foldR_ext_in. intros [r k] s Hi. apply in_prod_iff in Hi as [Hr Hk]. apply in_seq in Hr, Hk. cbn [fst snd].
    rewrite (foldR_ext_in _ (fun m s => Ok (s + a * content A [c; r; m] * content B [c; m; k]))).
    + rewrite (foldR_accum (fun m => a * content A [c; r; m] * content B [c; m; k])). cbn [rbind].
      unfold vmodify. destruct (vget s [c; r; k]); [|reflexivity|reflexivity]. cbn [rbind]. f_equal. rewrite lsum_map_seq. ring.
    + intros m s' Hm. apply in_seq in Hm. rewrite (vget3 A n R I), (vget3 B n I Q) by (assumption || lia). reflexivity.
  - exact (changed_trans _ _ _ _ _ _ H2 H3).
Qed.

(** *** fill with ordinals *)
Lemma fill_ordinals_short sched (mult : K) ords vals out n m : fair sched ->
  extents ords = [m] -> extents vals = [m] -> extents out = [n] -> (0 < m)%nat -> (m < n)%nat ->
  (forall i, (i < m)%nat -> (content ords [i] < n)%nat) ->
  fill_ordinals sched mult ords vals out = UB.
Proof.
  intros Hf E1 E2 E3 Hm Hmn Hb. unfold fill_ordinals, guard.
  rewrite (vsize1 ords m E1), (vsize1 vals m E2), (vsize1 out n E3), differ_refl.
  destruct (Nat.eqb_spec n 0%nat); [lia|]. destruct (Nat.eqb_spec m 0%nat); [lia|].
  assert (Hin : In m (sched n)) by (apply (fair_in sched n m Hf); exact Hmn).
  revert E3. generalize out as o. induction (sched n) as [|i l IH]; intros o E3; [contradiction|].
  simpl. destruct (Nat.lt_ge_cases i m) as [Hi|Hi].
  - rewrite (vget1 ords m), (vget1 vals m) by assumption. cbn [rbind]. unfold vset. rewrite E3, in_bounds1 by auto. cbn [rbind].
    apply IH; [|reflexivity]. destruct Hin as [->|Hin]; [lia|exact Hin].
  - unfold vget. rewrite E1. replace (in_bounds [m] [i]) with false; [reflexivity|].
    symmetry. simpl. rewrite andb_true_r. apply Nat.ltb_ge. exact Hi.
Qed.

Lemma fill_ordinals_ok sched (mult : K) ords vals out n m : fair sched ->
  extents ords = [m] -> extents vals = [m] -> extents out = [n] -> (0 < n)%nat -> (n <= m)%nat ->
  (forall i, (i < n)%nat -> (content ords [i] < n)%nat) ->
  (forall i k, (i < n)%nat -> (k < n)%nat -> content ords [i] = content ords [k] -> i = k) ->
  exists out', fill_ordinals sched mult ords vals out = Ok out' /\ extents out' = [n] /\
    (forall i, (i < n)%nat -> content out' [content ords [i]] = mult * content vals [i]).
Proof.
  intros Hf E1 E2 E3 Hn Hnm Hb Hinj. unfold fill_ordinals, guard.
  rewrite (vsize1 ords m E1), (vsize1 vals m E2), (vsize1 out n E3), differ_refl.
  destruct (Nat.eqb_spec n 0%nat); [lia|]. destruct (Nat.eqb_spec m 0%nat); [lia|].
  destruct (foldR_inv (fun i out => let! o := vget ords [i] in let! x := vget vals [i] in vset out [o] (mult * x))
    (fun l v => extents v = [n] /\ forall i, In i l -> content v [content ords [i]] = mult * content vals [i]) (sched n) out) as [v [E [H1 H2]]].
  - split; [exact E3|contradiction].
  - intros l1 i l2 v El [H1 H2].
    assert (Hi : (i < n)%nat) by (apply (fair_in sched n i Hf); rewrite El; apply in_or_app; right; left; reflexivity).
    rewrite (vget1 ords m), (vget1 vals m) by (assumption || lia). cbn [rbind]. unfold vset. rewrite H1, in_bounds1 by auto.
    eexists. split; [reflexivity|]. split; [reflexivity|]. intros k Hk. cbn [content].
    assert (Hkn : (k < n)%nat).
    { apply (fair_in sched n k Hf). rewrite El. apply in_app_iff in Hk as [Hk|[->|[]]]; apply in_or_app; [left; exact Hk|right; left; reflexivity]. }
    destruct (idx_eqb_spec [content ords [k]] [content ords [i]]) as [Ek|Ek].
    + injection Ek as Ek. apply Hinj in Ek; [subst; reflexivity|assumption|assumption].
    + apply in_app_iff in Hk as [Hk|[->|[]]]; [apply H2, Hk|congruence].
  - exists v. split; [exact E|]. split; [exact H1|]. intros i Hi. apply H2, (fair_in sched n i Hf), Hi.
Qed.
End K.
