(** Proofs about src/ApplyConstraints.hpp under arbitrary schedules. *)
From Coq Require Import Arith Lia List Bool Ring Relations Permutation.
From Verif Require Import Base.Field Base.Sums Base.ListUpd
  BC.ConstraintsModel BC.ConstraintsSpec.
Import ListNotations.

(** Splitting an ordered-pairs property at one element. *)
Lemma FOP_split {A} (R : A -> A -> Prop) l1 a l2 :
  ForallOrdPairs R (l1 ++ a :: l2) ->
  (forall b, In b l1 -> R b a) /\ (forall b, In b l2 -> R a b).
Proof.
  induction l1 as [|x l1 IH]; simpl; intros H; inversion H; subst.
  - split; [intros b []|]. rewrite Forall_forall in H2. exact H2.
  - destruct (IH H3) as [I1 I2]. split; [|exact I2]. intros b [<-|Hb]; [|auto].
    rewrite Forall_forall in H2. apply H2. apply in_or_app. right. left. reflexivity.
Qed.

(** ** Generic facts about the interleaving machine *)
Section Machine.
Context {K : CRing}.
Local Open Scope K_scope.

Lemma steps_inv (P : cfg K -> Prop) :
  (forall c c', P c -> step c c' -> P c') -> forall c c', P c -> steps c c' -> P c'.
Proof. intros Hs c c' H0 H. induction H; eauto. Qed.

(** Every schedule terminates: each step lowers this measure. *)
Definition opw (a : op K) : nat := match a with Acc _ _ _ => 2 | _ => 1 end.
Definition weight (ts : list (list (op K))) : nat :=
  list_sum (map (fun p => list_sum (map opw p)) ts).

Lemma step_weight (c c' : cfg K) : step c c' -> weight (snd c') < weight (snd c).
Proof.
  intros H; inversion H as [m ts1 a p ts2 m' q E]; subst; simpl. unfold weight.
  rewrite !map_app, !list_sum_app. simpl. rewrite map_app, list_sum_app.
  assert (list_sum (map opw q) < opw a).
  { destruct a; simpl in E; unfold obind in E;
      repeat match type of E with context [match ?x with _ => _ end] => destruct x; try discriminate end;
      inversion E; subst; simpl; lia. }
  lia.
Qed.

Lemma not_finished_step (c : cfg K) : ~ faulty c -> finished c \/ exists c', step c c'.
Proof.
  destruct c as [m ts]. unfold finished, faulty; simpl. intros Hf.
  assert (H : Forall (fun p => p = []) ts \/ exists a p, In (a :: p) ts).
  { clear Hf. induction ts as [|p ts IH]; [left; constructor|].
    destruct p as [|a p]; [|right; exists a, p; left; reflexivity].
    destruct IH as [IH|[a [p IH]]]; [left; constructor; auto|right; exists a, p; right; auto]. }
  destruct H as [H|[a [p H]]]; [left; exact H|right].
  destruct (exec_op a m) as [[m' q]|] eqn:E.
  - apply in_split in H as [ts1 [ts2 ->]]. eexists. econstructor. exact E.
  - exfalso. apply Hf. exists a, p. auto.
Qed.

Lemma run_to_end (c : cfg K) :
  (forall c', steps c c' -> ~ faulty c') -> exists c', steps c c' /\ finished c'.
Proof.
  remember (weight (snd c)) as w eqn:Ew. revert c Ew.
  induction w as [w IH] using lt_wf_ind. intros c Ew Hf.
  destruct (not_finished_step c) as [H|[c' H]].
  - apply Hf. constructor.
  - exists c. split; [constructor|exact H].
  - pose proof (step_weight _ _ H) as Hw.
    destruct (IH (weight (snd c')) ltac:(lia) c' eq_refl) as [c2 [H1 H2]].
    + intros c'' Hs. apply Hf. econstructor; eauto.
    + exists c2. split; [econstructor; eauto|exact H2].
Qed.
Lemma app_Acc_split (l1 l2 p1 p2 : list (op K)) a :
  l1 ++ l2 = p1 ++ a :: p2 ->
  (exists q, l1 = p1 ++ a :: q) \/ (exists q, p1 = l1 ++ q /\ l2 = q ++ a :: p2).
Proof.
  revert p1; induction l1 as [|x l1 IH]; intros p1 E; simpl in E.
  - right. exists p1. auto.
  - destruct p1 as [|y p1]; simpl in E; inversion E; subst.
    + left. exists l1. reflexivity.
    + destruct (IH _ H1) as [[q ->]|[q [-> ->]]]; [left; exists q; reflexivity|right; exists q; split; reflexivity].
Qed.

End Machine.

(** ** The algorithm over abstract entry locations

    [locs i] lists the stored entries of dof row [i]: pairs (entry ordinal, column dof). *)
Definition zdup {K : CRing} (l : list (nat * K)) : Prop :=
  ForallOrdPairs (fun a b => fst a = fst b -> snd a = r0 /\ snd b = r0) l.

Lemma zdup_split {K : CRing} (l1 l2 : list (nat * K)) r v v' :
  zdup (l1 ++ (r, v) :: l2) -> In (r, v') (l1 ++ l2) -> v = r0 /\ v' = r0.
Proof.
  intros H Hin. apply FOP_split in H as [H1 H2]. apply in_app_iff in Hin as [Hin|Hin].
  - destruct (H1 _ Hin eq_refl). auto.
  - destruct (H2 _ Hin eq_refl). auto.
Qed.

Section Generic.
Context {K : CRing}.
Add Ring Kring2 : (r_th K).
Local Open Scope K_scope.
Variable n : nat.
Variable e0 b0 : list K.
Variable locs : nat -> list (nat * nat).
Hypothesis H_bound : forall i o c, i < n -> In (o, c) (locs i) -> o < length e0 /\ c < n.
Hypothesis H_inj : forall i i' o c c', i < n -> i' < n ->
  In (o, c) (locs i) -> In (o, c') (locs i') -> i = i' /\ c = c'.
Hypothesis H_nd : forall i, i < n -> NoDup (map fst (locs i)).
Hypothesis H_sym : forall i o c, i < n -> In (o, c) (locs i) -> exists o', In (o', i) (locs c).
Hypothesis H_diag : forall i, i < n -> exists o, In (o, i) (locs i).

Definition delta (i j : nat) : K := if Nat.eqb i j then 1 else 0.

Definition gclear (r c : nat) : list (op K) :=
  flat_map (fun oc => if Nat.eqb (snd oc) r then [Wr (fst oc) 0] else []) (locs c).

Definition gpart (r : nat) (v : K) (oc : nat * nat) : list (op K) :=
  if Nat.eqb (snd oc) r then [Wr (fst oc) 1]
  else Acc (fst oc) (snd oc) v :: Wr (fst oc) 0 :: gclear r (snd oc).

Definition gitem (r : nat) (v : K) : list (op K) := flat_map (gpart r v) (locs r).

Variable bcs : list (nat * K).
Hypothesis bcs_nd : zdup bcs.
Hypothesis bcs_n : forall d, In d (map fst bcs) -> d < n.

Definition D (i : nat) : Prop := In i (map fst bcs).


Definition opok (r : nat) (v : K) (a : op K) : Prop :=
  match a with
  | Wr o x => exists i c, i < n /\ In (o, c) (locs i) /\ (i = r \/ c = r) /\ x = delta i c
  | Acc o c v' => In (o, c) (locs r) /\ c <> r /\ v' = v
  | Add c x => c < n
  | WrR _ _ => False
  end.

Definition ordered (t : list (op K)) : Prop :=
  forall p1 o c v p2 x, t = p1 ++ Acc o c v :: p2 -> ~ In (Wr o x) p1.

Definition TI (m : mem K) (bc : nat * K) (t : list (op K)) : Prop :=
  Forall (opok (fst bc) (snd bc)) t /\ ordered t /\
  (forall o c v, In (Acc o c v) t -> ~ D c -> v = 0 \/ nth o (ents m) 0 = nth o e0 0).

Definition pend1 (c : nat) (a : op K) : K :=
  match a with
  | Acc o c' v => if Nat.eqb c' c then - nth o e0 0 * v else 0
  | Add c' x => if Nat.eqb c' c then x else 0
  | _ => 0
  end.
Definition pend (c : nat) (t : list (op K)) : K := lsum (map (pend1 c) t).
Definition pends (c : nat) (ts : list (list (op K))) : K := lsum (map (pend c) ts).

Definition items := map (fun bc => gitem (fst bc) (snd bc)) bcs.

Record Inv (cf : cfg K) : Prop := {
  I_le : length (ents (fst cf)) = length e0;
  I_lr : length (rhs (fst cf)) = length b0;
  I_t : Forall2 (TI (fst cf)) bcs (snd cf);
  I_e1 : forall i o c, i < n -> In (o, c) (locs i) ->
    nth o (ents (fst cf)) 0 = nth o e0 0 \/
    ((D i \/ D c) /\ nth o (ents (fst cf)) 0 = delta i c);
  I_e2 : forall i o c, i < n -> In (o, c) (locs i) -> D i \/ D c ->
    (exists t x, In t (snd cf) /\ In (Wr o x) t) \/ nth o (ents (fst cf)) 0 = delta i c;
  I_r : forall c, c < n -> ~ D c ->
    nth c (rhs (fst cf)) 0 + pends c (snd cf) = nth c b0 0 + pends c items
}.

Lemma gclear_in r c a : In a (gclear r c) -> exists o, a = Wr o 0 /\ In (o, r) (locs c).
Proof.
  unfold gclear. rewrite in_flat_map. intros [[o c'] [H1 H2]]. simpl in H2.
  destruct (Nat.eqb_spec c' r) as [->|]; [|contradiction].
  destruct H2 as [<-|[]]. eauto.
Qed.

Lemma gitem_ok r v : r < n -> Forall (opok r v) (gitem r v).
Proof.
  intros Hr. apply Forall_forall. intros a Ha. unfold gitem in Ha.
  apply in_flat_map in Ha as [[o c] [H1 H2]]. unfold gpart in H2. simpl in H2.
  destruct (Nat.eqb_spec c r) as [->|Hc].
  - destruct H2 as [<-|[]]. simpl. exists r, r. unfold delta. rewrite Nat.eqb_refl. auto.
  - destruct H2 as [<-|[<-|H2]].
    + simpl. auto.
    + simpl. exists r, c. unfold delta. rewrite (proj2 (Nat.eqb_neq r c)) by lia. auto.
    + apply gclear_in in H2 as [o' [-> H2]]. simpl. exists c, r.
      pose proof (H_bound _ _ _ Hr H1) as [_ Hcn].
      unfold delta. rewrite (proj2 (Nat.eqb_neq c r)) by lia. auto.
Qed.

Lemma gitem_ordered r v : r < n -> ordered (gitem r v).
Proof.
  intros Hr. unfold gitem, ordered.
  assert (Hgen : forall l, incl l (locs r) -> NoDup (map fst l) ->
            forall p1 o c v' p2 x, flat_map (gpart r v) l = p1 ++ Acc o c v' :: p2 ->
              In (o, c) l /\ ~ In (Wr o x) p1).
  { induction l as [|[o1 c1] l IH]; intros Hin Hnd p1 o c v' p2 x E; simpl in E.
    - destruct p1; discriminate.
    - inversion Hnd as [|? ? Hni Hnd']; subst. simpl in Hni.
      apply app_Acc_split in E as [[q E]|[q [-> E]]].
      + unfold gpart in E. simpl in E. destruct (Nat.eqb_spec c1 r) as [->|Hc1].
        * destruct p1 as [|? [|? ?]]; simpl in E; inversion E.
        * destruct p1 as [|y p1]; simpl in E; inversion E; subst.
          { split; [left; reflexivity|]. intros []. }
          exfalso. destruct p1 as [|y p1]; simpl in H1; inversion H1; subst.
          assert (Ha : In (Acc o c v') (gclear r c1)).
          { rewrite H2. apply in_or_app. right. left. reflexivity. }
          apply gclear_in in Ha as [? [? _]]. discriminate.
      + destruct (IH ltac:(intros z Hz; apply Hin; right; exact Hz) Hnd' q o c v' p2 x E) as [H1 H2].
        split; [right; exact H1|]. rewrite in_app_iff. intros [H3|H3]; [|auto].
        assert (Hoc : In (o, c) (locs r)) by (apply Hin; right; exact H1).
        assert (Hoc1 : In (o1, c1) (locs r)) by (apply Hin; left; reflexivity).
        assert (Hne : o <> o1).
        { intros ->. apply Hni. apply (in_map fst) in H1. exact H1. }
        unfold gpart in H3. simpl in H3. destruct (Nat.eqb_spec c1 r) as [->|Hc1].
        * destruct H3 as [H3|[]]. inversion H3. congruence.
        * destruct H3 as [H3|[H3|H3]]; [discriminate|inversion H3; congruence|].
          apply gclear_in in H3 as [o' [H3 H4]]. inversion H3; subst.
          pose proof (H_bound _ _ _ Hr Hoc1) as [_ Hc1n].
          destruct (H_inj _ _ _ _ _ Hr Hc1n Hoc H4) as [-> _]. congruence. }
  intros p1 o c v' p2 x E. eapply Hgen; [|apply H_nd; exact Hr|exact E]. intros z; auto.
Qed.

(** The initial configuration satisfies the invariant. *)
Lemma Inv_init : Inv (mkMem e0 b0, items).
Proof.
  constructor; simpl; auto.
  - unfold items. assert (Hs : forall bc, In bc bcs -> fst bc < n)
      by (intros bc H; apply bcs_n; apply in_map; exact H).
    clear -Hs H_bound H_inj H_nd. induction bcs as [|bc l IH]; simpl; constructor.
    + assert (fst bc < n) by (apply Hs; left; reflexivity).
      split; [apply gitem_ok; auto|split; [apply gitem_ordered; auto|auto]].
    + apply IH. intros; apply Hs; right; auto.
  - intros i o c Hi Hin HD. left.
    destruct HD as [HD|HD]; unfold D in HD; apply in_map_iff in HD as [[d v] [Hd Hbc]]; simpl in Hd; subst d.
    + exists (gitem i v). exists (delta i c). split.
      * unfold items. apply in_map_iff. exists (i, v). auto.
      * unfold gitem. apply in_flat_map. exists (o, c). split; [exact Hin|].
        unfold gpart, delta. simpl. rewrite (Nat.eqb_sym i c). destruct (Nat.eqb c i); simpl; auto.
    + destruct (Nat.eq_dec i c) as [->|Hne].
      * exists (gitem c v), (delta c c). split.
        -- unfold items. apply in_map_iff. exists (c, v). auto.
        -- unfold gitem. apply in_flat_map. exists (o, c). split; [exact Hin|].
           unfold gpart, delta. simpl. rewrite Nat.eqb_refl. left. reflexivity.
      * exists (gitem c v), 0. split.
        -- unfold items. apply in_map_iff. exists (c, v). auto.
        -- destruct (H_sym _ _ _ Hi Hin) as [o' Ho']. unfold gitem. apply in_flat_map.
           exists (o', i). split; [exact Ho'|]. unfold gpart. simpl.
           rewrite (proj2 (Nat.eqb_neq i c)) by lia. right. right.
           unfold gclear. apply in_flat_map. exists (o, c). split; [exact Hin|].
           simpl. rewrite Nat.eqb_refl. left. reflexivity.
Qed.

Lemma pends_app c a b : pends c (a ++ b) = pends c a + pends c b.
Proof. unfold pends. rewrite map_app, lsum_app. reflexivity. Qed.
Lemma pends_cons c a b : pends c (a :: b) = pend c a + pends c b.
Proof. reflexivity. Qed.
Lemma pend_cons c a b : pend c (a :: b) = pend1 c a + pend c b.
Proof. reflexivity. Qed.

Lemma ordered_tail a p : ordered (a :: p) -> ordered p.
Proof.
  intros H p1 o c v p2 x E Hin. apply (H (a :: p1) o c v p2 x); [simpl; congruence|right; exact Hin].
Qed.

Lemma TI_mem_eq m m' bc t : ents m = ents m' -> TI m bc t -> TI m' bc t.
Proof. intros E [H1 [H2 H3]]. repeat split; auto. rewrite <- E. exact H3. Qed.

Lemma Forall2_TI_mem m m' l ts : ents m = ents m' -> Forall2 (TI m) l ts -> Forall2 (TI m') l ts.
Proof. intros E H. induction H; constructor; eauto using TI_mem_eq. Qed.

Lemma Inv_step c c' : Inv c -> step c c' -> Inv c'.
Proof.
  intros HI Hs. destruct Hs as [m ts1 a p ts2 m' q E].
  destruct HI as [Hle Hlr Ht He1 He2 Hr]. simpl in *.
  apply Forall2_app_inv_r in Ht as [b1 [b2' [Ht1 [Ht2 Eb]]]].
  inversion Ht2 as [|[r v] ? b2 ? Ht0 Ht3]; subst b2'; subst.
  assert (HrD : D r).
  { unfold D. rewrite Eb, map_app. apply in_or_app. right. left. reflexivity. }
  destruct Ht0 as [Hok [Hord Hacc]]. simpl in Hok.
  inversion Hok as [|? ? Ha Hokp]; subst.
  destruct a as [o c v'|c x|o x|c x]; simpl in E; unfold obind in E.
  - (* Acc *)
    destruct (nth_error (ents m) o) as [e|] eqn:Eo; [|discriminate]. inversion E; subst; clear E.
    destruct Ha as [Ha1 [Ha2 ->]].
    assert (Hrn : r < n) by (apply bcs_n; exact HrD).
    pose proof (H_bound _ _ _ Hrn Ha1) as [HoL Hcn].
    constructor; simpl; auto.
    + rewrite Eb. apply Forall2_app; [exact Ht1|]. constructor; [|exact Ht3].
      split; [|split].
      * constructor; [exact Hcn|exact Hokp].
      * intros p1 o1 c1 v1 p2 x1 E Hin. destruct p1 as [|y p1]; simpl in E; [discriminate|].
        inversion E; subst. destruct Hin as [Hin|Hin]; [discriminate|].
        apply (Hord (Acc o c v :: p1) o1 c1 v1 p2 x1); [reflexivity|right; exact Hin].
      * intros o1 c1 v1 [Hin|Hin] Hf; [discriminate|]. eapply Hacc; [right; exact Hin|exact Hf].
    + intros i o1 c1 Hi Hin HD. destruct (He2 i o1 c1 Hi Hin HD) as [[t [x [Ht Hw]]]|Hw]; [left|right; exact Hw].
      apply in_app_iff in Ht as [Ht|[<-|Ht]].
      * exists t, x. split; [apply in_or_app; auto|exact Hw].
      * destruct Hw as [Hw|Hw]; [discriminate|].
        eexists; exists x. split; [apply in_or_app; right; left; reflexivity|]. right. exact Hw.
      * exists t, x. split; [apply in_or_app; right; right; exact Ht|exact Hw].
    + intros c1 Hc1 Hf. rewrite <- (Hr c1 Hc1 Hf).
      rewrite !pends_app, !pends_cons, !pend_cons. simpl.
      destruct (Nat.eqb_spec c c1) as [->|]; [|ring].
      destruct (Hacc o c1 v (or_introl eq_refl) Hf) as [->|Ea]; [ring|].
      rewrite <- Ea. rewrite (nth_error_nth _ _ 0 Eo). ring.
  - (* Add *)
    destruct (nth_error (rhs m) c) as [y|] eqn:Eo; [|discriminate].
    destruct (upd (rhs m) c (y + x)) as [b|] eqn:Eu; [|discriminate]. inversion E; subst; clear E.
    constructor; simpl; auto.
    + rewrite (upd_length _ _ _ _ Eu). exact Hlr.
    + rewrite Eb. apply Forall2_app; [eapply Forall2_TI_mem; [|exact Ht1]; reflexivity|].
      constructor; [|eapply Forall2_TI_mem; [|exact Ht3]; reflexivity].
      split; [|split]; auto.
      * eapply ordered_tail; exact Hord.
      * intros o1 c1 v1 Hin Hf. simpl. eapply Hacc; [right; exact Hin|exact Hf].
    + intros i o1 c1 Hi Hin HD. destruct (He2 i o1 c1 Hi Hin HD) as [[t [x1 [Ht Hw]]]|Hw]; [left|right; exact Hw].
      apply in_app_iff in Ht as [Ht|[<-|Ht]].
      * exists t, x1. split; [apply in_or_app; auto|exact Hw].
      * destruct Hw as [Hw|Hw]; [discriminate|].
        exists p, x1. split; [apply in_or_app; right; left; reflexivity|exact Hw].
      * exists t, x1. split; [apply in_or_app; right; right; exact Ht|exact Hw].
    + intros c1 Hc1 Hf. rewrite <- (Hr c1 Hc1 Hf).
      rewrite !pends_app, !pends_cons, !pend_cons. simpl.
      rewrite (upd_nth _ _ _ _ c1 0 Eu). rewrite (Nat.eqb_sym c c1).
      destruct (Nat.eqb_spec c1 c) as [->|]; [|ring].
      rewrite (nth_error_nth _ _ 0 Eo). ring.
  - (* Wr *)
    destruct (upd (ents m) o x) as [e'|] eqn:Eu; [|discriminate]. inversion E; subst; clear E.
    destruct Ha as [i [c [Hi [Hin [Hrc ->]]]]].
    assert (HDic : D i \/ D c) by (destruct Hrc; subst; auto).
    constructor; simpl; auto.
    + rewrite (upd_length _ _ _ _ Eu). exact Hle.
    + (* threads *)
      assert (Hother : forall r' v' t, (r' = r -> v' = 0) -> r' < n -> TI m (r', v') t ->
                TI (mkMem e' (rhs m)) (r', v') t).
      { intros r' v' t Hne Hr'n [H1 [H2 H3]]. split; [|split]; auto. simpl.
        intros o1 c1 v1 Hin1 Hf. rewrite (upd_nth _ _ _ _ o1 0 Eu).
        destruct (Nat.eqb_spec o1 o) as [->|]; [|eapply H3; eauto].
        left. rewrite Forall_forall in H1. specialize (H1 _ Hin1). simpl in H1.
        destruct H1 as [H1 [_ ->]]. destruct (H_inj _ _ _ _ _ Hi Hr'n Hin H1) as [-> ->].
        destruct Hrc as [-> | ->]; [apply Hne; reflexivity|]. exfalso. apply Hf. exact HrD. }
      assert (Hnd : forall r' v', In (r', v') (b1 ++ b2) -> r' = r -> v' = 0).
      { intros r' v' Hr' ->. pose proof bcs_nd as Hnd. rewrite Eb in Hnd.
        eapply zdup_split in Hnd as [_ Hv]; [|exact Hr']. exact Hv. }
      assert (Hbn : forall r' v', In (r', v') (b1 ++ b2) -> r' < n).
      { intros r' v' Hr'. apply bcs_n. rewrite Eb, map_app. simpl.
        apply in_app_iff in Hr' as [H|H]; apply in_or_app; [left|right; right];
          apply in_map_iff; exists (r', v'); auto. }
      assert (Hall : forall bl tl, incl bl (b1 ++ b2) -> Forall2 (TI m) bl tl ->
                Forall2 (TI (mkMem e' (rhs m))) bl tl).
      { intros bl tl Hincl HF. induction HF as [|[r' v'] t bl tl HT HF IH]; constructor.
        - apply Hother; auto; [eapply Hnd|eapply Hbn]; apply Hincl; left; reflexivity.
        - apply IH. intros z Hz. apply Hincl. right. exact Hz. }
      rewrite Eb. apply Forall2_app; [apply Hall; [intros z; intros; apply in_or_app; left; assumption|exact Ht1]|].
      constructor; [|apply Hall; [intros z; intros; apply in_or_app; right; assumption|exact Ht3]].
      split; [|split]; auto.
      * eapply ordered_tail; exact Hord.
      * intros o1 c1 v1 Hin1 Hf. simpl. rewrite (upd_nth _ _ _ _ o1 0 Eu).
        destruct (Nat.eqb_spec o1 o) as [->|]; [|eapply Hacc; [right; exact Hin1|exact Hf]].
        exfalso. apply in_split in Hin1 as [q1 [q2 ->]].
        apply (Hord (Wr o (delta i c) :: q1) o c1 v1 q2 (delta i c)); [reflexivity|left; reflexivity].
    + intros i1 o1 c1 Hi1 Hin1. rewrite (upd_nth _ _ _ _ o1 0 Eu).
      destruct (Nat.eqb_spec o1 o) as [->|]; [|auto].
      destruct (H_inj _ _ _ _ _ Hi Hi1 Hin Hin1) as [-> ->]. right. auto.
    + intros i1 o1 c1 Hi1 Hin1 HD. rewrite (upd_nth _ _ _ _ o1 0 Eu).
      destruct (Nat.eqb_spec o1 o) as [->|Hne].
      { destruct (H_inj _ _ _ _ _ Hi Hi1 Hin Hin1) as [-> ->]. right. reflexivity. }
      destruct (He2 i1 o1 c1 Hi1 Hin1 HD) as [[t [x1 [Ht Hw]]]|Hw]; [left|right; exact Hw].
      apply in_app_iff in Ht as [Ht|[<-|Ht]].
      * exists t, x1. split; [apply in_or_app; auto|exact Hw].
      * destruct Hw as [Hw|Hw]; [inversion Hw; congruence|].
        exists p, x1. split; [apply in_or_app; right; left; reflexivity|exact Hw].
      * exists t, x1. split; [apply in_or_app; right; right; exact Ht|exact Hw].
    + intros c1 Hc1 Hf. rewrite <- (Hr c1 Hc1 Hf).
      rewrite !pends_app, !pends_cons, !pend_cons. simpl. ring.
  - contradiction.
Qed.

Lemma Inv_steps c : steps (mkMem e0 b0, items) c -> Inv c.
Proof. intros H. eapply steps_inv; [|exact Inv_init|exact H]. intros; eapply Inv_step; eauto. Qed.

Hypothesis b0_len : n <= length b0 <= n.

Lemma Inv_not_faulty c : Inv c -> ~ faulty c.
Proof.
  intros HI [a [p [Hin E]]]. destruct HI as [Hle Hlr Ht _ _ _]. destruct c as [m ts]. simpl in *.
  assert (exists r v, D r /\ opok r v a) as [r [v [HrD Hok]]].
  { assert (HD : forall bc, In bc bcs -> D (fst bc)) by (intros; unfold D; apply in_map; auto).
    clear -Ht Hin HD. revert HD. induction Ht as [|[r v] t bl tl HT HF IH]; [contradiction|].
    intros HD. destruct Hin as [->|Hin].
    - exists r, v. split; [apply (HD (r, v)); left; reflexivity|].
      destruct HT as [HT _]. inversion HT; auto.
    - destruct (IH Hin) as [r1 [v1 [H1 H2]]]; [intros; apply HD; right; auto|]. eauto. }
  assert (Hrn : r < n) by (apply bcs_n; exact HrD).
  destruct a as [o c v'|c x|o x|c x]; simpl in *; unfold obind in E.
  - destruct Hok as [Hok _]. pose proof (H_bound _ _ _ Hrn Hok) as [HoL _].
    rewrite (nth_error_some_nth _ _ 0) in E by lia. discriminate.
  - rewrite (nth_error_some_nth _ _ 0) in E by lia.
    destruct (upd_some (rhs m) c (nth c (rhs m) 0 + x)) as [l' El]; [lia|].
    rewrite El in E. discriminate.
  - destruct Hok as [i [c [Hi [Ho _]]]]. pose proof (H_bound _ _ _ Hi Ho) as [HoL _].
    destruct (upd_some (ents m) o x) as [l' El]; [lia|]. rewrite El in E. discriminate.
  - contradiction.
Qed.

(** The result of the first loop. *)
Lemma phase1 m1 : par_result (mkMem e0 b0) items m1 ->
  length (ents m1) = length e0 /\ length (rhs m1) = length b0 /\
  (forall i o c, i < n -> In (o, c) (locs i) -> D i \/ D c -> nth o (ents m1) 0 = delta i c) /\
  (forall i o c, i < n -> In (o, c) (locs i) -> ~ (D i \/ D c) -> nth o (ents m1) 0 = nth o e0 0) /\
  (forall c, c < n -> ~ D c -> nth c (rhs m1) 0 = nth c b0 0 + pends c items).
Proof.
  intros [cf [Hs [Hf <-]]]. apply Inv_steps in Hs. destruct Hs as [Hle Hlr Ht He1 He2 Hr].
  unfold finished in Hf. rewrite Forall_forall in Hf. split; [exact Hle|split; [exact Hlr|split; [|split]]].
  - intros i o c Hi Hin HD. destruct (He2 i o c Hi Hin HD) as [[t [x [H1 H2]]]|H]; [|exact H].
    apply Hf in H1. subst t. contradiction.
  - intros i o c Hi Hin HD. destruct (He1 i o c Hi Hin) as [H|[H _]]; [exact H|contradiction].
  - intros c Hc HD. rewrite <- (Hr c Hc HD).
    assert (E : pends c (snd cf) = 0).
    { unfold pends. apply lsum_map_0. intros t Ht'. apply Hf in Ht'. subst. reflexivity. }
    rewrite E. ring.
Qed.

(** Contribution of the items to a free right-hand side entry. *)
Definition gdense (i j : nat) : K :=
  lsum (map (fun oc => if Nat.eqb (snd oc) j then nth (fst oc) e0 0 else 0) (locs i)).

Lemma pend_gclear c r c' : pend c (gclear r c') = 0.
Proof.
  unfold pend. apply lsum_map_0. intros a Ha. apply gclear_in in Ha as [o [-> _]]. reflexivity.
Qed.

Lemma pend_app c l1 l2 : pend c (l1 ++ l2) = pend c l1 + pend c l2.
Proof. unfold pend. rewrite map_app, lsum_app. reflexivity. Qed.

Lemma pend_gitem c r v : r <> c -> pend c (gitem r v) = - gdense r c * v.
Proof.
  intros Hne. unfold gitem, gdense. induction (locs r) as [|[o c1] l IH]; simpl.
  - unfold pend; simpl. ring.
  - rewrite pend_app, IH. unfold gpart; simpl. destruct (Nat.eqb_spec c1 r) as [->|Hc].
    + rewrite (proj2 (Nat.eqb_neq r c)) by lia. unfold pend; simpl. ring.
    + rewrite !pend_cons, pend_gclear. simpl. destruct (Nat.eqb c1 c); ring.
Qed.

Lemma pends_items c : ~ D c ->
  pends c items = - lsum (map (fun bc => gdense (fst bc) c * snd bc) bcs).
Proof.
  clear bcs_nd bcs_n. intros HD. unfold pends, items, D in *. induction bcs as [|[r v] l IH]; simpl; [ring|].
  simpl in HD.
  rewrite pend_gitem by (intros ->; apply HD; left; reflexivity).
  rewrite IH by (intros H; apply HD; right; exact H). simpl. ring.
Qed.

End Generic.

(** ** Second loop: the right-hand side takes the prescribed values. *)
Section Phase2.
Context {K : CRing}.
Local Open Scope K_scope.
Variable n : nat.
Variable bcs : list (nat * K).
Hypothesis bcs_nd : zdup bcs.
Hypothesis bcs_n : forall d, In d (map fst bcs) -> d < n.
Variable m0 : mem K.
Hypothesis m0_len : n <= length (rhs m0) <= n.

Definition witems : list (list (op K)) := map (fun dv => [WrR (fst dv) (snd dv)]) bcs.

Definition TW (m : mem K) (bc : nat * K) (t : list (op K)) : Prop :=
  t = [WrR (fst bc) (snd bc)] \/ (t = [] /\ nth (fst bc) (rhs m) 0 = snd bc).

Record Inv2 (cf : cfg K) : Prop := {
  J_e : ents (fst cf) = ents m0;
  J_l : length (rhs (fst cf)) = length (rhs m0);
  J_t : Forall2 (TW (fst cf)) bcs (snd cf);
  J_o : forall c, ~ In c (map fst bcs) -> nth c (rhs (fst cf)) 0 = nth c (rhs m0) 0
}.

Lemma Inv2_init : Inv2 (m0, witems).
Proof.
  constructor; simpl; auto. unfold witems. clear. induction bcs; simpl; constructor; auto.
  left; reflexivity.
Qed.

Lemma Inv2_step c c' : Inv2 c -> step c c' -> Inv2 c'.
Proof.
  intros HI Hs. destruct Hs as [m ts1 a p ts2 m' q E].
  destruct HI as [He Hl Ht Ho]. simpl in *.
  apply Forall2_app_inv_r in Ht as [b1 [b2' [Ht1 [Ht2 Eb]]]].
  inversion Ht2 as [|[r v] ? b2 ? Ht0 Ht3]; subst b2'; subst.
  destruct Ht0 as [Ht0|[Ht0 _]]; [|discriminate]. simpl in Ht0. inversion Ht0; subst. clear Ht0.
  simpl in E. unfold obind in E. destruct (upd (rhs m) r v) as [b|] eqn:Eu; [|discriminate].
  inversion E; subst; clear E. simpl.
  assert (Hnd : forall r' v', In (r', v') (b1 ++ b2) -> r' = r -> v = v').
  { intros r' v' Hr' ->. pose proof bcs_nd as Hnd. rewrite Eb in Hnd.
    eapply zdup_split in Hnd as [Hv1 Hv2]; [|exact Hr']. congruence. }
  assert (Hall : forall bl tl, incl bl (b1 ++ b2) -> Forall2 (TW m) bl tl ->
            Forall2 (TW (mkMem (ents m) b)) bl tl).
  { intros bl tl Hincl HF. induction HF as [|[r' v'] t bl tl HT HF IH]; constructor.
    - destruct HT as [->|[-> HT]]; [left; reflexivity|right; split; [reflexivity|]].
      simpl in *. rewrite (upd_nth _ _ _ _ r' 0 Eu).
      destruct (Nat.eqb_spec r' r) as [E|]; [|exact HT].
      eapply Hnd; [|exact E]. apply Hincl. left. reflexivity.
    - apply IH. intros z Hz. apply Hincl. right. exact Hz. }
  constructor; simpl; auto.
  - rewrite (upd_length _ _ _ _ Eu). exact Hl.
  - rewrite Eb. apply Forall2_app; [apply Hall; [intros z; intros; apply in_or_app; left; assumption|exact Ht1]|].
    constructor; [|apply Hall; [intros z; intros; apply in_or_app; right; assumption|exact Ht3]].
    right. split; [reflexivity|]. simpl. rewrite (upd_nth _ _ _ _ r 0 Eu), Nat.eqb_refl. reflexivity.
  - intros c Hc. rewrite (upd_nth _ _ _ _ c 0 Eu).
    destruct (Nat.eqb_spec c r) as [->|]; [|auto].
    exfalso. apply Hc. rewrite Eb, map_app. apply in_or_app. right. left. reflexivity.
Qed.

Lemma Inv2_steps c : steps (m0, witems) c -> Inv2 c.
Proof. intros H. eapply steps_inv; [|exact Inv2_init|exact H]. intros; eapply Inv2_step; eauto. Qed.

Lemma Inv2_not_faulty c : Inv2 c -> ~ faulty c.
Proof.
  intros HI [a [p [Hin E]]]. destruct HI as [_ Hl Ht _]. destruct c as [m ts]. simpl in *.
  assert (exists r v, In r (map fst bcs) /\ a = WrR r v) as [r [v [Hr ->]]].
  { clear -Ht Hin. induction Ht as [|[r v] t bl tl HT HF IH]; [contradiction|].
    destruct Hin as [->|Hin].
    - destruct HT as [HT|[HT _]]; [|discriminate]. inversion HT; subst. exists r, v. simpl. auto.
    - destruct (IH Hin) as [r1 [v1 [H1 H2]]]. exists r1, v1. simpl. auto. }
  apply bcs_n in Hr. simpl in E. unfold obind in E.
  destruct (upd_some (rhs m) r v) as [l' El]; [lia|]. rewrite El in E. discriminate.
Qed.

Lemma phase2 m2 : par_result m0 witems m2 ->
  ents m2 = ents m0 /\ length (rhs m2) = length (rhs m0) /\
  (forall d v, In (d, v) bcs -> nth d (rhs m2) 0 = v) /\
  (forall c, ~ In c (map fst bcs) -> nth c (rhs m2) 0 = nth c (rhs m0) 0).
Proof.
  intros [cf [Hs [Hf <-]]]. apply Inv2_steps in Hs. destruct Hs as [He Hl Ht Ho].
  repeat split; auto. unfold finished in Hf. clear -Ht Hf.
  induction Ht as [|bc t bl tl HT HF IH]; intros d v Hin; [contradiction|].
  inversion Hf; subst. destruct Hin as [->|Hin]; [|eapply IH; eauto].
  destruct HT as [HT|[_ HT]]; [discriminate|exact HT].
Qed.

End Phase2.
