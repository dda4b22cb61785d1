(** Proofs about unsynchronised additions and surface loads. *)
From Coq Require Import Reals String List Arith Bool Lia Lra Permutation.
From Verif Require Import Base.Field Base.Sums Base.ListUpd Base.Res Base.Scatter Base.Loops Loads.LoadsModel Loads.LoadsSpec.
Import ListNotations.

Section RaceP.
Context {K : CRing}.
Add Ring KringRace : (r_th K).
Local Open Scope K_scope.

Lemma lsum_upd {A} (f : A -> K) : forall (l : list A) t old y l', nth_error l t = Some old -> upd l t y = Some l' ->
  lsum (map f l') + f old = lsum (map f l) + f y.
Proof.
  induction l as [|a l IH]; intros t old y l' Ho E; [destruct t; discriminate|]. destruct t as [|t].
  - cbn in Ho. injection Ho as ->. cbn in E. injection E as <-. cbn. ring.
  - cbn in Ho. cbn in E. destruct (upd l t y) as [l1|] eqn:El; [|discriminate]. injection E as <-. cbn. pose proof (IH _ _ _ _ Ho El) as H.
    transitivity (f a + (lsum (map f l1) + f old)); [ring|]. rewrite H. ring.
Qed.

Record inv (N : nat) (C : nat -> K) (mem : list K) (ths : list (thread (K := K))) : Prop := {
  i_len : length mem = N;
  i_bnd : forall t r ws p x, nth_error ths t = Some (r, ws) -> In (p, x) ws -> (p < N)%nat;
  i_reg : forall t v ws, nth_error ths t = Some (Some v, ws) -> exists p x ws', ws = (p, x) :: ws' /\ v = nth p mem 0;
  i_dis : forall t t' r r' ws ws' p x x', t <> t' -> nth_error ths t = Some (r, ws) -> nth_error ths t' = Some (r', ws') -> In (p, x) ws -> In (p, x') ws' -> False;
  i_tot : forall q, nth q mem 0 + lsum (map (fun th : thread => amount q (snd th)) ths) = C q
}.

Lemma act_inv N C t mem ths : inv N C mem ths -> exists mem' ths', act t (mem, ths) = Ok (mem', ths') /\ inv N C mem' ths' /\ length ths' = length ths.
Proof.
  intros [HL HB HR HD HT]. unfold act. destruct (nth_error ths t) as [[r ws]|] eqn:Et; [|exists mem, ths; repeat split; assumption].
  assert (Ht : (t < length ths)%nat) by (apply nth_error_Some; congruence).
  destruct r as [v|]; (destruct ws as [|[p x] rest]; [exists mem, ths; repeat split; assumption|]).
  - destruct (HR _ _ _ Et) as (p' & x' & ws' & E1 & E2). injection E1 as <- <- <-.
    assert (Hp : (p < length mem)%nat) by (rewrite HL; apply (HB t _ _ p x Et); left; reflexivity).
    destruct (upd_some mem p (v + x) Hp) as [mem' Em]. destruct (upd_some ths t (None, rest) Ht) as [ths' Eth]. rewrite Em. cbn [ub rbind]. rewrite Eth. cbn [ub rbind].
    exists mem', ths'. split; [reflexivity|]. split; [|apply (upd_length _ _ _ _ Eth)].
    assert (HN : forall q, nth q mem' 0 = if Nat.eqb q p then v + x else nth q mem 0) by (intros q; apply (upd_nth _ _ _ _ q 0 Em)).
    assert (HT' : forall t0 th0, nth_error ths' t0 = Some th0 -> (t0 = t /\ th0 = (None, rest)) \/ (t0 <> t /\ nth_error ths t0 = Some th0)).
    { intros t0 th0 E0. destruct (Nat.eq_dec t0 t) as [->|h]; [left; rewrite (upd_nth_same _ _ _ _ Eth) in E0; injection E0 as <-; split; reflexivity|].
      right. split; [exact h|]. rewrite <- (upd_nth_other _ _ _ _ _ Eth); [exact E0|congruence]. }
    split.
    + rewrite (upd_length _ _ _ _ Em). exact HL.
    + intros t0 r0' ws0 p0 x0 E0 Hin. destruct (HT' _ _ E0) as [[-> E]|[h E]]; [injection E as -> ->; apply (HB t _ _ p0 x0 Et); right; exact Hin|apply (HB _ _ _ _ _ E Hin)].
    + intros t0 v0 ws0 E0. destruct (HT' _ _ E0) as [[-> E]|[h E]]; [discriminate|]. destruct (HR _ _ _ E) as (p0 & x0 & w0 & E1 & E3). exists p0, x0, w0. split; [exact E1|].
      rewrite HN. destruct (Nat.eqb_spec p0 p) as [->|_]; [|exact E3]. exfalso. apply (HD t0 t _ _ _ _ p x0 x h E Et); [rewrite E1; left; reflexivity|left; reflexivity].
    + intros t0 t1 r2 r1 ws0 ws1 p0 x0 x1 Hne E0 E1 I0 I1.
      destruct (HT' _ _ E0) as [[-> E]|[h E]]; destruct (HT' _ _ E1) as [[-> E']|[h' E']].
      * congruence.
      * injection E as -> ->. apply (HD t t1 _ _ _ _ p0 x0 x1 ltac:(congruence) Et E'); [right; exact I0|exact I1].
      * injection E' as -> ->. apply (HD t0 t _ _ _ _ p0 x0 x1 h E Et); [exact I0|right; exact I1].
      * apply (HD t0 t1 _ _ _ _ p0 x0 x1 Hne E E' I0 I1).
    + intros q. pose proof (lsum_upd (fun th : thread => amount q (snd th)) ths t _ _ ths' Et Eth) as HU. cbn [snd] in HU. rewrite <- (HT q), HN.
      unfold amount in HU at 2. cbn [map lsum fst snd] in HU. fold (amount q rest) in HU.
      assert (X : forall a b c u w : K, a + (u + b) = c + b -> a + u = c).
      { intros a b c u w H. transitivity ((a + (u + b)) - b); [ring|]. rewrite H. ring. }
      apply (X _ (amount q rest) _ _ 0) in HU. symmetry. etransitivity; [apply f_equal; symmetry; exact HU|].
      rewrite (Nat.eqb_sym p q). destruct (Nat.eqb_spec q p) as [->|_]; [rewrite E2|]; ring.
  - destruct (nth_error mem p) as [v|] eqn:Ev.
    2:{ exfalso. apply nth_error_None in Ev. rewrite HL in Ev. pose proof (HB t _ _ p x Et ltac:(left; reflexivity)). lia. }
    destruct (upd_some ths t (Some v, (p, x) :: rest) Ht) as [ths' Eth]. cbn [ub rbind]. rewrite Eth. cbn [ub rbind].
    exists mem, ths'. split; [reflexivity|]. split; [|apply (upd_length _ _ _ _ Eth)].
    assert (HT' : forall t0 th0, nth_error ths' t0 = Some th0 -> (t0 = t /\ th0 = (Some v, (p, x) :: rest)) \/ (t0 <> t /\ nth_error ths t0 = Some th0)).
    { intros t0 th0 E0. destruct (Nat.eq_dec t0 t) as [->|h]; [left; rewrite (upd_nth_same _ _ _ _ Eth) in E0; injection E0 as <-; split; reflexivity|].
      right. split; [exact h|]. rewrite <- (upd_nth_other _ _ _ _ _ Eth); [exact E0|congruence]. }
    split.
    + exact HL.
    + intros t0 r0' ws0 p0 x0 E0 Hin. destruct (HT' _ _ E0) as [[-> E]|[h E]]; [injection E as -> ->; apply (HB t _ _ p0 x0 Et Hin)|apply (HB _ _ _ _ _ E Hin)].
    + intros t0 v0 ws0 E0. destruct (HT' _ _ E0) as [[-> E]|[h E]]; [injection E as -> ->; exists p, x, rest; split; [reflexivity|symmetry; apply nth_error_nth; exact Ev]|apply (HR _ _ _ E)].
    + intros t0 t1 r2 r1 ws0 ws1 p0 x0 x1 Hne E0 E1 I0 I1.
      destruct (HT' _ _ E0) as [[-> E]|[h E]]; destruct (HT' _ _ E1) as [[-> E']|[h' E']].
      * congruence.
      * injection E as -> ->. apply (HD t t1 _ _ _ _ p0 x0 x1 ltac:(congruence) Et E' I0 I1).
      * injection E' as -> ->. apply (HD t0 t _ _ _ _ p0 x0 x1 h E Et I0 I1).
      * apply (HD t0 t1 _ _ _ _ p0 x0 x1 Hne E E' I0 I1).
    + intros q. pose proof (lsum_upd (fun th : thread => amount q (snd th)) ths t _ _ ths' Et Eth) as HU. cbn [snd] in HU. rewrite <- (HT q). f_equal.
      set (b := amount q ((p, x) :: rest)) in *. transitivity (lsum (map (fun th : thread => amount q (snd th)) ths') + b - b); [ring|]. rewrite HU. ring.
Qed.

Lemma run_inv N C : forall sched mem ths, inv N C mem ths -> exists mem' ths', foldR act sched (mem, ths) = Ok (mem', ths') /\ inv N C mem' ths' /\ length ths' = length ths.
Proof.
  induction sched as [|t sched IH]; intros mem ths H; [exists mem, ths; repeat split; try assumption; apply H|].
  cbn [foldR]. destruct (act_inv N C t mem ths H) as (m1 & t1 & E1 & H1 & L1). rewrite E1. cbn [rbind]. destruct (IH m1 t1 H1) as (m2 & t2 & E2 & H2 & L2).
  exists m2, t2. split; [exact E2|]. split; [exact H2|congruence].
Qed.

Lemma lsum_concat_amount q (wss : list (list (nat * K))) : lsum (map (fun ws => amount q ws) wss) = amount q (concat wss).
Proof. induction wss as [|w wss IH]; [reflexivity|]. cbn [map lsum concat]. rewrite amount_app, IH. reflexivity. Qed.

(** Disjoint positions: every schedule adds everything. *)
Lemma race_disjoint (wss : list (list (nat * K))) mem out :
  (forall ws p x, In ws wss -> In (p, x) ws -> (p < length mem)%nat) ->
  (forall i j p x y, i <> j -> In (p, x) (nth i wss []) -> In (p, y) (nth j wss []) -> False) ->
  race_outcome (Ok wss) mem out ->
  exists mem', out = Ok mem' /\ length mem' = length mem /\ forall q, nth q mem' 0 = nth q mem 0 + amount q (concat wss).
Proof.
  intros HB HD [sched H].
  assert (E0 : forall t r ws, nth_error (start wss) t = Some (r, ws) -> r = None /\ nth t wss [] = ws /\ In ws wss).
  { intros t r ws E. unfold start in E. rewrite nth_error_map in E. destruct (nth_error wss t) as [w|] eqn:Ew; [|discriminate]. cbn in E. injection E as <- <-.
    split; [reflexivity|]. split; [apply nth_error_nth; exact Ew|apply (nth_error_In _ _ Ew)]. }
  assert (I0 : inv (length mem) (fun q => nth q mem 0 + amount q (concat wss)) mem (start wss)).
  { split.
    - reflexivity.
    - intros t r ws p x E Hin. destruct (E0 _ _ _ E) as (_ & _ & Hw). apply (HB ws p x Hw Hin).
    - intros t v ws E. destruct (E0 _ _ _ E) as (Hr & _). discriminate.
    - intros t t' r r' ws ws' p x x' Hne E E' Hi Hi'. destruct (E0 _ _ _ E) as (_ & Hn & _). destruct (E0 _ _ _ E') as (_ & Hn' & _). apply (HD t t' p x x' Hne); [rewrite Hn|rewrite Hn']; assumption.
    - intros q. f_equal. unfold start. rewrite map_map. cbn [snd]. apply lsum_concat_amount. }
  destruct (run_inv _ _ sched _ _ I0) as (mem' & ths & E & [HL _ _ _ HT] & _). rewrite E in H. destruct H as [HF ->]. exists mem'. split; [reflexivity|]. split; [exact HL|].
  intros q. rewrite <- (HT q). rewrite (lsum_map_0 _ ths); [ring|]. intros th Hin. rewrite (HF th Hin). reflexivity.
Qed.

(** The schedule that runs the items one after the other performs the additions in order. *)
Lemma act_pair t p (x : K) rest (mem : list K) (ths : list (thread (K := K))) : nth_error ths t = Some (None, (p, x) :: rest) -> (p < length mem)%nat ->
  exists mem' ths', add_at mem p x = Ok mem' /\ foldR act [t; t] (mem, ths) = Ok (mem', ths') /\ upd ths t (None, rest) = Some ths' /\ length mem' = length mem.
Proof.
  intros Et Hp. assert (Ht : (t < length ths)%nat) by (apply nth_error_Some; congruence).
  destruct (upd_some ths t (Some (nth p mem 0), (p, x) :: rest) Ht) as [ths1 E1].
  destruct (upd_some ths t (None, rest) Ht) as [ths2 E2]. destruct (upd_some mem p (nth p mem 0 + x) Hp) as [mem' Em].
  exists mem', ths2. unfold add_at. rewrite (nth_error_some_nth mem p 0 Hp). cbn [ub rbind]. rewrite Em. cbn [ub rbind]. split; [reflexivity|]. split; [|split; [exact E2|apply (upd_length _ _ _ _ Em)]].
  cbn [foldR]. unfold act at 1. rewrite Et, (nth_error_some_nth mem p 0 Hp). cbn [ub rbind]. rewrite E1. cbn [ub rbind].
  unfold act. rewrite (upd_nth_same _ _ _ _ E1), Em. cbn [ub rbind].
  assert (Ht1 : (t < length ths1)%nat) by (rewrite (upd_length _ _ _ _ E1); exact Ht). destruct (upd_some ths1 t (None, rest) Ht1) as [ths3 E3]. rewrite E3. cbn [ub rbind].
  repeat f_equal. apply list_eq_nth; [rewrite (upd_length _ _ _ _ E3), (upd_length _ _ _ _ E1), (upd_length _ _ _ _ E2); reflexivity|].
  intros i _. destruct (Nat.eq_dec i t) as [->|h]; [rewrite (upd_nth_same _ _ _ _ E3), (upd_nth_same _ _ _ _ E2); reflexivity|].
  rewrite (upd_nth_other _ _ _ _ _ E3), (upd_nth_other _ _ _ _ _ E1), (upd_nth_other _ _ _ _ _ E2) by congruence. reflexivity.
Qed.
Lemma run_thread t : forall (ws : list (nat * K)) (mem : list K) (ths : list (thread (K := K))), nth_error ths t = Some (None, ws) -> (forall p x, In (p, x) ws -> (p < length mem)%nat) ->
  exists sched mem' ths', add_all ws mem = Ok mem' /\ length mem' = length mem /\ foldR act sched (mem, ths) = Ok (mem', ths') /\ upd ths t (None, []) = Some ths'.
Proof.
  induction ws as [|[p x] ws IH]; intros mem ths Et HB.
  - assert (Ht : (t < length ths)%nat) by (apply nth_error_Some; congruence). destruct (upd_some ths t (None, []) Ht) as [ths2 E2].
    exists [], mem, ths. split; [reflexivity|]. split; [reflexivity|]. split; [reflexivity|]. rewrite E2. f_equal. apply list_eq_nth; [apply (upd_length _ _ _ _ E2)|].
    intros i _. destruct (Nat.eq_dec i t) as [->|h]; [rewrite (upd_nth_same _ _ _ _ E2); symmetry; exact Et|rewrite (upd_nth_other _ _ _ _ _ E2) by congruence; reflexivity].
  - destruct (act_pair t p x ws mem ths Et) as (m1 & t1 & A1 & F1 & U1 & L1); [apply (HB p x); left; reflexivity|].
    destruct (IH m1 t1) as (sched & m2 & t2 & A2 & L2 & F2 & U2); [apply (upd_nth_same _ _ _ _ U1)|intros p0 x0 Hin; rewrite L1; apply (HB p0 x0); right; exact Hin|].
    exists ([t; t] ++ sched), m2, t2. split; [unfold add_all; cbn [foldR fst snd]; rewrite A1; cbn [rbind]; exact A2|]. split; [congruence|]. split.
    + rewrite foldR_app, F1. cbn [rbind]. exact F2.
    + assert (Ht : (t < length ths)%nat) by (apply nth_error_Some; congruence). destruct (upd_some ths t (None, []) Ht) as [ths2 E2]. rewrite E2. f_equal.
      apply list_eq_nth; [rewrite (upd_length _ _ _ _ E2), (upd_length _ _ _ _ U2), (upd_length _ _ _ _ U1); reflexivity|].
      intros i _. destruct (Nat.eq_dec i t) as [->|h]; [rewrite (upd_nth_same _ _ _ _ U2), (upd_nth_same _ _ _ _ E2); reflexivity|].
      rewrite (upd_nth_other _ _ _ _ _ U2), (upd_nth_other _ _ _ _ _ U1), (upd_nth_other _ _ _ _ _ E2) by congruence. reflexivity.
Qed.
Lemma race_serial (wss : list (list (nat * K))) mem : (forall ws p x, In ws wss -> In (p, x) ws -> (p < length mem)%nat) ->
  race_outcome (Ok wss) mem (add_all (concat wss) mem).
Proof.
  intros HB.
  assert (G : forall (rest : list (list (nat * K))) (done : list nat) (mem : list K), length mem = length mem -> (forall ws p x, In ws rest -> In (p, x) ws -> (p < length mem)%nat) ->
    exists sched mem', add_all (concat rest) mem = Ok mem' /\ foldR act sched (mem, map (fun _ => (None, []) : thread (K := K)) done ++ start rest) = Ok (mem', map (fun _ : nat => (None, []) : thread (K := K)) done ++ map (fun _ => (None, []) : thread (K := K)) rest)).
  { clear mem HB. induction rest as [|ws rest IH]; intros done mem _ HB.
    - exists [], mem. split; [reflexivity|]. reflexivity.
    - set (ths := map (fun _ : nat => (None, []) : thread (K := K)) done ++ start (ws :: rest)).
      assert (Et : nth_error ths (length done) = Some (None, ws)) by (unfold ths; rewrite nth_error_app2 by (rewrite map_length; lia); rewrite map_length, Nat.sub_diag; reflexivity).
      destruct (run_thread (length done) ws mem ths Et) as (s1 & m1 & t1 & A1 & L1 & F1 & U1); [intros p x; apply HB; left; reflexivity|].
      assert (Et1 : t1 = map (fun _ : nat => (None, []) : thread (K := K)) (done ++ [0%nat]) ++ start rest).
      { apply list_eq_nth; [rewrite (upd_length _ _ _ _ U1); unfold ths, start; rewrite !app_length, !map_length, app_length; cbn [length]; lia|].
        intros i Hi. destruct (Nat.eq_dec i (length done)) as [->|h].
        - rewrite (upd_nth_same _ _ _ _ U1). rewrite map_app, <- app_assoc, nth_error_app2 by (rewrite map_length; lia). rewrite map_length, Nat.sub_diag. reflexivity.
        - rewrite (upd_nth_other _ _ _ _ _ U1) by congruence. unfold ths. rewrite map_app, <- app_assoc. destruct (Nat.lt_ge_cases i (length done)) as [h1|h1].
          + rewrite !nth_error_app1 by (rewrite map_length; exact h1). reflexivity.
          + rewrite !nth_error_app2 by (rewrite map_length; exact h1). rewrite !map_length. destruct (i - length done)%nat as [|k] eqn:Ek; [lia|]. reflexivity. }
      destruct (IH (done ++ [0%nat]) m1 eq_refl) as (s2 & m2 & A2 & F2); [intros w p x Hw Hin; rewrite L1; apply (HB w p x); [right; exact Hw|exact Hin]|].
      exists (s1 ++ s2), m2. split; [cbn [concat]; rewrite add_all_app, A1; cbn [rbind]; exact A2|]. rewrite foldR_app, F1. cbn [rbind]. rewrite Et1, F2. rewrite map_app, <- app_assoc. reflexivity. }
  destruct (G wss [] mem eq_refl HB) as (sched & mem' & A & F). cbn [race_outcome]. exists sched. cbn [map app] in F. rewrite F. split; [|exact A].
  intros th Hin. apply in_map_iff in Hin. destruct Hin as (w & <- & _). reflexivity.
Qed.
End RaceP.

From Verif Require Import Assembly.GraphSpec Assembly.AssemblyModel Assembly.AssemblyProps MeshMap.TransposeProof.

Section Comp.
Context {K : CRing}.
Add Ring KringComp : (r_th K).
Local Open Scope K_scope.
(** Sum of the amounts at positions with component [e] of [D]. *)
Definition comp (D e : nat) (ws : list (nat * K)) : K := lsum (map (fun w => if Nat.eqb (fst w mod D) e then snd w else 0) ws).
Lemma comp_app D e w1 w2 : comp D e (w1 ++ w2) = comp D e w1 + comp D e w2.
Proof. unfold comp. rewrite map_app, lsum_app. reflexivity. Qed.
Lemma comp_concat D e wss : comp D e (concat wss) = lsum (map (comp D e) wss).
Proof. induction wss as [|w wss IH]; [reflexivity|]. cbn [concat map lsum]. rewrite comp_app, IH. reflexivity. Qed.

Lemma pick n D e p (x : K) : (e < D)%nat -> (p < n * D)%nat -> sum n (fun i => if Nat.eqb p (i * D + e) then x else 0) = if Nat.eqb (p mod D) e then x else 0.
Proof.
  intros He Hp. assert (HD : D <> 0%nat) by lia. pose proof (Nat.div_mod p D HD) as Hm. destruct (Nat.eqb_spec (p mod D) e) as [Ee|Ne].
  - rewrite (sum_single n (p / D)).
    + destruct (Nat.eqb_spec p (p / D * D + e)) as [_|h]; [reflexivity|exfalso; apply h; rewrite <- Ee; lia].
    + apply Nat.div_lt_upper_bound; [exact HD|lia].
    + intros j _ Hj. destruct (Nat.eqb_spec p (j * D + e)) as [h|_]; [|reflexivity]. exfalso. apply Hj. rewrite h, Nat.add_comm, Nat.div_add, Nat.div_small by lia. reflexivity.
  - apply sum_0. intros j _. destruct (Nat.eqb_spec p (j * D + e)) as [h|_]; [|reflexivity]. exfalso. apply Ne. rewrite h, Nat.add_comm, Nat.mod_add, Nat.mod_small by lia. reflexivity.
Qed.
Lemma comp_sum n D e (ws : list (nat * K)) (mem mem' : list K) : (e < D)%nat -> (forall p x, In (p, x) ws -> (p < n * D)%nat) ->
  (forall q, nth q mem' 0 = nth q mem 0 + amount q ws) ->
  sum n (fun i => nth (i * D + e) mem' 0) = sum n (fun i => nth (i * D + e) mem 0) + comp D e ws.
Proof.
  intros He HB HN. transitivity (sum n (fun i => nth (i * D + e) mem 0 + amount (i * D + e) ws)); [apply sum_ext; intros; apply HN|]. rewrite sum_add. f_equal.
  clear HN. induction ws as [|[p x] ws IH].
  - apply sum_0. intros. reflexivity.
  - change (comp D e ((p, x) :: ws)) with ((if Nat.eqb (p mod D) e then x else 0) + comp D e ws).
    transitivity (sum n (fun i => (if Nat.eqb p (i * D + e) then x else 0) + amount (i * D + e) ws)); [reflexivity|].
    rewrite sum_add, (pick n D e p x He) by (apply (HB p x); left; reflexivity). f_equal. apply IH. intros p0 x0 Hin. apply (HB p0 x0). right. exact Hin.
Qed.

(** Assembly keeps the sum over the nodes of every component. *)
Lemma assembled_sum (D npc ncells nn e : nat) (c2n : list nat) (loads v : list K) (out : res (list K)) :
  (e < D)%nat -> wf_mesh npc ncells nn c2n -> length v = (nn * D)%nat ->
  assemble_vector npc D c2n (seq 0 ncells) (fun k a => nth (k * (npc * D) + a) loads 0) v out ->
  exists v', out = Ok v' /\ length v' = length v /\
    sum nn (fun i => nth (i * D + e) v' 0) = sum nn (fun i => nth (i * D + e) v 0) + sum (ncells * npc) (fun i => nth (i * D + e) loads 0).
Proof.
  intros He MS Lv HA. assert (Hc : forall c, In c (seq 0 ncells) -> (c < ncells)%nat) by (intros c Hc; apply in_seq in Hc; lia). assert (HD : (0 < D)%nat) by lia.
  destruct (C06_vector _ _ _ _ _ _ _ _ _ _ HD MS Hc Lv HA) as (v' & -> & L & HN). clear HD.
  exists v'. split; [reflexivity|]. split; [exact L|]. rewrite seq_length in HN.
  transitivity (sum nn (fun i => nth (i * D + e) v 0 + sum ncells (fun k => sum (npc * D) (fun a => if Nat.eqb (gdof npc D c2n k a) (i * D + e) then nth (k * (npc * D) + a) loads 0 else 0)))).
  { apply sum_ext. intros i Hi. rewrite HN. f_equal. apply sum_ext. intros k Hk. rewrite seq_nth by exact Hk. reflexivity. }
  rewrite sum_add. f_equal. rewrite sum_swap, sum_block. apply sum_ext. intros k Hk. rewrite sum_swap, sum_block. apply sum_ext. intros j Hj.
  assert (Hnode : (node_of npc c2n k j < nn)%nat).
  { destruct MS as [ML MN]. apply MN. unfold node_of. apply nth_In. rewrite ML. nia. }
  transitivity (sum D (fun t => if Nat.eqb t e then nth (k * (npc * D) + (j * D + t)) loads 0 else 0)).
  - apply sum_ext. intros t Ht. unfold gdof. rewrite Nat.add_comm with (n := (j * D)%nat), Nat.div_add, Nat.div_small, Nat.mod_add, Nat.mod_small by lia. rewrite Nat.add_0_l.
    rewrite pick; [|exact He|nia]. rewrite Nat.add_comm with (m := t), Nat.mod_add, Nat.mod_small by lia. rewrite Nat.add_comm with (n := t). reflexivity.
  - rewrite (sum_single D e); [|exact He|].
    + rewrite Nat.eqb_refl. f_equal. lia.
    + intros t Ht Hne. destruct (Nat.eqb_spec t e); [contradiction|reflexivity].
Qed.
End Comp.

From Verif Require Import Element.ElementProof.
Local Open Scope R_scope.
Notation rlsum := (lsum (K := R_ring)).
Notation rcomp := (comp (K := R_ring)).

Lemma mapR_ex {A B} (f : A -> res B) (P : A -> B -> Prop) l :
  (forall x, In x l -> exists y, f x = Ok y /\ P x y) -> exists ys, mapR f l = Ok ys /\ Forall2 P l ys.
Proof.
  induction l as [|x l IH]; intros H; [exists []; split; [reflexivity|constructor]|]. destruct (H x (or_introl eq_refl)) as (y & E & Py). destruct IH as (ys & Es & Ps); [intros z Hz; apply H; right; exact Hz|].
  exists (y :: ys). cbn [mapR]. rewrite E. cbn [rbind]. rewrite Es. split; [reflexivity|constructor; assumption].
Qed.
Lemma Forall2_nth_P {A B} (P : A -> B -> Prop) l ys : Forall2 P l ys -> length l = length ys /\ forall i da db, (i < length l)%nat -> P (nth i l da) (nth i ys db).
Proof.
  induction 1 as [|x y l ys Hxy H [IL IH]]; [split; [reflexivity|intros i da db Hi; cbn in Hi; lia]|]. split; [cbn; congruence|]. intros [|i] da db Hi; [exact Hxy|]. cbn [nth]. apply IH. cbn in Hi. lia.
Qed.

Lemma local_node_ok d m cell face i :
  (face * d + i < length (f2v m))%nat -> (cell * (d + 1) + (d + 1) <= length (c2v m))%nat ->
  (exists j, (j < d + 1)%nat /\ cell_vertex d m cell j = nth (face * d + i) (f2v m) 0%nat) ->
  exists j, local_node d m cell face i = Ok j /\ (j < d + 1)%nat /\ cell_vertex d m cell j = nth (face * d + i) (f2v m) 0%nat.
Proof.
  intros Hf Hc (j0 & Hj0 & Ej0). unfold local_node. rewrite (nth_error_some_nth _ _ 0%nat Hf). cbn [ub rbind]. set (v := nth (face * d + i) (f2v m) 0%nat) in *.
  assert (G : forall n, (n <= d + 1)%nat -> exists o, foldR (fun j (acc : option nat) => let! u := ub (nth_error (c2v m) (cell * (d + 1) + j)) in Ok (if Nat.eqb v u then Some j else acc)) (seq 0 n) None = Ok o /\
    match o with Some j => (j < n)%nat /\ cell_vertex d m cell j = v | None => forall j, (j < n)%nat -> cell_vertex d m cell j <> v end).
  { induction n as [|n IH]; intros Hn; [exists None; split; [reflexivity|intros j Hj; lia]|]. destruct IH as (o & Eo & Ho); [lia|].
    rewrite seq_S, foldR_app, Eo. cbn [rbind foldR plus]. rewrite (nth_error_some_nth _ (cell * (d + 1) + n) 0%nat) by lia. cbn [ub rbind]. fold (cell_vertex d m cell n).
    destruct (Nat.eqb_spec v (cell_vertex d m cell n)) as [h|h]; eexists; (split; [reflexivity|]).
    - split; [lia|symmetry; exact h].
    - destruct o as [j|]; [destruct Ho; split; [lia|assumption]|]. intros j Hj. destruct (Nat.eq_dec j n) as [->|]; [congruence|apply Ho; lia]. }
  destruct (G (d + 1)%nat ltac:(lia)) as (o & Eo & Ho). rewrite Eo. cbn [rbind]. destruct o as [j|]; [exists j; split; [reflexivity|exact Ho]|]. exfalso. apply (Ho j0 Hj0 Ej0).
Qed.

Lemma face_elems_ok d ncells m face cells : face_of d ncells m face cells -> face_elems m face = Ok cells.
Proof.
  intros (_ & (a & b & Ea & Eb & Hab & ->) & _). unfold face_elems. rewrite Ea, Eb. cbn [ub rbind]. unfold range. apply mapR_ok. intros k Hk. apply in_seq in Hk. rewrite (nth_error_some_nth _ k 0%nat) by lia. reflexivity.
Qed.

(** The weights of the face nodes add up to the area. *)
Lemma weight_area d mult (x : nat -> nat -> R) (loc : nat -> nat) (X : nat -> nat -> R) :
  (1 <= d <= 3)%nat -> (forall i c, (i < d)%nat -> (c < d)%nat -> x (loc i) c = X i c) ->
  INR d * surf_weight d (mult * cub_weight d) (surf_jacobian d x loc) = mult * simplex_area d X.
Proof.
  intros Hd Hx. unfold surf_jacobian. dims d; cbn [surf_weight simplex_area cub_weight Nat.sub].
  - cbn. lra.
  - unfold inner, edge. rewrite !Hx by lia. rsums. replace (cub_weight 2) with (1 / 2) by (unfold cub_weight; cbn; lra).
    replace (INR 2) with 2 by (cbn; lra).
    match goal with |- 2 * (mult * (1 / 2) * sqrt ?a) = mult * sqrt ?b => replace a with b by ring; generalize (sqrt b); intros s; field end.
  - unfold inner, edge. rewrite !Hx by lia. rsums. replace (cub_weight 3) with (1 / 6) by (unfold cub_weight; cbn; field).
    replace (INR 3) with 3 by (cbn; lra).
    match goal with |- 3 * (mult * (1 / 6) * sqrt ?a) = mult * (sqrt ?b / 2) => replace a with b by ring; generalize (sqrt b); intros s; field end.
Qed.

Section Cell.
Variables (d numdofs dpn off ncells : nat) (m : mesh).
Hypothesis Hd : (1 <= d <= 3)%nat.
Hypothesis Hdofs : (off + numdofs <= dpn)%nat.
(** The additions of one face into one cell, [g] giving the amount of a component. *)
Lemma cell_adds cell (locs : list nat) (g : nat -> R) : (cell < ncells)%nat -> (forall n, (n < d)%nat -> (loc_of locs n < d + 1)%nat) ->
  exists ws, mapR (fun nd : nat * nat => let! p := entry ncells ((d + 1) * dpn) cell (loc_of locs (fst nd) * dpn + snd nd + off) in Ok (p, g (snd nd))) (list_prod (seq 0 d) (seq 0 numdofs)) = Ok ws /\
    (forall p x, In (p, x) ws -> exists j e, (j < d + 1)%nat /\ (off <= e < off + numdofs)%nat /\ p = (cell * ((d + 1) * dpn) + j * dpn + e)%nat) /\
    (forall e, (e < dpn)%nat -> rcomp dpn e ws = if (Nat.leb off e && Nat.ltb e (off + numdofs))%bool then INR d * g (e - off)%nat else 0).
Proof.
  intros Hc HL. set (P := fun nd : nat * nat => ((cell * ((d + 1) * dpn) + (loc_of locs (fst nd) * dpn + snd nd + off))%nat, g (snd nd))).
  exists (map P (list_prod (seq 0 d) (seq 0 numdofs))).
  assert (Hin : forall nd, In nd (list_prod (seq 0 d) (seq 0 numdofs)) -> (fst nd < d)%nat /\ (snd nd < numdofs)%nat).
  { intros [n k] H. apply in_prod_iff in H. destruct H as [H1 H2]. apply in_seq in H1. apply in_seq in H2. cbn [fst snd]. lia. }
  split; [|split].
  - apply mapR_ok. intros nd H. destruct (Hin nd H) as [H1 H2]. pose proof (HL _ H1). unfold entry. rewrite (proj2 (Nat.ltb_lt _ _) Hc). rewrite (proj2 (Nat.ltb_lt (loc_of locs (fst nd) * dpn + snd nd + off) ((d + 1) * dpn))) by nia. reflexivity.
  - intros p x H. apply in_map_iff in H. destruct H as (nd & E & H). destruct (Hin nd H) as [H1 H2]. injection E as <- _. exists (loc_of locs (fst nd)), (snd nd + off)%nat. split; [apply HL; exact H1|]. split; [lia|lia].
  - intros e He. unfold comp. rewrite map_map. cbn [P fst snd].
    transitivity (rlsum (map (fun nd : nat * nat => if Nat.eqb (snd nd + off) e then g (snd nd) else 0) (list_prod (seq 0 d) (seq 0 numdofs)))).
    { apply (lsum_map_ext (K := R_ring)). intros nd H. destruct (Hin nd H) as [H1 H2].
      replace (cell * ((d + 1) * dpn) + (loc_of locs (fst nd) * dpn + snd nd + off))%nat with ((snd nd + off) + (cell * (d + 1) + loc_of locs (fst nd)) * dpn)%nat by ring.
      rewrite Nat.mod_add, Nat.mod_small by lia. reflexivity. }
    assert (L : forall (l : list nat) (V : R), V = (if (Nat.leb off e && Nat.ltb e (off + numdofs))%bool then g (e - off)%nat else 0) ->
      @eq R (rlsum (map (fun nd : nat * nat => if Nat.eqb (snd nd + off) e then g (snd nd) else 0) (list_prod l (seq 0 numdofs)))) (INR (length l) * V)).
    { intros l V EV. induction l as [|n l IH]; [cbn; ring|]. cbn [list_prod]. rewrite map_app. etransitivity; [apply (lsum_app (K := R_ring))|]. rewrite IH, map_map. cbn [snd length]. rewrite S_INR.
      assert (E1 : rlsum (map (fun k => if Nat.eqb (k + off) e then g k else 0) (seq 0 numdofs)) = V).
      { rewrite EV. etransitivity; [apply (lsum_map_seq (K := R_ring))|]. destruct (Nat.leb_spec off e) as [h|h]; cbn [andb]; [destruct (Nat.ltb_spec e (off + numdofs)) as [h'|h']|].
        - rewrite (sum_single (K := R_ring) numdofs (e - off)); [destruct (Nat.eqb_spec (e - off + off) e); [reflexivity|lia]|lia|]. intros j _ Hj. destruct (Nat.eqb_spec (j + off) e); [lia|reflexivity].
        - apply (sum_0 (K := R_ring)). intros j Hj. destruct (Nat.eqb_spec (j + off) e); [lia|reflexivity].
        - apply (sum_0 (K := R_ring)). intros j Hj. destruct (Nat.eqb_spec (j + off) e); [lia|reflexivity]. }
      etransitivity; [apply (f_equal2 Rplus); [exact E1|reflexivity]|]. req. ring. }
    etransitivity; [apply (L (seq 0 d) _ eq_refl)|]. rewrite seq_length. destruct (Nat.leb off e && Nat.ltb e (off + numdofs))%bool; req; ring.
Qed.
End Cell.

Section Items.
Variables (d numdofs dpn off ncells : nat) (m : mesh) (X : nat -> nat -> R) (config : nat -> nat -> nat -> R) (flux : nat -> R) (scale : R).
Hypothesis Hd : (1 <= d <= 3)%nat.
Hypothesis Hdofs : (off + numdofs <= dpn)%nat.
Hypothesis Hlen : length (c2v m) = (ncells * (d + 1))%nat.
Hypothesis Hcfg : is_config d ncells m X config.
Definition in_dofs (e : nat) : bool := (Nat.leb off e && Nat.ltb e (off + numdofs))%bool.

Lemma locs_ok face cells c : face_of d ncells m face cells -> In c cells ->
  exists locs, mapR (local_node d m c face) (seq 0 d) = Ok locs /\ (forall n, (n < d)%nat -> (loc_of locs n < d + 1)%nat) /\
    forall n k, (n < d)%nat -> (k < d)%nat -> config c (loc_of locs n) k = face_corner d m X face n k.
Proof.
  intros HF Hc. destruct HF as (Hf & _ & HV). destruct (HV c Hc) as [Hcn HV'].
  destruct (mapR_ex (local_node d m c face) (fun i j => (j < d + 1)%nat /\ cell_vertex d m c j = nth (face * d + i) (f2v m) 0%nat) (seq 0 d)) as (locs & E & F).
  { intros i Hi. apply in_seq in Hi. apply local_node_ok; [lia|rewrite Hlen; nia|apply HV'; lia]. }
  exists locs. split; [exact E|]. destruct (Forall2_nth_P _ _ _ F) as [L N]. rewrite seq_length in N. split.
  - intros n Hn. destruct (N n 0%nat 0%nat Hn) as [H _]. exact H.
  - intros n k Hn Hk. destruct (N n 0%nat 0%nat Hn) as [H1 H2]. rewrite seq_nth, Nat.add_0_l in H2 by exact Hn. rewrite Hcfg; [|exact Hcn|exact H1|exact Hk]. unfold face_corner. rewrite <- H2. reflexivity.
Qed.

Definition adds_ok (cells : list nat) (g : nat -> nat -> R) (ws : list (nat * R)) : Prop :=
  (forall p x, In (p, x) ws -> exists c j e, In c cells /\ (c < ncells)%nat /\ (j < d + 1)%nat /\ (off <= e < off + numdofs)%nat /\ p = (c * ((d + 1) * dpn) + j * dpn + e)%nat) /\
  (forall e, (e < dpn)%nat -> rcomp dpn e ws = if in_dofs e then rlsum (map (fun c => g c (e - off)%nat) cells) else 0).

Lemma adds_concat (cells : list nat) g wss : (forall c, In c cells -> (c < ncells)%nat) ->
  Forall2 (fun c ws => adds_ok [c] g ws) cells wss -> adds_ok cells g (concat wss).
Proof.
  intros Hc F. induction F as [|c ws cells wss H F IH].
  - split; [intros p x []|]. intros e He. cbn. destruct (in_dofs e); reflexivity.
  - destruct IH as [I1 I2]; [intros c0 Hc0; apply Hc; right; exact Hc0|]. destruct H as [H1 H2]. cbn [concat]. split.
    + intros p x Hin. apply in_app_or in Hin. destruct Hin as [Hin|Hin]; [destruct (H1 p x Hin) as (c' & j & e & [Ec|[]] & R)|destruct (I1 p x Hin) as (c' & j & e & Ec & R)]; exists c', j, e; (split; [|exact R]); [left; exact Ec|right; exact Ec].
    + intros e He. etransitivity; [exact (comp_app (K := R_ring) dpn e ws (concat wss))|]. etransitivity; [apply (f_equal2 Rplus); [exact (H2 e He)|exact (I2 e He)]|]. destruct (in_dofs e); cbn [map lsum]; change (@radd R_ring) with Rplus; change (@r0 R_ring) with 0; req; ring.
Qed.

Lemma load_item_ok face cells : face_of d ncells m face cells ->
  exists ws, load_item d numdofs dpn off ncells m config flux scale face = Ok ws /\ adds_ok cells (fun _ k => scale * face_area d m X face * flux k) ws.
Proof.
  intros HF. unfold load_item. rewrite (face_elems_ok _ _ _ _ _ HF). cbn [rbind].
  match goal with |- context [mapR ?f cells] => destruct (mapR_ex f (fun c ws => adds_ok [c] (fun _ k => scale * face_area d m X face * flux k) ws) cells) as (wss & E & F) end.
  - intros c Hc. destruct (locs_ok face cells c HF Hc) as (locs & E & HL & HX). rewrite E. cbn [rbind]. cbv zeta.
    set (w := surf_weight d (scale * cub_weight d) (surf_jacobian d (config c) (loc_of locs))).
    assert (Hcn : (c < ncells)%nat) by (apply HF; exact Hc).
    destruct (cell_adds d numdofs dpn off ncells Hd Hdofs c locs (fun k => w * flux k) Hcn HL) as (ws & Ew & HP & HC). exists ws. split; [exact Ew|]. split.
    + intros p x Hin. destruct (HP p x Hin) as (j & e & Hj & He & Ep). exists c, j, e. repeat split; try assumption; [left; reflexivity|apply He|apply He].
    + intros e He. rewrite (HC e He). unfold in_dofs. destruct (_ && _)%bool; [|reflexivity]. cbn [map lsum]. change (@radd R_ring) with Rplus. change (@r0 R_ring) with 0. req.
      rewrite <- Rmult_assoc. unfold w. rewrite (weight_area d scale (config c) (loc_of locs) (face_corner d m X face) Hd HX). unfold face_area. ring.
  - rewrite E. cbn [rbind]. exists (concat wss). split; [reflexivity|]. apply adds_concat; [intros c Hc; apply HF; exact Hc|exact F].
Qed.

Lemma local_face_ok cell face lf : (cell * (d + 1) + (d + 1) <= length (c2f m))%nat -> face_position d m cell face lf -> local_face d m cell face = Ok lf.
Proof.
  intros HL (H1 & H2 & H3). unfold local_face.
  assert (G : forall n, (n <= d + 1)%nat -> foldR (fun j (acc : option nat) => match acc with Some _ => Ok acc | None => let! f := ub (nth_error (c2f m) (cell * (d + 1) + j)) in Ok (if Nat.eqb f face then Some j else None) end) (seq 0 n) None =
     Ok (if Nat.ltb lf n then Some lf else None)).
  { induction n as [|n IH]; intros Hn; [reflexivity|]. rewrite seq_S, foldR_app, IH by lia. cbn [rbind foldR plus].
    destruct (Nat.ltb_spec lf n) as [h|h]; [rewrite (proj2 (Nat.ltb_lt lf (S n))) by lia; reflexivity|].
    rewrite (nth_error_some_nth _ (cell * (d + 1) + n) 0%nat) by lia. cbn [ub rbind].
    destruct (Nat.eqb_spec (nth (cell * (d + 1) + n) (c2f m) 0%nat) face) as [e|e].
    - assert (lf = n) as -> by (destruct (Nat.lt_trichotomy lf n) as [?|[?|?]]; [lia|assumption|exfalso; apply (H3 n); assumption]). rewrite (proj2 (Nat.ltb_lt n (S n))) by lia. reflexivity.
    - destruct (Nat.ltb_spec lf (S n)) as [h'|h']; [exfalso; apply e; assert (lf = n) as <- by lia; exact H2|reflexivity]. }
  rewrite G by lia. rewrite (proj2 (Nat.ltb_lt lf (d + 1))) by lia. reflexivity.
Qed.

Lemma pressure_item_ok normal (lfo : nat -> nat -> nat) face cells : (numdofs <= d)%nat -> length (c2f m) = (ncells * (d + 1))%nat ->
  (forall c l, length (normal c l) = d) ->
  face_of d ncells m face cells -> (forall c, In c cells -> face_position d m c face (lfo c face)) ->
  exists ws, pressure_item d numdofs dpn off ncells m config flux scale normal face = Ok ws /\
    adds_ok cells (fun c k => scale * face_area d m X face * nth k (normal c (lfo c face)) 0 * flux k) ws.
Proof.
  intros Hnd Hlf Hnl HF HP. unfold pressure_item. rewrite (face_elems_ok _ _ _ _ _ HF). cbn [rbind].
  match goal with |- context [mapR ?f cells] => destruct (mapR_ex f (fun c ws => adds_ok [c] (fun c k => scale * face_area d m X face * nth k (normal c (lfo c face)) 0 * flux k) ws) cells) as (wss & E & F) end.
  - intros c Hc. destruct (locs_ok face cells c HF Hc) as (locs & E & HL & HX). rewrite E. cbn [rbind]. cbv zeta.
    assert (Hcn : (c < ncells)%nat) by (apply HF; exact Hc).
    rewrite (local_face_ok c face (lfo c face)); [|rewrite Hlf; nia|apply HP; exact Hc]. cbn [rbind].
    set (w := surf_weight d (scale * cub_weight d) (surf_jacobian d (config c) (loc_of locs))).
    destruct (cell_adds d numdofs dpn off ncells Hd Hdofs c locs (fun k => nth k (normal c (lfo c face)) 0 * flux k * w) Hcn HL) as (ws & Ew & HPo & HC). exists ws. split.
    { rewrite <- Ew. assert (ME : forall {A B} (f g : A -> res B) l, (forall x, In x l -> f x = g x) -> mapR f l = mapR g l).
      { intros A B f g l Hfg. induction l as [|x l IH]; [reflexivity|]. cbn [mapR]. rewrite Hfg by (left; reflexivity). rewrite IH by (intros z Hz; apply Hfg; right; exact Hz). reflexivity. }
      apply ME. intros [n k] Hin. apply in_prod_iff in Hin. destruct Hin as [_ Hk]. apply in_seq in Hk. cbn [fst snd].
      destruct (entry ncells ((d + 1) * dpn) c (loc_of locs n * dpn + k + off)); cbn [rbind]; [|reflexivity|reflexivity].
      rewrite (nth_error_some_nth _ k 0) by (rewrite Hnl; lia). reflexivity. }
    split.
    + intros p x Hin. destruct (HPo p x Hin) as (j & e & Hj & He & Ep). exists c, j, e. repeat split; try assumption; [left; reflexivity|apply He|apply He].
    + intros e He. rewrite (HC e He). unfold in_dofs. destruct (_ && _)%bool; [|reflexivity]. cbn [map lsum]. change (@radd R_ring) with Rplus. change (@r0 R_ring) with 0. req.
      pose proof (weight_area d scale (config c) (loc_of locs) (face_corner d m X face) Hd HX) as W. fold w in W. fold (face_area d m X face) in W. rewrite <- W. ring.
  - rewrite E. cbn [rbind]. exists (concat wss). split; [reflexivity|]. apply adds_concat; [intros c Hc; apply HF; exact Hc|exact F].
Qed.

(** From the items of all faces to the assembled vector. *)
Variables (nn : nat) (adj : nat -> list nat) (faces : list nat) (G : nat -> nat -> nat -> R).
Hypothesis Hmesh : wf_mesh (d + 1) ncells nn (c2v m).
Hypothesis Hdpn : (0 < dpn)%nat.
Definition W : nat := ((d + 1) * dpn)%nat.
Definition delivered (loads : list R) : Prop :=
  forall v0 out', length v0 = (nn * dpn)%nat ->
    assemble_vector (K := R_ring) (d + 1) dpn (c2v m) (seq 0 ncells) (fun k a => nth (k * ((d + 1) * dpn) + a) loads 0) v0 out' ->
    exists v', out' = Ok v' /\ length v' = length v0 /\
      forall e, (e < dpn)%nat -> rsum nn (fun i => nth (i * dpn + e) v' 0) = rsum nn (fun i => nth (i * dpn + e) v0 0) +
        (if in_dofs e then rlsum (map (fun f => rlsum (map (fun c => G f c (e - off)%nat) (adj f))) faces) else 0).
Lemma deliver wss loads :
  Forall2 (fun f ws => adds_ok (adj f) (G f) ws) faces wss ->
  (forall q, nth q loads 0 = nth q (repeat 0 (ncells * ((d + 1) * dpn))) 0 + amount (K := R_ring) q (concat wss)) -> delivered loads.
Proof.
  intros F HN v0 out' L0 HA.
  assert (HB : forall p x, In (p, x) (concat wss) -> (p < (ncells * (d + 1)) * dpn)%nat).
  { intros p x Hin. apply in_concat in Hin. destruct Hin as (ws & Hw & Hin). destruct (In_nth _ _ [] Hw) as (i & Hi & Ei). destruct (Forall2_nth_P _ _ _ F) as [FL FN].
    destruct (FN i 0%nat [] ltac:(lia)) as [H1 _]. rewrite Ei in H1. destruct (H1 p x Hin) as (c & j & e & _ & Hc & Hj & He & ->). nia. }
  assert (HC : forall e, (e < dpn)%nat -> rcomp dpn e (concat wss) = if in_dofs e then rlsum (map (fun f => rlsum (map (fun c => G f c (e - off)%nat) (adj f))) faces) else 0).
  { intros e He. clear HB HN. induction F as [|f ws fs wss H F IH]; [destruct (in_dofs e); reflexivity|]. cbn [concat map lsum]. etransitivity; [exact (comp_app (K := R_ring) dpn e ws (concat wss))|]. destruct H as [_ H]. etransitivity; [apply (f_equal2 Rplus); [exact (H e He)|exact IH]|].
    destruct (in_dofs e); [reflexivity|]. change (@radd R_ring) with Rplus. req. ring. }
  destruct (assembled_sum (K := R_ring) dpn (d + 1) ncells nn 0 (c2v m) loads v0 out' ltac:(lia) Hmesh L0 HA) as (v' & E & L & _). exists v'. split; [exact E|]. split; [exact L|].
  intros e He. destruct (assembled_sum (K := R_ring) dpn (d + 1) ncells nn e (c2v m) loads v0 out' He Hmesh L0 HA) as (v'' & E' & _ & S). rewrite E in E'. injection E' as <-.
  etransitivity; [exact S|]. change (@radd R_ring) with Rplus. apply (f_equal2 Rplus); [reflexivity|]. etransitivity; [|exact (HC e He)].
  pose proof (comp_sum (K := R_ring) (ncells * (d + 1)) dpn e (concat wss) (repeat 0 (ncells * ((d + 1) * dpn))) loads He HB HN) as CS. etransitivity; [exact CS|].
  rewrite (sum_0 (K := R_ring)); [change (@radd R_ring) with Rplus; change (@r0 R_ring) with 0; req; ring|]. intros i _. apply nth_repeat.
Qed.
End Items.
