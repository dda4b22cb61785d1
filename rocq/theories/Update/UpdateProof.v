(** Invariants of the evaluator tables. *)
From Coq Require Import Reals String List Arith Bool Permutation Lia Lra.
From Verif Require Import Base.ListUpd Base.Res Update.UpdateModel.
Import ListNotations.

Section P.
Variables (St Inp : Type) (init : string -> St) (step : string -> Inp -> St -> St).
Notation fn := (fn St).

(** [f] stores, under every pair of a member and a block, its own evaluator whose state [T] gives. *)
Definition rep (f : fn) (T : string -> string -> option St) : Prop :=
  (forall k d, match tab St f k d with Some i => nth_error (objs St f) i = T k d /\ i < List.length (objs St f) | None => T k d = None end) /\
  (forall k d k' d' i, tab St f k d = Some i -> tab St f k' d' = Some i -> k = k' /\ d = d').
Definition put {A} (T : string -> string -> A) (k d : string) (v : A) : string -> string -> A :=
  fun k' d' => if String.eqb k' k && String.eqb d' d then v else T k' d'.

Lemma rep_ext f T T' : (forall k d, T k d = T' k d) -> rep f T -> rep f T'.
Proof.
  intros E [H1 H2]. split; [|exact H2]. intros k d. specialize (H1 k d). destruct (tab St f k d); rewrite <- E; exact H1.
Qed.
Lemma rep_create f T k d : rep f T -> rep (create St init d f k) (put T k d (Some (init d))).
Proof.
  intros [H1 H2]. unfold create, put. split; cbn [tab objs].
  - intros k' d'. destruct (String.eqb k' k && String.eqb d' d) eqn:E.
    + split; [|rewrite app_length; simpl; lia]. rewrite nth_error_app2 by lia. rewrite Nat.sub_diag. simpl.
      apply andb_true_iff in E. destruct E as [_ E]. apply String.eqb_eq in E. subst. reflexivity.
    + specialize (H1 k' d'). destruct (tab St f k' d') as [i|]; [|exact H1]. destruct H1 as [A B].
      split; [rewrite nth_error_app1 by lia; exact A|rewrite app_length; lia].
  - intros a b a' b' i. 
    destruct (String.eqb a k && String.eqb b d) eqn:E; destruct (String.eqb a' k && String.eqb b' d) eqn:E'; intros X Y.
    + apply andb_true_iff in E, E'. destruct E as [E1 E2], E' as [E3 E4]. apply String.eqb_eq in E1, E2, E3, E4. subst. split; reflexivity.
    + injection X as <-. specialize (H1 a' b'). rewrite Y in H1. lia.
    + injection Y as <-. specialize (H1 a b). rewrite X in H1. lia.
    + exact (H2 _ _ _ _ _ X Y).
Qed.
Definition mem (x : string) (l : list string) : bool := existsb (String.eqb x) l.
Lemma mem_in x l : mem x l = true <-> In x l.
Proof.
  unfold mem. rewrite existsb_exists. split.
  - intros [y [H E]]. apply String.eqb_eq in E. subst. exact H.
  - intros H. exists x. split; [exact H|apply String.eqb_refl].
Qed.
Lemma rep_creates ks d : forall f T, rep f T -> rep (fold_left (create St init d) ks f) (fun k' d' => if mem k' ks && String.eqb d' d then Some (init d) else T k' d').
Proof.
  induction ks as [|k ks IH]; intros f T H; cbn [fold_left].
  - exact H.
  - eapply rep_ext; [|apply IH; apply rep_create; exact H]. intros k' d'. unfold put, mem. cbn [existsb].
    fold (mem k' ks). destruct (mem k' ks), (String.eqb k' k), (String.eqb d' d); reflexivity.
Qed.
Lemma rep_constructs ks doms : forall f T, rep f T ->
  rep (fold_left (fun f d => fold_left (create St init d) ks f) doms f) (fun k' d' => if mem k' ks && mem d' doms then Some (init d') else T k' d').
Proof.
  induction doms as [|d doms IH]; intros f T H; cbn [fold_left].
  - eapply rep_ext; [|exact H]. intros. unfold mem at 2. cbn [existsb]. rewrite andb_false_r. reflexivity.
  - eapply rep_ext; [|apply IH; apply rep_creates; exact H]. intros k' d'. cbv beta. unfold mem at 2 5. cbn [existsb]. fold (mem d' doms).
    destruct (mem k' ks), (mem d' doms), (String.eqb_spec d' d); cbn [andb orb]; subst; reflexivity.
Qed.
Lemma rep_construct ks doms : rep (construct St init ks doms) (fun k d => if mem k ks && mem d doms then Some (init d) else None).
Proof. apply rep_constructs. split; [intros; reflexivity|discriminate]. Qed.

Lemma rep_at f T k d s : rep f T -> T k d = Some s -> exists i, at_ St f k d = Ok i /\ tab St f k d = Some i /\ nth_error (objs St f) i = Some s.
Proof.
  intros [H1 _] E. specialize (H1 k d). unfold at_. destruct (tab St f k d) as [i|]; [|congruence].
  exists i. destruct H1 as [A _]. rewrite A, E. split; [|split]; reflexivity.
Qed.
Lemma rep_poke f T k d d' inp i s : rep f T -> tab St f k d = Some i -> T k d = Some s ->
  exists f', poke St Inp step d' inp i f = Ok f' /\ tab St f' = tab St f /\ bnd St f' = bnd St f /\ rep f' (put T k d (Some (step d' inp s))).
Proof.
  intros [H1 H2] Ti E. pose proof (H1 k d) as K. rewrite Ti in K. destruct K as [A B].
  unfold poke. rewrite A, E. cbn [ub rbind]. destruct (upd_some (objs St f) i (step d' inp s) B) as [l' U]. rewrite U. cbn [ub rbind].
  eexists. split; [reflexivity|]. split; [reflexivity|]. split; [reflexivity|]. split; cbn [tab objs].
  - intros k' d1. specialize (H1 k' d1). unfold put. destruct (tab St f k' d1) as [j|] eqn:Ej.
    + rewrite (upd_length _ _ _ _ U). split; [|tauto]. destruct (Nat.eq_dec j i) as [->|N].
      * destruct (H2 _ _ _ _ _ Ej Ti) as [-> ->]. rewrite !String.eqb_refl. exact (upd_nth_same _ _ _ _ U).
      * rewrite (upd_nth_other _ _ _ _ j U N). destruct (String.eqb_spec k' k) as [->|]; [|tauto]. destruct (String.eqb_spec d1 d) as [->|]; [congruence|tauto].
    + destruct (String.eqb_spec k' k) as [->|]; [|exact H1]. destruct (String.eqb_spec d1 d) as [->|]; [congruence|exact H1].
  - exact H2.
Qed.

(** The body of the loop, one block. *)
Lemma rep_block ks d inp : NoDup ks -> forall f T (s : string -> St), rep f T -> (forall k, In k ks -> T k d = Some (s k)) ->
  exists f', foldR (fun k f => rbind (at_ St f k d) (fun i => poke St Inp step d inp i f)) ks f = Ok f' /\ tab St f' = tab St f /\ bnd St f' = bnd St f /\
    rep f' (fun k' d' => if mem k' ks && String.eqb d' d then Some (step d inp (s k')) else T k' d').
Proof.
  induction ks as [|k ks IH]; intros ND f T s H Hs.
  - exists f. split; [reflexivity|]. split; [reflexivity|]. split; [reflexivity|exact H].
  - apply NoDup_cons_iff in ND. destruct ND as [Nk ND]. cbn [foldR].
    destruct (rep_at f T k d (s k) H (Hs k (or_introl eq_refl))) as [i [A [B C]]]. rewrite A. cbn [rbind].
    destruct (rep_poke f T k d d inp i (s k) H B (Hs k (or_introl eq_refl))) as [f1 [E1 [E2 [E3 E4]]]]. rewrite E1. cbn [rbind].
    destruct (IH ND f1 _ s E4) as [f2 [F1 [F2 [F3 F4]]]].
    { intros k' Hk'. unfold put. destruct (String.eqb_spec k' k) as [->|]; [contradiction|]. apply Hs. right. exact Hk'. }
    exists f2. split; [exact F1|]. split; [congruence|]. split; [congruence|]. eapply rep_ext; [|exact F4].
    intros k' d'. unfold put, mem. cbn [existsb]. fold (mem k' ks).
    destruct (mem k' ks), (String.eqb_spec k' k), (String.eqb_spec d' d); cbn [andb orb]; subst; reflexivity.
Qed.
Lemma rep_blocks ks doms inp : NoDup ks -> NoDup doms -> forall f T (s : string -> string -> St), rep f T -> (forall k d, In k ks -> In d doms -> T k d = Some (s k d)) ->
  exists f', update_blocks St Inp step ks doms inp f = Ok f' /\ tab St f' = tab St f /\ bnd St f' = bnd St f /\
    rep f' (fun k' d' => if mem k' ks && mem d' doms then Some (step d' inp (s k' d')) else T k' d').
Proof.
  intros NK. unfold update_blocks. induction doms as [|d doms IH]; intros ND f T s H Hs.
  - exists f. split; [reflexivity|]. split; [reflexivity|]. split; [reflexivity|]. eapply rep_ext; [|exact H]. intros. unfold mem at 2. cbn [existsb]. rewrite andb_false_r. reflexivity.
  - apply NoDup_cons_iff in ND. destruct ND as [Nd ND]. cbn [foldR].
    destruct (rep_block ks d inp NK f T (fun k => s k d) H) as [f1 [E1 [E2 [E3 E4]]]]; [intros k Hk; apply Hs; [exact Hk|left; reflexivity]|].
    rewrite E1. cbn [rbind]. destruct (IH ND f1 _ s E4) as [f2 [F1 [F2 [F3 F4]]]].
    { intros k d' Hk Hd. destruct (String.eqb_spec d' d) as [->|]; [contradiction|]. rewrite andb_false_r. apply Hs; [exact Hk|right; exact Hd]. }
    exists f2. split; [exact F1|]. split; [congruence|]. split; [congruence|]. eapply rep_ext; [|exact F4].
    intros k' d'. cbv beta. unfold mem at 2 5. cbn [existsb]. fold (mem d' doms).
    destruct (mem k' ks), (mem d' doms), (String.eqb_spec d' d); cbn [andb orb]; subst; reflexivity.
Qed.

Lemma rep_evaluator f T k d s : rep f T -> T k d = Some s -> evaluator St f k d = Ok s.
Proof. intros H E. destruct (rep_at f T k d s H E) as [i [A [B C]]]. unfold evaluator. rewrite A. cbn [rbind]. rewrite C. reflexivity. Qed.

(** Histories. *)
Definition after (h : list Inp) (d : string) : St := fold_left (fun s i => step d i s) h (init d).
Lemma after_snoc h i d : after (h ++ [i]) d = step d i (after h d).
Proof. unfold after. rewrite fold_left_app. reflexivity. Qed.
Lemma blocks_history ks us doms : NoDup ks -> NoDup doms -> Permutation us ks -> forall h,
  exists f, history St Inp (update_blocks St Inp step us doms) h (construct St init ks doms) = Ok f /\
    rep f (fun k d => if mem k ks && mem d doms then Some (after h d) else None).
Proof.
  intros NK ND P h. induction h as [|i h IH] using rev_ind.
  - exists (construct St init ks doms). split; [reflexivity|apply rep_construct].
  - destruct IH as [f [E R]]. unfold history in *. rewrite foldR_app, E. cbn [rbind foldR].
    destruct (rep_blocks us doms i (Permutation_NoDup (Permutation_sym P) NK) ND f _ (fun _ d => after h d) R) as [f' [F1 [_ [_ F4]]]].
    { intros k d Hk Hd. assert (X : mem k ks = true) by (apply mem_in; exact (Permutation_in k P Hk)). rewrite X. apply mem_in in Hd. rewrite Hd. reflexivity. }
    rewrite F1. cbn [rbind]. exists f'. split; [reflexivity|]. eapply rep_ext; [|exact F4]. intros k d. cbv beta. rewrite after_snoc.
    assert (X : mem k us = mem k ks).
    { apply eq_true_iff_eq. rewrite !mem_in. split; [exact (Permutation_in k P)|exact (Permutation_in k (Permutation_sym P))]. }
    rewrite X. destruct (mem k ks && mem d doms); reflexivity.
Qed.

(** VectorFunctionVMS. *)
Definition after_vms (h : list Inp) (first d : string) : St := fold_left (fun s i => if String.eqb d first then step d i (step d i s) else step d i s) h (init d).
Lemma after_vms_snoc h i first d : after_vms (h ++ [i]) first d = if String.eqb d first then step d i (step d i (after_vms h first d)) else step d i (after_vms h first d).
Proof. unfold after_vms. rewrite fold_left_app. reflexivity. Qed.
Definition bound_ok (f : fn) (bks : list string) (d0 : string) : Prop :=
  forall k, In k bks -> exists k' i, find (fun p => String.eqb (fst p) k) (bnd St f) = Some (k', i) /\ tab St f k d0 = Some i.
Lemma vms_bnd f d0 bks : (forall k, In k bks -> exists i, tab St f k d0 = Some i) ->
  exists b, mapR (fun k => rbind (at_ St f k d0) (fun i => Ok (k, i))) bks = Ok b /\
    forall k, In k bks -> exists k' i, find (fun p => String.eqb (fst p) k) b = Some (k', i) /\ tab St f k d0 = Some i.
Proof.
  induction bks as [|k bks IH]; intros H.
  - exists []. split; [reflexivity|intros k []].
  - destruct IH as [b [E K]]; [intros; apply H; right; assumption|]. destruct (H k (or_introl eq_refl)) as [i Ei].
    cbn [mapR]. unfold at_ at 1. rewrite Ei. cbn [rbind]. rewrite E. cbn [rbind]. eexists. split; [reflexivity|].
    intros k' [<-|Hk]; cbn [find fst].
    + rewrite String.eqb_refl. exists k, i. split; [reflexivity|exact Ei].
    + destruct (String.eqb_spec k k') as [<-|N]; [exists k, i; split; [reflexivity|exact Ei]|apply K; exact Hk].
Qed.
Lemma rep_boundary bks d0 inp : NoDup bks -> forall f T (s : string -> St), rep f T -> bound_ok f bks d0 -> (forall k, In k bks -> T k d0 = Some (s k)) ->
  exists f', foldR (fun k f => match find (fun p => String.eqb (fst p) k) (bnd St f) with None => UB | Some (_, i) => poke St Inp step d0 inp i f end) bks f = Ok f' /\
    tab St f' = tab St f /\ bnd St f' = bnd St f /\ rep f' (fun k' d' => if mem k' bks && String.eqb d' d0 then Some (step d0 inp (s k')) else T k' d').
Proof.
  induction bks as [|k bks IH]; intros ND f T s H HB Hs.
  - exists f. split; [reflexivity|]. split; [reflexivity|]. split; [reflexivity|exact H].
  - apply NoDup_cons_iff in ND. destruct ND as [Nk ND]. cbn [foldR].
    destruct (HB k (or_introl eq_refl)) as [k1 [i [A B]]]. rewrite A.
    destruct (rep_poke f T k d0 d0 inp i (s k) H B (Hs k (or_introl eq_refl))) as [f1 [E1 [E2 [E3 E4]]]]. rewrite E1. cbn [rbind].
    destruct (IH ND f1 _ s E4) as [f2 [F1 [F2 [F3 F4]]]].
    { intros k' Hk'. destruct (HB k' (or_intror Hk')) as [k2 [j [U V]]]. exists k2, j. rewrite E3, E2. split; assumption. }
    { intros k' Hk'. unfold put. destruct (String.eqb_spec k' k) as [->|]; [contradiction|]. apply Hs. right. exact Hk'. }
    exists f2. split; [exact F1|]. split; [congruence|]. split; [congruence|]. eapply rep_ext; [|exact F4].
    intros k' d'. unfold put, mem. cbn [existsb]. fold (mem k' bks).
    destruct (mem k' bks), (String.eqb_spec k' k), (String.eqb_spec d' d0); cbn [andb orb]; subst; reflexivity.
Qed.
Lemma vms_history ks us bks bus d0 ds : NoDup ks -> NoDup (d0 :: ds) -> Permutation us ks -> Permutation bks ks -> Permutation bus ks -> forall h,
  exists f0 f, construct_vms St init ks bks (d0 :: ds) = Ok f0 /\ history St Inp (update_vms St Inp step us bus (d0 :: ds)) h f0 = Ok f /\ bound_ok f ks d0 /\
    rep f (fun k d => if mem k ks && mem d (d0 :: ds) then Some (after_vms h d0 d) else None).
Proof.
  intros NK ND P PB PU h. set (doms := d0 :: ds) in *. pose proof (rep_construct ks doms) as R0.
  assert (M0 : mem d0 doms = true) by (apply mem_in; left; reflexivity).
  assert (HM : forall us k, Permutation us ks -> mem k us = mem k ks).
  { intros us' k P'. apply eq_true_iff_eq. rewrite !mem_in. split; [exact (Permutation_in k P')|exact (Permutation_in k (Permutation_sym P'))]. }
  destruct (vms_bnd (construct St init ks doms) d0 bks) as [b [Eb Kb]].
  { intros k Hk. destruct (rep_at _ _ k d0 (init d0) R0) as [i [_ [B _]]]; [|exists i; exact B].
    rewrite M0. replace (mem k ks) with true; [reflexivity|]. symmetry. apply mem_in. exact (Permutation_in k PB Hk). }
  unfold construct_vms. cbv zeta. fold doms. unfold doms at 1. 
  eexists. induction h as [|i h IH] using rev_ind.
  - eexists. split; [rewrite Eb; cbn [rbind]; reflexivity|]. split; [reflexivity|]. split; [|exact R0].
    intros k Hk. cbn [bnd tab]. apply Kb. exact (Permutation_in k (Permutation_sym PB) Hk).
  - destruct IH as [f [E0 [E [B R]]]]. rewrite Eb in E0. cbn [rbind] in E0. 
    unfold history in *. 
    destruct (rep_blocks us doms i (Permutation_NoDup (Permutation_sym P) NK) ND f _ (fun _ d => after_vms h d0 d) R) as [f1 [F1 [F2 [F3 F4]]]].
    { intros k d Hk Hd. rewrite <- (HM us k P). apply mem_in in Hk, Hd. rewrite Hk, Hd. reflexivity. }
    destruct (rep_boundary bus d0 i (Permutation_NoDup (Permutation_sym PU) NK) f1 _ (fun _ => step d0 i (after_vms h d0 d0)) F4) as [f2 [G1 [G2 [G3 G4]]]].
    { intros k Hk. rewrite F2, F3. apply B. exact (Permutation_in k PU Hk). }
    { intros k Hk. cbv beta. rewrite (HM us k P), <- (HM bus k PU). apply mem_in in Hk. rewrite Hk, M0. reflexivity. }
    exists f2. split; [rewrite Eb; reflexivity|]. split.
    { rewrite foldR_app, E. cbn [rbind foldR]. unfold update_vms at 1. rewrite F1. cbn [rbind]. unfold doms at 1. cbn [hd]. rewrite G1. reflexivity. }
    split; [intros k Hk; rewrite G3, F3, G2, F2; apply B; exact Hk|].
    eapply rep_ext; [|exact G4]. intros k d. cbv beta. rewrite after_vms_snoc, (HM us k P), (HM bus k PU).
    destruct (mem k ks); cbn [andb]; [|reflexivity]. destruct (String.eqb_spec d d0) as [->|N]; [rewrite M0; reflexivity|]. destruct (mem d doms); reflexivity.
Qed.

(** Composite criteria. *)
Fixpoint csize (c : crit St) : nat := match c with Basic _ _ => 1 | Composite _ ps => S ((fix go l := match l with [] => 0 | p :: l' => csize p + go l' end) ps) end.
Definition cleaves := leaves St.
Lemma cleaves_comp ps : leaves St (Composite St ps) = flat_map (leaves St) ps.
Proof. induction ps as [|p ps IH]; [reflexivity|]. cbn [flat_map]. rewrite <- IH. reflexivity. Qed.
Lemma update_comp u inp ps : update_crit St Inp u inp (Composite St ps) = rbind (mapR (update_crit St Inp u inp) ps) (fun x => Ok (Composite St x)).
Proof.
  assert (X : (fix go l := match l with [] => Ok [] | p :: l' => rbind (update_crit St Inp u inp p) (fun p' => rbind (go l') (fun r => Ok (p' :: r))) end) ps = mapR (update_crit St Inp u inp) ps).
  { induction ps as [|p ps IH]; [reflexivity|]. cbn [mapR]. rewrite IH. reflexivity. }
  cbn [update_crit]. rewrite X. reflexivity.
Qed.
Variables (ks doms : list string).
(** What a history of calls does to every evaluator of a function. *)
Definition advanced (h : list Inp) (f f' : fn) : Prop :=
  forall k d s, In k ks -> In d doms -> evaluator St f k d = Ok s -> evaluator St f' k d = Ok (fold_left (fun s i => step d i s) h s).
Definition full (f : fn) : Prop := exists T s, rep f T /\ forall k d, In k ks -> In d doms -> T k d = Some (s k d).
Lemma full_construct : full (construct St init ks doms).
Proof.
  exists (fun k d => if mem k ks && mem d doms then Some (init d) else None), (fun _ d => init d). split; [apply rep_construct|].
  intros k d Hk Hd. apply mem_in in Hk, Hd. rewrite Hk, Hd. reflexivity.
Qed.
Definition advances (u : Inp -> fn -> res fn) : Prop := forall inp f, full f -> exists f', u inp f = Ok f' /\ full f' /\ advanced [inp] f f'.
Lemma advances_blocks us : NoDup ks -> NoDup doms -> Permutation us ks -> advances (update_blocks St Inp step us doms).
Proof.
  intros NK ND P inp f [T [s [R H]]].
  assert (HM : forall k, mem k us = mem k ks).
  { intros k. apply eq_true_iff_eq. rewrite !mem_in. split; [exact (Permutation_in k P)|exact (Permutation_in k (Permutation_sym P))]. }
  destruct (rep_blocks us doms inp (Permutation_NoDup (Permutation_sym P) NK) ND f T s R) as [f' [F1 [_ [_ F4]]]].
  { intros k d Hk Hd. apply H; [exact (Permutation_in k P Hk)|exact Hd]. }
  exists f'. split; [exact F1|]. split.
  - eexists. exists (fun k d => step d inp (s k d)). split; [exact F4|]. intros k d Hk Hd. cbv beta. rewrite HM. apply mem_in in Hk, Hd. rewrite Hk, Hd. reflexivity.
  - intros k d s0 Hk Hd E. cbn [fold_left]. rewrite (rep_evaluator f T k d (s k d) R (H k d Hk Hd)) in E. injection E as <-.
    eapply rep_evaluator; [exact F4|]. cbv beta. rewrite HM. apply mem_in in Hk, Hd. rewrite Hk, Hd. reflexivity.
Qed.
Lemma advanced_nil f : advanced [] f f. Proof. intros k d s _ _ E. exact E. Qed.
Lemma advanced_app h1 h2 f f' f'' : advanced h1 f f' -> advanced h2 f' f'' -> advanced (h1 ++ h2) f f''.
Proof. intros A B k d s Hk Hd E. rewrite fold_left_app. apply B; [exact Hk|exact Hd|]. apply A; assumption. Qed.

Section U.
Variable u : Inp -> fn -> res fn.
Hypothesis Hu : advances u.
Lemma update_crit_leaves inp : forall n c, csize c <= n -> Forall full (leaves St c) ->
  exists c', update_crit St Inp u inp c = Ok c' /\ Forall full (leaves St c') /\ Forall2 (advanced [inp]) (leaves St c) (leaves St c').
Proof.
  induction n as [|n IH]; intros c Hc HF; [destruct c; simpl in Hc; lia|]. destruct c as [f|ps].
  - cbn [leaves] in HF. inversion HF as [|x l Hx _]; subst. destruct (Hu inp f Hx) as [f' [E [F A]]]. exists (Basic St f'). cbn [update_crit]. rewrite E. split; [reflexivity|].
    split; [constructor; [exact F|constructor]|]. constructor; [exact A|constructor].
  - rewrite update_comp. rewrite cleaves_comp in *.
    assert (X : exists qs, mapR (update_crit St Inp u inp) ps = Ok qs /\ Forall full (flat_map (leaves St) qs) /\ Forall2 (advanced [inp]) (flat_map (leaves St) ps) (flat_map (leaves St) qs)).
    { cbn [csize] in Hc. apply le_S_n in Hc. induction ps as [|p ps IHp]; [exists []; split; [reflexivity|split; constructor]|].
      cbn [flat_map] in HF. apply Forall_app in HF. destruct HF as [HF1 HF2].
      destruct (IH p) as [p' [E1 [E2 E2']]]; [lia|exact HF1|]. destruct IHp as [qs [E3 [E4 E4']]]; [lia|exact HF2|]. exists (p' :: qs). cbn [mapR]. rewrite E1. cbn [rbind]. rewrite E3. split; [reflexivity|].
      cbn [flat_map]. split; [apply Forall_app; split; assumption|]. apply Forall2_app; assumption. }
    destruct X as [qs [E1 [E2 E3]]]. exists (Composite St qs). rewrite E1. split; [reflexivity|]. rewrite !cleaves_comp. split; assumption.
Qed.
Lemma update_named inp : forall l : list (string * crit St), Forall (fun c => Forall full (leaves St (snd c))) l ->
  exists l', mapR (fun c => rbind (update_crit St Inp u inp (snd c)) (fun x => Ok (fst c, x))) l = Ok l' /\ Forall (fun c => Forall full (leaves St (snd c))) l' /\
    Forall2 (fun c c' => fst c = fst c' /\ Forall2 (advanced [inp]) (leaves St (snd c)) (leaves St (snd c'))) l l'.
Proof.
  induction l as [|[n c] l IH]; intros H; [exists []; split; [reflexivity|split; constructor]|].
  inversion H as [|x y Hx Hy]; subst. destruct (IH Hy) as [l' [E1 [E2 E3]]]. cbn [snd fst] in *. 
  destruct (update_crit_leaves inp (csize c) c (le_n _) Hx) as [c' [A [B C]]]. cbn [mapR snd fst]. rewrite A. cbn [rbind]. rewrite E1. cbn [rbind].
  eexists. split; [reflexivity|]. split; [constructor; [exact B|exact E2]|]. constructor; [split; [reflexivity|exact C]|exact E3].
Qed.
End U.
Lemma Forall2_refl' {A} (R : A -> A -> Prop) (H : forall x, R x x) l : Forall2 R l l.
Proof. induction l; constructor; auto. Qed.
Lemma Forall2_trans' {X} (R1 R2 R3 : X -> X -> Prop) (H : forall x y z, R1 x y -> R2 y z -> R3 x z) : forall l m n, Forall2 R1 l m -> Forall2 R2 m n -> Forall2 R3 l n.
Proof.
  intros l m n A. revert n. induction A as [|x y l m H1 A IH]; intros n B; inversion B; subst; constructor; [eapply H; eassumption|apply IH; assumption].
Qed.
Definition criteria_advanced (h : list Inp) (l l' : list (string * crit St)) : Prop :=
  Forall2 (fun c c' => fst c = fst c' /\ Forall2 (advanced h) (leaves St (snd c)) (leaves St (snd c'))) l l'.
Lemma criteria_nil l : criteria_advanced [] l l.
Proof. apply Forall2_refl'. intros c. split; [reflexivity|]. apply Forall2_refl'. exact advanced_nil. Qed.
Lemma criteria_app h1 h2 l m n : criteria_advanced h1 l m -> criteria_advanced h2 m n -> criteria_advanced (h1 ++ h2) l n.
Proof.
  intros A B. refine (Forall2_trans' _ _ _ _ l m n A B). intros x y z [E1 F1] [E2 F2]. split; [congruence|].
  exact (Forall2_trans' _ _ _ (advanced_app h1 h2) _ _ _ F1 F2).
Qed.
End P.

Local Open Scope R_scope.
Lemma continue_closed inc bound p n : 0 <= inc -> (1 <= n)%nat -> Nat.iter n (continue_exponent inc bound) p = Rmin bound (p + INR n * inc).
Proof.
  intros Hi. induction n as [|n IH]; intros Hn; [lia|]. destruct n as [|n].
  - cbn [Nat.iter nat_rect]. unfold continue_exponent. simpl INR. unfold Rmin. destruct (Rle_dec bound (p + inc)), (Rle_dec bound (p + 1 * inc)); lra.
  - change (Nat.iter (S (S n)) (continue_exponent inc bound) p) with (continue_exponent inc bound (Nat.iter (S n) (continue_exponent inc bound) p)).
    rewrite IH by lia. rewrite (S_INR (S n)). unfold continue_exponent, Rmin. 
    destruct (Rle_dec bound (p + INR (S n) * inc)); destruct (Rle_dec bound (p + (INR (S n) + 1) * inc)); 
    match goal with |- (if Rle_dec ?a ?b then _ else _) = _ => destruct (Rle_dec a b) end; nra.
Qed.
