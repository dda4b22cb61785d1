From Coq Require Import Arith Lia List String Permutation.
From Verif Require Import Base.Field Base.ListUpd Base.Res BC.EssentialModel BC.EssentialSpec.
Import ListNotations.

Section Proof.
Context {K : CField}.
Local Open Scope K_scope.
Variable sched : schedule.
Hypothesis Hfair : fair sched.
Variable N : nat.
Variable ns : nodesets.
Variable t : K.

(** Writing a block of consecutive entries in any order. *)
Lemma fill_block (nodes : list nat) (f : nat -> nat) (v : K) off A X B A' X' B' :
  List.length A = off -> List.length A' = off ->
  List.length X = List.length nodes -> List.length X' = List.length nodes ->
  foldR (fun i (s : list nat * list K) =>
      let! node := ub (nth_error nodes i) in
      let! ds := ub (upd (fst s) (off + i) (f node)) in
      let! vs := ub (upd (snd s) (off + i) v) in
      Ok (ds, vs)) (sched (List.length nodes)) (A ++ X ++ B, A' ++ X' ++ B')
  = Ok (A ++ map f nodes ++ B, A' ++ map (fun _ => v) nodes ++ B').
Proof.
  intros HA HA' HX HX'. pose proof (Hfair (List.length nodes)) as Hp.
  set (s0 := (A ++ X ++ B, A' ++ X' ++ B')).
  set (body := fun i (s : list nat * list K) => _).
  destruct (foldR_inv body
    (fun l1 s => List.length (fst s) = List.length (fst s0) /\ List.length (snd s) = List.length (snd s0) /\
       (forall j, (j < off \/ off + List.length nodes <= j) -> nth_error (fst s) j = nth_error (fst s0) j /\ nth_error (snd s) j = nth_error (snd s0) j) /\
       (forall i, In i l1 -> nth_error (fst s) (off + i) = option_map f (nth_error nodes i) /\ nth_error (snd s) (off + i) = Some v))
    (sched (List.length nodes)) s0) as [s' [E [Hl1 [Hl2 [Hout Hin]]]]].
  - repeat split; auto; contradiction.
  - intros l1 i l2 s El [Hl1 [Hl2 [Hout Hin]]].
    assert (Hi : i < List.length nodes).
    { assert (H : In i (seq 0 (List.length nodes))).
      { eapply Permutation_in; [exact Hp|]. rewrite El. apply in_or_app. right. left. reflexivity. }
      apply in_seq in H. lia. }
    assert (Hls : off + i < List.length (fst s) /\ off + i < List.length (snd s)).
    { rewrite Hl1, Hl2. unfold s0. simpl. rewrite !app_length. lia. }
    destruct Hls as [Hls1 Hls2]. unfold body.
    rewrite (nth_error_some_nth nodes i 0%nat) by exact Hi. simpl.
    destruct (upd_some (fst s) (off + i) (f (nth i nodes 0%nat)) Hls1) as [ds Eds]. rewrite Eds. simpl.
    destruct (upd_some (snd s) (off + i) v Hls2) as [vs Evs]. rewrite Evs. simpl.
    exists (ds, vs). split; [reflexivity|]. simpl.
    split; [rewrite (upd_length _ _ _ _ Eds); exact Hl1|].
    split; [rewrite (upd_length _ _ _ _ Evs); exact Hl2|]. split.
    + intros j Hj. rewrite (upd_nth_other _ _ _ _ _ Eds), (upd_nth_other _ _ _ _ _ Evs) by lia. apply Hout. exact Hj.
    + intros k Hk. destruct (Nat.eq_dec k i) as [->|Hne].
      * rewrite (upd_nth_same _ _ _ _ Eds), (upd_nth_same _ _ _ _ Evs).
        rewrite (nth_error_some_nth nodes i 0%nat) by exact Hi. auto.
      * rewrite (upd_nth_other _ _ _ _ _ Eds), (upd_nth_other _ _ _ _ _ Evs) by lia.
        apply Hin. apply in_app_iff in Hk as [Hk|[Hk|[]]]; [exact Hk|congruence].
  - rewrite E. destruct s' as [ds vs]. simpl in *.
    assert (Hall : forall i, i < List.length nodes ->
       nth_error ds (off + i) = option_map f (nth_error nodes i) /\ nth_error vs (off + i) = Some v).
    { intros i Hi. apply Hin. eapply Permutation_in; [apply Permutation_sym; exact Hp|]. apply in_seq. lia. }
    assert (Hshape : forall (C : Type) (l P Q R S : list C), List.length P = off -> List.length Q = List.length nodes ->
       List.length S = List.length nodes ->
       List.length l = List.length (P ++ Q ++ R) ->
       (forall j, (j < off \/ off + List.length nodes <= j) -> nth_error l j = nth_error (P ++ Q ++ R) j) ->
       (forall i, i < List.length nodes -> nth_error l (off + i) = nth_error S i) ->
       l = P ++ S ++ R).
    { clear. intros C l P Q R S HP HQ HS Hl Ho Hi. apply list_eq_nth; [rewrite Hl, !app_length; lia|].
      intros j Hj. destruct (lt_dec j off) as [H|H].
      - rewrite Ho by auto. rewrite !nth_error_app1 by lia. reflexivity.
      - destruct (lt_dec j (off + List.length nodes)) as [H2|H2].
        + replace j with (off + (j - off))%nat at 1 by lia. rewrite Hi by lia.
          rewrite (nth_error_app2 P) by lia. rewrite nth_error_app1 by lia. f_equal. lia.
        + rewrite Ho by lia. rewrite (nth_error_app2 P) by lia. rewrite (nth_error_app2 P) by lia.
          rewrite !nth_error_app2 by lia. f_equal. lia. }
    f_equal. f_equal.
    + apply (Hshape _ _ _ X); auto; [apply map_length|intros; apply Hout; auto|].
      intros i Hi. rewrite nth_error_map. apply Hall. exact Hi.
    + apply (Hshape _ _ _ X'); auto; [apply map_length|intros; apply Hout; auto|].
      intros i Hi. rewrite nth_error_map. rewrite (nth_error_some_nth nodes i 0%nat) by exact Hi.
      simpl. apply Hall. exact Hi.
Qed.

Definition pairs_of (b : ebc K) : option (list (nat * K)) :=
  match ns (ns_name b) with
  | Some nodes => Some (map (fun node => ((N * node + dof b)%nat, get_value b t)) nodes)
  | None => None
  end.

Fixpoint pairs_all (bs : list (ebc K)) : option (list (nat * K)) :=
  match bs with
  | [] => Some []
  | b :: bs' => match pairs_of b, pairs_all bs' with Some l, Some l' => Some (l ++ l') | _, _ => None end
  end.

Lemma num_fold bs n0 :
  foldR (fun b n => let! l := get_length ns b in Ok (n + l)%nat) bs n0 =
  match pairs_all bs with Some l => Ok (n0 + List.length l)%nat | None => Throw end.
Proof.
  revert n0; induction bs as [|b bs IH]; intros n0; simpl.
  - f_equal. lia.
  - unfold get_length at 1, pairs_of. destruct (ns (ns_name b)) as [nodes|]; simpl; [|reflexivity].
    rewrite IH. destruct (pairs_all bs); [|reflexivity]. rewrite app_length, map_length. f_equal. lia.
Qed.

Lemma get_fold bs : forall A X A' X' l,
  pairs_all bs = Some l -> List.length A = List.length A' ->
  List.length X = List.length l -> List.length X' = List.length l ->
  foldR (fun b os =>
      let! s' := ebc_get sched N ns b (fst os) t (snd os) in
      let! l := get_length ns b in
      Ok ((fst os + l)%nat, s')) bs (List.length A, (A ++ X, A' ++ X'))
  = Ok ((List.length A + List.length l)%nat, (A ++ map fst l, A' ++ map snd l)).
Proof.
  induction bs as [|b bs IH]; intros A X A' X' l Hp HA HX HX'; simpl in Hp.
  - inversion Hp; subst. simpl in *. destruct X; [|discriminate]. destruct X'; [|discriminate].
    rewrite Nat.add_0_r. reflexivity.
  - destruct (pairs_of b) as [l1|] eqn:E1; [|discriminate].
    destruct (pairs_all bs) as [l2|] eqn:E2; [|discriminate]. inversion Hp; subst; clear Hp.
    rewrite app_length in HX, HX'. simpl.
    unfold ebc_get. unfold get_length. unfold pairs_of in E1.
    destruct (ns (ns_name b)) as [nodes|] eqn:En; [|discriminate]. inversion E1; subst; clear E1.
    rewrite map_length in *.
    rewrite <- (firstn_skipn (List.length nodes) X), <- (firstn_skipn (List.length nodes) X').
    rewrite (fill_block nodes (fun node => (N * node + dof b)%nat)); auto;
      try (rewrite firstn_length; lia).
    simpl.
    replace (List.length A + List.length nodes)%nat with (List.length (A ++ map (fun node => (N * node + dof b)%nat) nodes))
      by (rewrite app_length, map_length; reflexivity).
    rewrite !app_assoc. erewrite IH; [|reflexivity| | |].
    + rewrite !app_length, !map_length, !map_app, !map_map, !app_assoc. simpl.
      f_equal. f_equal. lia.
    + rewrite !app_length, !map_length. lia.
    + rewrite skipn_length. lia.
    + rewrite skipn_length. lia.
Qed.

Lemma resize_length {A} (d : A) n l : List.length (resize d n l) = n.
Proof. unfold resize. rewrite app_length, firstn_length, repeat_length. lia. Qed.

Lemma bcs_get_eq bs s :
  bcs_get sched N ns bs t s =
  match pairs_all bs with Some l => Ok (map fst l, map snd l) | None => Throw end.
Proof.
  unfold bcs_get. rewrite num_fold. destruct (pairs_all bs) as [l|] eqn:E; [|reflexivity].
  cbn [rbind].
  pose proof (get_fold bs [] (resize 0%nat (0 + List.length l) (fst s)) [] (resize 0 (0 + List.length l) (snd s)) l E eq_refl) as H.
  rewrite !resize_length in H. specialize (H eq_refl eq_refl). simpl in *. rewrite H. reflexivity.
Qed.

Lemma ctor1 table e :
  match bcs_ctor1 table e with
  | Ok b => pairs_of b = entry_pairs N table ns t e
  | Throw => entry_pairs N table ns t e = None
  | UB => False
  end.
Proof.
  unfold bcs_ctor1, ebc_ctor, entry_pairs, asked_value, asked_index, scale_of.
  destruct e as [ty sd ix va fn]; simpl.
  destruct ty as [[| | |]|]; destruct sd as [sd|]; destruct va as [va|]; destruct fn as [fn|]; simpl; try reflexivity;
    unfold pairs_of, get_value; simpl; destruct (ns sd); reflexivity.
Qed.

Lemma essential_eq table es s :
  essential_bcs sched N table es ns t s =
  match all_pairs N table ns t es with
  | Some l => Ok (map fst l, map snd l)
  | None => Throw
  end.
Proof.
  unfold essential_bcs, bcs_ctor.
  assert (H : match mapR (bcs_ctor1 table) es with
              | Ok bs => pairs_all bs = all_pairs N table ns t es
              | Throw => all_pairs N table ns t es = None
              | UB => False
              end).
  { induction es as [|e es IH]; simpl; [reflexivity|].
    pose proof (ctor1 table e) as H1. destruct (bcs_ctor1 table e) as [b| |]; simpl; [|rewrite H1; reflexivity|contradiction].
    destruct (mapR (bcs_ctor1 table) es) as [bs| |]; simpl; [|rewrite IH|contradiction].
    - rewrite H1, IH. reflexivity.
    - destruct (entry_pairs N table ns t e); reflexivity. }
  destruct (mapR (bcs_ctor1 table) es) as [bs| |]; simpl; [|rewrite H; reflexivity|contradiction].
  rewrite bcs_get_eq, H. reflexivity.
Qed.
End Proof.
