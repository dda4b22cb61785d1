(** C140: the level sets a burn keeps and writes. *)
From Coq Require Import Reals List Arith ZArith Lia Lra.
From Verif Require Import Base.Res Base.ListUpd Rocket.RocketModel Rocket.RocketProps Rocket.HistoryModel.
Import ListNotations.
Local Open Scope R_scope.

(** Specification.  The level set a geometry has after its first [k] of the time steps [ds] (each a length and a burn rate multiplier), starting
    from [l] at time [t]. *)
Fixpoint level_after {L} (evolve : option R -> L -> L) (reinit : R -> L -> L) (t : R) (l : L) (ds : list (R * option R)) (k : nat) {struct k} : L :=
  match k, ds with
  | S k, (d, m) :: ds => level_after evolve reinit (t + d) (reinit (t + d) (evolve (option_map (fun m => m * d) m) l)) ds k
  | _, _ => l
  end.
(** The time at which it has it. *)
Fixpoint time_after (t : R) (ds : list (R * option R)) (k : nat) {struct k} : R :=
  match k, ds with S k, (d, _) :: ds => time_after (t + d) ds k | _, _ => t end.
(** Evolving a geometry step by step. *)
Definition evolve_all {L} (step : R -> option R -> store L -> res (store L)) (ds : list (R * option R)) (s : store L) : res (store L) :=
  foldR (fun d s => step (fst d) (snd d) s) ds s.

Section Proofs.
Context {L : Type} (zero : L) (evolve : option R -> L -> L) (reinit : R -> L -> L).
Notation box := (box_evolve L evolve reinit).
Notation ext := (ext_evolve L evolve reinit).

Lemma ext_is_box d m s : ext d m s = box d m s.
Proof. reflexivity. Qed.

Lemma nth_error_upd_cases (l : list L) n v l' : upd l n v = Some l' -> forall k, nth_error l' k = if Nat.eqb k n then Some v else nth_error l k.
Proof. intros H k. destruct (Nat.eqb_spec k n) as [->|h]; [exact (upd_nth_same _ _ _ _ H)|exact (upd_nth_other _ _ _ _ _ H h)]. Qed.

(** What a run of [box] does to the store. *)
Lemma box_run ds : forall s, (st_step s + length ds < length (st_cols s))%nat ->
  exists s', evolve_all box ds s = Ok s' /\
    st_step s' = (st_step s + length ds)%nat /\ length (st_cols s') = length (st_cols s) /\
    st_time s' = time_after (st_time s) ds (length ds) /\
    st_times s' = st_times s ++ map (fun k => time_after (st_time s) ds (S k)) (seq 0 (length ds)) /\
    st_level s' = level_after evolve reinit (st_time s) (st_level s) ds (length ds) /\
    (forall k, (k <= st_step s)%nat -> nth_error (st_cols s') k = nth_error (st_cols s) k) /\
    (forall k, (1 <= k <= length ds)%nat ->
       nth_error (st_cols s') (st_step s + k) = Some (level_after evolve reinit (st_time s) (st_level s) ds k)) /\
    (forall k, (st_step s + length ds < k)%nat -> nth_error (st_cols s') k = nth_error (st_cols s) k).
Proof.
  induction ds as [|[d m] ds IH]; intros s Hs.
  - exists s. cbn. rewrite Nat.add_0_r, app_nil_r. repeat split; auto. intros k Hk. lia.
  - cbn [evolve_all foldR fst snd]. unfold box_evolve at 1. unfold cache. cbn [st_cols st_step st_level st_built st_time st_times length] in *.
    set (t := st_time s + d). set (l := reinit t (evolve (scaled m d) (st_level s))).
    destruct (upd_some (st_cols s) (S (st_step s)) l ltac:(lia)) as [cols Ec]. rewrite Ec. cbn [ub rbind].
    set (s1 := mkStore _ t _ _ l cols).
    pose proof (upd_length _ _ _ _ Ec) as El.
    destruct (IH s1) as (s' & R' & S' & N' & T' & Ts' & V' & Lo & Mid & Hi); [unfold s1; cbn [st_step st_cols]; lia|].
    exists s'. unfold s1 in *; cbn [st_step st_cols st_level st_time st_times] in *.
    split; [exact R'|]. split; [lia|]. split; [lia|]. split; [exact T'|]. split; [|split; [exact V'|split; [|split]]].
    + rewrite Ts', <- app_assoc. f_equal. cbn [seq map app]. f_equal. rewrite <- seq_shift, map_map. reflexivity.
    + intros k Hk. rewrite Lo by lia. apply (upd_nth_other _ _ _ _ _ Ec). lia.
    + intros k Hk. destruct k as [|k]; [lia|]. cbn [level_after]. fold t. fold l. destruct k as [|k].
      * cbn [level_after]. replace (st_step s + 1)%nat with (S (st_step s)) by lia. rewrite Lo by lia. apply (upd_nth_same _ _ _ _ Ec).
      * replace (st_step s + S (S k))%nat with (S (st_step s) + S k)%nat by lia. apply Mid. lia.
    + intros k Hk. rewrite Hi by lia. apply (upd_nth_other _ _ _ _ _ Ec). lia.
Qed.
Lemma box_outside ds : forall s, ds <> [] -> (length (st_cols s) <= st_step s + length ds)%nat -> evolve_all box ds s = UB.
Proof.
  induction ds as [|[d m] ds IH]; intros s Hn Hs; [contradiction|].
  cbn [evolve_all foldR fst snd]. unfold box_evolve at 1. unfold cache. cbn [st_cols st_step st_level st_built st_time st_times length] in *.
  destruct (upd (st_cols s) (S (st_step s)) _) as [cols|] eqn:Ec; [|reflexivity]. cbn [ub rbind].
  pose proof (upd_length _ _ _ _ Ec) as El. pose proof (upd_bound _ _ _ _ Ec) as Eb. destruct ds as [|d' ds]; [cbn in Hs; lia|].
  apply IH; [discriminate|]. cbn [st_cols st_step length] in *. lia.
Qed.

Lemma mapR_ok {A B} (f : A -> res B) (g : A -> B) l : (forall x, In x l -> f x = Ok (g x)) -> mapR f l = Ok (map g l).
Proof.
  induction l as [|x l IH]; intros H; [reflexivity|]. cbn [mapR map]. rewrite (H x (or_introl eq_refl)). cbn [rbind].
  rewrite IH by (intros; apply H; right; assumption). reflexivity.
Qed.
Lemma nth_error_map_seq {B} (f : nat -> B) n k : (k < n)%nat -> nth_error (map f (seq 0 n)) k = Some (f k).
Proof. intros H. rewrite nth_error_map. rewrite (nth_error_some_nth (seq 0 n) k 0%nat) by (rewrite seq_length; exact H). rewrite seq_nth by exact H. reflexivity. Qed.
End Proofs.

(** C140, first part.  As long as the steps fit into the history of a new object, column k holds the level set after k steps, for k = 1, 2, …;
    column 0 holds what was read (external mesh) or zeros (cylinder). *)
Theorem C140_history_partial : forall L (zero : L) evolve reinit n l0 ds, (length ds < n)%nat ->
  (exists s, evolve_all (box_evolve L evolve reinit) ds (box_initialize L zero reinit n l0 (fresh L zero)) = Ok s /\
     st_level s = level_after evolve reinit 0 (reinit 0 l0) ds (length ds) /\
     nth_error (st_cols s) 0 = Some zero /\
     forall k, (1 <= k <= length ds)%nat -> nth_error (st_cols s) k = Some (level_after evolve reinit 0 (reinit 0 l0) ds k)) /\
  (exists s, (let! s := ext_read L reinit l0 (ext_initialize L zero n (fresh L zero)) in evolve_all (ext_evolve L evolve reinit) ds s) = Ok s /\
     st_level s = level_after evolve reinit 0 (reinit 0 l0) ds (length ds) /\
     nth_error (st_cols s) 0 = Some l0 /\
     forall k, (1 <= k <= length ds)%nat -> nth_error (st_cols s) k = Some (level_after evolve reinit 0 (reinit 0 l0) ds k)).
Proof.
  intros L zero evolve reinit n l0 ds Hn. split.
  - destruct (box_run evolve reinit ds (box_initialize L zero reinit n l0 (fresh L zero))) as (s & E & S' & N' & T & Ts & V & Lo & Mid & Hi).
    { cbn. rewrite repeat_length. exact Hn. }
    exists s. split; [exact E|]. split; [exact V|]. split; [|intros k Hk; apply (Mid k Hk)].
    rewrite Lo by (cbn; lia). cbn. destruct n; [lia|reflexivity].
  - unfold ext_read, cache. cbn. destruct n as [|n]; [lia|]. cbn [repeat upd ub rbind st_built st_time st_times st_step st_level st_cols].
    change (ext_evolve L evolve reinit) with (box_evolve L evolve reinit).
    match goal with |- context [evolve_all _ ds ?s0] => destruct (box_run evolve reinit ds s0) as (s & E & S' & N' & T & Ts & V & Lo & Mid & Hi) end.
    { cbn. rewrite repeat_length. lia. }
    exists s. split; [exact E|]. split; [exact V|]. split; [|intros k Hk; apply (Mid k Hk)].
    change (nth_error (st_cols s) 0 = Some l0). rewrite Lo by (cbn; lia). reflexivity.
Qed.
Print Assumptions C140_history_partial.
Example C140_reachable : let ds := [(1, Some 1); (1, Some 2); (1, Some 1)] in (length ds < 4)%nat /\
  (forall k, (k <= 3)%nat -> level_after (fun d l => match d with Some d => l + d | None => l end) (fun _ l => l) 0 0 ds k = nth k [0; 1; 3; 4] 0).
Proof. cbn. split; [lia|]. intros k Hk. destruct k as [|[|[|[|k]]]]; cbn; try lra. lia. Qed.

(** Second part, refuted: with the number of steps the rocket model announces, every burn writes outside the history.  The loop evolves the geometry
    once per entry of the profile, and the history has at most that many columns, of which the first is for the start. *)
Lemma burn_state_burn i G : forall fuel t th p g, burn i G fuel t th p g = option_map fst (burn_state i G fuel t th p g).
Proof.
  induction fuel as [|fuel IH]; intros t th p g; [reflexivity|]. cbn [burn burn_state]. cbv zeta. destruct (Rlt_dec _ _); [|reflexivity].
  rewrite IH. destruct (burn_state i G fuel _ _ _ _) as [[l e]|]; reflexivity.
Qed.
Theorem C140_profile : forall i G fuel g, solve i G fuel g = option_map fst (solve_state i G fuel g).
Proof. intros. unfold solve, solve_state. apply burn_state_burn. Qed.
Print Assumptions C140_profile.
Lemma store_burn {L} evolve reinit rate i : forall fuel t th p (s : store L) rows e,
  burn_state i (store_geometry L rate (box_evolve L evolve reinit)) fuel t th p (Ok s) = Some (rows, e) ->
  exists ds, length ds = length rows /\ map fst ds = repeat (dt i) (length rows) /\ e = evolve_all (box_evolve L evolve reinit) ds s.
Proof.
  induction fuel as [|fuel IH]; intros t th p s rows e; [discriminate|]. cbn [burn_state]. cbv zeta.
  match goal with |- context [g_evolve _ _ _ ?m] => set (mult := m) end.
  assert (Hub : forall fuel t th p rows e, burn_state i (store_geometry L rate (box_evolve L evolve reinit)) fuel t th p UB = Some (rows, e) ->
    (1 <= length rows)%nat /\ e = UB).
  { clear. induction fuel as [|fuel IH]; intros t th p rows e; [discriminate|]. cbn [burn_state]. cbv zeta.
    match goal with |- context [g_evolve _ _ _ ?m] => set (mult := m) end.
    assert (Eu : g_evolve (store_geometry L rate (box_evolve L evolve reinit)) UB (dt i) mult = UB) by reflexivity.
    rewrite Eu. destruct (Rlt_dec _ _).
    - match goal with |- context [burn_state ?a ?b fuel ?c ?d ?f ?g] => destruct (burn_state a b fuel c d f g) as [[l' e']|] eqn:E' end; [|discriminate].
      intros H. injection H as <- <-. split; [cbn; lia|]. exact (proj2 (IH _ _ _ _ _ E')).
    - intros H. injection H as <- <-. split; [cbn; lia|reflexivity]. }
  destruct (g_evolve (store_geometry L rate (box_evolve L evolve reinit)) (Ok s) (dt i) mult) as [s1| |] eqn:Es.
  - assert (Estep : box_evolve L evolve reinit (dt i) mult s = Ok s1) by exact Es.
    destruct (Rlt_dec _ _).
    + match goal with |- context [burn_state ?a ?b fuel ?c ?d ?f ?g] => destruct (burn_state a b fuel c d f g) as [[l' e']|] eqn:E' end; [|discriminate].
      intros H. injection H as <- <-.
      destruct (IH _ _ _ _ _ _ E') as (ds & Hl & Hd & ->). exists ((dt i, mult) :: ds). cbn [length map fst repeat]. 
      split; [lia|]. split; [rewrite Hd; reflexivity|]. cbn [evolve_all foldR fst snd]. rewrite Estep. reflexivity.
    + intros H. injection H as <- <-. exists [(dt i, mult)]. cbn [length map fst repeat]. split; [reflexivity|]. split; [reflexivity|].
      cbn [evolve_all foldR fst snd]. rewrite Estep. reflexivity.
  - exfalso. cbn in Es. unfold box_evolve, cache in Es. destruct (upd _ _ _) in Es; discriminate.
  - assert (Estep : box_evolve L evolve reinit (dt i) mult s = UB) by exact Es.
    assert (Hf : forall k, evolve_all (box_evolve L evolve reinit) (repeat (dt i, mult) (S k)) s = UB)
      by (intros k; cbn [repeat evolve_all foldR fst snd]; rewrite Estep; reflexivity).
    destruct (Rlt_dec _ _).
    + match goal with |- context [burn_state ?a ?b fuel ?c ?d ?f ?g] => destruct (burn_state a b fuel c d f g) as [[l' e']|] eqn:E' end; [|discriminate].
      intros H; injection H as <- <-. exists (repeat (dt i, mult) (S (length l'))). rewrite repeat_length. split; [reflexivity|].
      split; [cbn [length]; induction (S (length l')) as [|k IHk]; cbn [repeat map fst]; [reflexivity|rewrite IHk; reflexivity]|]. rewrite Hf. exact (proj2 (Hub _ _ _ _ _ _ E')).
    + intros H. injection H as <- <-. exists [(dt i, mult)]. split; [reflexivity|]. split; [reflexivity|]. symmetry. exact (Hf 0%nat).
Qed.
Lemma announced_rows i : 0 < dt i -> tol i < dt i -> 0 <= burn_time i -> forall n, burn_time i <= INR n * dt i + tol i -> (announced i <= n)%nat.
Proof.
  intros Hd Ht Hb n Hn. unfold announced.
  destruct (base_Int_part (burn_time i / dt i)) as [B1 B2]. set (z := Int_part (burn_time i / dt i)) in *.
  destruct (Z.le_gt_cases z (Z.of_nat n)) as [h|h]; [lia|exfalso].
  assert (IZR (Z.of_nat n + 1) <= IZR z) by (apply IZR_le; lia). rewrite plus_IZR, <- INR_IZR_INZ in H. cbn in H.
  assert ((INR n + 1) * dt i <= burn_time i / dt i * dt i) by (apply Rmult_le_compat_r; lra).
  unfold Rdiv in H0. rewrite Rmult_assoc, Rinv_l, Rmult_1_r in H0 by lra. lra.
Qed.
Theorem C140_last_step_refuted : forall L (zero : L) evolve reinit rate i l0 fuel rows e s,
  0 < dt i -> tol i < dt i -> 0 <= burn_time i ->
  let G := store_geometry L rate (box_evolve L evolve reinit) in
  solve_state i G fuel (Ok (box_initialize L zero reinit (announced i) l0 s)) = Some (rows, e) -> e = UB.
Proof.
  intros L zero evolve reinit rate i l0 fuel rows e s Hd Ht Hb G E.
  pose proof (C140_profile i G fuel (Ok (box_initialize L zero reinit (announced i) l0 s))) as P. rewrite E in P. cbn [option_map fst] in P.
  destruct (C62_profiles i G (Ok (box_initialize L zero reinit (announced i) l0 s)) Hd) as (N & rows' & Hs & HN & H1 & _ & _ & Hbt & _).
  assert (rows' = rows).
  { assert (Hm : forall f1 f2 t th p g l1 l2, burn i G f1 t th p g = Some l1 -> burn i G f2 t th p g = Some l2 -> l1 = l2).
    { clear. induction f1 as [|f1 IH]; intros f2 t th p g l1 l2 E1 E2; [discriminate|]. destruct f2 as [|f2]; [discriminate|].
      cbn [burn] in E1, E2. cbv zeta in E1, E2. destruct (Rlt_dec _ _); [|congruence].
      match type of E1 with match ?B with _ => _ end = _ => destruct B as [a|] eqn:EA; [|discriminate] end.
      match type of E2 with match ?B with _ => _ end = _ => destruct B as [b|] eqn:EB; [|discriminate] end.
      rewrite (IH _ _ _ _ _ _ _ EA EB) in E1. congruence. }
    specialize (Hs N (le_n N)). unfold solve in Hs, P. exact (Hm _ _ _ _ _ _ _ _ Hs P). }
  subst rows'. unfold solve_state in E. destruct (store_burn evolve reinit rate i _ _ _ _ _ _ _ E) as (ds & Hl & _ & ->).
  apply box_outside; [intros ->; cbn in Hl; lia|]. cbn [box_initialize st_cols st_step]. rewrite repeat_length, Hl, HN.
  pose proof (announced_rows i Hd Ht Hb N Hbt). lia.
Qed.
Print Assumptions C140_last_step_refuted.
(** The burn does end, so the statement is not about nothing; the default inputs satisfy the conditions and announce 100 steps. *)
Theorem C140_burn_ends : forall L evolve reinit rate i (s : store L), 0 < dt i ->
  exists fuel rows e, solve_state i (store_geometry L rate (box_evolve L evolve reinit)) fuel (Ok s) = Some (rows, e).
Proof.
  intros L evolve reinit rate i s Hd. set (G := store_geometry L rate (box_evolve L evolve reinit)).
  destruct (C62_profiles i G (Ok s) Hd) as (N & rows & Hs & _). specialize (Hs N (le_n N)). rewrite C140_profile in Hs.
  destruct (solve_state i G N (Ok s)) as [[r e]|] eqn:E; [|discriminate]. exists N, r, e. exact E.
Qed.
Print Assumptions C140_burn_ends.
Example C140_default : 0 < dt default_inputs /\ tol default_inputs < dt default_inputs /\ announced default_inputs = 100%nat.
Proof.
  cbn. split; [lra|]. split; [lra|]. unfold announced. cbn [burn_time dt default_inputs].
  replace (10 / (1 / 10)) with (IZR 100) by lra. replace (Int_part (IZR 100)) with 100%Z; [reflexivity|].
  unfold Int_part. rewrite <- (up_tech (IZR 100) 100); [lia|lra|]. rewrite plus_IZR. lra.
Qed.

(** Third part, refuted: initialising the cylinder again does not start its history again.  After a burn of n steps the columns of the next burn
    are n + 1, n + 2, …: column 1 stays zero, and the burn faults where a new object's would not. *)
Theorem C140_again_refuted : forall L (zero : L) evolve reinit n l0 ds ds', ds <> [] -> ds' <> [] -> (length ds < n)%nat ->
  exists s, evolve_all (box_evolve L evolve reinit) ds (box_initialize L zero reinit n l0 (fresh L zero)) = Ok s /\
    ((n <= length ds + length ds')%nat -> evolve_all (box_evolve L evolve reinit) ds' (box_initialize L zero reinit n l0 s) = UB) /\
    (forall s', evolve_all (box_evolve L evolve reinit) ds' (box_initialize L zero reinit n l0 s) = Ok s' ->
       nth_error (st_cols s') 1 = Some zero /\
       nth_error (st_cols s') (S (length ds)) = Some (level_after evolve reinit 0 (reinit 0 l0) ds' 1)).
Proof.
  intros L zero evolve reinit n l0 ds ds' H1 H2 Hn.
  destruct (box_run evolve reinit ds (box_initialize L zero reinit n l0 (fresh L zero))) as (s & E & S' & N' & T & Ts & V & Lo & Mid & Hi).
  { cbn. rewrite repeat_length. exact Hn. }
  cbn in S'. exists s. split; [exact E|]. split.
  - intros Hge. apply box_outside; [exact H2|]. cbn [box_initialize st_cols st_step]. rewrite repeat_length, S'. exact Hge.
  - intros s' E'. destruct (le_lt_dec n (st_step s + length ds')) as [h|h].
    + rewrite box_outside in E'; [discriminate|exact H2|]. cbn [box_initialize st_cols st_step]. rewrite repeat_length. exact h.
    + destruct (box_run evolve reinit ds' (box_initialize L zero reinit n l0 s)) as (s2 & E2 & _ & _ & _ & _ & _ & Lo2 & Mid2 & _).
      { cbn [box_initialize st_cols st_step]. rewrite repeat_length. exact h. }
      rewrite E2 in E'. injection E' as <-. destruct ds as [|d ds]; [contradiction|]. destruct ds' as [|d' ds']; [contradiction|]. cbn [length] in *.
      split.
      * rewrite Lo2 by (cbn; lia). cbn. destruct n as [|[|n]]; [lia|lia|reflexivity].
      * specialize (Mid2 1%nat ltac:(cbn; lia)). cbn [box_initialize st_step st_time st_level] in Mid2. rewrite S' in Mid2.
        replace (S (S (length ds))) with (S (length ds) + 1)%nat by lia. exact Mid2.
Qed.
Print Assumptions C140_again_refuted.

(** Fourth part, refuted: the files show each level set at the time of the next one.  Frame k carries the time after k + 1 steps and, for k >= 1, the level
    set after k steps. *)
Theorem C140_times_refuted : forall L (zero : L) evolve reinit n l0 ds, (length ds < n)%nat ->
  exists s, evolve_all (box_evolve L evolve reinit) ds (box_initialize L zero reinit n l0 (fresh L zero)) = Ok s /\
    write_levels L s = Ok (map (fun k => (time_after 0 ds (S k), match k with O => zero | _ => level_after evolve reinit 0 (reinit 0 l0) ds k end))
                              (seq 0 (length ds))).
Proof.
  intros L zero evolve reinit n l0 ds Hn.
  destruct (box_run evolve reinit ds (box_initialize L zero reinit n l0 (fresh L zero))) as (s & E & S' & N' & T & Ts & V & Lo & Mid & Hi).
  { cbn. rewrite repeat_length. exact Hn. }
  exists s. split; [exact E|]. unfold write_levels. cbn [box_initialize st_times st_time app] in Ts. rewrite Ts, map_length, seq_length.
  apply mapR_ok. intros k Hk. apply in_seq in Hk.
  rewrite nth_error_map_seq by lia. destruct k as [|k].
  - rewrite Lo by (cbn; lia). cbn. destruct n; [lia|reflexivity].
  - specialize (Mid (S k) ltac:(lia)). cbn [box_initialize st_step fresh Nat.add] in Mid. rewrite Mid. reflexivity.
Qed.
Print Assumptions C140_times_refuted.
