(** Proofs about the Newton-Raphson loop, pseudo-time stepping, displacement control and reaction forces. *)
From Coq Require Import Arith ZArith QArith Reals List Bool Lia Lra Lqa Ring.
From Verif Require Import Base.Field Base.Sums Base.Res BC.ConstraintsSpec BC.ConstraintsProof BC.ConstraintsMain Problem.DenseBC Plasticity.NewtonModel.
Import ListNotations.
Local Open Scope nat_scope.

Lemma nth_const {A} (z : A) (l : list A) i : nth i (map (fun _ => z) l) z = z.
Proof. revert i. induction l as [|a l IH]; intros [|i]; cbn; auto. Qed.

(** ---- Newton loop ---- *)
Section Loop.
Context {S0 : Type}.
Variables (c : nr_config) (nrm : nat -> S0 -> option R) (upd : nat -> S0 -> S0) (s0 : S0).

(** The iterates. *)
Fixpoint iterate (i : nat) : S0 := match i with O => s0 | S j => upd j (iterate j) end.

Definition close (prev cur : R) : Prop :=
  if nr_relative c then (cur <> 0 /\ Rabs (prev - cur) / Rabs cur < nr_tol c)%R else (Rabs (prev - cur) < nr_tol c)%R.

Definition nr_outcome (iter : nat) (r : res (bool * nat * S0)) : Prop :=
  match r with
  | UB => False
  | Throw => exists i, iter <= i <= nr_max c /\ nrm i (iterate i) = None
  | Ok (b, i, s') =>
      iter <= i <= nr_max c /\ s' = iterate i /\
      exists cur, nrm i s' = Some cur /\
        if b then (cur < nr_cur_tol c)%R \/
                  (1 <= i /\ exists prev, nrm (i - 1) (iterate (i - 1)) = Some prev /\ close prev cur)
        else (nr_cur_tol c <= cur)%R /\ ((10 ^ 20 <= cur)%R \/ i = nr_max c \/ (nr_relative c = true /\ cur = 0%R))
  end.

Lemma nr_loop_spec fuel : forall iter ref,
  nr_max c < fuel + iter -> iter <= nr_max c ->
  (iter = 0 \/ nrm (iter - 1) (iterate (iter - 1)) = Some ref) ->
  exists r, nr_loop c nrm upd fuel iter ref (iterate iter) = Some r /\ nr_outcome iter r.
Proof.
  induction fuel as [|f IH]; intros iter ref Hf Hi Href; [lia|]. cbn [nr_loop].
  destruct (nrm iter (iterate iter)) as [cur|] eqn:En.
  2: { exists Throw. split; [reflexivity|]. exists iter. split; [lia|exact En]. }
  destruct (check_stop c (norm_measure c iter ref cur) cur iter) as [b|] eqn:Ec.
  - exists (Ok (b, iter, iterate iter)). split; [reflexivity|]. cbn [nr_outcome]. split; [lia|]. split; [reflexivity|].
    exists cur. split; [exact En|]. unfold check_stop in Ec.
    destruct (match norm_measure c iter ref cur with Value r => if Rlt_dec r (nr_tol c) then true else false | _ => false end) eqn:Em.
    + inversion Ec; subst b. right. destruct iter as [|it]; [discriminate Em|]. split; [lia|].
      exists ref. split; [destruct Href as [H|H]; [discriminate H|exact H]|].
      unfold norm_measure in Em. unfold close. destruct (nr_relative c).
      * destruct (Req_EM_T cur 0); [discriminate|]. destruct (Rlt_dec _ _); [split; assumption|discriminate].
      * destruct (Rlt_dec _ _); [assumption|discriminate].
    + destruct (Rlt_dec cur (nr_cur_tol c)) as [Hc|Hc]; [inversion Ec; left; exact Hc|].
      apply Rnot_lt_le in Hc.
      destruct (Rle_dec (10 ^ 20) cur) as [H20|H20]; [inversion Ec; split; [exact Hc|left; exact H20]|].
      destruct (Nat.leb (nr_max c) iter) eqn:El.
      * inversion Ec. split; [exact Hc|right; left]. apply Nat.leb_le in El. lia.
      * unfold norm_measure in Ec. destruct iter as [|it]; [discriminate|]. destruct (nr_relative c); [|discriminate].
        destruct (Req_EM_T cur 0) as [E0|E0]; [|discriminate]. inversion Ec. split; [exact Hc|right; right; auto].
  - assert (Hlt : iter < nr_max c).
    { unfold check_stop in Ec. destruct (match norm_measure c iter ref cur with Value _ => _ | _ => _ end); [discriminate|].
      destruct (Rlt_dec _ _); [discriminate|]. destruct (Rle_dec _ _); [discriminate|].
      destruct (Nat.leb_spec (nr_max c) iter); [discriminate|assumption]. }
    destruct (IH (S iter) cur ltac:(lia) ltac:(lia)) as [r [E H]].
    + right. replace (S iter - 1) with iter by lia. exact En.
    + exists r. split; [exact E|]. destruct r as [[[b i] s']| |]; cbn [nr_outcome] in *; [|destruct H as [i H]; exists i; intuition lia|exact H].
      destruct H as (H1 & H2). split; [lia|exact H2].
Qed.
End Loop.

(** ---- Pseudo-time ---- *)
Lemma trunc_grow (N : Z) (m : Q) : (0 < N)%Z -> (1 <= (m - 1) * inject_Z N)%Q -> (N < trunc (inject_Z N * m))%Z.
Proof.
  intros HN Hm. unfold trunc. destruct m as [a b]. cbn [Qnum Qden Qmult inject_Z].
  unfold Qle, Qminus, Qplus, Qopp, Qmult, inject_Z in Hm. cbn [Qnum Qden] in Hm.
  rewrite ?Pos.mul_1_r, ?Pos.mul_1_l, ?Z.mul_1_r, ?Z.mul_1_l in *.
  assert (H : ((N + 1) * Zpos b <= N * a)%Z) by nia.
  apply Z.lt_le_trans with (N + 1)%Z; [lia|].
  apply Z.quot_le_lower_bound; lia.
Qed.

Section PT.
Variable c : pt_config.
(** The number of steps grows at every failed attempt. *)
Hypothesis Hinit : (0 < pc_initial c)%Z.
Hypothesis Hgrow : (1 <= (pc_mult c - 1) * inject_Z (pc_initial c))%Q.

Lemma grow N : (pc_initial c <= N)%Z -> (N < trunc (inject_Z N * pc_mult c))%Z.
Proof.
  intros H. apply trunc_grow; [lia|]. eapply Qle_trans; [exact Hgrow|].
  assert (Hi : (0 < inject_Z (pc_initial c))%Q) by (rewrite Zlt_Qlt in Hinit; exact Hinit).
  assert (Hp : (0 <= pc_mult c - 1)%Q).
  { destruct (Qlt_le_dec (pc_mult c - 1) 0) as [L|L]; [|exact L].
    exfalso. assert ((pc_mult c - 1) * inject_Z (pc_initial c) <= 0)%Q by nra. lra. }
  assert (HN : (inject_Z (pc_initial c) <= inject_Z N)%Q) by (rewrite <- Zle_Qle; exact H).
  nra.
Qed.

Definition good (s : pt_state) : Prop :=
  (pc_initial c <= ps_n s \/ ps_reached s = true)%Z.

Lemma resize_good s : (pc_initial c <= ps_n s)%Z -> good (pt_resize c s) /\
  (ps_reached (pt_resize c s) = true \/ (ps_n s < ps_n (pt_resize c s) < pc_max c)%Z).
Proof.
  intros H. pose proof (grow _ H) as G. unfold pt_resize, good.
  destruct (Z.leb_spec (pc_max c) (trunc (inject_Z (ps_n s) * pc_mult c))) as [L|L]; cbn.
  - split; [right; reflexivity|left; reflexivity].
  - split; [left; lia|right; lia].
Qed.

Lemma pt_terminates (ok : nat -> nat -> bool) : forall d s attempt, good s -> (Z.to_nat (pc_max c - ps_n s) <= d) ->
  exists fuel r, pt_solution c ok fuel attempt s = Some r.
Proof.
  induction d as [|d IH]; intros s attempt Hg Hd.
  - exists 2. cbn [pt_solution]. destruct (pt_march _ _ _ _) as [ts conv]. destruct conv; [eauto|].
    destruct (ps_reached s) eqn:Er; [eauto|]. destruct Hg as [Hg|Hg]; [|congruence].
    destruct (resize_good s Hg) as [_ [Hr|Hr]]; [|lia]. rewrite Hr. destruct (pt_march _ _ _ _) as [ts' conv']. destruct conv'; eauto.
  - destruct (ps_reached s) eqn:Er.
    + exists 1. cbn [pt_solution]. destruct (pt_march _ _ _ _) as [ts conv]. rewrite Er. destruct conv; eauto.
    + destruct Hg as [Hg|Hg]; [|congruence]. destruct (resize_good s Hg) as [G Hr].
      assert (Hx : exists fuel r, pt_solution c ok fuel (S attempt) (pt_resize c s) = Some r).
      { destruct Hr as [Hr|Hr].
        - exists 1. cbn [pt_solution]. destruct (pt_march _ _ _ _) as [ts conv]. rewrite Hr. destruct conv; eauto.
        - apply IH; [exact G|lia]. }
      destruct Hx as [fuel [r Hx]]. exists (S fuel). cbn [pt_solution]. destruct (pt_march _ _ _ _) as [ts conv]. rewrite Er.
      destruct conv; eauto.
Qed.
End PT.

(** Times of the steps of a successful march. *)
Lemma march_times ok dt todo : forall k ts, pt_march ok dt todo k = (ts, true) ->
  ts = map (fun j => dt * inject_Z (Z.of_nat j + 1))%Q (seq k todo).
Proof.
  induction todo as [|t IH]; intros k ts H; cbn [pt_march] in H; [inversion H; reflexivity|].
  destruct (ok k); [|discriminate]. destruct (pt_march ok dt t (S k)) as [ts' b] eqn:E. inversion H; subst.
  rewrite (IH _ _ E). reflexivity.
Qed.

(** Every state met: the steps cover the interval, and the arrays have one row per step. *)
Definition covers (c : pt_config) (s : pt_state) : Prop :=
  (0 < ps_n s)%Z /\ (ps_dt s * inject_Z (ps_n s) == pc_end c)%Q /\ ps_rows s = ps_n s /\ (ps_n s <= pc_max c)%Z.

Lemma div_mul_covers (e : Q) (n : Z) : (0 < n)%Z -> (e / inject_Z n * inject_Z n == e)%Q.
Proof.
  intros H. rewrite Qmult_comm. apply Qmult_div_r. intros E.
  assert (inject_Z n <= 0)%Q by (rewrite E; apply Qle_refl). change 0%Q with (inject_Z 0) in H0. rewrite <- Zle_Qle in H0. lia.
Qed.

Lemma init_covers c : (0 < pc_initial c)%Z -> (pc_initial c <= pc_max c)%Z -> covers c (pt_init c).
Proof.
  intros H H2. unfold pt_init, covers. destruct (Z.leb_spec (pc_max c) (pc_initial c)); cbn.
  - replace (pc_max c) with (pc_initial c) by lia. repeat split; try lia. apply div_mul_covers; exact H.
  - repeat split; try lia. apply div_mul_covers; exact H.
Qed.

Lemma resize_covers c s : (0 < pc_initial c)%Z -> (1 <= (pc_mult c - 1) * inject_Z (pc_initial c))%Q ->
  (0 < pc_max c)%Z -> (pc_initial c <= ps_n s)%Z -> covers c (pt_resize c s).
Proof.
  intros H1 H2 H3 H4. pose proof (grow c H1 H2 _ H4) as G. unfold pt_resize, covers.
  destruct (Z.leb_spec (pc_max c) (trunc (inject_Z (ps_n s) * pc_mult c))); cbn.
  - repeat split; try lia. apply div_mul_covers; exact H3.
  - repeat split; try lia. apply div_mul_covers; lia.
Qed.

Lemma solution_covers c ok : (0 < pc_initial c)%Z -> (pc_initial c <= pc_max c)%Z ->
  (1 <= (pc_mult c - 1) * inject_Z (pc_initial c))%Q ->
  forall fuel attempt s b ts s', covers c s -> (pc_initial c <= ps_n s)%Z \/ ps_reached s = true ->
    pt_solution c ok fuel attempt s = Some (b, ts, s') ->
    covers c s' /\ ((pc_initial c <= ps_n s')%Z \/ ps_reached s' = true) /\
    (ps_stop s' = orb (ps_stop s) (negb b)) /\
    (b = true -> ts = map (fun j => ps_dt s' * inject_Z (Z.of_nat j + 1))%Q (seq 0 (Z.to_nat (ps_n s')))).
Proof.
  intros H1 H2 H3. induction fuel as [|f IH]; intros attempt s b ts s' Hc Hg E; [discriminate|]. cbn [pt_solution] in E.
  destruct (pt_march _ _ _ _) as [ts0 conv] eqn:Em. destruct conv.
  - inversion E; subst. split; [exact Hc|]. split; [exact Hg|]. split; [destruct (ps_stop s'); reflexivity|].
    intros _. eapply march_times. exact Em.
  - destruct (ps_reached s) eqn:Er.
    + inversion E; subst. cbn. split; [exact Hc|]. split; [right; reflexivity|]. split; [destruct (ps_stop s); reflexivity|discriminate].
    + destruct Hg as [Hg|Hg]; [|congruence].
      apply IH in E; [|apply resize_covers; try assumption; lia|].
      * destruct E as (A1 & A2 & A3 & A4). split; [exact A1|]. split; [exact A2|]. split; [|exact A4].
        rewrite A3. f_equal. unfold pt_resize. destruct (Z.leb _ _); reflexivity.
      * destruct (resize_good c H1 H3 s Hg) as [[G|G] _]; [left|right]; exact G.
Qed.

(** ---- Displacement control ---- *)
Section Control.
Context {K : CRing}.
Add Ring KringNP : (r_th K).
Local Open Scope K_scope.
Variables (value : nat -> Q -> K) (dofs : list nat) (dt : Q).

Definition time_of (k : nat) : Q := (dt * inject_Z (Z.of_nat k + 1))%Q.

Lemma control_run_nth n : forall k cur j i, length cur = length dofs -> (j < n)%nat -> (i < length dofs)%nat ->
  nth i (nth j (control_run value dofs dt n k cur) []) 0 =
  value (nth i dofs O) (time_of (k + j)) -
    (if Nat.eqb (k + j) 0 then 0 else if Nat.eqb j 0 then nth i cur 0 else value (nth i dofs O) (time_of (k + j - 1))).
Proof.
  induction n as [|n IH]; intros k cur j i Hc Hj Hi; [lia|]. cbn [control_run control_step].
  destruct j as [|j].
  - cbn [nth]. rewrite Nat.add_0_r. cbn [Nat.eqb].
    set (prev := if Nat.eqb k 0 then map (fun _ : K => 0) cur else cur).
    assert (Hp : length prev = length dofs) by (unfold prev; destruct (Nat.eqb k 0); [rewrite map_length|]; exact Hc).
    set (cur' := map _ dofs).
    assert (Hc' : length cur' = length dofs) by (apply map_length).
    transitivity (nth i cur' 0 + - (1) * nth i prev 0).
    + rewrite (nth_indep _ 0 (fst ((0, 0) : K * K) + - (1) * snd ((0, 0) : K * K)))
        by (rewrite map_length, combine_length; lia).
      rewrite (map_nth (fun p : K * K => fst p + - (1) * snd p)). rewrite combine_nth by lia. reflexivity.
    + unfold cur'. rewrite (nth_indep _ 0 (value O (time_of k))) by (rewrite map_length; exact Hi).
      rewrite (map_nth (fun d => value d (time_of k))). unfold prev. destruct (Nat.eqb k 0).
      * rewrite nth_const. ring.
      * ring.
  - cbn [nth]. rewrite IH; [|apply map_length|lia|exact Hi].
    replace (S k + j)%nat with (k + S j)%nat by lia. f_equal.
    replace (k + S j)%nat with (S (k + j)) by lia. cbn [Nat.eqb].
    destruct j as [|j]; cbn [Nat.eqb].
    + rewrite (nth_indep _ 0 (value O (time_of k))) by (rewrite map_length; exact Hi).
      rewrite (map_nth (fun d => value d (time_of k))). f_equal. f_equal. lia.
    + reflexivity.
Qed.

Lemma control_length n : forall k cur j, length cur = length dofs -> (j < n)%nat ->
  length (nth j (control_run value dofs dt n k cur) []) = length dofs.
Proof.
  induction n as [|n IH]; intros k cur j Hc Hj; [lia|]. cbn [control_run control_step]. destruct j as [|j]; cbn [nth].
  - rewrite map_length, combine_length, map_length. destruct (Nat.eqb k 0); [rewrite map_length|]; lia.
  - apply IH; [apply map_length|lia].
Qed.

Lemma telescope n cur k i : length cur = length dofs -> (k < n)%nat -> (i < length dofs)%nat ->
  sum (S k) (fun j => nth i (nth j (control_run value dofs dt n 0 cur) []) 0) = value (nth i dofs O) (time_of k).
Proof.
  intros Hc Hk Hi. induction k as [|k IH].
  - cbn [sum]. rewrite control_run_nth by lia. cbn [Nat.eqb Nat.add]. ring.
  - cbn [sum] in *. rewrite IH by lia. rewrite control_run_nth by lia.
    replace (0 + S k)%nat with (S k) by lia. cbn [Nat.eqb]. replace (S k - 1)%nat with k by lia. ring.
Qed.
End Control.

(** ---- The state at the constrained dofs ---- *)
Section StepR.
Variables (n : nat) (slv : solver (K := R_ring)) (dofs : list nat) (A : nat -> vect R_ring -> matr R_ring) (b : nat -> vect R_ring -> vect R_ring).
Hypothesis Hd : forall d, In d dofs -> d < n.
Hypothesis Hnd : NoDup dofs.
Hypothesis Hs : solver_ok n slv.
Hypothesis Hns : forall i u, nonsingular n (bc_matrix (K := R_ring) dofs (A i u)).

Lemma rhs_at inc iter u i : length inc = length dofs -> i < length dofs ->
  nr_rhs dofs A b inc iter u (nth i dofs O) = if Nat.eqb iter 0 then nth i inc 0%R else 0%R.
Proof.
  intros Hl Hi. unfold nr_rhs, bc_rhs.
  assert (Hin : In (nth i dofs O, nth i (nr_values iter inc) 0%R) (combine dofs (nr_values iter inc))).
  { rewrite <- combine_nth by (unfold nr_values; destruct (Nat.eqb iter 0); [|rewrite map_length]; lia).
    apply nth_In. rewrite combine_length. unfold nr_values. destruct (Nat.eqb iter 0); [|rewrite map_length]; lia. }
  rewrite (prescribed_all (K := R_ring) (1%R : R_ring) dofs (nr_values iter inc) (NoDup_compatible (K := R_ring) _ _ _ Hnd) (nth i dofs O) (1 * nth i (nr_values iter inc) 0)%R).
  - unfold nr_values. destruct (Nat.eqb iter 0).
    + apply Rmult_1_l.
    + rewrite Rmult_1_l. apply (nth_const (0%R : R_ring)).
  - unfold bcs_of. apply in_map_iff. exists (nth i dofs O, nth i (nr_values iter inc) 0%R). split; [reflexivity|exact Hin].
Qed.

Lemma update_at inc iter u i : length inc = length dofs -> i < length dofs ->
  nr_update slv dofs A b inc iter u (nth i dofs O) = (u (nth i dofs O) + if Nat.eqb iter O then nth i inc 0 else 0)%R.
Proof.
  intros Hl Hi. unfold nr_update.
  assert (Hin : In (nth i dofs O) dofs) by (apply nth_In; exact Hi).
  assert (Hlt : nth i dofs 0 < n) by (apply Hd; exact Hin).
  pose proof (Hs _ (nr_rhs dofs A b inc iter u) (Hns iter u) (nth i dofs O) Hlt) as E.
  rewrite bc_row_fixed in E; [|exact Hlt|apply constrained_in; exact Hin].
  rewrite E, rhs_at by assumption. apply Rplus_comm.
Qed.

Lemma iterate_at inc u i j : length inc = length dofs -> i < length dofs ->
  iterate (nr_update slv dofs A b inc) u j (nth i dofs O) = (u (nth i dofs O) + if Nat.eqb j O then 0 else nth i inc 0)%R.
Proof.
  intros Hl Hi. induction j as [|j IH]; [cbn; symmetry; apply Rplus_0_r|]. cbn [iterate]. rewrite update_at by assumption. rewrite IH.
  destruct j; cbn [Nat.eqb]; rewrite Rplus_0_r; reflexivity.
Qed.

Lemma sum_nonneg m (f : nat -> R) : (forall i, (i < m)%nat -> (0 <= f i)%R) -> (0 <= sum (K := R_ring) m f)%R.
Proof.
  induction m as [|m IH]; intros H; cbn [sum]; [apply Rle_refl|].
  apply Rplus_le_le_0_compat; [apply IH; intros; apply H; lia|apply H; lia].
Qed.
Lemma sum_ge_term m (f : nat -> R) i : (forall i, (i < m)%nat -> (0 <= f i)%R) -> i < m -> (f i <= sum (K := R_ring) m f)%R.
Proof.
  induction m as [|m IH]; intros H Hi; [lia|]. cbn [sum].
  assert (Hp : (0 <= sum (K := R_ring) m f)%R) by (apply sum_nonneg; intros; apply H; lia).
  assert (Hm : (0 <= f m)%R) by (apply H; lia).
  destruct (Nat.eq_dec i m) as [->|Hne].
  - pattern (f m) at 1. rewrite <- (Rplus_0_l (f m)). apply Rplus_le_compat_r. exact Hp.
  - assert (f i <= sum (K := R_ring) m f)%R by (apply IH; [intros; apply H; lia|lia]).
    eapply Rle_trans; [exact H0|]. pattern (sum (K := R_ring) m f) at 1. rewrite <- (Rplus_0_r (sum (K := R_ring) m f)).
    apply Rplus_le_compat_l. exact Hm.
Qed.
Lemma norm_ge_entry (v : vect R_ring) i : i < n -> (Rabs (v i) <= norm2 n v)%R.
Proof.
  intros Hi. unfold norm2. rewrite <- sqrt_Rsqr_abs. apply sqrt_le_1_alt.
  apply (sum_ge_term n (fun i => v i * v i)%R i); [|exact Hi]. intros j _. apply (Rle_0_sqr (v j)).
Qed.

(** A converged step: the prescribed increment is applied, unless the loop stopped at once, and then the
    increment is below the tolerance. *)
Lemma step_value c inc u it u' i : length inc = length dofs -> i < length dofs ->
  pseudo_step n slv dofs A b c inc u = Some (Ok (true, it, u')) ->
  ((1 <= it)%nat -> (u' (nth i dofs O) = u (nth i dofs O) + nth i inc 0)%R) /\
  (it = O -> (u' (nth i dofs O) = u (nth i dofs O) /\ Rabs (nth i inc 0) < nr_cur_tol c)%R).
Proof.
  intros Hl Hi E. unfold pseudo_step, nr_solve in E.
  destruct (nr_loop_spec c (nr_norm n dofs A b inc) (nr_update slv dofs A b inc) u (S (nr_max c)) 0 0%R ltac:(lia) ltac:(lia) (or_introl eq_refl))
    as [r [E' H]]. cbn [iterate] in E'. rewrite E in E'. inversion E'; subst r. clear E'.
  cbn [nr_outcome] in H. destruct H as (H1 & H2 & cur & H3 & H4). subst u'. rewrite iterate_at by assumption.
  split; intros Hit.
  - destruct it; [lia|]. reflexivity.
  - subst it. cbn [Nat.eqb]. split; [apply Rplus_0_r|]. destruct H4 as [H4|[H4 _]]; [|lia].
    unfold nr_norm in H3. inversion H3; subst cur. cbn [iterate] in H4.
    eapply Rle_lt_trans; [|exact H4].
    pose proof (rhs_at inc 0 u i Hl Hi) as Er. cbn [Nat.eqb] in Er. rewrite <- Er.
    apply norm_ge_entry. apply Hd. apply nth_In. exact Hi.
Qed.
End StepR.

(** ---- Reaction force ---- *)
Section Reaction.
Context {K : CRing}.
Add Ring KringRF : (r_th K).
Local Open Scope K_scope.

Lemma add_row_length (rows : list (list K)) k f : length (add_row rows k f) = length rows.
Proof. unfold add_row. rewrite map_length, combine_length, seq_length. lia. Qed.

Lemma add_row_nth (rows : list (list K)) k f j i : (j < length rows)%nat -> (i < length (nth j rows []))%nat -> (i < length f)%nat ->
  nth i (nth j (add_row rows k f) []) 0 = nth i (nth j rows []) 0 + (if Nat.eqb j k then nth i f 0 else 0).
Proof.
  intros Hj Hi Hf. unfold add_row.
  set (g := fun p : nat * list K => _).
  rewrite (nth_indep _ [] (g (O, []))) by (rewrite map_length, combine_length, seq_length; lia).
  rewrite (map_nth g). rewrite combine_nth by apply seq_length. rewrite seq_nth by exact Hj. unfold g. cbn [fst snd Nat.add].
  destruct (Nat.eqb j k); [|ring].
  rewrite (nth_indep _ 0 (fst ((0, 0) : K * K) + snd ((0, 0) : K * K))) by (rewrite map_length, combine_length; lia).
  rewrite (map_nth (fun ab : K * K => fst ab + snd ab)).
  (* combine of lists of different lengths *)
  assert (Hc : forall (x y : list K) m, (m < length x)%nat -> (m < length y)%nat -> nth m (combine x y) (0, 0) = (nth m x 0, nth m y 0)).
  { induction x as [|a x IH]; intros [|c y] [|m] H1 H2; simpl in *; try lia; [reflexivity|apply IH; lia]. }
  rewrite Hc by assumption. reflexivity.
Qed.

Definition rect (nn m : nat) (rows : list (list K)) : Prop := length rows = m /\ forall j, (j < m)%nat -> length (nth j rows []) = nn.

Lemma add_row_rect nn m rows k f : length f = nn -> rect nn m rows -> rect nn m (add_row rows k f).
Proof.
  intros Hf [H1 H2]. split; [rewrite add_row_length; exact H1|]. intros j Hj. unfold add_row.
  set (g := fun p : nat * list K => _).
  rewrite (nth_indep _ [] (g (O, []))) by (rewrite map_length, combine_length, seq_length; lia).
  rewrite (map_nth g). rewrite combine_nth by apply seq_length. rewrite seq_nth by lia. unfold g. cbn [fst snd].
  specialize (H2 j Hj). destruct (Nat.eqb _ k); [rewrite map_length, combine_length|]; lia.
Qed.

Lemma reaction_run_rect nn m f todo : (forall k, length (f k) = nn) -> forall k rows, rect nn m rows ->
  rect nn m (reaction_run f todo k rows) /\
  forall j i, (j < m)%nat -> (i < nn)%nat ->
    nth i (nth j (reaction_run f todo k rows) []) 0 =
    nth i (nth j rows []) 0 + (if andb (Nat.leb k j) (Nat.ltb j (k + todo)) then nth i (f j) 0 else 0).
Proof.
  intros Hf. induction todo as [|t IH]; intros k rows Hr; cbn [reaction_run].
  - split; [exact Hr|]. intros j i Hj Hi. destruct (Nat.leb_spec k j), (Nat.ltb_spec j (k + 0)); cbn [andb]; try lia; ring.
  - destruct (IH (S k) (add_row rows k (f k)) (add_row_rect _ _ _ _ _ (Hf k) Hr)) as [I1 I2]. split; [exact I1|].
    intros j i Hj Hi. destruct Hr as [R1 R2]. rewrite I2 by assumption.
    rewrite add_row_nth by (rewrite ?R1, ?R2, ?Hf by assumption; assumption).
    destruct (Nat.eqb_spec j k) as [->|Hne].
    + destruct (Nat.leb_spec (S k) k); [lia|]. destruct (Nat.leb_spec k k); [|lia]. destruct (Nat.ltb_spec k (k + S t)); [|lia]. cbn [andb]. ring.
    + destruct (Nat.leb_spec (S k) j), (Nat.leb_spec k j), (Nat.ltb_spec j (S k + t)), (Nat.ltb_spec j (k + S t)); cbn [andb]; try lia; ring.
Qed.

Lemma nth_repeat_any {A} (x d : A) m i : nth i (repeat x m) d = if Nat.ltb i m then x else d.
Proof. revert i. induction m as [|m IH]; intros [|i]; cbn; try reflexivity. rewrite IH. reflexivity. Qed.

Lemma resize_rect nn m m' rows : rect nn m rows -> rect nn m' (resize_rows nn rows m') /\
  forall j i, (j < m')%nat -> (i < nn)%nat -> nth i (nth j (resize_rows nn rows m') []) 0 = (if Nat.ltb j m then nth i (nth j rows []) 0 else 0 : K).
Proof.
  intros [R1 R2]. unfold resize_rows.
  assert (Hn : forall j, (j < m')%nat -> nth j (firstn m' rows ++ repeat (repeat 0 nn) (m' - length rows)) [] = if Nat.ltb j m then nth j rows [] else repeat 0 nn).
  { intros j Hj. destruct (Nat.ltb_spec j m) as [L|L].
    - rewrite app_nth1 by (rewrite firstn_length; lia).
      rewrite <- (firstn_skipn m' rows) at 2. rewrite app_nth1 by (rewrite firstn_length; lia). reflexivity.
    - rewrite app_nth2 by (rewrite firstn_length; lia). rewrite nth_repeat_any. rewrite firstn_length.
      destruct (Nat.ltb_spec (j - Nat.min m' (length rows)) (m' - length rows)); [reflexivity|lia]. }
  split; [split|].
  - rewrite app_length, firstn_length, repeat_length. lia.
  - intros j Hj. rewrite Hn by exact Hj. destruct (Nat.ltb_spec j m); [apply R2; lia|apply repeat_length].
  - intros j i Hj Hi. rewrite Hn by exact Hj. destruct (Nat.ltb_spec j m); [reflexivity|]. rewrite nth_repeat_any. destruct (Nat.ltb i nn); reflexivity.
Qed.

(** Every forward solve that reached a step adds to its row. *)
Lemma reaction_sum nn m (h : list (solve_run K)) :
  (forall r, In r h -> sr_rows r = m /\ sr_steps r <= m /\ forall k, length (sr_force r k) = nn)%nat ->
  forall rows, rect nn m rows \/ rows = [] ->
  forall j i, (j < m)%nat -> (i < nn)%nat -> h <> [] ->
    nth i (nth j (fold_left (fun rows r => reaction_run (sr_force r) (sr_steps r) 0 (resize_rows nn rows (sr_rows r))) h rows) []) 0 =
    nth i (nth j rows []) 0 + lsum (map (fun r => if Nat.ltb j (sr_steps r) then nth i (sr_force r j) 0 else 0) h).
Proof.
  induction h as [|r h IH]; intros Hh rows Hr j i Hj Hi Hne; [congruence|]. cbn [fold_left map].
  destruct (Hh r (or_introl eq_refl)) as (H1 & H2 & H3). rewrite H1.
  assert (Rz : rect nn m (resize_rows nn rows m) /\ forall j i, (j < m)%nat -> (i < nn)%nat ->
     nth i (nth j (resize_rows nn rows m) []) 0 = nth i (nth j rows []) 0 :> K).
  { destruct Hr as [Hr| ->].
    - destruct (resize_rect nn m m rows Hr) as [Z1 Z2]. split; [exact Z1|]. intros j' i' Hj' Hi'. rewrite Z2 by assumption.
      destruct (Nat.ltb_spec j' m); [reflexivity|lia].
    - assert (R0 : rect nn 0 ([] : list (list K))) by (split; [reflexivity|intros; lia]).
      destruct (resize_rect nn 0 m [] R0) as [Z1 Z2]. split; [exact Z1|]. intros j' i' Hj' Hi'. rewrite Z2 by assumption.
      cbn. destruct j', i'; reflexivity. }
  destruct Rz as [Z1 Z2].
  destruct (reaction_run_rect nn m (sr_force r) (sr_steps r) H3 0 _ Z1) as [Y1 Y2].
  destruct h as [|r' h].
  - cbn [fold_left map lsum]. rewrite Y2, Z2 by assumption. cbn [Nat.leb andb Nat.add]. destruct (Nat.ltb j (sr_steps r)); ring.
  - rewrite IH; [|intros; apply Hh; right; assumption|left; exact Y1|exact Hj|exact Hi|discriminate].
    rewrite Y2, Z2 by assumption. cbn [Nat.leb andb Nat.add].
    match goal with |- _ + lsum ?z = _ => set (rest := z) end. cbn [lsum]. destruct (Nat.ltb j (sr_steps r)); ring.
Qed.
End Reaction.
