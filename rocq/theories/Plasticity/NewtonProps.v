(** Properties of the Newton-Raphson loop, pseudo-time stepping, displacement control and reaction forces. *)
From Coq Require Import Arith ZArith QArith Qcanon Reals List Bool Lia Lra Ring.
From Verif Require Import Base.Field Base.Sums Base.Res BC.ConstraintsSpec BC.ConstraintsMain Problem.DenseBC Problem.SmallSolver Plasticity.NewtonModel Plasticity.NewtonProof.
Import ListNotations.
Local Open Scope nat_scope.

(** * C40 *)

(** [run] is the sequence of iterates: each is the update of the one before. *)
Definition iterates {S0} (upd : nat -> S0 -> S0) (s : S0) (run : nat -> S0) : Prop :=
  run 0 = s /\ forall i, run (S i) = upd i (run i).

(** The loop always stops, within the maximum number of iterations, in one of the iterates; it never reads
    memory it should not, and throws only for a residual norm that is not finite. *)
Theorem C40_terminates : forall S0 (c : nr_config) (nrm : nat -> S0 -> option R) upd s run, iterates upd s run ->
  (exists b i, i <= nr_max c /\ nr_solve c nrm upd s = Some (Ok (b, i, run i))) \/
  (exists i, i <= nr_max c /\ nrm i (run i) = None /\ nr_solve c nrm upd s = Some Throw).
Proof.
  intros S0 c nrm upd s run [H0 HS].
  assert (Hrun : forall i, iterate upd s i = run i) by (induction i as [|i IH]; [symmetry; exact H0|cbn [iterate]; rewrite IH; symmetry; apply HS]).
  destruct (nr_loop_spec c nrm upd s (S (nr_max c)) 0 0%R ltac:(lia) ltac:(lia) (or_introl eq_refl)) as [r [E H]].
  unfold nr_solve. cbn [iterate] in E. rewrite E. destruct r as [[[b i] s']| |]; cbn [nr_outcome] in H.
  - left. exists b, i. destruct H as (H1 & H2 & _). rewrite H2, Hrun. split; [lia|reflexivity].
  - right. destruct H as [i [H1 H2]]. exists i. rewrite Hrun in H2. split; [lia|]. split; [exact H2|reflexivity].
  - contradiction.
Qed.

(** What "converged" means: the norm at the returned state is below the second tolerance, or it differs from the
    one before by less than the stopping tolerance.  Missing from the full property: in the second case nothing
    is said about the size of the residual. *)
Theorem C40_convergence_partial : forall S0 (c : nr_config) (nrm : nat -> S0 -> option R) upd s run i s', iterates upd s run ->
  nr_solve c nrm upd s = Some (Ok (true, i, s')) ->
  exists cur, nrm i s' = Some cur /\
    ((cur < nr_cur_tol c)%R \/
     (1 <= i /\ exists prev, nrm (i - 1) (run (i - 1)) = Some prev /\
        if nr_relative c then (cur <> 0 /\ Rabs (prev - cur) / Rabs cur < nr_tol c)%R else (Rabs (prev - cur) < nr_tol c)%R)).
Proof.
  intros S0 c nrm upd s run i s' [H0 HS] E'.
  assert (Hrun : forall i, iterate upd s i = run i) by (induction i0 as [|i0 IH]; [symmetry; exact H0|cbn [iterate]; rewrite IH; symmetry; apply HS]).
  destruct (nr_loop_spec c nrm upd s (S (nr_max c)) 0 0%R ltac:(lia) ltac:(lia) (or_introl eq_refl)) as [r [E H]].
  unfold nr_solve in E'. cbn [iterate] in E. rewrite E in E'. inversion E'; subst r. cbn [nr_outcome] in H.
  destruct H as (H1 & H2 & cur & H3 & H4). exists cur. split; [exact H3|].
  destruct H4 as [H4|[H4 [prev [H5 H6]]]]; [left; exact H4|right]. split; [exact H4|]. exists prev. rewrite <- Hrun. split; [exact H5|exact H6].
Qed.

(** And "not converged" is never reported for a small residual. *)
Theorem C40_failure : forall S0 (c : nr_config) (nrm : nat -> S0 -> option R) upd s i s',
  nr_solve c nrm upd s = Some (Ok (false, i, s')) -> exists cur, nrm i s' = Some cur /\ (nr_cur_tol c <= cur)%R.
Proof.
  intros S0 c nrm upd s i s' E'.
  destruct (nr_loop_spec c nrm upd s (S (nr_max c)) 0 0%R ltac:(lia) ltac:(lia) (or_introl eq_refl)) as [r [E H]].
  unfold nr_solve in E'. cbn [iterate] in E. rewrite E in E'. inversion E'; subst r. cbn [nr_outcome] in H.
  destruct H as (H1 & H2 & cur & H3 & H4 & H5). exists cur. split; assumption.
Qed.

(** The full property is false: a residual that stays at one is reported as converged after one update. *)
Theorem C40_stagnation_refuted :
  exists c nrm, (forall i s, nrm i s = Some 1%R) /\ (nr_tol c < 1 /\ nr_cur_tol c < 1)%R /\
    nr_solve (S0 := unit) c nrm (fun _ s => s) tt = Some (Ok (true, 1, tt)).
Proof.
  exists (mkNR (/ 10) (/ 10) 10 false), (fun _ _ => Some 1%R). split; [reflexivity|]. split; [cbn; lra|].
  unfold nr_solve. cbn [nr_loop nr_max norm_measure nr_relative]. unfold check_stop. cbn [nr_relative nr_tol nr_cur_tol nr_max].
  destruct (Rlt_dec 1 (/ 10)); [lra|]. destruct (Rle_dec (10 ^ 20) 1) as [H|H].
  - exfalso. assert (1 < 10 ^ 20)%R by (apply Rlt_pow_R1; [lra|lia]). lra.
  - cbn [Nat.leb]. replace (1 - 1)%R with 0%R by lra. rewrite Rabs_R0. destruct (Rlt_dec 0 (/ 10)); [reflexivity|lra].
Qed.

(** Instance: halving the residual from 1 with tolerance 1/2 + 1/8 converges at iteration 1. *)
Example C40_instance :
  nr_solve (S0 := R) (mkNR 0 (5 / 8) 10 false) (fun _ s => Some s) (fun _ s => (s / 2)%R) 1%R = Some (Ok (true, 1, (1 / 2)%R)).
Proof.
  unfold nr_solve. cbn [nr_loop nr_max norm_measure nr_relative]. unfold check_stop. cbn [nr_relative nr_tol nr_cur_tol nr_max].
  destruct (Rlt_dec 1 (5 / 8)); [lra|]. destruct (Rle_dec (10 ^ 20) 1) as [H|H].
  - exfalso. assert (1 < 10 ^ 20)%R by (apply Rlt_pow_R1; [lra|lia]). lra.
  - cbn [Nat.leb]. destruct (Rlt_dec (Rabs (1 - 1 / 2)) 0) as [L|L]; [pose proof (Rabs_pos (1 - 1 / 2)); lra|].
    destruct (Rlt_dec (1 / 2) (5 / 8)); [reflexivity|lra].
Qed.

(** * C42, C71 *)

(** The states of the stepping data that any history of forward solves can produce. *)
Inductive reachable (c : pt_config) : pt_state -> Prop :=
| reach_init : reachable c (pt_init c)
| reach_solution : forall s ok fuel b ts s', reachable c s -> pt_solution c ok fuel 0 s = Some (b, ts, s') -> reachable c s'.

(** If the first retry adds at least one step and the initial count is within the maximum, then every solve, after
    any history and for any pattern of Newton failures, ends; when it succeeds, there is at least one step, the
    last one is at the end time, and every row of the arrays belongs to a solved step.
    Missing from the full property: other configurations, for which it is false (below). *)
Theorem C42_termination_partial : forall c s, (0 < pc_initial c <= pc_max c)%Z ->
  (1 <= (pc_mult c - 1) * inject_Z (pc_initial c))%Q -> reachable c s ->
  forall ok, exists fuel b ts s', pt_solution c ok fuel 0 s = Some (b, ts, s') /\
    (b = true -> ts <> [] /\ (last ts 0 == pc_end c)%Q /\ Z.of_nat (length ts) = ps_rows s').
Proof.
  intros c s [H1 H2] H3 Hr.
  assert (Hi : covers c s /\ ((pc_initial c <= ps_n s)%Z \/ ps_reached s = true)).
  { induction Hr as [|s ok fuel b ts s' Hr IH E].
    - split; [apply init_covers; assumption|]. unfold pt_init. destruct (Z.leb _ _); cbn; [right; reflexivity|left; lia].
    - destruct IH as [I1 I2]. destruct (solution_covers c ok H1 H2 H3 _ _ _ _ _ _ I1 I2 E) as (A1 & A2 & _). split; assumption. }
  destruct Hi as [I1 I2]. intros ok.
  destruct (pt_terminates c H1 H3 ok (Z.to_nat (pc_max c - ps_n s)) s 0 I2 (le_n _)) as [fuel [[[b ts] s'] E]].
  exists fuel, b, ts, s'. split; [exact E|]. intros Hb.
  destruct (solution_covers c ok H1 H2 H3 _ _ _ _ _ _ I1 I2 E) as ((P1 & P2 & P3 & P4) & _ & _ & A4).
  rewrite (A4 Hb). destruct (Z.to_nat (ps_n s')) as [|m] eqn:Em; [lia|]. split; [|split].
  - discriminate.
  - rewrite seq_S, map_app. cbn [map]. rewrite last_last. rewrite <- P2.
    replace (Z.of_nat (0 + m) + 1)%Z with (ps_n s') by lia. apply Qeq_refl.
  - rewrite map_length, seq_length. lia.
Qed.

(** Instance: 10 steps at first, at most 40, multiplier 2, an attempt that fails at its third step, then success. *)
Example C42_instance :
  pt_solution (mkPTC 10 40 1 2) (fun a k => negb (Nat.eqb a 0 && Nat.eqb k 2)) 5 0 (pt_init (mkPTC 10 40 1 2)) <> None /\
  match pt_solution (mkPTC 10 40 1 2) (fun a k => negb (Nat.eqb a 0 && Nat.eqb k 2)) 5 0 (pt_init (mkPTC 10 40 1 2)) with
  | Some (b, ts, s') => b = true /\ length ts = 20 /\ Qeq_bool (last ts 0%Q) 1 = true | None => False end /\
  (0 < 10 <= 40)%Z /\ (1 <= (2 - 1) * inject_Z 10)%Q.
Proof. vm_compute. repeat split; congruence. Qed.

(** Four steps and a multiplier of 1.2: the count stays four for ever. *)
Theorem C42_no_growth_refuted : exists c, (0 < pc_initial c < pc_max c)%Z /\ (1 < pc_mult c)%Q /\
  forall fuel, pt_solution c (fun _ _ => false) fuel 0 (pt_init c) = None.
Proof.
  exists (mkPTC 4 80 1 (6 # 5)). split; [cbn; lia|]. split; [reflexivity|].
  set (c := mkPTC 4 80 1 (6 # 5)).
  assert (Hf : forall fuel a, pt_solution c (fun _ _ => false) fuel a (pt_init c) = None).
  { induction fuel as [|f IH]; intros a; [reflexivity|]. cbn [pt_solution].
    replace (pt_march (fun _ : nat => false) (ps_dt (pt_init c)) (Z.to_nat (ps_n (pt_init c))) 0) with ([(1 # 4)%Q], false) by reflexivity.
    replace (ps_reached (pt_init c)) with false by reflexivity.
    replace (pt_resize c (pt_init c)) with (pt_init c) by reflexivity. apply IH. }
  intros fuel. apply Hf.
Qed.

(** An initial count above the maximum: success at four fifths of the interval, with 20 rows never solved. *)
Theorem C42_cut_refuted : exists c b ts s', pt_solution c (fun _ _ => true) 1 0 (pt_init c) = Some (b, ts, s') /\
  b = true /\ (0 < pc_max c)%Z /\ ~ (last ts 0 == pc_end c)%Q /\ Z.of_nat (length ts) <> ps_rows s'.
Proof.
  exists (mkPTC 100 80 1 2). eexists _, _, _. split; [vm_compute; reflexivity|].
  split; [reflexivity|]. split; [reflexivity|]. split; [intros H; vm_compute in H; discriminate|vm_compute; discriminate].
Qed.

(** A multiplier below one: the count drops to zero, and no step at all counts as success. *)
Theorem C42_shrinking_refuted : exists c s', (0 < pc_initial c < pc_max c)%Z /\
  pt_solution c (fun _ _ => false) 2 0 (pt_init c) = Some (true, [], s').
Proof. exists (mkPTC 4 80 1 (1 # 10)). eexists. split; [cbn; lia|]. vm_compute. reflexivity. Qed.

Lemma solution_stop c ok : forall fuel a s b ts s', pt_solution c ok fuel a s = Some (b, ts, s') -> ps_stop s' = orb (ps_stop s) (negb b).
Proof.
  induction fuel as [|f IH]; intros a s b ts s' E; [discriminate|]. cbn [pt_solution] in E.
  destruct (pt_march _ _ _ _) as [ts0 conv]. destruct conv; [inversion E; subst; destruct (ps_stop s'); reflexivity|].
  destruct (ps_reached s); [inversion E; subst; cbn; destruct (ps_stop s); reflexivity|].
  apply IH in E. rewrite E. f_equal. unfold pt_resize. destruct (Z.leb _ _); reflexivity.
Qed.

(** After a forward solve that failed, every criterion evaluation throws, also after later solves. *)
Theorem C71_failed_solve_throws : forall c ok fuel s ts s' A (v : A), pt_solution c ok fuel 0 s = Some (false, ts, s') ->
  pt_evaluate s' v = Throw.
Proof. intros c ok fuel s ts s' A v E. apply solution_stop in E. unfold pt_evaluate. rewrite E. destruct (ps_stop s); reflexivity. Qed.

(** While every solve so far has succeeded, evaluations go through. *)
Theorem C71_all_succeeded : forall c ok fuel s ts s' A (v : A), pt_evaluate s v = Ok v ->
  pt_solution c ok fuel 0 s = Some (true, ts, s') -> pt_evaluate s' v = Ok v.
Proof.
  intros c ok fuel s ts s' A v H E. apply solution_stop in E. unfold pt_evaluate in *. rewrite E.
  destruct (ps_stop s); [discriminate|reflexivity].
Qed.

(** The converse of the first theorem is false: after a failed solve, a later successful one cannot be evaluated. *)
Theorem C71_recovery_refuted : exists c ok1 ok2 ts1 s1 ts2 s2,
  pt_solution c ok1 5 0 (pt_init c) = Some (false, ts1, s1) /\ pt_solution c ok2 5 0 s1 = Some (true, ts2, s2) /\
  forall A (v : A), pt_evaluate s2 v = Throw.
Proof.
  exists (mkPTC 2 4 1 2), (fun _ _ => false), (fun _ _ => true). eexists _, _, _, _.
  split; [vm_compute; reflexivity|]. split; [vm_compute; reflexivity|]. reflexivity.
Qed.

(** * C43 *)

(** The increments handed to Newton over the first steps sum to the prescribed value, whatever was stored. *)
Theorem C43_increments_telescope : forall (K : CRing) (value : nat -> Q -> K) dofs dt n stored k i,
  length stored = length dofs -> k < n -> i < length dofs ->
  sum (S k) (fun j => nth i (nth j (control_run value dofs dt n 0 stored) []) r0) =
  value (nth i dofs O) (dt * inject_Z (Z.of_nat k + 1))%Q.
Proof. intros. apply telescope; assumption. Qed.

Example C43_increments_instance :
  map (map this) (control_run (K := Qc_ring) (fun d t => Q2Qc (t * inject_Z (Z.of_nat d))) [1; 4] (1 # 2) 2 0 [Q2Qc 7; Q2Qc 9]) =
  [[(1 # 2)%Q; (2 # 1)%Q]; [(1 # 2)%Q; (2 # 1)%Q]].
Proof. vm_compute. reflexivity. Qed.

Fixpoint count (f : nat -> bool) (k : nat) : nat := match k with O => O | S j => count f j + (if f j then 1 else 0) end.

(** The state: over any number of converged steps, with any tangents, residuals and linear solver that solves, the
    state misses the prescribed value by at most the tolerance times the number of steps in which the loop
    stopped before its first update; it is exact if there is no such step. *)
Theorem C43_state_partial : forall n slv dofs (A : nat -> nat -> vect R_ring -> matr R_ring) b c value dt m stored u it,
  (forall d, In d dofs -> d < n) -> NoDup dofs -> solver_ok n slv ->
  (forall k i w, nonsingular n (bc_matrix (K := R_ring) dofs (A k i w))) ->
  length stored = length dofs -> (0 <= nr_cur_tol c)%R ->
  (forall d, In d dofs -> u 0 d = 0%R) ->
  (forall k, k < m -> pseudo_step n slv dofs (A k) (b k) c (nth k (control_run (K := R_ring) value dofs dt m 0 stored) []) (u k)
                      = Some (Ok (true, it k, u (S k)))) ->
  forall k d, k < m -> In d dofs ->
    (Rabs (u (S k) d - value d (dt * inject_Z (Z.of_nat k + 1))%Q) <= INR (count (fun j => Nat.eqb (it j) 0) (S k)) * nr_cur_tol c)%R.
Proof.
  intros n slv dofs A b c value dt m stored u it Hd Hnd Hs Hns Hst Ht H0 Hstep.
  intros k d Hk Hin. apply In_nth with (d := O) in Hin. destruct Hin as [i [Hi <-]].
  set (incs := control_run (K := R_ring) value dofs dt m 0 stored) in *.
  rewrite <- (C43_increments_telescope R_ring value dofs dt m stored k i Hst Hk Hi). fold incs.
  set (g := fun j => nth i (nth j incs []) (r0 : R_ring)).
  set (d := nth i dofs O).
  assert (Hb : forall k, k <= m -> (Rabs (u k d - sum (K := R_ring) k g) <= INR (count (fun j => Nat.eqb (it j) 0) k) * nr_cur_tol c)%R).
  { intros q. induction q as [|q IH]; intros Hq.
    - cbn [count sum INR]. rewrite Rmult_0_l. unfold d. rewrite H0 by (apply nth_In; exact Hi).
      match goal with |- (Rabs ?z <= 0)%R => replace z with 0%R; [rewrite Rabs_R0; apply Rle_refl|] end.
      symmetry. apply Rminus_diag_eq. reflexivity.
    - specialize (IH ltac:(lia)).
      assert (Hli : length (nth q incs []) = length dofs) by (apply control_length; [exact Hst|lia]).
      destruct (step_value n slv dofs (A q) (b q) Hd Hnd Hs (Hns q) c _ (u q) (it q) (u (S q)) i Hli Hi (Hstep q ltac:(lia))) as [S1 S2].
      fold d in S1, S2. cbn [count]. rewrite plus_INR, Rmult_plus_distr_r.
      assert (Es : sum (K := R_ring) (S q) g = (sum (K := R_ring) q g + g q)%R) by reflexivity. rewrite Es.
      set (sg := sum (K := R_ring) q g : R) in *. set (gq := g q : R) in *. set (uq := u q d : R) in *. set (us := u (S q) d : R) in *.
      assert (T1 : 1 <= it q -> us = (uq + gq)%R) by exact S1. assert (T2 : it q = 0 -> us = uq /\ (Rabs gq < nr_cur_tol c)%R) by exact S2.
      clear S1 S2. rename T1 into S1, T2 into S2. clearbody sg gq uq us.
      destruct (it q) as [|it'] eqn:Eit.
      + destruct (S2 eq_refl) as [E1 E2]. rewrite E1. cbn [Nat.eqb INR].
        replace (uq - (sg + gq))%R with ((uq - sg) + - gq)%R by ring.
        eapply Rle_trans; [apply Rabs_triang|]. rewrite Rabs_Ropp. lra.
      + rewrite (S1 ltac:(lia)). cbn [Nat.eqb INR].
        replace (uq + gq - (sg + gq))%R with (uq - sg)%R by ring. lra. }
  apply Hb. lia.
Qed.

(** Instance and refutation share a scalar problem with unit tangent, prescribed value [v t], one step of size 1. *)
Lemma scalar_rhs v iter u :
  norm2 1 (nr_rhs [0] (fun _ _ => (fun _ _ => 1%R) : matr R_ring) (fun _ _ => (fun _ => 0%R) : vect R_ring) [v] iter u) = Rabs (if Nat.eqb iter 0 then v else 0%R).
Proof.
  unfold norm2. cbn [sum]. 
  assert (E : nr_rhs [0] (fun _ _ => (fun _ _ => 1%R) : matr R_ring) (fun _ _ => (fun _ => 0%R) : vect R_ring) [v] iter u 0 = if Nat.eqb iter 0 then v else 0%R).
  { unfold nr_rhs, nr_values, bc_rhs, prescribed. destruct (Nat.eqb iter 0); cbn; lra. }
  rewrite E. rewrite <- sqrt_Rsqr_abs. unfold Rsqr. f_equal. apply Rplus_0_l.
Qed.

(** The linear solver and the tangent of the instance meet the hypotheses of C43_state_partial. *)
Example C43_hypotheses : solver_ok (K := R_ring) 1 (solver1 (K := R_field)) /\ nonsingular 1 (bc_matrix (K := R_ring) [0] (fun _ _ => 1%R)).
Proof.
  split; [apply (solver1_ok (K := R_field))|]. apply (nonsingular1 (K := R_field)). unfold bc_matrix, constrained_matrix. cbn. apply R1_neq_R0.
Qed.

Lemma step_1e20 : (1 < 10 ^ 20)%R.
Proof. apply Rlt_pow_R1; [lra|lia]. Qed.

Example C43_instance : exists u1, u1 0 = 1%R /\
  pseudo_step 1 (solver1 (K := R_field)) [0] (fun _ _ => (fun _ _ => 1%R) : matr R_ring) (fun _ _ => (fun _ => 0%R) : vect R_ring)
     (mkNR (/ 2) (/ 2) 5 false) [1%R] (fun _ => 0%R) = Some (Ok (true, 1, u1)).
Proof.
  eexists. split; cycle 1.
  - unfold pseudo_step, nr_solve. cbn [nr_loop nr_max]. unfold nr_norm. rewrite scalar_rhs. cbn [Nat.eqb].
    unfold check_stop at 1. cbn [norm_measure nr_cur_tol nr_max Nat.leb]. rewrite Rabs_R1.
    destruct (Rlt_dec 1 (/ 2)); [lra|]. pose proof step_1e20. destruct (Rle_dec (10 ^ 20) 1); [lra|].
    rewrite scalar_rhs. cbn [Nat.eqb]. rewrite Rabs_R0. unfold check_stop at 1. cbn [norm_measure nr_relative nr_tol nr_cur_tol].
    destruct (Rlt_dec (Rabs (1 - 0)) (/ 2)) as [L|L]; [exfalso; replace (1 - 0)%R with 1%R in L by ring; rewrite Rabs_R1 in L; lra|].
    destruct (Rlt_dec 0 (/ 2)); [reflexivity|lra].
  - unfold nr_update, nr_rhs, nr_values, bc_rhs, bc_matrix, prescribed. cbn. lra.
Qed.

(** The state can miss the prescribed value: an increment below the tolerance is never imposed. *)
Theorem C43_early_stop_refuted : exists c v u1,
  nth 0 (control_run (K := R_ring) (fun _ _ => v) [0] 1 1 0 [0%R]) [] = [v] /\
  pseudo_step 1 (solver1 (K := R_field)) [0] (fun _ _ => (fun _ _ => 1%R) : matr R_ring) (fun _ _ => (fun _ => 0%R) : vect R_ring)
    c [v] (fun _ => 0%R) = Some (Ok (true, 0, u1)) /\ u1 0 <> v.
Proof.
  exists (mkNR (/ 2) (/ 2) 5 false), (/ 4)%R, (fun _ => 0%R). split; [|split].
  - cbn. f_equal. lra.
  - unfold pseudo_step, nr_solve. cbn [nr_loop nr_max]. unfold nr_norm. rewrite scalar_rhs. cbn [Nat.eqb].
    unfold check_stop at 1. cbn [norm_measure nr_cur_tol nr_max Nat.leb]. rewrite Rabs_pos_eq by lra.
    destruct (Rlt_dec (/ 4) (/ 2)); [reflexivity|lra].
  - intros E. assert ((0 = / 4)%R) by exact E. lra.
Qed.

(** * C44 *)

(** Row [j] of the reported reaction force is the sum of the forces of all the solves so far that reached
    step [j]; so after the first solve it is that solve's force.  Missing from the full property: later solves,
    for which it is false (below). *)
Theorem C44_first_solve_partial : forall (K : CRing) nn (r : solve_run K), sr_steps r <= sr_rows r -> (forall k, length (sr_force r k) = nn) ->
  forall j i, j < sr_steps r -> i < nn -> nth i (nth j (reaction_history nn [r]) []) r0 = nth i (sr_force r j) r0.
Proof.
  intros K nn r H1 H2 j i Hj Hi. pose proof (r_th K) as Hth. unfold reaction_history.
  rewrite (reaction_sum nn (sr_rows r) [r]); [|intros r' [<-|[]]; auto|right; reflexivity|lia|exact Hi|discriminate].
  cbn [map lsum]. destruct (Nat.ltb_spec j (sr_steps r)); [|lia].
  assert (Hn : nth i (nth j ([] : list (list K)) []) r0 = r0) by (destruct j, i; reflexivity).
  rewrite Hn. rewrite (Radd_0_l Hth). rewrite (Radd_comm Hth), (Radd_0_l Hth). reflexivity.
Qed.

Theorem C44_accumulates : forall (K : CRing) nn m (h : list (solve_run K)), h <> [] ->
  (forall r, In r h -> sr_rows r = m /\ sr_steps r <= m /\ forall k, length (sr_force r k) = nn) ->
  forall j i, j < m -> i < nn ->
    nth i (nth j (reaction_history nn h) []) r0 = lsum (map (fun r => if Nat.ltb j (sr_steps r) then nth i (sr_force r j) r0 else r0) h).
Proof.
  intros K nn m h Hne Hh j i Hj Hi. unfold reaction_history.
  rewrite (reaction_sum nn m h Hh [] (or_intror eq_refl) j i Hj Hi Hne).
  assert (Hn : nth i (nth j ([] : list (list K)) []) r0 = r0) by (destruct j, i; reflexivity).
  rewrite Hn. apply (Radd_0_l (r_th K)).
Qed.

(** Solving the same problem twice reports twice the force. *)
Theorem C44_repeated_solve_refuted : exists (r : solve_run Z_ring),
  reaction_history (K := Z_ring) 2 [r] = [[3%Z; (-1)%Z]] /\ reaction_history (K := Z_ring) 2 [r; r] = [[6%Z; (-2)%Z]].
Proof. exists (mkRun (K := Z_ring) 1 1 (fun _ => [3%Z; (-1)%Z])). split; vm_compute; reflexivity. Qed.

Print Assumptions C40_terminates.
Print Assumptions C40_convergence_partial.
Print Assumptions C40_failure.
Print Assumptions C40_stagnation_refuted.
Print Assumptions C42_termination_partial.
Print Assumptions C42_no_growth_refuted.
Print Assumptions C42_cut_refuted.
Print Assumptions C42_shrinking_refuted.
Print Assumptions C43_increments_telescope.
Print Assumptions C43_state_partial.
Print Assumptions C43_early_stop_refuted.
Print Assumptions C44_first_solve_partial.
Print Assumptions C44_accumulates.
Print Assumptions C44_repeated_solve_refuted.
Print Assumptions C71_failed_solve_throws.
Print Assumptions C71_all_succeeded.
Print Assumptions C71_recovery_refuted.
