(** Proofs about the stabilised problem. *)
From Coq Require Import Arith Lia List Bool Ring Field.
From Verif Require Import Base.Field Base.Sums Base.Res BC.ConstraintsSpec BC.ConstraintsMain Problem.DenseBC Problem.EllipticSpec
  Problem.EllipticProof Vms.VmsModel Vms.VmsSpec.
Import ListNotations.

Section K.
Context {K : CField}.
Add Field KfieldVms : (f_th K).
Local Open Scope K_scope.
Context {Z : Type}.
Variables (p : vproblem K Z) (z : Z).
Let n := v_ndofs p.
Let m := v_nproj p.
Let dofs := vp_dofs p.
Let vals := vp_vals p.

Lemma project_spec q pr a : a < m -> row_sum m (P_gradient_u (vp_proj p) q pr z) a <> 0 ->
  row_sum m (P_gradient_u (vp_proj p) q pr z) a * project p z q pr a = - P_value (vp_proj p) q pr z a.
Proof. intros Ha Hr. unfold project, RowSummed. fold m. field. exact Hr. Qed.

Section Newton.
Hypothesis Hlen : List.length vals = List.length dofs.
Hypothesis Hc : compatible 1 dofs vals.
Hypothesis Hd : forall d, In d dofs -> d < n.
Hypothesis Hne : vp_vals p <> [].
Hypothesis Hs : solver_ok n (vp_solve p).
Hypothesis Hns : forall u q, nonsingular n (bc_matrix dofs (g_gradient_u (vp_mech p) u q z)).

Lemma bc_present : v_no_bc p = false.
Proof using Hlen Hne.
  clear Hc Hd Hs Hns. unfold v_no_bc. revert Hlen Hne. unfold vals, dofs. destruct (vp_vals p); [contradiction|]. destruct (vp_dofs p); [discriminate|reflexivity].
Qed.

Definition vtakes (u : vect K) : Prop := forall d v, In (d, v) (combine dofs vals) -> u d = v.
Definition vincr (scale : K) (u q : vect K) : vect K :=
  vp_solve p (bc_matrix dofs (g_gradient_u (vp_mech p) u q z))
    (bc_rhs 1 dofs (map (fun v => scale * v) vals) (g_gradient_u (vp_mech p) u q z) (fun i => (- (1)) * g_value (vp_mech p) u q z i)).

Lemma combine_map_r (f : K -> K) : forall (l1 : list nat) (l2 : list K), combine l1 (map f l2) = map (fun x => (fst x, f (snd x))) (combine l1 l2).
Proof. induction l1 as [|a l1 IH]; intros [|b l2]; simpl; try reflexivity. rewrite IH. reflexivity. Qed.

Lemma prescribed_scale (scale : K) i : prescribed 1 dofs (map (fun v => scale * v) vals) i = prescribed scale dofs vals i.
Proof.
  unfold prescribed. rewrite combine_map_r. induction (combine dofs vals) as [|[d v] l IH]; [reflexivity|]. cbn.
  destruct (Nat.eqb d i); [f_equal; cbn; ring|exact IH].
Qed.
Lemma rhs_scale (scale : K) A b i : bc_rhs 1 dofs (map (fun v => scale * v) vals) A b i = bc_rhs scale dofs vals A b i.
Proof.
  unfold bc_rhs. rewrite prescribed_scale. destruct (prescribed scale dofs vals i); [reflexivity|]. f_equal.
  rewrite combine_map_r, map_map. apply lsum_map_ext. intros [d v] _. simpl. ring.
Qed.

Lemma vincr_solves scale u q : solves n (bc_matrix dofs (g_gradient_u (vp_mech p) u q z))
  (bc_rhs scale dofs vals (g_gradient_u (vp_mech p) u q z) (fun i => (- (1)) * g_value (vp_mech p) u q z i)) (vincr scale u q).
Proof. intros i Hi. rewrite <- rhs_scale. apply (Hs _ _ (Hns u q)). exact Hi. Qed.

Lemma vincr_first u q : vtakes (vincr 1 u q).
Proof.
  intros d v Hin. pose proof (vincr_solves 1 u q) as H.
  assert (Hdn : In d dofs) by (eapply in_combine_l; eauto).
  assert (Hcd : constrained dofs d = true) by (apply constrained_in; exact Hdn).
  rewrite <- (bc_row_fixed n dofs (g_gradient_u (vp_mech p) u q z) (vincr 1 u q) d (Hd d Hdn) Hcd).
  rewrite H by (apply Hd, Hdn). unfold bc_rhs.
  rewrite (prescribed_all 1 dofs vals Hc d (1 * v)); [ring|]. unfold bcs_of. apply in_map_iff. exists (d, v). auto.
Qed.
Lemma vincr_later u q d : In d dofs -> vincr 0 u q d = 0.
Proof.
  intros Hdn. apply (bc_zero n 0 dofs vals (g_gradient_u (vp_mech p) u q z) (fun i => (- (1)) * g_value (vp_mech p) u q z i) (vincr 0 u q) Hlen Hd).
  - intros v _. ring.
  - apply vincr_solves.
  - exact Hdn.
Qed.

Definition vnext (scale : K) (s : vect K * vect K * vect K) : vect K * vect K * vect K :=
  let '(u, q, pr) := s in let q' := project p z q pr in
  let u' : vect K := fun i => 1 * vincr scale u q' i + 1 * u i in (u', q', extract_dof (vp_N p) (vp_off p) u').

Lemma newton_S todo idx s : v_newton p z (S todo) idx s = v_newton p z todo (S idx) (vnext (if Nat.eqb idx 0 then 1 else 0) s).
Proof. destruct s as [[u q] pr]. cbn [v_newton]. rewrite bc_present. reflexivity. Qed.

Lemma later_values todo : forall idx s, vtakes (fst (fst s)) -> exists s', v_newton p z todo (S idx) s = Ok s' /\ vtakes (fst (fst s')).
Proof.
  induction todo as [|todo IH]; intros idx s H; [exists s; auto|]. rewrite newton_S. apply IH. destruct s as [[u q] pr].
  cbn. intros d v Hin. rewrite vincr_later by (eapply in_combine_l; eauto). rewrite <- (H d v Hin). cbn. ring.
Qed.

Lemma step_values : 0 < vp_newton p -> exists s, v_step p z = Ok s /\ vtakes (fst (fst s)).
Proof.
  intros H. unfold v_step. destruct (vp_newton p) as [|todo]; [lia|]. rewrite newton_S. apply later_values. cbn.
  intros d v Hin. rewrite (vincr_first _ _ d v Hin). ring.
Qed.

(** The pressure and projection kept by the loop. *)
Lemma newton_inv (P : vect K * vect K * vect K -> Prop) todo : forall idx s,
  P s -> (forall sc s, P s -> P (vnext sc s)) -> exists s', v_newton p z todo idx s = Ok s' /\ P s'.
Proof.
  induction todo as [|todo IH]; intros idx s H1 H2; [exists s; auto|]. rewrite newton_S. apply IH; auto.
Qed.

Lemma march_spec s0 : v_step p z = Ok s0 -> forall todo k h, exists h', v_march p z todo k h = Ok h' /\
  (forall j, k <= j < k + todo -> h' j = fst (fst s0)) /\ (forall j, j < k \/ k + todo <= j -> h' j = h j).
Proof.
  clear Hlen Hc Hd Hne Hs Hns. intros E. induction todo as [|todo IH]; intros k h; cbn [v_march].
  - exists h. split; [reflexivity|]. split; [intros; lia|reflexivity].
  - rewrite E. cbn [rbind]. destruct (IH (S k) (fun j => if Nat.eqb j k then fst (fst s0) else h j)) as (h' & E' & H1 & H2).
    exists h'. split; [exact E'|]. split.
    + intros j Hj. destruct (Nat.eq_dec j k) as [->|Hn]; [rewrite H2 by lia; rewrite Nat.eqb_refl; reflexivity|apply H1; lia].
    + intros j Hj. rewrite H2 by lia. destruct (Nat.eqb_spec j k); [lia|reflexivity].
Qed.

Section Linear.
Variables (A B : matr K) (F : vect K) (M G : matr K).
Hypothesis Hlin : linear_vms p z A B F M G.
Hypothesis Hsym : symmetric n A.

Lemma grad_lin u q x i : i < n -> mv n (g_gradient_u (vp_mech p) u q z) x i = mv n A x i.
Proof. intros Hi. apply mv_ext; [|reflexivity]. intros j Hj. apply (proj1 Hlin u q); assumption. Qed.
Lemma value_lin u q i : i < n -> g_value (vp_mech p) u q z i = mv n A u i + mv m B q i - F i.
Proof. intros Hi. apply (proj1 Hlin u q); assumption. Qed.

(** After every iteration the state balances the loads with the projected gradient of that iteration. *)
Lemma first_balances q' : balances p A B F q' (fun i => 1 * vincr 1 (fun _ => 0) q' i + 1 * 0).
Proof.
  split.
  - intros d v Hin. rewrite (vincr_first (fun _ => 0) q' d v Hin). ring.
  - intros i Hi Hni. pose proof (vincr_solves 1 (fun _ => 0) q') as H. change (i < n) in Hi.
    apply (bc_system n 1 dofs vals Hlen Hc Hd) in H.
    + destruct H as [_ H]. specialize (H i Hi). rewrite grad_lin in H by exact Hi.
      change (vp_nodes p * vp_N p)%nat with n. change (vp_nodes p * vp_dim p)%nat with m.
      rewrite (mv_ext n A A _ (vincr 1 (fun _ => 0) q')); [|reflexivity|intros; ring].
      rewrite H.
      * rewrite value_lin by exact Hi. rewrite mv_0. ring.
      * destruct (constrained dofs i) eqn:E; [|reflexivity]. apply constrained_in in E. contradiction.
    + intros d v k Hin Hk. assert (Hdn : d < n) by (apply Hd; eapply in_combine_l; eauto).
      rewrite (proj2 (proj1 Hlin (fun _ => 0) q') d k), (proj2 (proj1 Hlin (fun _ => 0) q') k d), (Hsym d k) by assumption. reflexivity.
Qed.

Lemma later_balances u q' : vtakes u -> balances p A B F q' (fun i => 1 * vincr 0 u q' i + 1 * u i).
Proof.
  intros Hu. split.
  - intros d v Hin. rewrite vincr_later by (eapply in_combine_l; eauto). rewrite <- (Hu d v Hin). ring.
  - intros i Hi Hni. pose proof (vincr_solves 0 u q') as H. change (i < n) in Hi.
    apply (bc_zero n 0 dofs vals _ _ _ Hlen Hd) in H; [|intros; ring]. destruct H as [_ H]. specialize (H i Hi Hni).
    rewrite grad_lin in H by exact Hi. rewrite value_lin in H by exact Hi.
    change (vp_nodes p * vp_N p)%nat with n. change (vp_nodes p * vp_dim p)%nat with m.
    rewrite (mv_ext n A A _ (fun j => vincr 0 u q' j + u j)); [|reflexivity|intros; ring]. rewrite mv_add, H. ring.
Qed.

Hypothesis HR : forall a, a < m -> lumped m M a <> 0.

Lemma row_sum_lin q pr a : a < m -> row_sum m (P_gradient_u (vp_proj p) q pr z) a = lumped m M a.
Proof. intros Ha. unfold row_sum, lumped. apply sum_ext. intros b Hb. apply (proj2 Hlin q pr); assumption. Qed.

(** One projection: R q' = G p - M q, with the previous projected gradient q. *)
Lemma project_lin q pr a : a < m -> lumped m M a * project p z q pr a = mv (vp_nodes p) G pr a - mv m M q a.
Proof.
  intros Ha. rewrite <- (row_sum_lin q pr a Ha). rewrite project_spec by (try exact Ha; rewrite row_sum_lin by exact Ha; apply HR; exact Ha).
  rewrite (proj1 (proj2 Hlin q pr) a Ha). change (vp_nodes p * vp_dim p)%nat with m. ring.
Qed.

(** All iterates. *)
Fixpoint iterates (todo : nat) : vect K * vect K * vect K :=
  match todo with
  | O => ((fun _ => 0), (fun _ => 0), (fun _ => 0))
  | S k => vnext (if Nat.eqb k 0 then 1 else 0) (iterates k)
  end.
Lemma newton_snoc todo : forall idx s, v_newton p z (S todo) idx s = (let! s' := v_newton p z todo idx s in Ok (vnext (if Nat.eqb (idx + todo) 0 then 1 else 0) s')).
Proof.
  induction todo as [|todo IH]; intros idx s.
  - rewrite newton_S. cbn [v_newton rbind]. rewrite Nat.add_0_r. reflexivity.
  - rewrite newton_S. rewrite IH. rewrite (newton_S todo idx s). replace (S idx + todo)%nat with (idx + S todo)%nat by lia. reflexivity.
Qed.
Lemma newton_iterates k : v_newton p z k 0 ((fun _ => 0), (fun _ => 0), (fun _ => 0)) = Ok (iterates k).
Proof. induction k as [|k IH]; [reflexivity|]. rewrite newton_snoc, IH. reflexivity. Qed.
Lemma iterates_pressure k node : snd (iterates k) node = extract_dof (vp_N p) (vp_off p) (fst (fst (iterates k))) node.
Proof.
  destruct k as [|k]; [reflexivity|]. cbn [iterates]. destruct (iterates k) as [[u q] pr]. reflexivity.
Qed.
Lemma iterates_balance k : balances p A B F (snd (fst (iterates (S k)))) (fst (fst (iterates (S k)))).
Proof.
  induction k as [|k IH]; [apply first_balances|]. cbn [iterates Nat.eqb]. cbn [iterates] in IH.
  set (s := vnext _ (iterates k)) in *. destruct s as [[u q] pr]. cbn. apply later_balances. exact (proj1 IH).
Qed.
Lemma iterates_project k a : a < m ->
  lumped m M a * snd (fst (iterates (S k))) a + mv m M (snd (fst (iterates k))) a
  = mv (vp_nodes p) G (fun node => fst (fst (iterates k)) (node * vp_N p + vp_off p)%nat) a.
Proof.
  intros Ha. cbn [iterates]. pose proof (iterates_pressure k) as X. destruct (iterates k) as [[u q] pr]. cbn [vnext fst snd] in *.
  rewrite project_lin by exact Ha.
  rewrite (mv_ext (vp_nodes p) G G pr (fun node => u (node * vp_N p + vp_off p)%nat)); [|reflexivity|intros; apply X]. ring.
Qed.
End Linear.
End Newton.

(** ** The adjoint *)
Lemma dot_extract (N nodes off : nat) (x du : vect K) : off < N ->
  dot (nodes * N) (fun i => if Nat.eqb (i mod N) off then x (i / N)%nat else 0) du = dot nodes x (fun k => du (k * N + off)%nat).
Proof.
  intros Ho. unfold dot. rewrite sum_block. apply sum_ext. intros k Hk.
  rewrite (sum_single N off); [|exact Ho|].
  - rewrite Nat.add_comm, Nat.mod_add, (Nat.mod_small off N Ho), Nat.eqb_refl by lia.
    rewrite Nat.div_add by lia. rewrite (Nat.div_small off N Ho). reflexivity.
  - intros j Hj Hne. rewrite Nat.add_comm, Nat.mod_add, (Nat.mod_small j N Hj) by lia.
    destruct (Nat.eqb_spec j off); [contradiction|]. ring.
Qed.

Section Adjoint.
Variables (nw : nat) (J Jq Jw : matr K) (R : vect K) (Pp Pw : matr K) (fu lam e : vect K).
Hypothesis Hoff : vp_off p < vp_N p.
Hypothesis Hl0 : forall d, In d dofs -> lam d = 0.
Hypothesis He : forall a, a < m -> R a * e a = mv n (tr Jq) lam a.
Hypothesis Hadj : forall i, i < n -> ~ In i dofs ->
  mv n (tr J) lam i - (if Nat.eqb (i mod vp_N p) (vp_off p) then mv m (tr Pp) e (i / vp_N p)%nat else 0) = - fu i.

Lemma adjoint_vms du dq dw : vms_tangent p nw J Jq Jw R Pp Pw du dq dw ->
  dot n fu du = dot nw (fun w => mv n (tr Jw) lam w - mv m (tr Pw) e w) dw.
Proof.
  intros (H0 & H1 & H2). change (vp_nodes p * vp_N p)%nat with n in H1. change (vp_nodes p * vp_dim p)%nat with m in H1, H2.
  (* lam . (J du + Jq dq + Jw dw) = 0 *)
  assert (E1 : dot n lam (mv n J du) + dot n lam (mv m Jq dq) + dot n lam (mv nw Jw dw) = 0).
  { rewrite <- !dot_add_r. apply sum_0. intros i Hi. destruct (in_dec Nat.eq_dec i dofs) as [Hin|Hni].
    - rewrite Hl0 by exact Hin. ring.
    - rewrite (H1 i Hi Hni). ring. }
  (* e . (R dq + Pp E du + Pw dw) = 0 *)
  assert (E2 : dot m e (fun a => R a * dq a) + dot m e (mv (vp_nodes p) Pp (fun node => du (node * vp_N p + vp_off p)%nat)) + dot m e (mv nw Pw dw) = 0).
  { rewrite <- !dot_add_r. apply sum_0. intros a Ha. rewrite (H2 a Ha). ring. }
  (* fu . du *)
  assert (E3 : dot n fu du = dot m e (mv (vp_nodes p) Pp (fun node => du (node * vp_N p + vp_off p)%nat)) - dot n lam (mv n J du)).
  { rewrite !dot_mv_tr. rewrite <- (dot_extract (vp_N p) (vp_nodes p) (vp_off p) _ du Hoff).
    change (vp_nodes p * vp_N p)%nat with n. rewrite <- dot_sub_l. apply sum_ext. intros i Hi.
    destruct (in_dec Nat.eq_dec i dofs) as [Hin|Hni]; [rewrite (H0 i Hin); ring|].
    f_equal. pose proof (Hadj i Hi Hni) as E.
    set (x := if Nat.eqb (i mod vp_N p) (vp_off p) then mv m (tr Pp) e (i / vp_N p)%nat else 0) in *.
    set (y := mv n (tr J) lam i) in *. transitivity (- - fu i); [ring|]. rewrite <- E. ring. }
  assert (E4 : dot m e (fun a => R a * dq a) = dot n lam (mv m Jq dq)).
  { rewrite dot_mv_tr. apply sum_ext. intros a Ha. rewrite <- (He a Ha). ring. }
  rewrite dot_sub_l, <- !dot_mv_tr. rewrite E3, <- E4 in *.
  set (x1 := dot m e (fun a => R a * dq a)) in *. set (x2 := dot n lam (mv n J du)) in *.
  set (x3 := dot m e (mv (vp_nodes p) Pp _)) in *. set (x4 := dot n lam (mv nw Jw dw)) in *. set (x5 := dot m e (mv nw Pw dw)) in *.
  transitivity (x4 - x5 + (x1 + x3 + x5) - (x2 + x1 + x4)); [ring|]. rewrite E1, E2. ring.
Qed.
End Adjoint.

(** ** The gradient *)
Section Gradient.
Variables (c : vcriterion K Z) (h : nat -> vect K) (nw : nat) (gw Pw : vect K -> vect K -> matr K).
Hypothesis Hlen : List.length vals = List.length dofs.
Hypothesis Hd : forall d, In d dofs -> d < n.
Hypothesis Hne : vp_vals p <> [].
Hypothesis Hs : solver_ok n (vp_solve p).
Hypothesis Hoff : vp_off p < vp_N p.
Hypothesis HT : forall u q i j, i < n -> j < n -> g_gradient_u_T (vp_mech p) u q z i j = g_gradient_u (vp_mech p) u q z j i.

Let pr k := extract_dof (vp_N p) (vp_off p) (h k).
Let q k := project p z (fun _ => 0) (pr k).
Let sd := data_of p z c h q gw Pw.

Lemma q_projected k : (forall a, a < m -> sd_R (sd k) a <> 0) -> projected_at p z h q k.
Proof. intros HR a Ha. apply project_spec; [exact Ha|]. apply HR. exact Ha. Qed.

Lemma condensed_reduced k i j : i < n -> j < n ->
  condensed m (vp_N p) (vp_off p) (g_gradient_u_T (vp_mech p) (h k) (q k) z) (P_gradient_n_T (vp_proj p) (q k) (pr k) z)
    (P_gradient_u (vp_proj p) (fun _ => 0) (pr k) z) (g_gradient_n_T (vp_mech p) (h k) (q k) z) i j = reduced_T p (sd k) i j.
Proof.
  intros Hi Hj. unfold condensed, reduced_T. rewrite HT by assumption.
  destruct (Nat.eqb (i mod vp_N p) (vp_off p)); [reflexivity|]. change (sd_J (sd k) j i) with (g_gradient_u (vp_mech p) (h k) (q k) z j i). ring.
Qed.

Section Step.
Variable k : nat.
Hypothesis HR : forall a, a < m -> sd_R (sd k) a <> 0.
Hypothesis Hns : nonsingular n (bc_matrix dofs (reduced_T p (sd k))).

Lemma adjoint_step : exists lam eta, v_adjoint p z c h k = Ok (lam, eta, q k) /\ adjoint_of p (sd k) lam /\
  (forall a, a < m -> eta a = fdiv (projection_adjoint p (sd k) lam a) (sd_R (sd k) a)).
Proof.
  unfold v_adjoint, v_adjoint_values. rewrite (bc_present Hlen Hne). cbn [rbind].
  fold m n dofs. fold (pr k). fold (q k).
  set (C := condensed m _ _ _ _ _ _). set (lam := vp_solve p _ _).
  eexists lam, _. split; [reflexivity|].
  assert (HC : forall i j, i < n -> j < n -> C i j = reduced_T p (sd k) i j) by (intros; apply condensed_reduced; assumption).
  assert (Hns' : nonsingular n (bc_matrix dofs C)).
  { apply (nonsingular_ext n (bc_matrix dofs (reduced_T p (sd k)))); [|exact Hns]. intros i j Hi Hj. symmetry. apply (bc_matrix_ext n dofs); assumption. }
  split.
  - pose proof (Hs _ (bc_rhs 1 dofs (map (fun _ => 0) (vp_vals p)) C (fun i => (- (1)) * vc_gradient_u c h z k i)) Hns') as H.
    apply (bc_zero n 1 dofs (map (fun _ => 0) (vp_vals p)) C) in H.
    + destruct H as [H1 H2]. split; [exact H1|]. intros i Hi Hni. change (vp_nodes p * vp_N p)%nat with n in *.
      transitivity (mv n C lam i); [apply mv_ext; [intros j Hj; symmetry; apply HC; assumption|reflexivity]|].
      unfold lam. rewrite (H2 i Hi Hni). apply neg1_mul.
    + rewrite map_length. exact Hlen.
    + exact Hd.
    + intros v Hv. apply in_map_iff in Hv as [x [<- _]]. ring.
  - intros a Ha. pose proof (HR a Ha) as Hr.
    unfold RowSummed, projection_adjoint. change (row_sum m _ a) with (sd_R (sd k) a).
    change (vp_nodes p * vp_N p)%nat with n.
    assert (X : mv n (scaled_D m (P_gradient_u (vp_proj p) (fun _ => 0) (pr k) z) (g_gradient_n_T (vp_mech p) (h k) (q k) z)) lam a
                = fdiv (sum n (fun i => sd_Jq (sd k) i a * lam i)) (sd_R (sd k) a)).
    { unfold mv, scaled_D. transitivity (sum n (fun i => sd_Jq (sd k) i a * lam i * finv (sd_R (sd k) a))).
      - apply sum_ext. intros j Hj. change (row_sum m _ a) with (sd_R (sd k) a). change (sd_Jq (sd k) j a) with (g_gradient_n_T (vp_mech p) (h k) (q k) z a j).
        field. exact Hr.
      - rewrite sum_scal_r. field. exact Hr. }
    rewrite X. field. exact Hr.
Qed.

Lemma adjoint_e lam : adjoint_of p (sd k) lam -> forall du dq dw,
  vms_tangent p nw (sd_J (sd k)) (sd_Jq (sd k)) (sd_Jw (sd k)) (sd_R (sd k)) (sd_Pp (sd k)) (sd_Pw (sd k)) du dq dw ->
  dot n (sd_fu (sd k)) du = dot nw (fun w => mv n (tr (sd_Jw (sd k))) lam w - mv m (tr (sd_Pw (sd k))) (projection_adjoint p (sd k) lam) w) dw.
Proof.
  intros [H1 H2] du dq dw Ht. eapply adjoint_vms; try exact Ht; try exact H1; try exact Hoff.
  - intros a Ha. unfold projection_adjoint. change (vp_nodes p * vp_N p)%nat with n. unfold mv, tr. field. apply HR. exact Ha.
  - intros i Hi Hni. rewrite <- (H2 i Hi Hni). unfold reduced_T. change (vp_nodes p * vp_N p)%nat with n. change (vp_nodes p * vp_dim p)%nat with m.
    unfold mv, tr. destruct (Nat.eqb (i mod vp_N p) (vp_off p)).
    + transitivity (sum n (fun j => sd_J (sd k) j i * lam j) - sum n (fun j => sum m (fun a => sd_Pp (sd k) a (i / vp_N p)%nat * fdiv (sd_Jq (sd k) j a) (sd_R (sd k) a) * lam j))).
      * f_equal. rewrite sum_swap. apply sum_ext. intros a Ha. unfold projection_adjoint. change (vp_nodes p * vp_N p)%nat with n.
        transitivity (sum n (fun j => sd_Pp (sd k) a (i / vp_N p)%nat * finv (sd_R (sd k) a) * (sd_Jq (sd k) j a * lam j))).
        -- rewrite sum_scal_l. field. apply HR. exact Ha.
        -- apply sum_ext. intros j Hj. field. apply HR. exact Ha.
      * rewrite <- sum_sub. apply sum_ext. intros j Hj. rewrite sum_scal_r. ring.
    + transitivity (sum n (fun j => sd_J (sd k) j i * lam j)); [ring|]. apply sum_ext. intros j Hj. ring.
Qed.
End Step.

(** What the code adds to the total derivative at one step. *)
Definition surplus (lam : vect K) (k w : nat) : K :=
  sum m (fun a => Pw (q k) (h k) w a * fdiv (projection_adjoint p (sd k) lam a) (sd_R (sd k) a)
                + sd_Pw (sd k) a w * projection_adjoint p (sd k) lam a).

Lemma backward_spec last :
  (forall k a, 1 <= k <= last -> a < m -> sd_R (sd k) a <> 0) ->
  (forall k, 1 <= k <= last -> nonsingular n (bc_matrix dofs (reduced_T p (sd k)))) ->
  forall acc, exists g lam gt, v_backward p z c h gw Pw last acc = Ok g /\
    (forall k, 1 <= k <= last -> adjoint_of p (sd k) (lam k)) /\
    vms_total p nw last sd acc gt /\
    (forall w, w < nw -> g w = gt w + sum last (fun j => surplus (lam (S j)) (S j) w)).
Proof.
  induction last as [|last IH]; intros HR Hns acc; cbn [v_backward].
  - exists acc, (fun _ _ => 0), acc. split; [reflexivity|]. split; [intros; lia|]. split.
    + intros dw du dq _. cbn. ring.
    + intros w Hw. cbn. ring.
  - destruct (adjoint_step (S last)) as (lam & eta & E & Hlam & Heta); [intros; apply HR; [lia|assumption]|apply Hns; lia|].
    rewrite E. cbn [rbind].
    set (acc2 := fun i => acc i + mv (v_ndofs p) (gw (h (S last)) (q (S last))) lam i + mv (v_nproj p) (Pw (q (S last)) (h (S last))) eta i).
    destruct (IH ltac:(intros; apply HR; [lia|assumption]) ltac:(intros; apply Hns; lia) acc2) as (g & L & gt & Eg & HL & Ht & Hg).
    set (e := projection_adjoint p (sd (S last)) lam).
    exists g, (fun k => if Nat.eqb k (S last) then lam else L k),
      (fun w => gt w - surplus lam (S last) w).
    split; [exact Eg|]. split.
    { intros k Hk. destruct (Nat.eqb_spec k (S last)) as [->|Hn]; [exact Hlam|apply HL; lia]. }
    assert (Hacc : forall w, w < nw -> acc2 w = acc w + (mv n (tr (sd_Jw (sd (S last)))) lam w - mv m (tr (sd_Pw (sd (S last)))) e w) + surplus lam (S last) w).
    { intros w Hw. unfold acc2. fold m n. unfold surplus.
      replace (mv n (tr (sd_Jw (sd (S last)))) lam w) with (mv n (gw (h (S last)) (q (S last))) lam w) by reflexivity.
      rewrite sum_add. fold e.
      replace (sum m (fun a => sd_Pw (sd (S last)) a w * e a)) with (mv m (tr (sd_Pw (sd (S last)))) e w) by reflexivity.
      replace (sum m (fun a => Pw (q (S last)) (h (S last)) w a * fdiv (e a) (sd_R (sd (S last)) a))) with (mv m (Pw (q (S last)) (h (S last))) eta w).
      2: { unfold mv. apply sum_ext. intros a Ha. rewrite (Heta a Ha). reflexivity. }
      ring. }
    split.
    + intros dw du dq Htan. rewrite dot_sub_l. rewrite (Ht dw du dq) by (intros; apply Htan; lia).
      cbn [sum].
      rewrite (dot_ext nw acc2 (fun w => (acc w + (mv n (tr (sd_Jw (sd (S last)))) lam w - mv m (tr (sd_Pw (sd (S last)))) e w)) + surplus lam (S last) w) dw dw Hacc ltac:(reflexivity)).
      rewrite !dot_add_l.
      change (vp_nodes p * vp_N p)%nat with n.
      rewrite (adjoint_e (S last) ltac:(intros; apply HR; [lia|assumption]) lam Hlam (du (S last)) (dq (S last)) dw); [|apply Htan; lia].
      fold e. ring.
    + intros w Hw. rewrite (Hg w Hw). cbn [sum]. rewrite Nat.eqb_refl.
      rewrite (sum_ext last (fun j => surplus (if Nat.eqb (S j) (S last) then lam else L (S j)) (S j) w) (fun j => surplus (L (S j)) (S j) w)).
      * ring.
      * intros j Hj. destruct (Nat.eqb_spec (S j) (S last)); [lia|reflexivity].
Qed.
End Gradient.
End K.
