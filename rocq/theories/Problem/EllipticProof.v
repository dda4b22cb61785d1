(** Proofs about the elliptic problem. *)
From Coq Require Import Arith Lia List Bool Ring.
From Verif Require Import Base.Field Base.Sums Base.Res BC.ConstraintsSpec BC.ConstraintsMain
  Problem.DenseBC Problem.EllipticModel Problem.EllipticSpec.
Import ListNotations.

Section K.
Context {K : CRing}.
Add Ring KringEll : (r_th K).
Local Open Scope K_scope.

Lemma nonsingular_ext n (A B : matr K) : (forall i j, i < n -> j < n -> A i j = B i j) -> nonsingular n A -> nonsingular n B.
Proof.
  intros H [C HC]. exists C. intros i j Hi Hj. rewrite <- HC by assumption. apply sum_ext. intros k Hk. rewrite H by assumption. reflexivity.
Qed.
Lemma bc_matrix_ext n dofs (A B : matr K) : (forall i j, i < n -> j < n -> A i j = B i j) ->
  forall i j, i < n -> j < n -> bc_matrix dofs A i j = bc_matrix dofs B i j.
Proof. intros H i j Hi Hj. unfold bc_matrix, constrained_matrix. rewrite H by assumption. reflexivity. Qed.

Section Newton.
Context {Z : Type}.
Variables (p : problem K Z) (z : Z).
Let n := n_dofs p.
Let dofs := bc_dofs p.
Let vals := bc_vals p.
Hypothesis Hlen : List.length vals = List.length dofs.
Hypothesis Hc : compatible 1 dofs vals.
Hypothesis Hd : forall d, In d dofs -> d < n.
Hypothesis Hs : solver_ok n (lin_solve p).
Hypothesis Hns : forall u, nonsingular n (bc_matrix dofs (p_gradient_u (the_pde p) u z)).

Definition takes_values (u : vect K) : Prop := forall d v, In (d, v) (combine dofs vals) -> u d = v.
Definition res (u : vect K) : vect K := fun i => - (1) * p_value (the_pde p) u z i.
Definition incr scale u : vect K :=
  lin_solve p (bc_matrix dofs (p_gradient_u (the_pde p) u z)) (bc_rhs scale dofs vals (p_gradient_u (the_pde p) u z) (res u)).

Lemma incr_solves scale u : solves n (bc_matrix dofs (p_gradient_u (the_pde p) u z)) (bc_rhs scale dofs vals (p_gradient_u (the_pde p) u z) (res u)) (incr scale u).
Proof. apply Hs, Hns. Qed.

Lemma incr_first u d v : In (d, v) (combine dofs vals) -> incr 1 u d = v.
Proof.
  intros Hin. pose proof (incr_solves 1 u) as H.
  assert (Hdn : In d dofs) by (eapply in_combine_l; eauto).
  assert (Hcd : constrained dofs d = true) by (apply constrained_in; exact Hdn).
  rewrite <- (bc_row_fixed n dofs (p_gradient_u (the_pde p) u z) (incr 1 u) d (Hd d Hdn) Hcd).
  rewrite H by (apply Hd, Hdn). unfold bc_rhs.
  rewrite (prescribed_all 1 dofs vals Hc d (1 * v)); [ring|]. unfold bcs_of. apply in_map_iff. exists (d, v). auto.
Qed.

Lemma incr_later u d : In d dofs -> incr 0 u d = 0.
Proof.
  intros Hdn. apply (bc_zero n 0 dofs vals (p_gradient_u (the_pde p) u z) (res u) (incr 0 u) Hlen Hd).
  - intros v _. ring.
  - apply incr_solves.
  - exact Hdn.
Qed.

Lemma newton_later_values todo : forall idx u, takes_values u -> takes_values (newton p z todo (S idx) u).
Proof.
  induction todo as [|todo IH]; intros idx u Hu; simpl; [exact Hu|].
  destruct (Nat.ltb 1 (newton_steps p) && res_small p _); [exact Hu|].
  assert (Hu' : takes_values (fun i => u i + 1 * incr 0 u i)).
  { intros d v Hin. rewrite (Hu d v Hin), incr_later by (eapply in_combine_l; eauto). ring. }
  destruct (Nat.ltb 1 (newton_steps p) && inc_small p _); [exact Hu'|]. apply IH. exact Hu'.
Qed.

Lemma newton_values :
  0 < newton_steps p ->
  newton_steps p = 1%nat \/ res_small p (res (fun _ => 0)) = false ->
  takes_values (solution p z).
Proof.
  intros Hn Hno. unfold solution. destruct (newton_steps p) as [|todo] eqn:E; [lia|]. simpl.
  rewrite E. change (fun i => - (1) * p_value (the_pde p) (fun _ => 0) z i) with (res (fun _ => 0)).
  assert (Hex : Nat.ltb 1 (S todo) && res_small p (res (fun _ => 0)) = false).
  { destruct Hno as [H| ->]; [injection H as ->; reflexivity|apply andb_false_r]. }
  rewrite Hex. clear Hex.
  assert (Hu' : takes_values (fun i => 0 + 1 * incr 1 (fun _ => 0) i)).
  { intros d v Hin. rewrite (incr_first _ d v Hin). ring. }
  destruct (Nat.ltb 1 (S todo) && inc_small p _); [exact Hu'|]. apply newton_later_values. exact Hu'.
Qed.

(** Linear problems *)
Section Linear.
Variables (A : matr K) (F : vect K).
Hypothesis Hlin : linear_pde n (the_pde p) z A F.
Hypothesis Hsym : symmetric n A.

Definition at_free (u : vect K) : Prop := forall i, i < n -> ~ In i dofs -> mv n A u i = F i.

Lemma grad_A u x i : i < n -> mv n (p_gradient_u (the_pde p) u z) x i = mv n A x i.
Proof. intros Hi. apply mv_ext; [|reflexivity]. intros j Hj. apply (Hlin u); assumption. Qed.

Lemma incr_first_free : at_free (fun i => 0 + 1 * incr 1 (fun _ => 0) i).
Proof.
  intros i Hi Hni. set (u0 := fun _ : nat => (0 : K)).
  pose proof (incr_solves 1 u0) as H.
  apply (bc_system n 1 dofs vals Hlen Hc Hd) in H.
  - destruct H as [_ H]. specialize (H i Hi).
    rewrite grad_A in H by exact Hi. rewrite (mv_ext n A A _ (incr 1 u0)); [|reflexivity|intros; ring].
    rewrite H.
    + unfold res. rewrite (proj1 (Hlin u0) i Hi). unfold u0. rewrite mv_0. ring.
    + destruct (constrained dofs i) eqn:E; [|reflexivity]. apply constrained_in in E. contradiction.
  - intros d v k Hin Hk. assert (Hdn : d < n) by (apply Hd; eapply in_combine_l; eauto).
    rewrite (proj2 (Hlin u0) d k), (proj2 (Hlin u0) k d), (Hsym d k) by assumption. reflexivity.
Qed.

Lemma incr_later_free u : at_free u -> at_free (fun i => u i + 1 * incr 0 u i).
Proof.
  intros Hu i Hi Hni.
  pose proof (incr_solves 0 u) as H. apply (bc_zero n 0 dofs vals _ _ _ Hlen Hd) in H; [|intros; ring].
  destruct H as [_ H]. specialize (H i Hi Hni). rewrite grad_A in H by exact Hi. unfold res in H.
  rewrite (proj1 (Hlin u) i Hi), (Hu i Hi Hni) in H.
  rewrite (mv_ext n A A _ (fun j => u j + incr 0 u j)); [|reflexivity|intros; ring].
  rewrite mv_add, H, (Hu i Hi Hni). ring.
Qed.

Lemma newton_later_free todo : forall idx u, at_free u -> at_free (newton p z todo (S idx) u).
Proof.
  induction todo as [|todo IH]; intros idx u Hu; simpl; [exact Hu|].
  destruct (Nat.ltb 1 (newton_steps p) && res_small p _); [exact Hu|].
  pose proof (incr_later_free u Hu) as Hu'.
  destruct (Nat.ltb 1 (newton_steps p) && inc_small p _); [exact Hu'|]. apply IH. exact Hu'.
Qed.

Lemma newton_free :
  0 < newton_steps p ->
  newton_steps p = 1%nat \/ res_small p (res (fun _ => 0)) = false ->
  at_free (solution p z).
Proof.
  intros Hn Hno. unfold solution. destruct (newton_steps p) as [|todo] eqn:E; [lia|]. simpl.
  rewrite E. change (fun i => - (1) * p_value (the_pde p) (fun _ => 0) z i) with (res (fun _ => 0)).
  assert (Hex : Nat.ltb 1 (S todo) && res_small p (res (fun _ => 0)) = false).
  { destruct Hno as [H| ->]; [injection H as ->; reflexivity|apply andb_false_r]. }
  rewrite Hex. clear Hex. pose proof incr_first_free as Hu'.
  destruct (Nat.ltb 1 (S todo) && inc_small p _); [exact Hu'|]. apply newton_later_free. exact Hu'.
Qed.
End Linear.
End Newton.

Lemma neg1_mul (x : K) : (- (1)) * x = - x.
Proof. ring. Qed.
Lemma mul0_r (x : K) : x * 0 = 0.
Proof. ring. Qed.

(** The adjoint identity. *)
Lemma adjoint_identity (n np : nat) dofs (J Rp : matr K) (fu fp lam : vect K) :
  (forall d, In d dofs -> d < n) ->
  (forall d, In d dofs -> lam d = 0) ->
  (forall i, i < n -> ~ In i dofs -> mv n (tr J) lam i = - fu i) ->
  total_gradient n np dofs J Rp fu fp (fun k => fp k + mv n (tr Rp) lam k).
Proof.
  intros Hd Hl Ha du dp [H0 Hr]. rewrite dot_add_l. f_equal.
  change (fun k => mv n (tr Rp) lam k) with (mv n (tr Rp) lam). rewrite <- dot_mv_tr.
  transitivity (- dot n lam (mv n J du)).
  - rewrite <- dot_opp_r. apply sum_ext. intros i Hi. destruct (in_dec Nat.eq_dec i dofs) as [Hin|Hni].
    + rewrite Hl by exact Hin. ring.
    + pose proof (Hr i Hi Hni) as E. assert (E' : mv np Rp dp i = - mv n J du i) by (transitivity (mv n J du i + mv np Rp dp i - mv n J du i); [ring|rewrite E; ring]).
      rewrite E'. reflexivity.
  - rewrite dot_mv_tr. rewrite <- dot_opp_l. apply sum_ext. intros i Hi. destruct (in_dec Nat.eq_dec i dofs) as [Hin|Hni].
    + rewrite H0 by exact Hin. ring.
    + rewrite Ha by assumption. ring.
Qed.

(** The energy identity behind the self-adjoint shortcut. *)
Lemma energy_identity (n np : nat) dofs (A : matr K) (dK : nat -> matr K) (u fu fp : vect K) :
  (forall i j, i < n -> j < n -> A i j = A j i) ->
  (forall i, i < n -> fu i = mv n A u i) ->
  (forall k, k < np -> fp k + fp k = dot n u (mv n (dK k) u)) ->
  (forall d, In d dofs -> u d = 0) ->
  total_gradient n np dofs A (fun i k => mv n (dK k) u i) fu fp (fun k => (- (1)) * fp k).
Proof.
  intros Hsym Hfu Hfp Hu du dp [H0 Hr].
  assert (E1 : dot n fu du = - dot np (fun k => fp k + fp k) dp).
  { transitivity (dot n u (mv n A du)).
    { rewrite dot_mv_tr. apply dot_ext; [|reflexivity]. intros i Hi. rewrite Hfu by exact Hi. apply mv_ext; [|reflexivity].
      intros j Hj. apply Hsym; assumption. }
    transitivity (- dot n u (mv np (fun i k => mv n (dK k) u i) dp)).
    { rewrite <- dot_opp_r. apply sum_ext. intros i Hi. destruct (in_dec Nat.eq_dec i dofs) as [Hin|Hni].
      - rewrite Hu by exact Hin. ring.
      - pose proof (Hr i Hi Hni) as E. f_equal.
        transitivity (mv n A du i + mv np (fun i k => mv n (dK k) u i) dp i - mv np (fun i k => mv n (dK k) u i) dp i); [ring|].
        rewrite E. ring. }
    f_equal. rewrite dot_mv_tr. apply dot_ext; [|reflexivity]. intros k Hk. rewrite Hfp by exact Hk.
    rewrite dot_comm. unfold dot, mv, tr. apply sum_ext. intros i Hi. reflexivity. }
  rewrite E1, dot_scal_l, dot_add_l. ring.
Qed.
End K.
