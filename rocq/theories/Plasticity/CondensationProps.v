(** Properties of static condensation (C41) and of the path-dependent adjoint (C45). *)
From Coq Require Import ZArith QArith Qcanon Arith Lia List Bool Ring Field.
From Verif Require Import Base.Field Base.Sums Base.Res BC.ConstraintsSpec BC.ConstraintsMain Problem.DenseBC Problem.SmallSolver
  Problem.EllipticProof Plasticity.CondensationModel Plasticity.CondensationSpec Plasticity.CondensationProof.
Import ListNotations.
Local Open Scope nat_scope.

(** ** C41: the condensed increment, with the local increment it implies, is the solution of the coupled
    system; and every solution of the coupled system is that one. *)
Theorem C41_condensation :
  forall (K : CRing) (s : sizes) (slv : solver (K := K)) (iter : nat) (dofs : list nat) (incr : list K)
         (res : vect K) (h : wvec K) (ru rc hu hc hcinv : wmat K),
    let vals := if Nat.eqb iter 0 then incr else map (fun _ => r0) incr in
    let A := tangent_matrix s ru rc hcinv hu in
    (forall e a, e < sz_ne s -> a < sz_ng s -> sz_map s e a < sz_n s) ->
    (forall d, In d dofs -> d < sz_n s) -> NoDup dofs -> length incr = length dofs ->
    (** the local inverses are inverses *)
    (forall e i j, e < sz_ne s -> i < sz_nl s -> j < sz_nl s ->
       mm (sz_nl s) (hcinv e) (hc e) i j = (if Nat.eqb i j then r1 else r0) /\
       mm (sz_nl s) (hc e) (hcinv e) i j = (if Nat.eqb i j then r1 else r0)) ->
    (** in the first iteration the columns of the dofs with a non-zero increment are symmetric (see C03) *)
    symmetric_where_needed (sz_n s) A r1 dofs vals ->
    solver_ok (sz_n s) slv -> nonsingular (sz_n s) (bc_matrix dofs A) ->
    let du := newton_increment s slv iter dofs incr res ru rc hu hcinv h in
    coupled_step s dofs vals res h ru rc hu hc du (local_increment s hu hcinv h du) /\
    ((forall x, (forall i, i < sz_n s -> mv (sz_n s) (bc_matrix dofs A) x i = r0) -> forall i, i < sz_n s -> x i = r0) ->
     forall du' dc', coupled_step s dofs vals res h ru rc hu hc du' dc' ->
       (forall i, i < sz_n s -> du' i = du i) /\
       (forall e j, e < sz_ne s -> j < sz_nl s -> dc' e j = local_increment s hu hcinv h du e j)).
Proof.
  intros K s slv iter dofs incr res h ru rc hu hc hcinv vals A Hm Hd Hnd Hl Hinv Hsym Hs Hns du.
  assert (Hlen : length vals = length dofs) by (unfold vals; destruct (Nat.eqb iter 0); [|rewrite map_length]; exact Hl).
  assert (Hc : compatible r1 dofs vals) by (apply NoDup_compatible; exact Hnd).
  assert (HL : forall e i j, e < sz_ne s -> i < sz_nl s -> j < sz_nl s ->
     sum (sz_nl s) (fun k => rmul (hcinv e i k) (hc e k j)) = if Nat.eqb i j then r1 else r0)
    by (intros e i j He Hi Hj; apply (Hinv e i j He Hi Hj)).
  assert (HR : forall e i j, e < sz_ne s -> i < sz_nl s -> j < sz_nl s ->
     sum (sz_nl s) (fun k => rmul (hc e i k) (hcinv e k j)) = if Nat.eqb i j then r1 else r0)
    by (intros e i j He Hi Hj; apply (Hinv e i j He Hi Hj)).
  assert (Hdu : solves (sz_n s) (bc_matrix dofs A)
     (bc_rhs r1 dofs vals A (fun i => rmul (ropp r1) (condensed_residual s res rc hcinv h i))) du)
    by (apply Hs; exact Hns).
  split.
  - apply solves_iff; try assumption.
  - intros Hinj du' dc' Hco.
    assert (Hdc : forall e j, e < sz_ne s -> j < sz_nl s -> dc' e j = local_increment s hu hcinv h du' e j)
      by (intros; eapply coupled_local; eassumption).
    assert (Hco' : solves (sz_n s) (bc_matrix dofs A)
       (bc_rhs r1 dofs vals A (fun i => rmul (ropp r1) (condensed_residual s res rc hcinv h i))) du').
    { apply (solves_iff s dofs vals res h ru rc hu hc hcinv); try assumption.
      destruct Hco as (H1 & H2 & H3). split; [exact H1|split].
      - intros i Hi Hni. etransitivity; [|exact (H2 i Hi Hni)]. f_equal. apply sum_ext. intros e He. apply sum_ext. intros a Ha.
        destruct (Nat.eqb (sz_map s e a) i); [|reflexivity]. f_equal. apply sum_ext. intros j Hj. rewrite Hdc by assumption. reflexivity.
      - intros e j He Hj. etransitivity; [|exact (H3 e j He Hj)]. f_equal. apply sum_ext. intros i Hi. rewrite Hdc by assumption. reflexivity. }
    assert (Hu : forall i, i < sz_n s -> du' i = du i).
    { intros i Hi. apply sub_move. apply (Hinj (fun i => rsub (du' i) (du i))); [|exact Hi].
      intros j Hj. rewrite mv_sub. rewrite (Hdu j Hj), (Hco' j Hj). apply sub_self. }
    split; [exact Hu|]. intros e j He Hj. rewrite Hdc by assumption. unfold local_increment. f_equal.
    apply mv_ext; [reflexivity|]. intros k Hk. f_equal. apply mv_ext; [reflexivity|].
    intros b Hb. unfold gather. apply Hu. apply Hm; assumption.
Qed.
Print Assumptions C41_condensation.

(** ** C45, proved when the control derivative of the pressure-gradient projection does not depend on the
    pressure at which it is evaluated (in particular when the projection is not penalised, the default). *)
Theorem C45_path_adjoint_partial :
  forall (K : CField) (q : path_problem K) (slv : solver (K := K)) (g : vect K),
    let s := pa_sz q in
    wf_path q ->
    solver_ok (sz_n s) slv ->
    (forall k, k < pa_steps q -> let J := pa_jac q k in
       (forall e i j, e < sz_ne s -> i < sz_nl s -> j < sz_nl s ->
          mm (sz_nl s) (j_hcinv J e) (j_hc J e) i j = if Nat.eqb i j then r1 else r0) /\
       nonsingular (sz_n s) (bc_matrix (pa_dofs q) (tangent_matrix_T s (j_ru J) (j_rc J) (j_hcinv J) (j_hu J)))) ->
    (** the projection's mass matrices are symmetric, with non-zero row sums *)
    (forall k, 0 < k -> k < pa_steps q ->
       symmetric (pa_np q) (j_mass (pa_jac q k)) /\
       forall i, i < pa_np q -> row_sum (pa_np q) (j_mass (pa_jac q k)) i <> r0) ->
    (forall k p p' e a i, pa_pz q k (pa_pi q k) p e a i = pa_pz q k (pa_pi q k) p' e a i) ->
    criterionGradient_path q slv finv = Ok g ->
    path_total_gradient q g.
Proof.
  intros K q slv g s Hwf Hs HJ HM Hpz Hg dz du dc dpi Ht.
  unfold criterionGradient_path in Hg. destruct (_ && _)%bool; [discriminate|]. inversion Hg; subst g. clear Hg.
  apply (path_gradient q slv finv) with (dpi := dpi); try assumption.
  - intros k e i j Hk He Hi Hj. apply (proj1 (HJ k Hk)); assumption.
  - intros k A b Hk ->. apply Hs. apply (proj2 (HJ k Hk)).
  - intros k i H0 Hk Hi. destruct (HM k H0 Hk) as [Hsy _]. apply sum_ext. intros j Hj. apply Hsy; assumption.
  - intros k i H0 Hk Hi. destruct (HM k H0 Hk) as [_ Hne]. rewrite (Rmul_comm (r_th K)). apply (Finv_l (f_th K)). apply Hne. exact Hi.
  - intros k e a i _ _ _ _. apply Hpz.
Qed.
Print Assumptions C45_path_adjoint_partial.

(** A history of two steps: one cell with two nodes (one dof per node, the pressure), the first node fixed, one
    local variable c, one projected gradient component.
      R_k = u_k + c_k + u_(k-1) - c_(k-1) + pi_k - 2 z,   H_k = 2 c_k - 2 u_k + c_(k-1),   pi_k = p_(k-1). *)
Definition q_ (x : Q) : Qc_field := Q2Qc x.
Definition at1 (x : Q) : nat -> Qc_field := fun a => if Nat.eqb a 1 then q_ x else q_ 0.
Definition exJ : step_jac Qc_field :=
  mkJac (K := Qc_field)
    (fun _ a b => if Nat.eqb a b then q_ 1 else q_ 0)            (* ru *)
    (fun _ a b => if Nat.eqb a 1 then at1 1 b else q_ 0)         (* rup *)
    (fun _ a _ => at1 1 a) (fun _ a _ => at1 (-1) a)             (* rc, rcp *)
    (fun _ a _ => at1 1 a)                                       (* rn *)
    (fun _ a b => if Nat.eqb a 1 then at1 (-2) b else q_ 0)      (* rz *)
    (fun _ _ b => at1 (-2) b) (fun _ _ _ => q_ 0)                (* hu, hup *)
    (fun _ _ _ => q_ 2) (fun _ _ _ => q_ 1) (fun _ _ _ => q_ 0)  (* hc, hcp, hz *)
    (fun _ _ _ => q_ (1#2))                                      (* hcinv *)
    (fun _ => at1 1) (fun _ => at1 2) (fun _ _ => q_ 3) (fun _ _ => q_ (-1)) (fun _ => at1 5)
    (fun _ _ => q_ 1) (fun _ _ b => at1 (-1) b).
Definition ex_sizes : sizes := mkSizes 1 2 1 2 (fun _ a => a).
Definition exQ (pz : nat -> vect Qc_field -> vect Qc_field -> wmat Qc_field) : path_problem Qc_field :=
  mkPath (K := Qc_field) ex_sizes 1 1 (fun _ a => a) 2 (fun _ a => a) 2 1 0 [0] 2 (fun _ => exJ)
    (fun k _ => if Nat.eqb k 1 then q_ 1 else q_ 0)
    (fun k => if Nat.eqb k 0 then at1 1 else at1 (3#4)) pz.
Definition ex_du (k : nat) : vect Qc_field := if Nat.eqb k 0 then at1 1 else at1 (3#4).
Definition ex_dc (k : nat) : wvec Qc_field := fun _ _ => if Nat.eqb k 0 then q_ 1 else q_ (1#4).
Definition ex_dpi (k : nat) : vect Qc_field := fun _ => if Nat.eqb k 0 then q_ 0 else q_ 1.

Ltac small_idx := repeat match goal with
  | H : (?i < 0)%nat |- _ => exfalso; lia
  | H : (?i < S _)%nat |- _ => is_var i; destruct i as [|i]; [clear H|apply Nat.succ_lt_mono in H]
  end.

Lemma exQ_wf pz : wf_path (exQ pz).
Proof. split; cbn; intros; lia. Qed.

Lemma exQ_hyps pz : let q := exQ pz in let s := pa_sz q in
  solver_ok (sz_n s) (solver2 (K := Qc_field)) /\
  (forall k, k < pa_steps q -> let J := pa_jac q k in
     (forall e i j, e < sz_ne s -> i < sz_nl s -> j < sz_nl s ->
        mm (sz_nl s) (j_hcinv J e) (j_hc J e) i j = if Nat.eqb i j then r1 else r0) /\
     nonsingular (sz_n s) (bc_matrix (pa_dofs q) (tangent_matrix_T s (j_ru J) (j_rc J) (j_hcinv J) (j_hu J)))) /\
  (forall k, 0 < k -> k < pa_steps q ->
     symmetric (pa_np q) (j_mass (pa_jac q k)) /\
     forall i, i < pa_np q -> row_sum (pa_np q) (j_mass (pa_jac q k)) i <> r0).
Proof.
  cbv zeta. split; [exact (solver2_ok (K := Qc_field))|]. split.
  - intros k Hk. split.
    + intros e i j He Hi Hj. cbn in He, Hi, Hj. small_idx. apply Qc_is_canon. vm_compute. reflexivity.
    + apply (nonsingular2 (K := Qc_field)). vm_compute. discriminate.
  - intros k H0 Hk. split; [intros i j _ _; reflexivity|]. intros i Hi. cbn in Hi. small_idx. vm_compute. discriminate.
Qed.

(** Not penalised: P does not depend on the control.  Penalised with weight w(z) = z: P = z pi - z p, so that
    its derivative with respect to the control is pi - p. *)
Definition pz_none : nat -> vect Qc_field -> vect Qc_field -> wmat Qc_field := fun _ _ _ _ _ _ => q_ 0.
Definition pz_penalised : nat -> vect Qc_field -> vect Qc_field -> wmat Qc_field :=
  fun _ pi p _ _ b => if Nat.eqb b 1 then rsub (pi 0) (p 1) else q_ 0.

(** The tangent of the computed states in the direction of the control of node 1 (the same in both cases, since
    pi = p_(k-1) for every weight). *)
Lemma exQ_tangent pz : pz = pz_none \/ pz = pz_penalised ->
  path_tangent (exQ pz) (at1 1) ex_du ex_dc ex_dpi.
Proof.
  intros Hpz. split; cbv zeta.
  - intros k d Hk Hd. cbn in Hk, Hd. destruct Hd as [<-|[]]. small_idx; reflexivity.
  - intros k i Hk Hi Hni. cbn in Hk, Hi. cbn in Hni. small_idx; try (exfalso; tauto); apply Qc_is_canon; vm_compute; reflexivity.
  - intros k e j Hk He Hj. cbn in Hk, He, Hj. small_idx; apply Qc_is_canon; vm_compute; reflexivity.
  - intros i Hi. reflexivity.
  - intros k i Hk Hi. cbn in Hk, Hi. apply Nat.succ_lt_mono in Hk. small_idx.
    destruct Hpz as [-> | ->]; apply Qc_is_canon; vm_compute; reflexivity.
Qed.

Definition at_nodes (r : Res.res (vect Qc_field)) : Res.res (list Q) := rbind r (fun g => Ok [this (g 0); this (g 1)]).

Example C45_instance : let q := exQ pz_none in
  wf_path q /\ path_tangent q (at1 1) ex_du ex_dc ex_dpi /\
  (forall k p p' e a i, pa_pz q k (pa_pi q k) p e a i = pa_pz q k (pa_pi q k) p' e a i) /\
  at_nodes (criterionGradient_path q (solver2 (K := Qc_field)) finv) = Ok [0; 33#2]%Q /\
  this (path_criterion_derivative q (at1 1) ex_du ex_dc) = (33#2)%Q.
Proof.
  cbv zeta. split; [apply exQ_wf|]. split; [apply exQ_tangent; left; reflexivity|].
  split; [reflexivity|]. split; vm_compute; reflexivity.
Qed.

(** With a penalised projection the gradient is wrong: the projection is differentiated at the pressure of the
    current step, although the step used the pressure of the step before. *)
Theorem C45_penalised_projection_refuted :
  exists (q : path_problem Qc_field) (slv : solver (K := Qc_field)) (g : vect Qc_field),
    let s := pa_sz q in
    wf_path q /\ solver_ok (sz_n s) slv /\
    (forall k, k < pa_steps q -> let J := pa_jac q k in
       (forall e i j, e < sz_ne s -> i < sz_nl s -> j < sz_nl s ->
          mm (sz_nl s) (j_hcinv J e) (j_hc J e) i j = if Nat.eqb i j then r1 else r0) /\
       nonsingular (sz_n s) (bc_matrix (pa_dofs q) (tangent_matrix_T s (j_ru J) (j_rc J) (j_hcinv J) (j_hu J)))) /\
    (forall k, 0 < k -> k < pa_steps q ->
       symmetric (pa_np q) (j_mass (pa_jac q k)) /\
       forall i, i < pa_np q -> row_sum (pa_np q) (j_mass (pa_jac q k)) i <> r0) /\
    criterionGradient_path q slv finv = Ok g /\
    ~ path_total_gradient q g.
Proof.
  exists (exQ pz_penalised), (solver2 (K := Qc_field)), (criterion_gradient_path (exQ pz_penalised) (solver2 (K := Qc_field)) finv).
  cbv zeta. split; [apply exQ_wf|]. pose proof (exQ_hyps pz_penalised) as (H1 & H2 & H3). cbv zeta in *.
  split; [exact H1|]. split; [exact H2|]. split; [exact H3|]. split; [reflexivity|].
  intros H. specialize (H (at1 1) ex_du ex_dc ex_dpi (exQ_tangent pz_penalised (or_intror eq_refl))).
  apply (f_equal (fun x : Qc_field => this x)) in H. vm_compute in H. discriminate H.
Qed.
Print Assumptions C45_penalised_projection_refuted.

(** Without essential boundary conditions the gradient cannot be computed at all. *)
Theorem C45_no_dirichlet_throws :
  forall (K : CRing) (q : path_problem K) slv inv, 0 < pa_steps q -> pa_dofs q = [] -> criterionGradient_path q slv inv = Throw.
Proof.
  intros K q slv inv Hs Hd. unfold criterionGradient_path. rewrite Hd. apply Nat.ltb_lt in Hs. rewrite Hs. reflexivity.
Qed.
Print Assumptions C45_no_dirichlet_throws.

(** C41 on one Newton step of this problem: residual (0, 3), local residual 1, first iteration, node 0 moved by 2. *)
Example C41_instance :
  let s := ex_sizes in let A := tangent_matrix s (j_ru exJ) (j_rc exJ) (j_hcinv exJ) (j_hu exJ) in
  let du := newton_increment s (solver2 (K := Qc_field)) 0 [0] [q_ 2] (at1 3) (j_ru exJ) (j_rc exJ) (j_hu exJ) (j_hcinv exJ) (fun _ _ => q_ 1) in
  symmetric_where_needed 2 A r1 [0] [q_ 2] /\ nonsingular 2 (bc_matrix [0] A) /\
  (forall e i j, e < 1 -> i < 1 -> j < 1 ->
       mm 1 (j_hcinv exJ e) (j_hc exJ e) i j = (if Nat.eqb i j then r1 else r0) /\
       mm 1 (j_hc exJ e) (j_hcinv exJ e) i j = (if Nat.eqb i j then r1 else r0)) /\
  map (fun i => this (du i)) [0; 1] = [2; -(5#4)]%Q /\
  this (local_increment s (j_hu exJ) (j_hcinv exJ) (fun _ _ => q_ 1) du 0 0) = (-(7#4))%Q.
Proof.
  cbv zeta. split.
  { intros d v i Hin Hi. cbn in Hin. destruct Hin as [E|[]]. inversion E; subst. small_idx; apply Qc_is_canon; vm_compute; reflexivity. }
  split; [apply (nonsingular2 (K := Qc_field)); vm_compute; discriminate|].
  split; [intros e i j He Hi Hj; small_idx; split; apply Qc_is_canon; vm_compute; reflexivity|].
  split; vm_compute; reflexivity.
Qed.
