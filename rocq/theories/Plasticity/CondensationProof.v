(** Proofs about static condensation and the path-dependent adjoint. *)
From Coq Require Import Arith Lia List Bool Ring.
From Verif Require Import Base.Field Base.Sums BC.ConstraintsSpec BC.ConstraintsProof BC.ConstraintsMain Problem.DenseBC
  Plasticity.CondensationModel Plasticity.CondensationSpec.
Import ListNotations.

Section K.
Context {K : CRing}.
Add Ring KringCond : (r_th K).
Local Open Scope K_scope.

(** Inner product of worksets. *)
Definition wdot (ne na : nat) (x y : wvec K) : K := sum ne (fun e => dot na (x e) (y e)).

Lemma wdot_ext ne na x x' y y' :
  (forall e a, e < ne -> a < na -> x e a = x' e a) -> (forall e a, e < ne -> a < na -> y e a = y' e a) ->
  wdot ne na x y = wdot ne na x' y'.
Proof. intros H1 H2. apply sum_ext. intros e He. apply dot_ext; intros; auto. Qed.
Lemma wdot_add_l ne na x x' y : wdot ne na (fun e a => x e a + x' e a) y = wdot ne na x y + wdot ne na x' y.
Proof. unfold wdot. rewrite <- sum_add. apply sum_ext. intros. apply dot_add_l. Qed.
Lemma wdot_add_r ne na x y y' : wdot ne na x (fun e a => y e a + y' e a) = wdot ne na x y + wdot ne na x y'.
Proof. unfold wdot. rewrite <- sum_add. apply sum_ext. intros. apply dot_add_r. Qed.
Lemma wdot_scal_l ne na c x y : wdot ne na (fun e a => c * x e a) y = c * wdot ne na x y.
Proof. unfold wdot. rewrite <- sum_scal_l. apply sum_ext. intros. apply dot_scal_l. Qed.
Lemma wdot_0_r ne na x : wdot ne na x (fun _ _ => 0) = 0.
Proof. apply sum_0. intros. apply dot_0_r. Qed.
Lemma wdot_0_l ne na x : wdot ne na (fun _ _ => 0) x = 0.
Proof. apply sum_0. intros. apply dot_0_l. Qed.
Lemma wdot_tr ne m n (A : wmat K) x y :
  wdot ne m y (fun e => mv n (A e) (x e)) = wdot ne n (fun e => mv m (tr (A e)) (y e)) x.
Proof. apply sum_ext. intros e He. apply dot_mv_tr. Qed.

(** Assembly is the adjoint of gathering. *)
Lemma scatter_dot ne na n map (w : wvec K) v :
  (forall e a, e < ne -> a < na -> map e a < n) ->
  dot n (scatter ne na map w) v = wdot ne na w (gather map v).
Proof.
  intros Hm. unfold dot, scatter, wdot, gather.
  rewrite (sum_ext n _ (fun i => sum ne (fun e => sum na (fun a => (if Nat.eqb (map e a) i then w e a else 0) * v i)))).
  2: { intros i Hi. rewrite <- sum_scal_r. apply sum_ext. intros e He. rewrite <- sum_scal_r. reflexivity. }
  rewrite sum_swap. apply sum_ext. intros e He. rewrite sum_swap. apply sum_ext. intros a Ha.
  rewrite (sum_single n (map e a)); [|auto|].
  - rewrite Nat.eqb_refl. reflexivity.
  - intros j Hj Hne. destruct (Nat.eqb_spec (map e a) j); [congruence|ring].
Qed.

Lemma scatter_ext ne na map w w' i :
  (forall e a, e < ne -> a < na -> w e a = w' e a) -> scatter ne na map w i = scatter (K := K) ne na map w' i.
Proof.
  intros H. apply sum_ext. intros e He. apply sum_ext. intros a Ha. rewrite H by assumption. reflexivity.
Qed.
Lemma scatter_lin ne na map c (w w' : wvec K) i :
  scatter ne na map (fun e a => w e a + c * w' e a) i = scatter ne na map w i + c * scatter ne na map w' i.
Proof.
  unfold scatter. rewrite <- sum_scal_l, <- sum_add. apply sum_ext. intros e He.
  rewrite <- sum_scal_l, <- sum_add. apply sum_ext. intros a Ha. destruct (Nat.eqb _ _); ring.
Qed.

Lemma mv_scatter_mat ne na n map (w : wmat K) x i :
  (forall e a, e < ne -> a < na -> map e a < n) ->
  mv n (scatter_mat ne na map w) x i = scatter ne na map (fun e => mv na (w e) (gather map x e)) i.
Proof.
  intros Hm. unfold mv, scatter_mat, scatter, gather.
  rewrite (sum_ext n _ (fun j => sum ne (fun e => sum na (fun a => sum na (fun b =>
     (if Nat.eqb (map e a) i then if Nat.eqb (map e b) j then w e a b else 0 else 0) * x j))))).
  2: { intros j Hj. rewrite <- sum_scal_r. apply sum_ext. intros e He. rewrite <- sum_scal_r. apply sum_ext. intros a Ha.
       rewrite <- sum_scal_r. reflexivity. }
  rewrite sum_swap. apply sum_ext. intros e He. rewrite sum_swap. apply sum_ext. intros a Ha. rewrite sum_swap.
  destruct (Nat.eqb (map e a) i).
  - apply sum_ext. intros b Hb. rewrite (sum_single n (map e b)).
    + rewrite Nat.eqb_refl. reflexivity.
    + auto.
    + intros j Hj Hne. destruct (Nat.eqb_spec (map e b) j); [congruence|ring].
  - apply sum_0. intros b Hb. apply sum_0. intros. ring.
Qed.

(** The tangent matrix acts cell by cell as DrDu - DrDc inv(DhDc) DhDu. *)
Lemma tangent_ws_mv (s : sizes) ru rc hcinv hu e x a :
  mv (sz_ng s) (tangent_ws (K := K) s ru rc hcinv hu e) x a =
  mv (sz_ng s) (ru e) x a - mv (sz_nl s) (rc e) (mv (sz_nl s) (hcinv e) (mv (sz_ng s) (hu e) x)) a.
Proof.
  transitivity (mv (sz_ng s) (ru e) x a - mv (sz_ng s) (schur s rc hcinv hu e) x a).
  - unfold mv, tangent_ws. rewrite <- sum_sub. apply sum_ext. intros. ring.
  - f_equal. unfold schur. rewrite mv_mm. apply mv_ext; [reflexivity|]. intros j Hj. apply mv_mm.
Qed.

(** A cell-wise inverse undone. *)
Lemma cell_inverse nl (A B : matr K) x i :
  i < nl -> (forall i j, i < nl -> j < nl -> sum nl (fun k => A i k * B k j) = if Nat.eqb i j then 1 else 0) ->
  mv nl A (mv nl B x) i = x i.
Proof.
  intros Hi H. rewrite <- mv_mm. unfold mv, mm. rewrite (sum_ext nl _ (fun j => (if Nat.eqb i j then 1 else 0) * x j)).
  - rewrite <- (sum_delta nl i x Hi). apply sum_ext. intros j Hj. destruct (Nat.eqb i j); ring.
  - intros j Hj. rewrite H by assumption. reflexivity.
Qed.

Lemma sub_move (x y : K) : x - y = 0 -> x = y.
Proof. intros H. transitivity ((x - y) + y); [ring|]. rewrite H. ring. Qed.

Lemma sub_self (x : K) : x - x = 0.
Proof. ring. Qed.

(** ---- C41 ---- *)
Section Condensed.
Variables (s : sizes) (dofs : list nat) (vals : list K) (res : vect K) (h : wvec K) (ru rc hu hc hcinv : wmat K).
Notation ne := (sz_ne s). Notation ng := (sz_ng s). Notation nl := (sz_nl s). Notation n := (sz_n s).
Notation map := (sz_map s).
Hypothesis Hmap : forall e a, e < ne -> a < ng -> map e a < n.
Hypothesis Hd : forall d, In d dofs -> d < n.
Hypothesis Hlen : List.length vals = List.length dofs.
Hypothesis Hcomp : compatible 1 dofs vals.
Notation A := (tangent_matrix s ru rc hcinv hu).
Notation b := (fun i => (- (1)) * condensed_residual s res rc hcinv h i).
Hypothesis Hsym : symmetric_where_needed n A 1 dofs vals.
Hypothesis Hl : forall e i j, e < ne -> i < nl -> j < nl -> sum nl (fun k => hcinv e i k * hc e k j) = if Nat.eqb i j then 1 else 0.
Hypothesis Hr : forall e i j, e < ne -> i < nl -> j < nl -> sum nl (fun k => hc e i k * hcinv e k j) = if Nat.eqb i j then 1 else 0.

Lemma free_row du dc i :
  (forall e j, e < ne -> j < nl -> dc e j = local_increment s hu hcinv h du e j) ->
  mv n A du i - b i =
  res i + scatter ne ng map (fun e a => mv ng (ru e) (gather map du e) a + mv nl (rc e) (dc e) a) i.
Proof.
  intros Hdc. unfold tangent_matrix. rewrite mv_scatter_mat by exact Hmap.
  unfold condensed_residual. cbv zeta.
  assert (E : scatter ne ng map (fun e a => mv ng (ru e) (gather map du e) a + mv nl (rc e) (dc e) a) i =
    scatter ne ng map (fun e => mv ng (tangent_ws s ru rc hcinv hu e) (gather map du e)) i +
    (- (1)) * scatter ne ng map (fun e => mv nl (rc e) (mv nl (hcinv e) (h e))) i).
  { rewrite <- scatter_lin. apply scatter_ext. intros e a He Ha. rewrite tangent_ws_mv.
    rewrite (mv_ext nl (rc e) (rc e) (dc e) (fun j => (- (1)) * (mv nl (hcinv e) (h e) j + mv nl (hcinv e) (mv ng (hu e) (gather map du e)) j)));
      [rewrite mv_scal, mv_add; ring|reflexivity|].
    intros j Hj. rewrite Hdc by assumption. unfold local_increment. rewrite mv_add. ring. }
  rewrite E. ring.
Qed.

Lemma coupled_local du dc : coupled_step s dofs vals res h ru rc hu hc du dc ->
  forall e j, e < ne -> j < nl -> dc e j = local_increment s hu hcinv h du e j.
Proof.
  intros (_ & _ & H3) e j He Hj. unfold local_increment.
  rewrite <- (cell_inverse nl (hcinv e) (hc e) (dc e) j Hj (fun i k Hi Hk => Hl e i k He Hi Hk)).
  rewrite <- mv_opp. apply mv_ext; [reflexivity|]. intros i Hi.
  apply sub_move. rewrite <- (H3 e i He Hi). unfold mv, gather. ring.
Qed.

Lemma solves_iff du :
  solves n (bc_matrix dofs A) (bc_rhs 1 dofs vals A b) du <->
  coupled_step s dofs vals res h ru rc hu hc du (local_increment s hu hcinv h du).
Proof.
  rewrite bc_system by assumption. unfold solves_constrained, coupled_step.
  assert (F : forall i, mv n A du i = b i <->
     res i + scatter ne ng map (fun e a => mv ng (ru e) (gather map du e) a + mv nl (rc e) (local_increment s hu hcinv h du e) a) i = 0).
  { intros i. rewrite <- (free_row du (local_increment s hu hcinv h du) i) by reflexivity. split; intros E.
    - rewrite E. ring.
    - apply sub_move. exact E. }
  split.
  - intros [H1 H2]. split; [|split].
    + intros d v Hin. transitivity (1 * v); [|ring]. apply H1. apply (prescribed_all 1 dofs vals Hcomp).
      unfold bcs_of. apply in_map_iff. exists (d, v). split; [reflexivity|exact Hin].
    + intros i Hi Hni. apply F. apply H2; [exact Hi|].
      destruct (constrained dofs i) eqn:E; [|reflexivity]. apply constrained_in in E. contradiction.
    + intros e j He Hj.
      change (h e j + mv ng (hu e) (gather map du e) j + mv nl (hc e) (local_increment s hu hcinv h du e) j = 0).
      rewrite (mv_ext nl (hc e) (hc e) _ (fun i => - mv nl (hcinv e) (fun j => h e j + mv ng (hu e) (gather map du e) j) i) j)
        by reflexivity.
      rewrite mv_opp, cell_inverse; [ring|exact Hj|intros; apply Hr; assumption].
  - intros (H1 & H2 & _). split.
    + intros d v Hp. apply prescribed_some in Hp; [|exact Hlen]. unfold bcs_of in Hp.
      apply in_map_iff in Hp as [[d' w] [E Hin]]. inversion E; subst. rewrite (H1 _ _ Hin). simpl. ring.
    + intros i Hi Hc'. apply F. apply H2; [exact Hi|]. intros Hin. apply constrained_in in Hin. congruence.
Qed.
End Condensed.

(** ---- C45 ---- *)
Section Path.
Variables (q : path_problem K) (slv : solver (K := K)) (inv : K -> K).
Notation s := (pa_sz q).
Notation ne := (sz_ne s). Notation ng := (sz_ng s). Notation nl := (sz_nl s). Notation n := (sz_n s).
Notation map := (sz_map s). Notation N := (pa_steps q).
Hypothesis Hwf : wf_path q.
Hypothesis Hinv : forall k e i j, k < N -> e < ne -> i < nl -> j < nl ->
  sum nl (fun l => j_hcinv (pa_jac q k) e i l * j_hc (pa_jac q k) e l j) = if Nat.eqb i j then 1 else 0.
Hypothesis Hslv : forall k A b, k < N -> A = tangent_matrix_T s (j_ru (pa_jac q k)) (j_rc (pa_jac q k)) (j_hcinv (pa_jac q k)) (j_hu (pa_jac q k)) ->
  solves n (bc_matrix (pa_dofs q) A) b (slv (bc_matrix (pa_dofs q) A) b).
Hypothesis Hmass : forall k i, 0 < k -> k < N -> i < pa_np q ->
  row_sum (pa_np q) (tr (j_mass (pa_jac q k))) i = row_sum (pa_np q) (j_mass (pa_jac q k)) i.
Hypothesis Hrow : forall k i, 0 < k -> k < N -> i < pa_np q ->
  row_sum (pa_np q) (j_mass (pa_jac q k)) i * inv (row_sum (pa_np q) (j_mass (pa_jac q k)) i) = 1.
Variables (dz : vect K) (du : nat -> vect K) (dc : nat -> wvec K) (dpi : nat -> vect K).
Hypothesis Ht : path_tangent q dz du dc dpi.
(** The projection's derivative with respect to the control is the one at the pressure of the step before. *)
Hypothesis Hpz : forall k e a i, S k < N -> e < ne -> a < pa_nw q -> i < pa_nn q ->
  pa_pz q (S k) (pa_pi q (S k)) (pressure q (pa_u q (S k))) e a i =
  pa_pz q (S k) (pa_pi q (S k)) (pressure q (pa_u q k)) e a i.

(** The adjoint of the global equations at a step: zero at the constrained dofs, the equation elsewhere. *)
Lemma lambda_eq k a' : k < N ->
  let J := pa_jac q k in let l := ad_l (update_adjoint q slv inv k a') in
  (forall d, In d (pa_dofs q) -> l d = 0) /\
  (forall i, i < n -> ~ In i (pa_dofs q) ->
     mv n (tangent_matrix_T s (j_ru J) (j_rc J) (j_hcinv J) (j_hu J)) l i = global_rhs q k J (pa_jac q (S k)) a' i).
Proof.
  intros Hk J l. apply (bc_zero n 1 (pa_dofs q) (List.map (fun _ => 0) (pa_dofs q))).
  - apply map_length.
  - apply (wp_dofs q Hwf).
  - intros v Hv. apply in_map_iff in Hv as [x [<- _]]. ring.
  - apply (Hslv k); [exact Hk|reflexivity].
Qed.

(** Zero times anything at the constrained dofs. *)
Lemma dot_free (x y y' : vect K) :
  (forall d, In d (pa_dofs q) -> x d = 0) ->
  (forall i, i < n -> ~ In i (pa_dofs q) -> y i = y' i) -> dot n y x = dot n y' x.
Proof.
  intros Hx Hy. apply sum_ext. intros i Hi. destruct (in_dec Nat.eq_dec i (pa_dofs q)) as [Hin|Hin].
  - rewrite Hx by exact Hin. ring.
  - rewrite Hy by assumption. reflexivity.
Qed.

(** The pressure entries of a workset. *)
Lemma wdot_pressure w v x :
  wdot ne ng (add_pressure q w v) (gather map x) = wdot ne ng v (gather map x) + wdot ne (pa_nn q) w (gather (pa_nmap q) (pressure q x)).
Proof.
  unfold wdot. rewrite <- sum_add. apply sum_ext. intros e He.
  pose proof (wp_off q Hwf) as Ho.
  transitivity (dot ng (v e) (gather map x e) + dot ng (fun a => if Nat.eqb (a mod pa_nd q) (pa_off q) then w e (a / pa_nd q)%nat else 0) (gather map x e)).
  - rewrite <- dot_add_l. apply dot_ext; [|reflexivity]. intros a Ha. unfold add_pressure. destruct (Nat.eqb _ _); ring.
  - f_equal. unfold dot. rewrite (wp_ng q Hwf). rewrite sum_block. apply sum_ext. intros v0 Hv.
    rewrite (sum_single (pa_nd q) (pa_off q)).
    + replace ((v0 * pa_nd q + pa_off q) mod pa_nd q)%nat with (pa_off q).
      * rewrite Nat.eqb_refl. replace ((v0 * pa_nd q + pa_off q) / pa_nd q)%nat with v0.
        -- unfold gather, pressure. rewrite (wp_node q Hwf) by assumption. reflexivity.
        -- rewrite Nat.div_add_l by lia. rewrite (Nat.div_small (pa_off q)) by exact Ho. lia.
      * rewrite Nat.add_comm, Nat.mod_add by lia. rewrite Nat.mod_small by exact Ho. reflexivity.
    + exact Ho.
    + intros d Hdl Hne. replace ((v0 * pa_nd q + d) mod pa_nd q)%nat with d.
      * destruct (Nat.eqb_spec d (pa_off q)); [contradiction|ring].
      * rewrite Nat.add_comm, Nat.mod_add by lia. rewrite Nat.mod_small by exact Hdl. reflexivity.
Qed.

(** The contribution of step k on the states of the step before. *)
Definition back_terms (k : nat) (a : adj K) : K :=
  let J := pa_jac q k in
  wdot ne ng (fun e => mv ng (tr (j_rup J e)) (gather map (ad_l a) e)) (gather map (before k du))
  + wdot ne ng (fun e => mv nl (tr (j_hup J e)) (ad_m a e)) (gather map (before k du))
  + wdot ne (pa_nn q) (proj_rhs q J a) (gather (pa_nmap q) (pressure q (before k du)))
  + wdot ne nl (fun e => mv nl (tr (j_hcp J e)) (ad_m a e)) (before_w k dc)
  + wdot ne nl (fun e => mv ng (tr (j_rcp J e)) (gather map (ad_l a) e)) (before_w k dc).

Lemma move_neg (a b c : K) : a + b + c = 0 -> b = - a - c.
Proof. intros H. transitivity ((a + b + c) - a - c); [ring|]. rewrite H. ring. Qed.

(** (inv A)^T then A^T. *)
Lemma cell_inverse_T k e x i : k < N -> e < ne -> i < nl ->
  mv nl (tr (j_hc (pa_jac q k) e)) (mv nl (tr (j_hcinv (pa_jac q k) e)) x) i = x i.
Proof.
  intros Hk He Hi. apply cell_inverse; [exact Hi|]. intros i0 j Hi0 Hj.
  rewrite (sum_ext nl _ (fun l => j_hcinv (pa_jac q k) e j l * j_hc (pa_jac q k) e l i0)) by (intros; unfold tr; ring).
  rewrite Hinv by assumption. rewrite Nat.eqb_sym. reflexivity.
Qed.

(** gamma_k . (derivative of the projection) = the part of lambda_k . R due to the projected gradient. *)
Lemma proj_part k a' : k < N ->
  let J := pa_jac q k in let a := update_adjoint q slv inv k a' in
  wdot ne ng (gather map (ad_l a)) (fun e => mv (pa_nw q) (j_rn J e) (gather (pa_pmap q) (dpi k) e)) =
  wdot ne (pa_nn q) (proj_rhs q J a) (gather (pa_nmap q) (pressure q (before k du)))
  + wdot ne (pa_nn q) (fun e => mv (pa_nw q) (tr (pa_pz q k (pa_pi q k) (pressure q (pa_u q k)) e)) (gather (pa_pmap q) (ad_g a) e))
         (gather (pa_nmap q) dz).
Proof.
  intros Hk J a. unfold proj_rhs. rewrite <- !wdot_tr. destruct k as [|k].
  - rewrite (wdot_ext ne ng _ (gather map (ad_l a)) _ (fun _ _ => 0)); [|reflexivity|].
    2: { intros e b He Hb. rewrite (mv_ext (pa_nw q) (j_rn J e) (j_rn J e) _ (fun _ => 0)); [apply mv_0|reflexivity|].
         intros j Hj. unfold gather. apply (pt_proj0 _ _ _ _ _ Ht). apply (wp_pmap q Hwf); assumption. }
    assert (G : forall e b, gather (pa_pmap q) (ad_g a) e b = 0) by (intros; reflexivity).
    rewrite wdot_0_r.
    rewrite (wdot_ext ne (pa_nw q) _ (fun _ _ => 0) _ (fun e => mv (pa_nn q) (j_pn J e) (gather (pa_nmap q) (pressure q (before 0 du)) e)))
      by (intros; [apply G|reflexivity] || reflexivity || apply G).
    rewrite wdot_0_l.
    rewrite (wdot_ext ne (pa_nw q) (gather (pa_pmap q) (ad_g a)) (fun _ _ => 0) _
       (fun e => mv (pa_nn q) (pa_pz q 0 (pa_pi q 0) (pressure q (pa_u q 0)) e) (gather (pa_nmap q) dz e)))
      by (intros; [apply G|reflexivity] || reflexivity || apply G).
    rewrite wdot_0_l. ring.
  - cbn [before].
    rewrite (wdot_tr ne ng (pa_nw q)).
    rewrite <- (scatter_dot ne (pa_nw q) (pa_np q) (pa_pmap q)) by apply (wp_pmap q Hwf).
    assert (Hg : forall i, i < pa_np q -> scatter ne (pa_nw q) (pa_pmap q) (fun e => mv ng (tr (j_rn J e)) (gather map (ad_l a) e)) i =
        - (row_sum (pa_np q) (j_mass J) i * ad_g a i)).
    { intros i Hi. cbn [ad_g a update_adjoint]. unfold update_proj. cbn [Nat.eqb].
      rewrite (Hmass (S k) i) by (assumption || lia). fold J.
      set (S0 := scatter _ _ _ _ i).
      transitivity ((row_sum (pa_np q) (j_mass J) i * inv (row_sum (pa_np q) (j_mass J) i)) * S0); [|ring].
      unfold J. rewrite (Hrow (S k) i) by (assumption || lia). ring. }
    rewrite (dot_ext (pa_np q) _ (fun i => - (row_sum (pa_np q) (j_mass J) i * ad_g a i)) (dpi (S k)) (dpi (S k))) by (auto).
    assert (Hp : forall i, i < pa_np q ->
       row_sum (pa_np q) (j_mass J) i * dpi (S k) i =
       - scatter ne (pa_nw q) (pa_pmap q) (fun e b => mv (pa_nn q) (j_pn J e) (gather (pa_nmap q) (pressure q (du k)) e) b
          + 1 * mv (pa_nn q) (pa_pz q (S k) (pa_pi q (S k)) (pressure q (pa_u q (S k))) e) (gather (pa_nmap q) dz e) b) i).
    { intros i Hi. pose proof (pt_proj _ _ _ _ _ Ht k i Hk Hi) as E. cbv zeta in E. fold J in E.
      apply sub_move. rewrite <- E. unfold row_sum.
      match goal with |- ?x * ?y - - ?u = _ => transitivity (x * y + u); [ring|] end. f_equal.
      apply sum_ext. intros e He. apply sum_ext. intros b Hb. destruct (Nat.eqb _ _); [|reflexivity].
      transitivity (mv (pa_nn q) (j_pn J e) (gather (pa_nmap q) (pressure q (du k)) e) b +
        mv (pa_nn q) (pa_pz q (S k) (pa_pi q (S k)) (pressure q (pa_u q (S k))) e) (gather (pa_nmap q) dz e) b); [ring|].
      f_equal. apply sum_ext. intros j Hj. unfold gather. f_equal. rewrite Hpz by assumption. reflexivity. }
    transitivity (- dot (pa_np q) (fun i => row_sum (pa_np q) (j_mass J) i * dpi (S k) i) (ad_g a)).
    { rewrite <- dot_opp_l. apply sum_ext. intros i Hi. ring. }
    rewrite (dot_ext (pa_np q) _ _ (ad_g a) (ad_g a) Hp) by reflexivity.
    rewrite dot_opp_l. rewrite (scatter_dot ne (pa_nw q) (pa_np q) (pa_pmap q)) by apply (wp_pmap q Hwf).
    rewrite wdot_add_l, wdot_scal_l.
    assert (C : forall x y : wvec K, wdot ne (pa_nw q) x y = wdot ne (pa_nw q) y x)
      by (intros; apply sum_ext; intros; apply dot_comm).
    match goal with |- - - (wdot _ _ ?x ?g + 1 * wdot _ _ ?y ?g) = _ => rewrite (C x g), (C y g) end.
    match goal with |- _ = ?u + ?v => change (- - (u + 1 * v) = u + v) end. ring.
Qed.

(** One step of the sweep. *)
Lemma step_identity k a' : k < N ->
  let J := pa_jac q k in let J' := pa_jac q (S k) in let a := update_adjoint q slv inv k a' in
  wdot ne (pa_nn q) (pde_z q k a) (gather (pa_nmap q) dz) + back_terms k a =
  wdot ne ng (carry_u q k J J' a') (gather map (du k)) + wdot ne nl (carry_c q k J J' a') (dc k).
Proof.
  intros Hk J J' a.
  set (lam := gather map (ad_l a)). set (mu := ad_m a).
  set (cu := carry_u q k J J' a'). set (cc := carry_c q k J J' a').
  set (U := gather map (du k)). set (Up := gather map (before k du)).
  set (dzw := gather (pa_nmap q) dz).
  destruct (lambda_eq k a' Hk) as [L0 L1]. fold J J' a in L0, L1.
  (* Hc^T mu = - cc - Rc^T lambda *)
  assert (M : forall e i, e < ne -> i < nl -> cc e i = - mv nl (tr (j_hc J e)) (mu e) i - mv ng (tr (j_rc J e)) (lam e) i).
  { intros e i He Hi. unfold mu. cbn [ad_m a update_adjoint]. unfold update_local.
    rewrite mv_scal. unfold J at 1. rewrite (cell_inverse_T k e) by assumption. fold J J'. fold cc.
    change (gather map (update_global q slv k J J' a') e) with (lam e). ring. }
  (* Hc^-T cc = - mu - Hc^-T Rc^T lambda *)
  assert (M2 : forall e i, e < ne -> i < nl ->
     mv nl (tr (j_hcinv J e)) (cc e) i = - mu e i - mv nl (tr (j_hcinv J e)) (mv ng (tr (j_rc J e)) (lam e)) i).
  { intros e i He Hi. unfold mu. cbn [ad_m a update_adjoint]. unfold update_local. rewrite mv_add. fold J J'. fold cc.
    change (gather map (update_global q slv k J J' a') e) with (lam e).
    change (mv nl (tr (j_hcinv J e)) (mv ng (tr (j_rc J e)) (lam e)) i) with (mv nl (tr (j_hcinv J e)) (fun j => mv ng (tr (j_rc J e)) (lam e) j) i).
    ring. }
  (* the global adjoint equation against du_k *)
  assert (G : wdot ne ng cu U = - wdot ne ng lam (fun e => mv ng (j_ru J e) (U e)) - wdot ne nl mu (fun e => mv ng (j_hu J e) (U e))).
  { assert (E : dot n (mv n (tangent_matrix_T s (j_ru J) (j_rc J) (j_hcinv J) (j_hu J)) (ad_l a)) (du k) =
                dot n (global_rhs q k J J' a') (du k)).
    { apply dot_free; [intros d Hd; apply (pt_bc _ _ _ _ _ Ht); assumption|exact L1]. }
    rewrite (dot_ext n _ (scatter ne ng map (fun e => mv ng (fun x y => tangent_ws s (j_ru J) (j_rc J) (j_hcinv J) (j_hu J) e y x) (lam e))) (du k) (du k)) in E;
      [|intros i Hi; apply (mv_scatter_mat ne ng n map); apply (wp_map q Hwf)|reflexivity].
    rewrite (scatter_dot ne ng n map) in E by apply (wp_map q Hwf). fold U in E.
    unfold global_rhs in E. rewrite dot_scal_l in E. rewrite (scatter_dot ne ng n map) in E by apply (wp_map q Hwf). fold U in E.
    rewrite wdot_add_l, wdot_scal_l in E. fold cu in E.
    change (fun e => mv ng (fun x y => tangent_ws s (j_ru J) (j_rc J) (j_hcinv J) (j_hu J) e y x) (lam e))
      with (fun e => mv ng (tr (tangent_ws s (j_ru J) (j_rc J) (j_hcinv J) (j_hu J) e)) (lam e)) in E.
    rewrite <- wdot_tr in E.
    rewrite (wdot_ext ne ng lam lam _ (fun e b => mv ng (j_ru J e) (U e) b + (- (1)) *
        mv nl (j_rc J e) (mv nl (j_hcinv J e) (mv ng (j_hu J e) (U e))) b)) in E;
      [|reflexivity|intros e b He Hb; rewrite tangent_ws_mv; ring].
    rewrite wdot_add_r in E.
    assert (E3 : wdot ne ng lam (fun e b => (- (1)) * mv nl (j_rc J e) (mv nl (j_hcinv J e) (mv ng (j_hu J e) (U e))) b) =
       - wdot ne nl (fun e => mv nl (tr (j_hcinv J e)) (mv ng (tr (j_rc J e)) (lam e))) (fun e => mv ng (j_hu J e) (U e))).
    { transitivity (- wdot ne ng lam (fun e => mv nl (j_rc J e) (mv nl (j_hcinv J e) (mv ng (j_hu J e) (U e))))).
      - unfold wdot. rewrite <- sum_opp. apply sum_ext. intros e He. rewrite dot_scal_r. ring.
      - f_equal. rewrite (wdot_tr ne ng nl (j_rc J)). rewrite (wdot_tr ne nl nl (j_hcinv J)). reflexivity. }
    rewrite E3 in E. clear E3.
    assert (E4 : wdot ne ng (local_rhs q k J J' a') U =
       - wdot ne nl mu (fun e => mv ng (j_hu J e) (U e)) -
       wdot ne nl (fun e => mv nl (tr (j_hcinv J e)) (mv ng (tr (j_rc J e)) (lam e))) (fun e => mv ng (j_hu J e) (U e))).
    { unfold local_rhs. fold cc. rewrite <- (wdot_tr ne nl ng (j_hu J)).
      rewrite (wdot_ext ne nl _ (fun e i => (- (1)) * mu e i + (- (1)) * mv nl (tr (j_hcinv J e)) (mv ng (tr (j_rc J e)) (lam e)) i)
        _ (fun e => mv ng (j_hu J e) (U e))); [|intros e i He Hi; rewrite M2 by assumption; ring|reflexivity].
      rewrite wdot_add_l, !wdot_scal_l. change (fun e => mv nl (tr (j_hcinv J e)) (mv ng (tr (j_rc J e)) (lam e))) with (fun e a0 => mv nl (tr (j_hcinv J e)) (mv ng (tr (j_rc J e)) (lam e)) a0). change (fun e a0 => mu e a0) with mu. ring. }
    rewrite E4 in E. clear E4.
    set (X := wdot ne nl (fun e => mv nl (tr (j_hcinv J e)) (mv ng (tr (j_rc J e)) (lam e))) (fun e => mv ng (j_hu J e) (U e))) in *.
    set (A1 := wdot ne ng lam (fun e => mv ng (j_ru J e) (U e))) in *.
    set (A2 := wdot ne nl mu (fun e => mv ng (j_hu J e) (U e))) in *.
    transitivity (- (A1 + - X) - (A2 + X)); [|ring]. rewrite E. ring. }
  (* the local part against dc_k *)
  assert (C : wdot ne nl cc (dc k) = - wdot ne nl mu (fun e => mv nl (j_hc J e) (dc k e)) - wdot ne ng lam (fun e => mv nl (j_rc J e) (dc k e))).
  { rewrite (wdot_ext ne nl cc (fun e i => (- (1)) * mv nl (tr (j_hc J e)) (mu e) i + (- (1)) * mv ng (tr (j_rc J e)) (lam e) i) (dc k) (dc k));
      [|intros e i He Hi; rewrite M by assumption; ring|reflexivity].
    rewrite wdot_add_l, !wdot_scal_l. rewrite <- !wdot_tr. ring. }
  (* the linearised local equations against mu *)
  assert (H : wdot ne nl mu (fun e => mv ng (j_hu J e) (U e)) + wdot ne nl mu (fun e => mv ng (j_hup J e) (Up e))
     + wdot ne nl mu (fun e => mv nl (j_hc J e) (dc k e)) + wdot ne nl mu (fun e => mv nl (j_hcp J e) (before_w k dc e))
     + wdot ne nl mu (fun e => mv (pa_nn q) (j_hz J e) (dzw e)) = 0).
  { rewrite <- !wdot_add_r. rewrite <- (wdot_0_r ne nl mu). apply wdot_ext; [reflexivity|].
    intros e j He Hj. apply (pt_local _ _ _ _ _ Ht k e j Hk He Hj). }
  (* the linearised global equations against lambda *)
  assert (R : wdot ne ng lam (fun e => mv ng (j_ru J e) (U e)) + wdot ne ng lam (fun e => mv ng (j_rup J e) (Up e))
     + wdot ne ng lam (fun e => mv nl (j_rc J e) (dc k e)) + wdot ne ng lam (fun e => mv nl (j_rcp J e) (before_w k dc e))
     + wdot ne ng lam (fun e => mv (pa_nw q) (j_rn J e) (gather (pa_pmap q) (dpi k) e))
     + wdot ne ng lam (fun e => mv (pa_nn q) (j_rz J e) (dzw e)) = 0).
  { rewrite <- !wdot_add_r. unfold lam.
    assert (Cm : forall x y : wvec K, wdot ne ng x y = wdot ne ng y x)
      by (intros; apply sum_ext; intros; apply dot_comm).
    rewrite Cm. rewrite <- (scatter_dot ne ng n map) by apply (wp_map q Hwf).
    rewrite <- (dot_0_l n (ad_l a)). apply dot_free; [exact L0|].
    intros i Hi Hni. apply (pt_global _ _ _ _ _ Ht k i Hk Hi Hni). }
  pose proof (proj_part k a' Hk) as P. cbv zeta in P. fold J a lam in P.
  unfold back_terms. fold J lam mu Up.
  rewrite <- !wdot_tr.
  unfold pde_z. fold J. rewrite !wdot_add_l. fold dzw. fold lam mu.
  rewrite <- (wdot_tr ne ng (pa_nn q) (j_rz J)). rewrite <- (wdot_tr ne nl (pa_nn q) (j_hz J)).
  rewrite G, C. fold dzw in P.
  set (P1 := wdot ne (pa_nn q) (proj_rhs q J a) _) in *.
  set (P2 := wdot ne (pa_nn q) (fun e => mv (pa_nw q) (tr (pa_pz q k _ _ e)) _) dzw) in *.
  set (a1 := wdot ne ng lam (fun e => mv ng (j_ru J e) (U e))) in *.
  set (a2 := wdot ne ng lam (fun e => mv ng (j_rup J e) (Up e))) in *.
  set (a3 := wdot ne ng lam (fun e => mv nl (j_rc J e) (dc k e))) in *.
  set (a4 := wdot ne ng lam (fun e => mv nl (j_rcp J e) (before_w k dc e))) in *.
  set (a5 := wdot ne ng lam (fun e => mv (pa_nn q) (j_rz J e) (dzw e))) in *.
  set (b1 := wdot ne nl mu (fun e => mv ng (j_hu J e) (U e))) in *.
  set (b2 := wdot ne nl mu (fun e => mv ng (j_hup J e) (Up e))) in *.
  set (b3 := wdot ne nl mu (fun e => mv nl (j_hc J e) (dc k e))) in *.
  set (b4 := wdot ne nl mu (fun e => mv nl (j_hcp J e) (before_w k dc e))) in *.
  set (b5 := wdot ne nl mu (fun e => mv (pa_nn q) (j_hz J e) (dzw e))) in *.
  rewrite P in R.
  change (a5 + P2 + b5 + (a2 + b2 + P1 + b4 + a4) = - a1 - b1 + (- b3 - a3)).
  transitivity ((a1 + a2 + a3 + a4 + (P1 + P2) + a5) - a1 - a3 + (b1 + b2 + b3 + b4 + b5) - b1 - b3); [ring|].
  rewrite R, H. ring.
Qed.

(** Derivative of the criterion at a step, without the explicit dependence on the control. *)
Definition crit_step (k : nat) : K :=
  let J := pa_jac q k in
  wdot ne ng (j_fu J) (gather map (du k)) + wdot ne ng (j_fup J) (gather map (before k du))
  + wdot ne nl (j_fc J) (dc k) + wdot ne nl (j_fcp J) (before_w k dc).

(** What the adjoint of step [todo] leaves for the step before. *)
Definition left_over (todo : nat) (a' : adj K) : K :=
  if Nat.eqb todo N then 0
  else wdot ne ng (j_fup (pa_jac q todo)) (gather map (before todo du))
       + wdot ne nl (j_fcp (pa_jac q todo)) (before_w todo dc) + back_terms todo a'.

Lemma backward_eq todo : forall a' g, todo <= N ->
  dot (pa_nz q) (backward q slv inv todo a' g) dz =
  dot (pa_nz q) g dz + sum todo crit_step + (if Nat.eqb todo 0 then 0 else left_over todo a').
Proof.
  induction todo as [|k IH]; intros a' g Hle; [simpl; ring|].
  cbn [backward]. cbv zeta. rewrite IH by lia. rewrite dot_add_l.
  rewrite (scatter_dot ne (pa_nn q) (pa_nz q) (pa_nmap q)) by apply (wp_nmap q Hwf).
  set (a := update_adjoint q slv inv k a').
  pose proof (step_identity k a' ltac:(lia)) as E. cbv zeta in E. fold a in E.
  set (J := pa_jac q k) in *. set (J' := pa_jac q (S k)) in *.
  assert (Eu : wdot ne ng (carry_u q k J J' a') (gather map (du k)) + wdot ne nl (carry_c q k J J' a') (dc k) =
     wdot ne ng (j_fu J) (gather map (du k)) + wdot ne nl (j_fc J) (dc k) + left_over (S k) a').
  { unfold left_over. fold J'. destruct (Nat.eqb_spec (S k) N) as [EN|EN].
    - rewrite (wdot_ext ne ng (carry_u q k J J' a') (j_fu J) _ (gather map (du k)));
        [|intros; unfold carry_u; destruct (Nat.eqb_spec k (N - 1)); [reflexivity|lia]|reflexivity].
      rewrite (wdot_ext ne nl (carry_c q k J J' a') (j_fc J) _ (dc k));
        [|intros; unfold carry_c; destruct (Nat.eqb_spec k (N - 1)); [reflexivity|lia]|reflexivity].
      ring.
    - rewrite (wdot_ext ne ng (carry_u q k J J' a')
         (fun e i => add_pressure q (proj_rhs q J' a') (fun e i => j_fu J e i + j_fup J' e i) e i
            + mv ng (tr (j_rup J' e)) (gather map (ad_l a') e) i + mv nl (tr (j_hup J' e)) (ad_m a' e) i) _ (gather map (du k)));
        [|intros; unfold carry_u; destruct (Nat.eqb_spec k (N - 1)); [lia|reflexivity]|reflexivity].
      rewrite (wdot_ext ne nl (carry_c q k J J' a')
         (fun e i => j_fc J e i + j_fcp J' e i + mv nl (tr (j_hcp J' e)) (ad_m a' e) i
           + mv ng (tr (j_rcp J' e)) (gather map (ad_l a') e) i) _ (dc k));
        [|intros; unfold carry_c; destruct (Nat.eqb_spec k (N - 1)); [lia|reflexivity]|reflexivity].
      rewrite !wdot_add_l, wdot_pressure, wdot_add_l. unfold back_terms. fold J'. cbn [before before_w].
      change (fun e a0 => mv ng (tr (j_rup J' e)) (gather map (ad_l a') e) a0) with (fun e => mv ng (tr (j_rup J' e)) (gather map (ad_l a') e)).
      change (fun e a0 => mv nl (tr (j_hup J' e)) (ad_m a' e) a0) with (fun e => mv nl (tr (j_hup J' e)) (ad_m a' e)).
      change (fun e a0 => mv nl (tr (j_hcp J' e)) (ad_m a' e) a0) with (fun e => mv nl (tr (j_hcp J' e)) (ad_m a' e)).
      change (fun e a0 => mv ng (tr (j_rcp J' e)) (gather map (ad_l a') e) a0) with (fun e => mv ng (tr (j_rcp J' e)) (gather map (ad_l a') e)).
      change (fun e a0 => j_fu J e a0) with (j_fu J). change (fun e a0 => j_fup J' e a0) with (j_fup J').
      change (fun e a0 => j_fc J e a0) with (j_fc J). change (fun e a0 => j_fcp J' e a0) with (j_fcp J').
      ring. }
  rewrite Eu in E. cbn [Nat.eqb sum].
  transitivity (dot (pa_nz q) g dz + sum k crit_step + crit_step k + left_over (S k) a').
  2: { ring. }
  set (Sm := sum k crit_step). unfold crit_step. fold J.
  assert (Ek : (if Nat.eqb k 0 then 0 else left_over k a) =
     wdot ne ng (j_fup J) (gather map (before k du)) + wdot ne nl (j_fcp J) (before_w k dc) + back_terms k a).
  { destruct k as [|k'].
    - cbn [Nat.eqb]. unfold back_terms. fold J. cbn [before before_w].
      assert (Z : forall x, wdot ne ng x (gather map (fun _ => 0)) = 0) by (intros; apply wdot_0_r).
      rewrite !Z, !wdot_0_r.
      replace (wdot ne (pa_nn q) (proj_rhs q J a) (gather (pa_nmap q) (pressure q (fun _ => 0)))) with (r0 : K)
        by (symmetry; apply wdot_0_r).
      ring.
    - cbn [Nat.eqb]. unfold left_over. destruct (Nat.eqb_spec (S k') N); [lia|]. reflexivity. }
  rewrite Ek.
  transitivity (dot (pa_nz q) g dz + Sm + wdot ne ng (j_fup J) (gather map (before k du))
     + wdot ne nl (j_fcp J) (before_w k dc) + (wdot ne (pa_nn q) (pde_z q k a) (gather (pa_nmap q) dz) + back_terms k a)); [ring|].
  rewrite E. ring.
Qed.

Lemma add_crit_eq todo : forall g, todo <= N ->
  dot (pa_nz q) (add_criterion_z q todo g) dz =
  dot (pa_nz q) g dz + sum todo (fun k => wdot ne (pa_nn q) (j_fz (pa_jac q (N - todo + k)%nat)) (gather (pa_nmap q) dz)).
Proof.
  induction todo as [|k IH]; intros g Hle; [simpl; ring|].
  cbn [add_criterion_z]. rewrite IH by lia. rewrite dot_add_l.
  rewrite (scatter_dot ne (pa_nn q) (pa_nz q) (pa_nmap q)) by apply (wp_nmap q Hwf).
  set (F := fun k0 => wdot ne (pa_nn q) (j_fz (pa_jac q (N - S k + k0)%nat)) (gather (pa_nmap q) dz)).
  change (sum (S k) F) with (sum (1 + k) F). rewrite sum_split. unfold F. cbn [sum].
  rewrite (sum_ext k (fun i => wdot ne (pa_nn q) (j_fz (pa_jac q (N - S k + (1 + i))%nat)) (gather (pa_nmap q) dz))
     (fun k0 => wdot ne (pa_nn q) (j_fz (pa_jac q (N - k + k0)%nat)) (gather (pa_nmap q) dz))).
  2: { intros i Hi. replace (N - S k + (1 + i))%nat with (N - k + i)%nat by lia. reflexivity. }
  replace (N - S k + 0)%nat with (N - S k)%nat by lia. ring.
Qed.

Theorem path_gradient :
  dot (pa_nz q) (criterion_gradient_path q slv inv) dz = path_criterion_derivative q dz du dc.
Proof.
  unfold criterion_gradient_path. rewrite add_crit_eq by lia. rewrite backward_eq by lia.
  replace (if Nat.eqb N 0 then 0 else left_over N adj0) with (r0 : K).
  2: { destruct (Nat.eqb N 0); [reflexivity|]. unfold left_over. rewrite Nat.eqb_refl. reflexivity. }
  rewrite dot_0_l.
  transitivity (sum N crit_step + sum N (fun k => wdot ne (pa_nn q) (j_fz (pa_jac q k)) (gather (pa_nmap q) dz))).
  { rewrite (sum_ext N (fun k => wdot ne (pa_nn q) (j_fz (pa_jac q (N - N + k)%nat)) (gather (pa_nmap q) dz))
        (fun k => wdot ne (pa_nn q) (j_fz (pa_jac q k)) (gather (pa_nmap q) dz)))
      by (intros; rewrite Nat.sub_diag; reflexivity). ring. }
  rewrite <- sum_add. unfold path_criterion_derivative. apply sum_ext. intros k Hk. cbv zeta.
  unfold crit_step, wdot. rewrite <- !sum_add. reflexivity.
Qed.
End Path.
End K.
