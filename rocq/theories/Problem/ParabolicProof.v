(** Proofs about the transient heat problem. *)
From Coq Require Import Arith Lia List Bool Ring Field.
From Verif Require Import Base.Field Base.Sums Base.Res BC.ConstraintsSpec BC.ConstraintsProof BC.ConstraintsMain
  Problem.DenseBC Problem.EllipticProof Problem.ParabolicModel Problem.ParabolicSpec.
Import ListNotations.

Section K.
Context {K : CField} {Z : Type}.
Add Field KfieldPP : (f_th K).
Local Open Scope K_scope.

Lemma tang_form (a c alpha dt : K) : alpha <> 0 -> dt <> 0 -> a + c / (alpha * dt) = a + (- v_grad_u alpha dt) * c.
Proof. intros H1 H2. unfold v_grad_u. field. split; assumption. Qed.
Lemma zero_one_mul (x : K) : 0 + 1 * x = x.
Proof. ring. Qed.
Lemma add_one_zero (x : K) : x + 1 * 0 = x.
Proof. ring. Qed.
Lemma add_one_mul (x y : K) : x + 1 * y = x + y.
Proof. ring. Qed.
Lemma add_0_r_field (x : K) : x + 0 = x.
Proof. ring. Qed.
Lemma mul_0_l_field (x : K) : 0 * x = 0.
Proof. ring. Qed.

(** One step is determined by the previous pair when the constrained tangent operator is injective. *)
Lemma step_unique (n : nat) dofs (alpha dt : K) (Ha : alpha <> 0) (Hdt : dt <> 0) (A C : matr K) (F : vect K) (q1 q2 s1 s2 : vect K * vect K) :
  (forall x, (forall i, i < n -> mv n (bc_matrix dofs (fun i j => A i j + C i j / (alpha * dt))) x i = 0) -> forall i, i < n -> x i = 0) ->
  (forall i, i < n -> fst q1 i = fst q2 i /\ snd q1 i = snd q2 i) ->
  trapezoid n alpha dt q1 s1 -> trapezoid n alpha dt q2 s2 ->
  (forall d, In d dofs -> fst s1 d = 0) -> (forall d, In d dofs -> fst s2 d = 0) ->
  (forall i, i < n -> ~ In i dofs -> mv n A (fst s1) i + mv n C (snd s1) i = F i) ->
  (forall i, i < n -> ~ In i dofs -> mv n A (fst s2) i + mv n C (snd s2) i = F i) ->
  forall i, i < n -> fst s1 i = fst s2 i /\ snd s1 i = snd s2 i.
Proof.
  intros Hinj Hq T1 T2 V1 V2 E1 E2.
  set (du := fun i => fst s1 i - fst s2 i). set (dv := fun i => snd s1 i - snd s2 i).
  assert (R : forall i, i < n -> dv i = du i / (alpha * dt)).
  { intros i Hi. unfold du, dv. rewrite (T1 i Hi), (T2 i Hi). destruct (Hq i Hi) as [-> ->]. field. split; assumption. }
  assert (D0 : forall d, In d dofs -> du d = 0) by (intros d Hin; unfold du; rewrite V1, V2 by exact Hin; ring).
  assert (Z0 : forall i, i < n -> du i = 0).
  { apply Hinj. intros i Hi. destruct (constrained dofs i) eqn:Ec.
    - rewrite bc_row_fixed by assumption. apply D0. apply constrained_in. exact Ec.
    - assert (Hni : ~ In i dofs) by (intros Hin; apply constrained_in in Hin; congruence).
      pose proof (bc_row_free n dofs (fun i j => A i j + C i j / (alpha * dt)) du i Hi Ec) as Er.
      rewrite (sum_0 n (fun j => if constrained dofs j then _ else 0)) in Er.
      2: { intros j Hj. destruct (constrained dofs j) eqn:Ej; [|reflexivity]. rewrite D0 by (apply constrained_in; exact Ej). ring. }
      assert (Et : mv n (fun i j => A i j + C i j / (alpha * dt)) du i = 0).
      { transitivity (mv n A du i + mv n C dv i).
        - unfold mv. rewrite <- sum_add. apply sum_ext. intros j Hj. rewrite R by exact Hj. field. split; assumption.
        - unfold du, dv. rewrite !mv_sub.
          transitivity (mv n A (fst s1) i + mv n C (snd s1) i - (mv n A (fst s2) i + mv n C (snd s2) i)); [ring|].
          rewrite E1, E2 by assumption. ring. }
      rewrite Et in Er. transitivity (mv n (bc_matrix dofs (fun i j => A i j + C i j / (alpha * dt))) du i + 0); [ring|symmetry; exact Er]. }
  intros i Hi. split.
  - transitivity (du i + fst s2 i); [unfold du; ring|]. rewrite Z0 by exact Hi. ring.
  - transitivity (dv i + snd s2 i); [unfold dv; ring|]. rewrite R, Z0 by exact Hi. field. split; assumption.
Qed.

Section Newton.
Variables (p : pproblem K Z) (z : Z).
Notation n := (pq_n p). Notation dofs := (pq_dofs p). Notation vals := (pq_vals p).
Notation alpha := (pq_alpha p). Notation dt := (pq_dt p). Notation pde := (pq_pde p).
Hypothesis Ha : alpha <> 0.
Hypothesis Hdt : dt <> 0.

(** The tangent operator and right-hand side of an iteration. *)
Definition tang (u v : vect K) : matr K :=
  fun i j => pp_gradient_u pde u v z i j + (- v_grad_u alpha dt) * pp_gradient_v pde u v z i j.
Definition pres (prev : vect K * vect K) (u v : vect K) : vect K :=
  fun i => (- (1)) * pp_value pde u v z i + mv n (pp_gradient_v pde u v z) (v_value alpha dt u (fst prev) v (snd prev)) i.
Definition pinc (prev : vect K * vect K) (scale : K) (u v : vect K) : vect K :=
  pq_solve p (bc_matrix dofs (tang u v)) (bc_rhs scale dofs vals (tang u v) (pres prev u v)).
Definition upd_u (d u : vect K) : vect K := fun i => u i + 1 * d i.
Definition upd_v (prev : vect K * vect K) (d u v : vect K) : vect K :=
  fun i => v i + (- (1)) * (v_value alpha dt u (fst prev) v (snd prev) i + v_grad_u alpha dt * d i).

Lemma pnewton_S prev todo idx u v :
  pnewton p z prev (S todo) idx (u, v) =
    if Nat.ltb 1 (pq_newton p) && pq_res_small p (pres prev u v) then (u, v) else
    let d := pinc prev (if Nat.eqb idx 0 then 1 else 0) u v in
    if Nat.ltb 1 (pq_newton p) && pq_inc_small p d then (upd_u d u, upd_v prev d u v)
    else pnewton p z prev todo (S idx) (upd_u d u, upd_v prev d u v).
Proof. reflexivity. Qed.

(** Any update makes the pair satisfy the trapezoid rule. *)
Lemma upd_trapezoid prev d u v : trapezoid n alpha dt prev (upd_u d u, upd_v prev d u v).
Proof.
  intros i Hi. unfold upd_u, upd_v, v_value, v_grad_u. cbn [fst snd]. field. split; assumption.
Qed.

Lemma pnewton_inv (P : vect K * vect K -> Prop) prev :
  (forall u v, P (u, v) -> let d := pinc prev 0 u v in P (upd_u d u, upd_v prev d u v)) ->
  forall todo idx s, P s -> P (pnewton p z prev todo (S idx) s).
Proof.
  intros HP. induction todo as [|todo IH]; intros idx [u v] Hs; [exact Hs|]. rewrite pnewton_S.
  destruct (Nat.ltb 1 (pq_newton p) && pq_res_small p _); [exact Hs|]. cbn [Nat.eqb]. cbv zeta.
  pose proof (HP u v Hs) as H1. cbv zeta in H1.
  destruct (Nat.ltb 1 (pq_newton p) && pq_inc_small p _); [exact H1|]. apply IH. exact H1.
Qed.

(** What holds after the first update, and is kept by later ones, holds at the end. *)
Lemma pnewton_first (P : vect K * vect K -> Prop) prev u v :
  0 < pq_newton p ->
  pq_newton p = 1%nat \/ pq_res_small p (pres prev u v) = false ->
  (let d := pinc prev 1 u v in P (upd_u d u, upd_v prev d u v)) ->
  (forall u v, P (u, v) -> let d := pinc prev 0 u v in P (upd_u d u, upd_v prev d u v)) ->
  P (pnewton p z prev (pq_newton p) 0 (u, v)).
Proof.
  intros Hn Hno H1 HP. destruct (pq_newton p) as [|todo] eqn:E; [lia|]. rewrite pnewton_S, E.
  assert (Hex : Nat.ltb 1 (S todo) && pq_res_small p (pres prev u v) = false).
  { destruct Hno as [H| ->]; [injection H as ->; reflexivity|apply andb_false_r]. }
  rewrite Hex. cbn [Nat.eqb]. cbv zeta in *.
  destruct (Nat.ltb 1 (S todo) && pq_inc_small p _); [exact H1|]. apply pnewton_inv; assumption.
Qed.

Section BC.
Hypothesis Hlen : List.length vals = List.length dofs.
Hypothesis Hc : compatible 1 dofs vals.
Hypothesis Hd : forall d, In d dofs -> d < n.
Hypothesis Hs : solver_ok n (pq_solve p).
Hypothesis Hns : forall u v, nonsingular n (bc_matrix dofs (tang u v)).

Lemma pinc_solves prev scale u v :
  solves n (bc_matrix dofs (tang u v)) (bc_rhs scale dofs vals (tang u v) (pres prev u v)) (pinc prev scale u v).
Proof. apply Hs, Hns. Qed.

(** The increment at the constrained dofs: the prescribed values first, then zero. *)
Lemma pinc_values prev u v d w : In (d, w) (combine dofs vals) -> pinc prev 1 u v d = w.
Proof.
  intros Hin. pose proof (in_combine_l _ _ _ _ Hin) as Hdin.
  pose proof (pinc_solves prev 1 u v d (Hd d Hdin)) as E.
  rewrite bc_row_fixed in E; [|apply Hd; exact Hdin|apply constrained_in; exact Hdin].
  unfold bc_rhs in E. rewrite (prescribed_all 1 dofs vals Hc d (1 * w)) in E.
  - rewrite E. ring.
  - unfold bcs_of. apply in_map_iff. exists (d, w). split; [reflexivity|exact Hin].
Qed.
Lemma pinc_zero prev u v d : In d dofs -> pinc prev 0 u v d = 0.
Proof.
  intros Hdin. pose proof (pinc_solves prev 0 u v) as H.
  apply (bc_zero n 0 dofs vals _ _ _ Hlen Hd) in H; [|intros; ring]. apply H. exact Hdin.
Qed.

Section Linear.
Variables (A C : matr K) (F : vect K).
Hypothesis Hlin : linear_ppde n pde z A C F.

Definition eq_free (s : vect K * vect K) : Prop :=
  forall i, i < n -> ~ In i dofs -> mv n A (fst s) i + mv n C (snd s) i = F i.

Lemma upd_free prev scale u v :
  symmetric n A -> symmetric n C \/ scale = 0 -> (scale = 1 \/ scale = 0) ->
  let d := pinc prev scale u v in eq_free (upd_u d u, upd_v prev d u v).
Proof.
  intros HA HC Hsc d i Hi Hni. cbn [fst snd].
  destruct (Hlin u v) as [Hval [HgA HgC]].
  assert (Eq : mv n (tang u v) d i = pres prev u v i).
  { assert (Hsol := pinc_solves prev scale u v). fold d in Hsol.
    destruct Hsc as [->| ->].
    - destruct HC as [HC|HC]; [|exfalso; exact (F_1_neq_0 (f_th K) HC)].
      apply bc_system in Hsol; auto.
      + apply Hsol; [exact Hi|]. destruct (constrained dofs i) eqn:E; [|reflexivity]. apply constrained_in in E. contradiction.
      + intros d0 v0 j Hin Hj. f_equal. unfold tang. apply in_combine_l in Hin. apply Hd in Hin.
        rewrite !HgA, !HgC by assumption. rewrite (HA d0 j), (HC d0 j) by assumption. reflexivity.
    - apply (bc_zero n 0 dofs vals _ _ _ Hlen Hd) in Hsol; [|intros; ring]. apply Hsol; assumption. }
  assert (ET : mv n (tang u v) d i = mv n A d i - v_grad_u alpha dt * mv n C d i).
  { unfold mv. rewrite <- sum_scal_l, <- sum_sub. apply sum_ext. intros j Hj. unfold tang. rewrite HgA, HgC by assumption. ring. }
  assert (ER : pres prev u v i = F i - mv n A u i - mv n C v i + mv n C (v_value alpha dt u (fst prev) v (snd prev)) i).
  { unfold pres. rewrite Hval by exact Hi.
    rewrite (mv_ext n (pp_gradient_v pde u v z) C _ (v_value alpha dt u (fst prev) v (snd prev)) i);
      [ring|intros; apply HgC; assumption|reflexivity]. }
  rewrite ET, ER in Eq.
  assert (E1 : mv n A (upd_u d u) i = mv n A u i + mv n A d i).
  { unfold upd_u. rewrite mv_add, mv_scal. ring. }
  assert (E2 : mv n C (upd_v prev d u v) i =
     mv n C v i - mv n C (v_value alpha dt u (fst prev) v (snd prev)) i - v_grad_u alpha dt * mv n C d i).
  { unfold upd_v. rewrite mv_add, mv_scal, mv_add, mv_scal. ring. }
  rewrite E1, E2.
  assert (E3 : mv n A d i = F i - mv n A u i - mv n C v i + mv n C (v_value alpha dt u (fst prev) v (snd prev)) i + v_grad_u alpha dt * mv n C d i).
  { rewrite <- Eq. ring. }
  rewrite E3. ring.
Qed.
End Linear.
End BC.
End Newton.

(** The march: each step is computed from the computed previous step and the stored content of the step. *)
Lemma pmarch_spec (p : pproblem K Z) (z : Z) todo : forall h k, 1 <= k ->
  (forall j, j < k \/ k + todo <= j -> pmarch p z h todo k j = h j) /\
  (forall j, k <= j < k + todo ->
     pmarch p z h todo k j = pnewton p z (pmarch p z h todo k (j - 1)%nat) (pq_newton p) 0 (h j)).
Proof.
  induction todo as [|todo IH]; intros h k Hk; [split; intros; [reflexivity|lia]|]. cbn [pmarch].
  set (s := pnewton p z (h (k - 1)%nat) (pq_newton p) 0 (h k)).
  set (h' := fun j => if Nat.eqb j k then s else h j).
  destruct (IH h' (S k) ltac:(lia)) as [I1 I2]. split.
  - intros j Hj. rewrite I1 by lia. unfold h'. destruct (Nat.eqb_spec j k); [lia|reflexivity].
  - intros j Hj. destruct (Nat.eq_dec j k) as [->|Hne].
    + rewrite (I1 k) by lia. rewrite (I1 (k - 1)%nat) by lia. unfold h'. rewrite Nat.eqb_refl.
      destruct (Nat.eqb_spec (k - 1) k); [lia|]. reflexivity.
    + rewrite I2 by lia. unfold h'. destruct (Nat.eqb_spec j k); [lia|]. reflexivity.
Qed.

Lemma psolution_step (p : pproblem K Z) (z : Z) h k : 1 <= k < pq_steps p ->
  psolution p z h k = pnewton p z (psolution p z h (k - 1)%nat) (pq_newton p) 0 (h k).
Proof. intros Hk. unfold psolution. apply pmarch_spec; lia. Qed.
Lemma psolution_init (p : pproblem K Z) (z : Z) h : psolution p z h 0%nat = h 0%nat.
Proof. unfold psolution. apply pmarch_spec; lia. Qed.

(** The adjoint sweep. *)
Section Adjoint.
Variables (p : pproblem K Z) (z : Z) (h : phistory K) (fu fv : nat -> vect K) (dRdp : vect K -> vect K -> Z -> matr K).
Notation n := (pq_n p). Notation dofs := (pq_dofs p). Notation vals := (pq_vals p).
Notation alpha := (pq_alpha p). Notation dt := (pq_dt p). Notation pde := (pq_pde p).
Variables (N np : nat) (JU JV RP : nat -> matr K) (du dv : nat -> vect K) (dp : vect K).
Hypothesis Ha : alpha <> 0.
Hypothesis Hdt : dt <> 0.
Hypothesis Hlen : List.length vals = List.length dofs.
Hypothesis Hd : forall d, In d dofs -> d < n.
Hypothesis Hz : forall w, In w vals -> w = 0.
Hypothesis Hs : solver_ok n (pq_solve p).
Hypothesis HU : forall k i j, 1 <= k < N -> i < n -> j < n -> pp_gradient_u pde (fst (h k)) (snd (h k)) z i j = JU k i j.
Hypothesis HV : forall k i j, 1 <= k < N -> i < n -> j < n -> pp_gradient_v pde (fst (h k)) (snd (h k)) z i j = JV k i j.
Hypothesis HP : forall k c i, 1 <= k < N -> c < np -> i < n -> dRdp (fst (h k)) (snd (h k)) z c i = RP k i c.
Hypothesis HUs : forall k, 1 <= k < N -> symmetric n (JU k).
Hypothesis HVs : forall k, 1 <= k < N -> symmetric n (JV k).
Hypothesis Hns : forall k, 1 <= k < N -> nonsingular n (bc_matrix dofs (tang p z (fst (h k)) (snd (h k)))).
Hypothesis Htan : history_tangent N n np dofs alpha dt JU JV RP du dv dp.

Definition carry (next : option (vect K)) (k : nat) : K :=
  match next with None => 0
  | Some l => v_grad_u_prev alpha dt * dot n l (du k) + v_grad_v_prev alpha dt * dot n l (dv k) end.

Lemma pbackward_ok : forall k next g, k < N -> 
  dot np (pbackward p z h fu fv dRdp k next g) dp =
  dot np g dp + carry next k + lsum (map (fun k => dot n (fu k) (du k) + dot n (fv k) (dv k)) (seq 1 k)).
Proof.
  induction k as [|k IH]; intros next g Hk.
  - simpl. destruct Htan as [H0 _]. destruct next as [l|]; simpl; [|ring].
    rewrite (dot_ext n l l (du 0%nat) (fun _ => 0)), (dot_ext n l l (dv 0%nat) (fun _ => 0)); try reflexivity; try (intros; apply H0; assumption).
    rewrite !dot_0_r. ring.
  - cbn [pbackward].
    set (u := fst (h (S k))). set (v := snd (h (S k))). set (rvu := v_grad_u alpha dt).
    set (fu1 := match next with None => fu (S k) | Some l => fun i => fu (S k) i + v_grad_u_prev alpha dt * l i end).
    set (fv1 := match next with None => fv (S k) | Some l => fun i => fv (S k) i + v_grad_v_prev alpha dt * l i end).
    set (b := fun i => (- (1)) * fu1 i + rvu * fv1 i).
    change (fun i j => pp_gradient_u pde u v z i j + (- rvu) * pp_gradient_v pde u v z i j) with (tang p z u v).
    set (lu := pq_solve p (bc_matrix dofs (tang p z u v)) (bc_rhs 1 dofs vals (tang p z u v) b)).
    set (lv := fun i => 0 + (- (1)) * (fv1 i + mv n (pp_gradient_v pde u v z) lu i)).
    rewrite IH by lia. rewrite seq_S, map_app, lsum_app. cbn [map plus]. unfold lsum at 3. cbn [fold_right].
    destruct Htan as [_ Ht]. destruct (Ht (S k) ltac:(lia)) as [T1 [T2 T3]].
    assert (Hsol : solves n (bc_matrix dofs (tang p z u v)) (bc_rhs 1 dofs vals (tang p z u v) b) lu) by (apply Hs, Hns; lia).
    apply (bc_zero n 1 dofs vals _ _ _ Hlen Hd) in Hsol; [|intros w Hw; rewrite (Hz w Hw); ring].
    destruct Hsol as [L1 L2].
    assert (E1 : dot np (fun c => g c + mv n (dRdp u v z) lu c) dp = dot np g dp + dot n lu (mv np (RP (S k)) dp)).
    { rewrite dot_add_l. f_equal. rewrite dot_mv_tr. apply dot_ext; [|reflexivity]. intros c Hc. apply mv_ext; [|reflexivity].
      intros i Hi. unfold tr. apply HP; lia. }
    assert (E2 : dot n lu (mv np (RP (S k)) dp) = - (dot n (mv n (JU (S k)) lu) (du (S k)) + dot n (mv n (JV (S k)) lu) (dv (S k)))).
    { transitivity (- (dot n lu (mv n (JU (S k)) (du (S k))) + dot n lu (mv n (JV (S k)) (dv (S k))))).
      - rewrite <- dot_add_r, <- dot_opp_r. apply sum_ext. intros i Hi. destruct (in_dec Nat.eq_dec i dofs) as [Hin|Hni].
        + rewrite L1 by exact Hin. ring.
        + pose proof (T2 i Hi Hni) as E. f_equal.
          transitivity (mv n (JU (S k)) (du (S k)) i + mv n (JV (S k)) (dv (S k)) i + mv np (RP (S k)) dp i
            - (mv n (JU (S k)) (du (S k)) i + mv n (JV (S k)) (dv (S k)) i)); [ring|rewrite E; ring].
      - f_equal. rewrite !dot_mv_tr. f_equal; (apply dot_ext; [|reflexivity]; intros i Hi; apply mv_ext; [|reflexivity]; intros j Hj; unfold tr).
        + apply HUs; lia.
        + apply HVs; lia. }
    assert (E3 : forall i, i < n -> mv n (JV (S k)) lu i = - lv i - fv1 i).
    { intros i Hi. unfold lv. rewrite (mv_ext n (pp_gradient_v pde u v z) (JV (S k)) lu lu i); [ring|intros; apply HV; lia|reflexivity]. }
    assert (E4 : dot n (mv n (JU (S k)) lu) (du (S k)) = - (rvu * dot n lv (du (S k))) - dot n fu1 (du (S k))).
    { rewrite <- dot_scal_l, <- dot_opp_l, <- dot_sub_l. apply sum_ext. intros i Hi. destruct (in_dec Nat.eq_dec i dofs) as [Hin|Hni].
      - rewrite T1 by exact Hin. ring.
      - f_equal. pose proof (L2 i Hi Hni) as E.
        assert (ET : mv n (tang p z u v) lu i = mv n (JU (S k)) lu i - rvu * mv n (JV (S k)) lu i).
        { unfold mv. rewrite <- sum_scal_l, <- sum_sub. apply sum_ext. intros j Hj. unfold tang. unfold u, v. rewrite HU, HV by lia. fold rvu. ring. }
        rewrite ET, E3 in E by exact Hi. unfold b in E.
        transitivity (mv n (JU (S k)) lu i - rvu * (- lv i - fv1 i) + rvu * (- lv i - fv1 i)); [ring|]. rewrite E. ring. }
    assert (E5 : dot n (mv n (JV (S k)) lu) (dv (S k)) = - dot n lv (dv (S k)) - dot n fv1 (dv (S k))).
    { rewrite <- dot_opp_l, <- dot_sub_l. apply dot_ext; [|reflexivity]. exact E3. }
    assert (E6 : rvu * dot n lv (du (S k)) + dot n lv (dv (S k)) =
                 - (v_grad_u_prev alpha dt * dot n lv (du k) + v_grad_v_prev alpha dt * dot n lv (dv k))).
    { rewrite <- !dot_scal_r, <- !dot_add_r, <- dot_opp_r. apply dot_ext; [reflexivity|]. intros i Hi.
      specialize (T3 i Hi). cbn [fst snd] in T3. replace (S k - 1)%nat with k in T3 by lia. rewrite T3.
      unfold rvu, v_grad_u, v_grad_u_prev, v_grad_v_prev. field. split; assumption. }
    assert (E7 : dot n fu1 (du (S k)) + dot n fv1 (dv (S k)) = dot n (fu (S k)) (du (S k)) + dot n (fv (S k)) (dv (S k)) + carry next (S k)).
    { unfold fu1, fv1, carry. destruct next as [l|]; [|ring]. rewrite !dot_add_l, !dot_scal_l. ring. }
    rewrite E1, E2, E4, E5. unfold carry at 1.
    transitivity (dot np g dp + (rvu * dot n lv (du (S k)) + dot n lv (dv (S k))) + (dot n fu1 (du (S k)) + dot n fv1 (dv (S k)))
       + (v_grad_u_prev alpha dt * dot n lv (du k) + v_grad_v_prev alpha dt * dot n lv (dv k))
       + lsum (map (fun k => dot n (fu k) (du k) + dot n (fv k) (dv k)) (seq 1 k))); [ring|]. rewrite E6, E7. ring.
Qed.
End Adjoint.
End K.
