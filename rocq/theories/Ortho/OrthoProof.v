(** Proof layer for the orthotropic material. *)
From Coq Require Import Reals List Arith Bool String Lra Lia.
From Verif Require Import Base.Field Base.Sums Base.Res Element.ElementModel Element.ElementProof Element.MaterialModel Ortho.OrthoModel Ortho.OrthoSpec.
Import ListNotations.
Local Open Scope R_scope.

Lemma quot_ok a b : b <> 0 -> quot a b = Ok (a / b).
Proof. intros H. unfold quot. destruct (Req_EM_T b 0); [contradiction|reflexivity]. Qed.
Lemma quot_inv a b c : quot a b = Ok c -> b <> 0 /\ c = a / b.
Proof. unfold quot. destruct (Req_EM_T b 0); [discriminate|]. intros H. injection H as <-. auto. Qed.
Lemma Rltb_true a b : Rltb a b = true <-> a < b.
Proof. unfold Rltb. destruct (Rlt_dec a b); split; intros; auto; try discriminate; contradiction. Qed.
Lemma Rltb_false a b : Rltb a b = false <-> b <= a.
Proof. unfold Rltb. destruct (Rlt_dec a b); split; intros; auto; try discriminate; lra. Qed.
Lemma reject_inv b u : reject b = Ok u -> b = false.
Proof. destruct b; [discriminate|reflexivity]. Qed.
Lemma poisson_sq nu q : 0 <= q -> (Rabs nu <= sqrt q <-> nu * nu <= q).
Proof.
  intros Hq. split; intros H.
  - rewrite <- (sqrt_sqrt q Hq). pose proof (Rabs_pos nu) as Hp.
    replace (nu * nu) with (Rabs nu * Rabs nu) by (rewrite <- Rabs_mult; apply Rabs_pos_eq; nra).
    apply Rmult_le_compat; auto.
  - rewrite <- sqrt_Rsqr_abs. apply sqrt_le_1_alt. exact H.
Qed.
Lemma poisson_inv nu Ei Ej u : 0 <= Ei -> 0 <= Ej -> poisson_check nu Ei Ej = Ok u -> 0 < Ej /\ nu * nu <= Ei / Ej.
Proof.
  intros Hi Hj. unfold poisson_check. destruct (quot Ei Ej) as [q| |] eqn:Eq; cbn [rbind]; try discriminate.
  intros H. apply reject_inv, Rltb_false in H. apply quot_inv in Eq. destruct Eq as [N ->].
  assert (P : 0 < Ej) by lra. split; [exact P|].
  assert (0 <= Ei / Ej) by (apply Rmult_le_pos; [lra|left; apply Rinv_0_lt_compat; lra]).
  apply poisson_sq; assumption.
Qed.
Lemma poisson_ok nu Ei Ej : 0 <= Ei -> 0 < Ej -> nu * nu <= Ei / Ej -> poisson_check nu Ei Ej = Ok tt.
Proof.
  intros Hi Hj H. unfold poisson_check. rewrite quot_ok by lra. cbn [rbind].
  assert (0 <= Ei / Ej) by (apply Rmult_le_pos; [lra|left; apply Rinv_0_lt_compat; lra]).
  replace (Rltb (sqrt (Ei / Ej)) (Rabs nu)) with false; [reflexivity|]. symmetry. apply Rltb_false. apply poisson_sq; assumption.
Qed.
Lemma poisson_throw nu Ei Ej : 0 <= Ei -> 0 < Ej -> Ei / Ej < nu * nu -> poisson_check nu Ei Ej = Throw.
Proof.
  intros Hi Hj H. unfold poisson_check. rewrite quot_ok by lra. cbn [rbind].
  assert (0 <= Ei / Ej) by (apply Rmult_le_pos; [lra|left; apply Rinv_0_lt_compat; lra]).
  replace (Rltb (sqrt (Ei / Ej)) (Rabs nu)) with true; [reflexivity|]. symmetry. apply Rltb_true.
  destruct (Rlt_dec (sqrt (Ei / Ej)) (Rabs nu)) as [L|L]; [exact L|]. exfalso.
  assert (nu * nu <= Ei / Ej) by (apply poisson_sq; lra). lra.
Qed.
(** The reciprocal condition is the same condition. *)
Lemma poisson_rec nu Ei Ej : 0 < Ei -> 0 < Ej -> (nu * nu <= Ei / Ej <-> nu * (Ej / Ei) * (nu * (Ej / Ei)) <= Ej / Ei).
Proof.
  intros Hi Hj. assert (Q : 0 < Ej / Ei) by (apply Rdiv_lt_0_compat; assumption).
  assert (E : Ei / Ej * (Ej / Ei) = 1) by (field; lra). set (q := Ej / Ei) in *. set (r := Ei / Ej) in *. clearbody q r. split; intros H.
  - replace (nu * q * (nu * q)) with (nu * nu * (q * q)) by ring. replace q with (r * (q * q)) at 3 by (replace (r * (q * q)) with (r * q * q) by ring; rewrite E; ring).
    apply Rmult_le_compat_r; [nra|exact H].
  - apply Rmult_le_reg_r with (q * q); [nra|]. replace (r * (q * q)) with (r * q * q) by ring. rewrite E. replace (nu * nu * (q * q)) with (nu * q * (nu * q)) by ring. lra.
Qed.

(** The four numbers the stability of a solid depends on. *)
Definition m12 (k : solid) : R := Ex k / Ey k - nuxy k * nuxy k.
Definition m23 (k : solid) : R := Ey k / Ez k - nuyz k * nuyz k.
Definition m13 (k : solid) : R := Ex k / Ez k - nuxz k * nuxz k.
Definition det (k : solid) : R :=
  1 - nuxy k * (nuxy k * (Ey k / Ex k)) - nuyz k * (nuyz k * (Ez k / Ey k)) - nuxz k * (nuxz k * (Ez k / Ex k))
  - 2 * (nuxy k * (Ey k / Ex k) * (nuyz k * (Ez k / Ey k)) * nuxz k).
Definition closed3 (k : solid) (i j : nat) : R :=
  let nyx := nuxy k * (Ey k / Ex k) in let nzx := nuxz k * (Ez k / Ex k) in let nzy := nuyz k * (Ez k / Ey k) in
  match i, j with
  | 0, 0 => ((1 - nuyz k * nzy) * Ex k / det k)%R
  | 0, 1 | 1, 0 => ((nyx + nzx * nuyz k) * Ex k / det k)%R
  | 0, 2 | 2, 0 => ((nzx + nyx * nzy) * Ex k / det k)%R
  | 1, 1 => ((1 - nzx * nuxz k) * Ey k / det k)%R
  | 1, 2 | 2, 1 => ((nzy + nzx * nuxy k) * Ey k / det k)%R
  | 2, 2 => ((1 - nuxy k * nyx) * Ez k / det k)%R
  | 3, 3 => Gyz k | 4, 4 => Gxz k | 5, 5 => Gxy k | _, _ => 0%R end%nat.
Definition good3 (k : solid) : Prop :=
  (0 < Ex k /\ 0 < Ey k /\ 0 < Ez k) /\ (0 <= Gxy k /\ 0 <= Gxz k /\ 0 <= Gyz k) /\ 0 <= m12 k /\ 0 <= m23 k /\ 0 <= m13 k /\ 0 < det k.

Lemma require3 p k : entered3 p k -> require p keys3 = Ok tt.
Proof. intros (H1 & H2 & H3 & H4 & H5 & H6 & H7 & H8 & H9). unfold keys3, require. rewrite H1, H2, H3, H4, H5, H6, H7, H8, H9. reflexivity. Qed.

Ltac getall H := 
  let H1 := fresh in let H2 := fresh in let H3 := fresh in let H4 := fresh in let H5 := fresh in let H6 := fresh in let H7 := fresh in let H8 := fresh in let H9 := fresh in
  destruct H as (H1 & H2 & H3 & H4 & H5 & H6 & H7 & H8 & H9); unfold get; rewrite ?H1, ?H2, ?H3, ?H4, ?H5, ?H6, ?H7, ?H8, ?H9; cbn [rbind].

Lemma stiffness3_ok p k : entered3 p k -> 0 < Ex k -> 0 < Ey k -> 0 < Ez k -> det k <> 0 ->
  exists C, stiffness3 p = Ok C /\ forall i j, C i j = closed3 k i j.
Proof.
  intros H X Y Z D. unfold stiffness3. getall H.
  rewrite !(quot_ok _ (Ex k)), !(quot_ok _ (Ey k)) by lra. cbn [rbind]. cbv zeta. fold (det k).
  assert (P : 0 < Ex k * Ey k * Ez k) by (repeat apply Rmult_lt_0_compat; assumption).
  rewrite quot_ok by lra. cbn [rbind].
  assert (N1 : Ey k * Ez k * (det k / (Ex k * Ey k * Ez k)) <> 0).
  { replace (Ey k * Ez k * (det k / (Ex k * Ey k * Ez k))) with (det k / Ex k) by (field; lra). apply Rmult_integral_contrapositive_currified; [exact D|]. apply Rinv_neq_0_compat. lra. }
  assert (N2 : Ez k * Ex k * (det k / (Ex k * Ey k * Ez k)) <> 0).
  { replace (Ez k * Ex k * (det k / (Ex k * Ey k * Ez k))) with (det k / Ey k) by (field; lra). apply Rmult_integral_contrapositive_currified; [exact D|]. apply Rinv_neq_0_compat. lra. }
  assert (N3 : Ex k * Ey k * (det k / (Ex k * Ey k * Ez k)) <> 0).
  { replace (Ex k * Ey k * (det k / (Ex k * Ey k * Ez k))) with (det k / Ez k) by (field; lra). apply Rmult_integral_contrapositive_currified; [exact D|]. apply Rinv_neq_0_compat. lra. }
  rewrite !(quot_ok _ _ N1), !(quot_ok _ _ N2), !(quot_ok _ _ N3). cbn [rbind].
  eexists. split; [reflexivity|]. intros i j. unfold closed3. cbv zeta. cbv beta.
  destruct i as [|[|[|[|[|[|i]]]]]]; destruct j as [|[|[|[|[|[|j]]]]]]; try reflexivity; set (dd := det k) in *; clearbody dd; field; repeat split; lra.
Qed.

Lemma stability3_ok p k : entered3 p k -> good3 k -> stability3 p = Ok tt.
Proof.
  intros H ((X & Y & Z) & (G1 & G2 & G3) & M1 & M2 & M3 & D). unfold stability3. getall H.
  assert (R0 : forall r, 0 <= r -> Rltb r 0 = false) by (intros; apply Rltb_false; assumption).
  rewrite !R0 by lra. cbn [reject rbind].
  rewrite !poisson_ok by (unfold m12, m23, m13 in *; lra). cbn [rbind].
  rewrite !quot_ok by lra. cbn [rbind].
  unfold m12, m23, m13 in *.
  assert (A1 := proj1 (poisson_rec (nuxy k) _ _ X Y) ltac:(lra)).
  assert (A2 := proj1 (poisson_rec (nuyz k) _ _ Y Z) ltac:(lra)).
  assert (A3 := proj1 (poisson_rec (nuxz k) _ _ X Z) ltac:(lra)).
  rewrite (poisson_ok _ (Ey k) (Ex k) ltac:(lra) X A1), (poisson_ok _ (Ez k) (Ey k) ltac:(lra) Y A2), (poisson_ok _ (Ez k) (Ex k) ltac:(lra) X A3). cbn [rbind].
  fold (det k). rewrite R0 by lra. reflexivity.
Qed.

Lemma stability3_inv p k u : entered3 p k -> stability3 p = Ok u ->
  (0 < Ex k /\ 0 < Ey k /\ 0 < Ez k) /\ (0 <= Gxy k /\ 0 <= Gxz k /\ 0 <= Gyz k) /\ 0 <= m12 k /\ 0 <= m23 k /\ 0 <= m13 k /\ 0 <= det k.
Proof.
  intros H. unfold stability3. getall H. intros HH.
  Ltac nxt HH := match type of HH with rbind (reject ?b) _ = _ => let E := fresh "E" in destruct (reject b) eqn:E; cbn [rbind] in HH; try discriminate; apply reject_inv, Rltb_false in E end.
  do 6 nxt HH.
  destruct (poisson_check (nuxy k) (Ex k) (Ey k)) eqn:P1; cbn [rbind] in HH; try discriminate.
  destruct (poisson_check (nuyz k) (Ey k) (Ez k)) eqn:P2; cbn [rbind] in HH; try discriminate.
  destruct (poisson_check (nuxz k) (Ex k) (Ez k)) eqn:P3; cbn [rbind] in HH; try discriminate.
  destruct (quot (Ey k) (Ex k)) as [qyx| |] eqn:Q1; cbn [rbind] in HH; try discriminate. cbv zeta in HH.
  destruct (poisson_check (nuxy k * qyx) (Ey k) (Ex k)) eqn:P4; cbn [rbind] in HH; try discriminate.
  destruct (quot (Ez k) (Ey k)) as [qzy| |] eqn:Q2; cbn [rbind] in HH; try discriminate. cbv zeta in HH.
  destruct (poisson_check (nuyz k * qzy) (Ez k) (Ey k)) eqn:P5; cbn [rbind] in HH; try discriminate.
  destruct (quot (Ez k) (Ex k)) as [qzx| |] eqn:Q3; cbn [rbind] in HH; try discriminate. cbv zeta in HH.
  destruct (poisson_check (nuxz k * qzx) (Ez k) (Ex k)) eqn:P6; cbn [rbind] in HH; try discriminate.
  apply reject_inv, Rltb_false in HH.
  apply quot_inv in Q1, Q2, Q3. destruct Q1 as [N1 ->], Q2 as [N2 ->], Q3 as [_ ->]. fold (det k) in HH.
  apply poisson_inv in P1; [|lra|lra]. apply poisson_inv in P2; [|lra|lra]. apply poisson_inv in P3; [|lra|lra].
  unfold m12, m23, m13. repeat split; lra.
Qed.

Lemma accepted3 p k C : entered3 p k -> ortho_material 3 p = Ok C -> good3 k /\ forall i j, C i j = closed3 k i j.
Proof.
  intros H HH. unfold ortho_material in HH. rewrite (require3 p k H) in HH. cbn [rbind] in HH.
  destruct (stability3 p) as [u| |] eqn:S; cbn [rbind] in HH; try discriminate.
  destruct (stability3_inv p k u H S) as ((X & Y & Z) & G & M1 & M2 & M3 & D).
  assert (N : det k <> 0).
  { intros D0. unfold stiffness3 in HH. revert HH. getall H.
    rewrite !(quot_ok _ (Ex k)), !(quot_ok _ (Ey k)) by lra. cbn [rbind]. cbv zeta. fold (det k).
    assert (P : 0 < Ex k * Ey k * Ez k) by (repeat apply Rmult_lt_0_compat; assumption).
    rewrite quot_ok by lra. cbn [rbind]. rewrite D0.
    unfold quot at 1. destruct (Req_EM_T _ 0) as [_|NN]; [discriminate|]. exfalso. apply NN. unfold Rdiv. ring. }
  destruct (stiffness3_ok p k H X Y Z N) as (C' & E & F). rewrite HH in E. injection E as <-.
  split; [|exact F]. unfold good3. repeat split; try tauto; lra.
Qed.
Lemma accepted3_conv p k : entered3 p k -> good3 k -> exists C, ortho_material 3 p = Ok C /\ forall i j, C i j = closed3 k i j.
Proof.
  intros H G. unfold ortho_material. rewrite (require3 p k H), (stability3_ok p k H G). cbn [rbind].
  destruct G as ((X & Y & Z) & _ & _ & _ & _ & D). apply stiffness3_ok; auto. lra.
Qed.

(** ** Energies *)
Lemma binary_nonneg A B C x y : 0 <= A -> 0 <= C -> 0 <= A * C - B * B -> 0 <= A * (x * x) + 2 * B * (x * y) + C * (y * y).
Proof.
  intros HA HC HD. destruct (Rle_lt_or_eq_dec _ _ HA) as [P|Z].
  - apply Rmult_le_reg_l with A; [exact P|]. replace (A * (A * (x * x) + 2 * B * (x * y) + C * (y * y))) with ((A * x + B * y) * (A * x + B * y) + (A * C - B * B) * (y * y)) by ring.
    rewrite Rmult_0_r. apply Rplus_le_le_0_compat; [apply Rle_0_sqr|]. apply Rmult_le_pos; [exact HD|apply Rle_0_sqr].
  - subst A. assert (B * B <= 0) by lra. assert (B = 0). { apply Rsqr_0_uniq. unfold Rsqr. assert (0 <= B * B) by apply Rle_0_sqr. lra. } subst B. pose proof (Rle_0_sqr y) as Sy. unfold Rsqr in Sy. nra.
Qed.
Lemma binary_pos A B C x y : 0 <= A -> 0 < A * C - B * B -> x <> 0 \/ y <> 0 -> 0 < A * (x * x) + 2 * B * (x * y) + C * (y * y).
Proof.
  intros HA HD HN. assert (P : 0 < A). { destruct (Rle_lt_or_eq_dec _ _ HA) as [P|Z]; [exact P|]. subst A. nra. }
  apply Rmult_lt_reg_l with A; [exact P|]. rewrite Rmult_0_r.
  replace (A * (A * (x * x) + 2 * B * (x * y) + C * (y * y))) with ((A * x + B * y) * (A * x + B * y) + (A * C - B * B) * (y * y)) by ring.
  destruct (Req_dec y 0) as [Y|Y].
  - subst y. destruct HN as [HN|HN]; [|contradiction]. assert (0 < x * x) by nra. assert (0 < A * A) by nra. assert (0 < (A * A) * (x * x)) by (apply Rmult_lt_0_compat; assumption). lra.
  - assert (0 < y * y) by nra. assert (0 < (A * C - B * B) * (y * y)) by (apply Rmult_lt_0_compat; assumption). pose proof (Rle_0_sqr (A * x + B * y)) as Sq. unfold Rsqr in Sq. lra.
Qed.
(** The complementary energy of the normal stresses. *)
Definition normal3 (k : solid) (x y z : R) : R :=
  x * x / Ex k + y * y / Ey k + z * z / Ez k - 2 * nuxy k / Ex k * (x * y) - 2 * nuxz k / Ex k * (x * z) - 2 * nuyz k / Ey k * (y * z).
Lemma energy_compliance3 k s :
  energy 6 (compliance3 k) s = normal3 k (s 0%nat) (s 1%nat) (s 2%nat) + s 3%nat * s 3%nat / Gyz k + s 4%nat * s 4%nat / Gxz k + s 5%nat * s 5%nat / Gxy k.
Proof. unfold energy, apply, normal3. rsums. unfold compliance3, Rdiv. ring. Qed.
Definition schur (k : solid) : R := - nuyz k * (Ex k / Ey k) - nuxy k * nuxz k.
Lemma normal3_split k x y z : 0 < Ex k -> 0 < Ey k -> 0 < Ez k ->
  Ex k * normal3 k x y z = (x - nuxy k * y - nuxz k * z) * (x - nuxy k * y - nuxz k * z) + (m12 k * (y * y) + 2 * schur k * (y * z) + m13 k * (z * z)).
Proof. intros. unfold normal3, m12, m13, schur. field. lra. Qed.
Lemma schur_det k : 0 < Ex k -> 0 < Ey k -> 0 < Ez k -> m12 k * m13 k - schur k * schur k = Ex k * Ex k / (Ey k * Ez k) * det k.
Proof. intros. unfold m12, m13, schur, det. field. lra. Qed.
Lemma normal3_nonneg k x y z : 0 < Ex k -> 0 < Ey k -> 0 < Ez k -> 0 <= m12 k -> 0 <= m13 k -> 0 <= det k -> 0 <= normal3 k x y z.
Proof.
  intros X Y Z M1 M3 D. apply Rmult_le_reg_l with (Ex k); [exact X|]. rewrite Rmult_0_r, normal3_split by assumption.
  apply Rplus_le_le_0_compat; [apply Rle_0_sqr|]. apply binary_nonneg; auto. rewrite schur_det by assumption.
  apply Rmult_le_pos; [|exact D]. left. apply Rdiv_lt_0_compat; nra.
Qed.
Lemma normal3_pos k x y z : 0 < Ex k -> 0 < Ey k -> 0 < Ez k -> 0 <= m12 k -> 0 <= m13 k -> 0 < det k -> x <> 0 \/ y <> 0 \/ z <> 0 -> 0 < normal3 k x y z.
Proof.
  intros X Y Z M1 M3 D N. apply Rmult_lt_reg_l with (Ex k); [exact X|]. rewrite Rmult_0_r, normal3_split by assumption.
  assert (S : 0 < m12 k * m13 k - schur k * schur k). { rewrite schur_det by assumption. apply Rmult_lt_0_compat; [|exact D]. apply Rdiv_lt_0_compat; nra. }
  destruct (Req_dec y 0) as [Ey0|Ny]; [destruct (Req_dec z 0) as [Ez0|Nz]|].
  - subst y z. assert (x <> 0) by tauto. nra.
  - pose proof (binary_pos _ _ _ y z M1 S (or_intror Nz)). pose proof (Rle_0_sqr (x - nuxy k * y - nuxz k * z)) as Sq. unfold Rsqr in Sq. lra.
  - pose proof (binary_pos _ _ _ y z M1 S (or_introl Ny)). pose proof (Rle_0_sqr (x - nuxy k * y - nuxz k * z)) as Sq. unfold Rsqr in Sq. lra.
Qed.
(** Stress to strain after strain to stress: the identity. *)
Lemma inverse3 k : good3 k -> 0 < Gxy k -> 0 < Gxz k -> 0 < Gyz k -> inverse 6 (compliance3 k) (closed3 k).
Proof.
  intros ((X & Y & Z) & _ & _ & _ & _ & D) G1 G2 G3 x i Hi. unfold apply.
  assert (E : exists dd, det k = dd /\ dd <> 0) by (exists (det k); split; [reflexivity|lra]). destruct E as (dd & E & ND).
  do 6 (destruct i as [|i]; [split; rsums; unfold compliance3, closed3; cbv zeta; rewrite ?E; try (field; lra);
     (apply (Rmult_eq_reg_r dd); [|exact ND]);
     (match goal with |- _ = ?r * dd => replace (r * dd) with (r * det k) by (rewrite E; reflexivity) end);
     unfold det; field; repeat split; lra|]). lia.
Qed.
Definition stress3 (k : solid) (x : nat -> R) (i : nat) : R := closed3 k i 0 * x 0%nat + closed3 k i 1 * x 1%nat + closed3 k i 2 * x 2%nat.
Lemma strain_energy3 k x : good3 k ->
  energy 6 (closed3 k) x = normal3 k (stress3 k x 0) (stress3 k x 1) (stress3 k x 2) + Gyz k * (x 3%nat * x 3%nat) + Gxz k * (x 4%nat * x 4%nat) + Gxy k * (x 5%nat * x 5%nat).
Proof.
  intros ((X & Y & Z) & _ & _ & _ & _ & D). unfold energy, apply, stress3, normal3. rsums. unfold closed3; cbv zeta.
  assert (E : exists dd, det k = dd /\ dd <> 0) by (exists (det k); split; [reflexivity|lra]). destruct E as (dd & E & ND). rewrite ?E.
  match goal with |- _ = ?a + _ + _ + _ => set (N := a) end.
  transitivity (N * dd / dd + Gyz k * (x 3%nat * x 3%nat) + Gxz k * (x 4%nat * x 4%nat) + Gxy k * (x 5%nat * x 5%nat)); [|field; exact ND].
  assert (EN : N * dd * dd = det k * (N * dd * dd / dd)) by (rewrite E; field; exact ND).
  assert (M : N * dd = (x 0%nat * ((1 - nuyz k * (nuyz k * (Ez k / Ey k))) * Ex k * x 0%nat + (nuxy k * (Ey k / Ex k) + nuxz k * (Ez k / Ex k) * nuyz k) * Ex k * x 1%nat + (nuxz k * (Ez k / Ex k) + nuxy k * (Ey k / Ex k) * (nuyz k * (Ez k / Ey k))) * Ex k * x 2%nat)
     + x 1%nat * ((nuxy k * (Ey k / Ex k) + nuxz k * (Ez k / Ex k) * nuyz k) * Ex k * x 0%nat + (1 - nuxz k * (Ez k / Ex k) * nuxz k) * Ey k * x 1%nat + (nuyz k * (Ez k / Ey k) + nuxz k * (Ez k / Ex k) * nuxy k) * Ey k * x 2%nat)
     + x 2%nat * ((nuxz k * (Ez k / Ex k) + nuxy k * (Ey k / Ex k) * (nuyz k * (Ez k / Ey k))) * Ex k * x 0%nat + (nuyz k * (Ez k / Ey k) + nuxz k * (Ez k / Ex k) * nuxy k) * Ey k * x 1%nat + (1 - nuxy k * (nuxy k * (Ey k / Ex k))) * Ez k * x 2%nat))).
  { apply (Rmult_eq_reg_r dd); [|exact ND]. match goal with |- _ = ?r * dd => replace (r * dd) with (r * det k) by (rewrite E; reflexivity) end.
    unfold N, det. field. repeat split; lra. }
  rewrite M. field. repeat split; lra.
Qed.
Lemma stress3_zero k x : good3 k -> stress3 k x 0 = 0 -> stress3 k x 1 = 0 -> stress3 k x 2 = 0 -> x 0%nat = 0 /\ x 1%nat = 0 /\ x 2%nat = 0.
Proof.
  intros ((X & Y & Z) & _ & _ & _ & _ & D) S0 S1 S2.
  assert (E : exists dd, det k = dd /\ dd <> 0) by (exists (det k); split; [reflexivity|lra]). destruct E as (dd & E & ND).
  assert (A0 : x 0%nat = (stress3 k x 0 - nuxy k * stress3 k x 1 - nuxz k * stress3 k x 2) / Ex k).
  { unfold stress3, closed3; cbv zeta; rewrite E. apply (Rmult_eq_reg_r dd); [|exact ND]. match goal with |- ?r * dd = _ => replace (r * dd) with (r * det k) by (rewrite E; reflexivity) end. unfold det; field; repeat split; lra. }
  assert (A1 : x 1%nat = (- nuxy k * stress3 k x 0 / Ex k + stress3 k x 1 / Ey k - nuyz k * stress3 k x 2 / Ey k)).
  { unfold stress3, closed3; cbv zeta; rewrite E. apply (Rmult_eq_reg_r dd); [|exact ND]. match goal with |- ?r * dd = _ => replace (r * dd) with (r * det k) by (rewrite E; reflexivity) end. unfold det; field; repeat split; lra. }
  assert (A2 : x 2%nat = (- nuxz k * stress3 k x 0 / Ex k - nuyz k * stress3 k x 1 / Ey k + stress3 k x 2 / Ez k)).
  { unfold stress3, closed3; cbv zeta; rewrite E. apply (Rmult_eq_reg_r dd); [|exact ND]. match goal with |- ?r * dd = _ => replace (r * dd) with (r * det k) by (rewrite E; reflexivity) end. unfold det; field; repeat split; lra. }
  rewrite A0, A1, A2, S0, S1, S2. unfold Rdiv. repeat split; ring.
Qed.
Lemma energy_ext n A B x : (forall i j, A i j = B i j) -> energy n A x = energy n B x.
Proof. intros H. unfold energy, apply. apply (@sum_ext R_ring). intros i _. req. f_equal. apply (@sum_ext R_ring). intros j _. req. rewrite H. reflexivity. Qed.
Lemma inverse_ext n S A B : (forall i j, A i j = B i j) -> inverse n S A -> inverse n S B.
Proof.
  intros H I x i Hi. destruct (I x i Hi) as [I1 I2]. unfold apply in *. split.
  - rewrite <- I1. apply (@sum_ext R_ring). intros j _. req. f_equal. apply (@sum_ext R_ring). intros l _. req. rewrite H. reflexivity.
  - rewrite <- I2. apply (@sum_ext R_ring). intros j _. req. rewrite H. reflexivity.
Qed.
Lemma closed3_nonneg k x : good3 k -> 0 <= energy 6 (closed3 k) x.
Proof.
  intros G. rewrite strain_energy3 by exact G. destruct G as ((X & Y & Z) & (G1 & G2 & G3) & M1 & M2 & M3 & D).
  pose proof (normal3_nonneg k (stress3 k x 0) (stress3 k x 1) (stress3 k x 2) X Y Z M1 M3 ltac:(lra)).
  pose proof (Rmult_le_pos _ _ G3 (Rle_0_sqr (x 3%nat))). pose proof (Rmult_le_pos _ _ G2 (Rle_0_sqr (x 4%nat))). pose proof (Rmult_le_pos _ _ G1 (Rle_0_sqr (x 5%nat))). unfold Rsqr in *. lra.
Qed.
Lemma sq_pos a : a <> 0 -> 0 < a * a. Proof. intros. apply Rsqr_pos_lt. assumption. Qed.
Lemma closed3_pos k : good3 k -> 0 < Gxy k -> 0 < Gxz k -> 0 < Gyz k -> positive 6 (closed3 k).
Proof.
  intros G P1 P2 P3 x (i & Hi & Nx). rewrite strain_energy3 by exact G. pose proof G as ((X & Y & Z) & _ & M1 & M2 & M3 & D).
  pose proof (normal3_nonneg k (stress3 k x 0) (stress3 k x 1) (stress3 k x 2) X Y Z M1 M3 ltac:(lra)) as N0.
  pose proof (Rmult_le_pos _ _ (Rlt_le _ _ P3) (Rle_0_sqr (x 3%nat))). pose proof (Rmult_le_pos _ _ (Rlt_le _ _ P2) (Rle_0_sqr (x 4%nat))). pose proof (Rmult_le_pos _ _ (Rlt_le _ _ P1) (Rle_0_sqr (x 5%nat))). unfold Rsqr in *.
  assert (L : (i < 3)%nat -> 0 < normal3 k (stress3 k x 0) (stress3 k x 1) (stress3 k x 2)).
  { intros L. apply normal3_pos; auto. destruct (Req_dec (stress3 k x 0) 0) as [S0|]; [|tauto]. destruct (Req_dec (stress3 k x 1) 0) as [S1|]; [|tauto].
    destruct (Req_dec (stress3 k x 2) 0) as [S2|]; [|tauto]. exfalso. destruct (stress3_zero k x G S0 S1 S2) as (A & B & C).
    destruct i as [|[|[|i]]]; [contradiction|contradiction|contradiction|lia]. }
  destruct i as [|[|[|[|[|[|i]]]]]]; try (specialize (L ltac:(lia)); lra); try lia; pose proof (sq_pos _ Nx) as SQ;
    [pose proof (Rmult_lt_0_compat _ _ P3 SQ)|pose proof (Rmult_lt_0_compat _ _ P2 SQ)|pose proof (Rmult_lt_0_compat _ _ P1 SQ)]; lra.
Qed.
(** Stability of the material is the stability test. *)
Definition vec3 (a b c : R) (i : nat) : R := match i with 0 => a | 1 => b | 2 => c | _ => 0%R end%nat.
Lemma stable3_good k : stable3 k -> good3 k.
Proof.
  intros ((X & Y & Z & G1 & G2 & G3) & P).
  assert (PN : forall a b c, a <> 0 \/ b <> 0 \/ c <> 0 -> 0 < normal3 k a b c).
  { intros a b c N. assert (Q : nonzero 6 (vec3 a b c)).
    { destruct N as [N|[N|N]]; [exists 0%nat|exists 1%nat|exists 2%nat]; (split; [lia|exact N]). }
    specialize (P _ Q). rewrite energy_compliance3 in P. cbn [vec3] in P. unfold Rdiv in P. rewrite !Rmult_0_l in P. lra. }
  assert (M1 : 0 < m12 k).
  { pose proof (PN (nuxy k) 1 0 ltac:(right; left; lra)) as Q. apply (Rmult_lt_compat_l (Ex k)) in Q; [|exact X]. rewrite Rmult_0_r, normal3_split in Q by assumption.
    ring_simplify in Q. lra. }
  assert (M3 : 0 < m13 k).
  { pose proof (PN (nuxz k) 0 1 ltac:(right; right; lra)) as Q. apply (Rmult_lt_compat_l (Ex k)) in Q; [|exact X]. rewrite Rmult_0_r, normal3_split in Q by assumption.
    ring_simplify in Q. lra. }
  assert (M2 : 0 < m23 k).
  { pose proof (PN 0 (nuyz k) 1 ltac:(right; right; lra)) as Q. apply (Rmult_lt_compat_l (Ey k)) in Q; [|exact Y]. rewrite Rmult_0_r in Q.
    replace (Ey k * normal3 k 0 (nuyz k) 1) with (m23 k) in Q; [exact Q|]. unfold normal3, m23. field. lra. }
  assert (D : 0 < det k).
  { pose proof (PN (nuxy k * (- schur k) + nuxz k * m12 k) (- schur k) (m12 k) ltac:(right; right; lra)) as Q.
    apply (Rmult_lt_compat_l (Ex k)) in Q; [|exact X]. rewrite Rmult_0_r, normal3_split in Q by assumption.
    match type of Q with 0 < ?r => replace r with (m12 k * (m12 k * m13 k - schur k * schur k)) in Q by ring end.
    rewrite schur_det in Q by assumption.
    assert (P0 : 0 < Ex k * Ex k / (Ey k * Ez k)) by (apply Rdiv_lt_0_compat; nra).
    assert (P1 : 0 < m12 k * (Ex k * Ex k / (Ey k * Ez k))) by (apply Rmult_lt_0_compat; assumption).
    apply Rmult_lt_reg_l with (m12 k * (Ex k * Ex k / (Ey k * Ez k))); [exact P1|]. rewrite Rmult_0_r. lra. }
  unfold good3. repeat split; lra.
Qed.
(** With positive moduli the checks decide, they never run into a zero divisor. *)
Lemma unstable3_throw p k : entered3 p k -> 0 < Ex k -> 0 < Ey k -> 0 < Ez k -> 0 <= Gxy k -> 0 <= Gxz k -> 0 <= Gyz k ->
  (m12 k < 0 \/ m23 k < 0 \/ m13 k < 0 \/ det k < 0) -> ortho_material 3 p = Throw.
Proof.
  intros H X Y Z G1 G2 G3 B. unfold ortho_material. rewrite (require3 p k H). cbn [rbind].
  assert (S : stability3 p = Throw); [|rewrite S; reflexivity]. unfold stability3. getall H.
  assert (R0 : forall r, 0 <= r -> Rltb r 0 = false) by (intros; apply Rltb_false; assumption).
  rewrite !R0 by lra. cbn [reject rbind]. unfold m12, m23, m13 in B.
  destruct (Rlt_le_dec (m12 k) 0) as [L1|L1]; unfold m12 in L1.
  { rewrite (poisson_throw (nuxy k)) by lra. reflexivity. }
  rewrite (poisson_ok (nuxy k)) by lra. cbn [rbind].
  destruct (Rlt_le_dec (m23 k) 0) as [L2|L2]; unfold m23 in L2.
  { rewrite (poisson_throw (nuyz k)) by lra. reflexivity. }
  rewrite (poisson_ok (nuyz k)) by lra. cbn [rbind].
  destruct (Rlt_le_dec (m13 k) 0) as [L3|L3]; unfold m13 in L3.
  { rewrite (poisson_throw (nuxz k)) by lra. reflexivity. }
  rewrite (poisson_ok (nuxz k)) by lra. cbn [rbind].
  assert (L4 : det k < 0) by lra. rewrite !quot_ok by lra. cbn [rbind].
  assert (A1 := proj1 (poisson_rec (nuxy k) _ _ X Y) ltac:(lra)).
  assert (A2 := proj1 (poisson_rec (nuyz k) _ _ Y Z) ltac:(lra)).
  assert (A3 := proj1 (poisson_rec (nuxz k) _ _ X Z) ltac:(lra)).
  rewrite (poisson_ok _ (Ey k) (Ex k) ltac:(lra) X A1), (poisson_ok _ (Ez k) (Ey k) ltac:(lra) Y A2), (poisson_ok _ (Ez k) (Ex k) ltac:(lra) X A3). cbn [rbind].
  fold (det k). replace (Rltb (det k) 0) with true; [reflexivity|]. symmetry. apply Rltb_true. exact L4.
Qed.

(** ** Sheets *)
Definition m2 (k : sheet) : R := Sx k / Sy k - Sn k * Sn k.
Definition closed2 (k : sheet) (i j : nat) : R :=
  let q := 1 - Sn k * (Sn k * (Sy k / Sx k)) in
  match i, j with 0, 0 => (Sx k / q)%R | 0, 1 | 1, 0 => (Sn k * Sy k / q)%R | 1, 1 => (Sy k / q)%R | 2, 2 => Sg k | _, _ => 0%R end%nat.
Definition good2 (k : sheet) : Prop := 0 < Sx k /\ 0 < Sy k /\ 0 <= Sg k /\ 0 < m2 k.
Lemma m2_q k : 0 < Sx k -> 0 < Sy k -> 1 - Sn k * (Sn k * (Sy k / Sx k)) = m2 k * (Sy k / Sx k).
Proof. intros. unfold m2. field. lra. Qed.
Ltac getall2 H := let H1 := fresh in let H2 := fresh in let H3 := fresh in let H4 := fresh in
  destruct H as (H1 & H2 & H3 & H4); unfold get; rewrite ?H1, ?H2, ?H3, ?H4; cbn [rbind].
Lemma require2 p k : entered2 p k -> require p keys2 = Ok tt.
Proof. intros (H1 & H2 & H3 & H4). unfold keys2, require. rewrite H1, H2, H3, H4. reflexivity. Qed.
Lemma accepted2_conv p k : entered2 p k -> good2 k -> exists C, ortho_material 2 p = Ok C /\ forall i j, C i j = closed2 k i j.
Proof.
  intros H (X & Y & G & M). unfold ortho_material. rewrite (require2 p k H). cbn [rbind]. unfold stability2, stiffness2. getall2 H.
  assert (R0 : forall r, 0 <= r -> Rltb r 0 = false) by (intros; apply Rltb_false; assumption).
  assert (Q : m2 k * (Sy k / Sx k) > 0) by (apply Rmult_lt_0_compat; [exact M|apply Rdiv_lt_0_compat; assumption]).
  rewrite <- (m2_q k X Y) in Q. unfold m2 in M.
  rewrite !R0 by lra. cbn [reject rbind]. rewrite (poisson_ok (Sn k)) by lra. cbn [rbind]. rewrite !(quot_ok _ (Sx k)) by lra. cbn [rbind].
  rewrite (poisson_ok _ (Sy k) (Sx k)); [|lra|lra|apply (proj1 (poisson_rec (Sn k) _ _ X Y)); lra]. cbn [rbind].
  rewrite !quot_ok by lra. cbn [rbind]. eexists. split; [reflexivity|]. intros i j. unfold closed2. cbv zeta. cbv beta.
  destruct i as [|[|[|i]]]; destruct j as [|[|[|j]]]; reflexivity.
Qed.
Lemma accepted2 p k C : entered2 p k -> ortho_material 2 p = Ok C -> good2 k /\ forall i j, C i j = closed2 k i j.
Proof.
  intros H HH. assert (G : good2 k).
  { unfold ortho_material in HH. rewrite (require2 p k H) in HH. cbn [rbind] in HH. unfold stability2, stiffness2 in HH. revert HH. getall2 H. intros HH.
    do 3 (match type of HH with rbind (rbind (reject ?b) _) _ = _ => let E := fresh "E" in destruct (reject b) eqn:E; cbn [rbind] in HH; try discriminate; apply reject_inv, Rltb_false in E end).
    destruct (poisson_check (Sn k) (Sx k) (Sy k)) eqn:P1; cbn [rbind] in HH; try discriminate.
    destruct (quot (Sy k) (Sx k)) as [q| |] eqn:Q1; cbn [rbind] in HH; try discriminate. cbv zeta in HH.
    apply quot_inv in Q1. destruct Q1 as [N1 ->]. apply poisson_inv in P1; [|lra|lra].
    destruct (poisson_check (Sn k * (Sy k / Sx k)) (Sy k) (Sx k)); cbn [rbind] in HH; try discriminate.
    destruct (quot (Sx k) (1 - Sn k * (Sn k * (Sy k / Sx k)))) eqn:Q2; cbn [rbind] in HH; try discriminate.
    apply quot_inv in Q2. destruct Q2 as [N2 _]. assert (X : 0 < Sx k) by lra. assert (Y : 0 < Sy k) by lra. rewrite m2_q in N2 by assumption.
    unfold good2. repeat split; try lra. assert (M : 0 <= m2 k) by (unfold m2; lra).
    destruct (Rle_lt_or_eq_dec _ _ M) as [M'|M']; [exact M'|]. exfalso. apply N2. rewrite <- M'. ring. }
  split; [exact G|]. destruct (accepted2_conv p k H G) as (C' & E & F). rewrite HH in E. injection E as <-. exact F.
Qed.
Lemma inverse2 k : good2 k -> 0 < Sg k -> inverse 3 (compliance2 k) (closed2 k).
Proof.
  intros (X & Y & _ & M) G x i Hi. unfold apply.
  assert (Q : 0 < m2 k * (Sy k / Sx k)) by (apply Rmult_lt_0_compat; [exact M|apply Rdiv_lt_0_compat; assumption]). rewrite <- (m2_q k X Y) in Q.
  assert (E : exists q, 1 - Sn k * (Sn k * (Sy k / Sx k)) = q /\ q <> 0) by (eexists; split; [reflexivity|lra]). destruct E as (q & E & NQ).
  do 3 (destruct i as [|i]; [split; rsums; unfold compliance2, closed2; cbv zeta; rewrite ?E; try (field; lra);
     (apply (Rmult_eq_reg_r q); [|exact NQ]);
     (match goal with |- _ = ?r * q => replace (r * q) with (r * (1 - Sn k * (Sn k * (Sy k / Sx k)))) by (rewrite E; reflexivity) end);
     field; repeat split; lra|]). lia.
Qed.
Lemma strain_energy2 k x : good2 k ->
  energy 3 (closed2 k) x = (Sx k * (x 0%nat * x 0%nat) + 2 * (Sn k * Sy k) * (x 0%nat * x 1%nat) + Sy k * (x 1%nat * x 1%nat)) / (1 - Sn k * (Sn k * (Sy k / Sx k))) + Sg k * (x 2%nat * x 2%nat).
Proof.
  intros (X & Y & _ & M). assert (Q : 0 < m2 k * (Sy k / Sx k)) by (apply Rmult_lt_0_compat; [exact M|apply Rdiv_lt_0_compat; assumption]). rewrite <- (m2_q k X Y) in Q.
  unfold energy, apply. rsums. unfold closed2. cbv zeta. set (q := 1 - Sn k * (Sn k * (Sy k / Sx k))) in *. clearbody q. field. lra.
Qed.
Lemma closed2_pos k : good2 k -> 0 < Sg k -> positive 3 (closed2 k).
Proof.
  intros G P x (i & Hi & Nx). rewrite strain_energy2 by exact G. destruct G as (X & Y & _ & M).
  assert (Q : 0 < m2 k * (Sy k / Sx k)) by (apply Rmult_lt_0_compat; [exact M|apply Rdiv_lt_0_compat; assumption]).
  assert (B : 0 < Sx k * Sy k - Sn k * Sy k * (Sn k * Sy k)).
  { replace (Sx k * Sy k - Sn k * Sy k * (Sn k * Sy k)) with (Sy k * Sy k * m2 k) by (unfold m2; field; lra). apply Rmult_lt_0_compat; [nra|exact M]. }
  rewrite (m2_q k X Y). pose proof (Rmult_le_pos _ _ (Rlt_le _ _ P) (Rle_0_sqr (x 2%nat))) as S2. unfold Rsqr in S2.
  destruct i as [|[|[|i]]]; [| | |lia].
  - pose proof (binary_pos _ _ _ (x 0%nat) (x 1%nat) (Rlt_le _ _ X) B (or_introl Nx)) as W. apply Rplus_lt_le_0_compat; [apply Rdiv_lt_0_compat; assumption|exact S2].
  - pose proof (binary_pos _ _ _ (x 0%nat) (x 1%nat) (Rlt_le _ _ X) B (or_intror Nx)) as W. apply Rplus_lt_le_0_compat; [apply Rdiv_lt_0_compat; assumption|exact S2].
  - pose proof (binary_nonneg _ _ _ (x 0%nat) (x 1%nat) (Rlt_le _ _ X) (Rlt_le _ _ Y) (Rlt_le _ _ B)) as W.
    apply Rplus_le_lt_0_compat; [apply Rmult_le_pos; [exact W|left; apply Rinv_0_lt_compat; exact Q]|]. apply Rmult_lt_0_compat; [exact P|apply sq_pos; exact Nx].
Qed.
Lemma closed2_nonneg k x : good2 k -> 0 <= energy 3 (closed2 k) x.
Proof.
  intros G. rewrite strain_energy2 by exact G. destruct G as (X & Y & P & M).
  assert (Q : 0 < m2 k * (Sy k / Sx k)) by (apply Rmult_lt_0_compat; [exact M|apply Rdiv_lt_0_compat; assumption]).
  assert (B : 0 < Sx k * Sy k - Sn k * Sy k * (Sn k * Sy k)).
  { replace (Sx k * Sy k - Sn k * Sy k * (Sn k * Sy k)) with (Sy k * Sy k * m2 k) by (unfold m2; field; lra). apply Rmult_lt_0_compat; [nra|exact M]. }
  rewrite (m2_q k X Y). pose proof (Rmult_le_pos _ _ P (Rle_0_sqr (x 2%nat))) as S2. unfold Rsqr in S2.
  pose proof (binary_nonneg _ _ _ (x 0%nat) (x 1%nat) (Rlt_le _ _ X) (Rlt_le _ _ Y) (Rlt_le _ _ B)) as W.
  apply Rplus_le_le_0_compat; [apply Rmult_le_pos; [exact W|left; apply Rinv_0_lt_compat; exact Q]|exact S2].
Qed.
Definition normal2 (k : sheet) (x y : R) : R := x * x / Sx k + y * y / Sy k - 2 * Sn k / Sx k * (x * y).
Lemma energy_compliance2 k s : energy 3 (compliance2 k) s = normal2 k (s 0%nat) (s 1%nat) + s 2%nat * s 2%nat / Sg k.
Proof. unfold energy, apply, normal2. rsums. unfold compliance2, Rdiv. ring. Qed.
Lemma normal2_split k x y : 0 < Sx k -> 0 < Sy k -> Sx k * normal2 k x y = (x - Sn k * y) * (x - Sn k * y) + m2 k * (y * y).
Proof. intros. unfold normal2, m2. field. lra. Qed.
Lemma stable2_good k : stable2 k -> good2 k.
Proof.
  intros ((X & Y & G) & P). assert (Q : nonzero 3 (vec3 (Sn k) 1 0)) by (exists 1%nat; split; [lia|cbn; lra]). specialize (P _ Q).
  rewrite energy_compliance2 in P. cbn [vec3] in P. unfold Rdiv in P at 1. rewrite !Rmult_0_l, Rplus_0_r in P. apply (Rmult_lt_compat_l (Sx k)) in P; [|exact X].
  rewrite Rmult_0_r, normal2_split in P by assumption. ring_simplify in P. unfold good2. repeat split; lra.
Qed.
Lemma unstable2_throw p k : entered2 p k -> 0 < Sx k -> 0 < Sy k -> 0 <= Sg k -> m2 k < 0 -> ortho_material 2 p = Throw.
Proof.
  intros H X Y G M. unfold ortho_material. rewrite (require2 p k H). cbn [rbind]. unfold stability2. getall2 H.
  assert (R0 : forall r, 0 <= r -> Rltb r 0 = false) by (intros; apply Rltb_false; assumption).
  rewrite !R0 by lra. cbn [reject rbind]. unfold m2 in M. rewrite (poisson_throw (Sn k)) by lra. reflexivity.
Qed.
