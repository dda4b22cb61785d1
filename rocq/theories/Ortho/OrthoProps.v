(** Properties of the orthotropic material (C94). *)
From Coq Require Import Reals List Arith Bool String Lra Lia.
From Verif Require Import Base.Field Base.Sums Base.Res Element.ElementModel Element.ElementProof Element.MaterialModel Ortho.OrthoModel Ortho.OrthoSpec Ortho.OrthoProof.
Import ListNotations.
Local Open Scope R_scope.

(** Every mechanically possible material is accepted, and the stored stiffness is the inverse of its compliance and stores energy under every strain. *)
Theorem C94_stable_accepted :
  (forall p k, entered3 p k -> stable3 k ->
     exists C, ortho_material 3 p = Ok C /\ inverse 6 (compliance3 k) C /\ positive 6 C /\ forall i j, C i j = C j i) /\
  (forall p k, entered2 p k -> stable2 k ->
     exists C, ortho_material 2 p = Ok C /\ inverse 3 (compliance2 k) C /\ positive 3 C /\ forall i j, C i j = C j i).
Proof.
  split; intros p k H S.
  - pose proof (stable3_good k S) as G. destruct (accepted3_conv p k H G) as (C & E & F). destruct S as ((X & Y & Z & G1 & G2 & G3) & _).
    exists C. split; [exact E|]. split; [|split].
    + apply inverse_ext with (closed3 k); [intros; symmetry; apply F|]. apply inverse3; assumption.
    + intros x N. rewrite (energy_ext 6 C (closed3 k) x F). apply closed3_pos; assumption.
    + intros i j. rewrite !F. unfold closed3. cbv zeta. destruct i as [|[|[|[|[|[|i]]]]]]; destruct j as [|[|[|[|[|[|j]]]]]]; reflexivity.
  - pose proof (stable2_good k S) as G. destruct (accepted2_conv p k H G) as (C & E & F). destruct S as ((X & Y & G1) & _).
    exists C. split; [exact E|]. split; [|split].
    + apply inverse_ext with (closed2 k); [intros; symmetry; apply F|]. apply inverse2; assumption.
    + intros x N. rewrite (energy_ext 3 C (closed2 k) x F). apply closed2_pos; assumption.
    + intros i j. rewrite !F. unfold closed2. cbv zeta. destruct i as [|[|[|i]]]; destruct j as [|[|[|j]]]; reflexivity.
Qed.

(** A material with positive moduli under which some load would release energy is refused. *)
Theorem C94_unstable_rejected :
  (forall p k s, entered3 p k -> 0 < Ex k -> 0 < Ey k -> 0 < Ez k -> 0 < Gxy k -> 0 < Gxz k -> 0 < Gyz k ->
     energy 6 (compliance3 k) s < 0 -> ortho_material 3 p = Throw) /\
  (forall p k s, entered2 p k -> 0 < Sx k -> 0 < Sy k -> 0 < Sg k -> energy 3 (compliance2 k) s < 0 -> ortho_material 2 p = Throw).
Proof.
  split.
  - intros p k s H X Y Z G1 G2 G3 N. apply (unstable3_throw p k H); try lra.
    destruct (Rlt_le_dec (m12 k) 0) as [|L1]; [tauto|]. destruct (Rlt_le_dec (m23 k) 0) as [|L2]; [tauto|]. destruct (Rlt_le_dec (m13 k) 0) as [|L3]; [tauto|].
    destruct (Rlt_le_dec (det k) 0) as [|L4]; [tauto|]. exfalso. rewrite energy_compliance3 in N.
    pose proof (normal3_nonneg k (s 0%nat) (s 1%nat) (s 2%nat) X Y Z L1 L3 L4).
    assert (Q : forall a g, 0 < g -> 0 <= a * a / g) by (intros a g Pg; apply Rmult_le_pos; [apply Rle_0_sqr|left; apply Rinv_0_lt_compat; exact Pg]).
    pose proof (Q (s 3%nat) _ G3). pose proof (Q (s 4%nat) _ G2). pose proof (Q (s 5%nat) _ G1). lra.
  - intros p k s H X Y G N. apply (unstable2_throw p k H); try lra. destruct (Rlt_le_dec (m2 k) 0) as [|L1]; [assumption|]. exfalso.
    rewrite energy_compliance2 in N. assert (Q : 0 <= s 2%nat * s 2%nat / Sg k) by (apply Rmult_le_pos; [apply Rle_0_sqr|left; apply Rinv_0_lt_compat; exact G]).
    assert (W : 0 <= normal2 k (s 0%nat) (s 1%nat)).
    { apply Rmult_le_reg_l with (Sx k); [exact X|]. rewrite Rmult_0_r, normal2_split by assumption. apply Rplus_le_le_0_compat; [apply Rle_0_sqr|apply Rmult_le_pos; [exact L1|apply Rle_0_sqr]]. }
    lra.
Qed.

(** Whatever is accepted has positive Young's moduli, never releases energy, and with non-zero shear moduli is a stable material whose stiffness inverts its
    compliance.  What is missing from the full claim: see C94_refuted. *)
Theorem C94_accepted_partial :
  (forall p k C, entered3 p k -> ortho_material 3 p = Ok C ->
     0 < Ex k /\ 0 < Ey k /\ 0 < Ez k /\ (forall x, 0 <= energy 6 C x) /\
     (Gxy k <> 0 -> Gxz k <> 0 -> Gyz k <> 0 -> positive 6 C /\ inverse 6 (compliance3 k) C)) /\
  (forall p k C, entered2 p k -> ortho_material 2 p = Ok C ->
     0 < Sx k /\ 0 < Sy k /\ (forall x, 0 <= energy 3 C x) /\ (Sg k <> 0 -> positive 3 C /\ inverse 3 (compliance2 k) C)).
Proof.
  split.
  - intros p k C H E. destruct (accepted3 p k C H E) as [G F]. pose proof G as ((X & Y & Z) & (G1 & G2 & G3) & _).
    split; [exact X|]. split; [exact Y|]. split; [exact Z|]. split.
    + intros x. rewrite (energy_ext 6 C (closed3 k) x F). apply closed3_nonneg. exact G.
    + intros N1 N2 N3. split.
      * intros x N. rewrite (energy_ext 6 C (closed3 k) x F). apply closed3_pos; auto; lra.
      * apply inverse_ext with (closed3 k); [intros; symmetry; apply F|]. apply inverse3; auto; lra.
  - intros p k C H E. destruct (accepted2 p k C H E) as [G F]. pose proof G as (X & Y & Gs & _).
    split; [exact X|]. split; [exact Y|]. split.
    + intros x. rewrite (energy_ext 3 C (closed2 k) x F). apply closed2_nonneg. exact G.
    + intros N. split.
      * intros x Nx. rewrite (energy_ext 3 C (closed2 k) x F). apply closed2_pos; auto; lra.
      * apply inverse_ext with (closed2 k); [intros; symmetry; apply F|]. apply inverse2; auto; lra.
Qed.

(** The full claim, and why it fails: "must be positive" is tested as "not negative", so a zero shear modulus is accepted. *)
Definition accepted_is_stable : Prop := forall p k C, entered3 p k -> ortho_material 3 p = Ok C -> positive 6 C.
Definition soft : solid := {| Ex := 1; Ey := 1; Ez := 1; Gxy := 0; Gxz := 1; Gyz := 1; nuxy := 0; nuxz := 0; nuyz := 0 |}.
Local Open Scope string_scope.
Definition input3 (k : solid) (s : string) : option R :=
  if s =? "Youngs Modulus X" then Some (Ex k) else if s =? "Youngs Modulus Y" then Some (Ey k) else if s =? "Youngs Modulus Z" then Some (Ez k)
  else if s =? "Shear Modulus XY" then Some (Gxy k) else if s =? "Shear Modulus XZ" then Some (Gxz k) else if s =? "Shear Modulus YZ" then Some (Gyz k)
  else if s =? "Poissons Ratio XY" then Some (nuxy k) else if s =? "Poissons Ratio XZ" then Some (nuxz k) else if s =? "Poissons Ratio YZ" then Some (nuyz k) else None.
Definition input2 (k : sheet) (s : string) : option R :=
  if s =? "Youngs Modulus X" then Some (Sx k) else if s =? "Youngs Modulus Y" then Some (Sy k) else if s =? "Shear Modulus XY" then Some (Sg k)
  else if s =? "Poissons Ratio XY" then Some (Sn k) else None.
Local Close Scope string_scope.
Lemma input3_entered k : entered3 (input3 k) k.
Proof. repeat split; reflexivity. Qed.
Lemma input2_entered k : entered2 (input2 k) k.
Proof. repeat split; reflexivity. Qed.
Theorem C94_refuted : ~ accepted_is_stable.
Proof.
  intros H. assert (G : good3 soft). { unfold good3, m12, m23, m13, det. cbn. repeat split; lra. }
  destruct (accepted3_conv _ _ (input3_entered soft) G) as (C & E & F).
  assert (N : nonzero 6 (fun i => if Nat.eqb i 5 then 1 else 0)) by (exists 5%nat; split; [lia|cbn; lra]).
  pose proof (H _ _ _ (input3_entered soft) E _ N) as P. rewrite (energy_ext 6 C (closed3 soft) _ F), (strain_energy3 soft _ G) in P.
  unfold stress3, normal3 in P. cbn [Nat.eqb soft Ex Ey Ez Gxy Gxz Gyz nuxy nuxz nuyz] in P. unfold Rdiv in P. ring_simplify in P. lra.
Qed.

(** Input on the edge of the tests passes them and leaves infinities or NaNs in the stiffness: a zero Young's modulus, and a Poisson ratio equal to its limit. *)
Theorem C94_edge_not_a_number :
  (forall p k, entered3 p k -> 0 <= Ex k -> Ey k = 0 -> 0 <= Ez k -> 0 <= Gxy k -> 0 <= Gxz k -> 0 <= Gyz k -> ortho_material 3 p = UB) /\
  (forall p k, entered2 p k -> 0 < Sx k -> 0 < Sy k -> 0 <= Sg k -> Sn k * Sn k = Sx k / Sy k -> ortho_material 2 p = UB).
Proof.
  split.
  - intros p k H X Y Z G1 G2 G3. unfold ortho_material. rewrite (require3 p k H). cbn [rbind]. unfold stability3. getall H.
    assert (R0 : forall r, 0 <= r -> Rltb r 0 = false) by (intros; apply Rltb_false; assumption).
    rewrite !R0 by lra. cbn [reject rbind]. unfold poisson_check, quot. destruct (Req_EM_T (Ey k) 0) as [_|N]; [reflexivity|contradiction].
  - intros p k H X Y G M. unfold ortho_material. rewrite (require2 p k H). cbn [rbind]. unfold stability2, stiffness2. getall2 H.
    assert (R0 : forall r, 0 <= r -> Rltb r 0 = false) by (intros; apply Rltb_false; assumption).
    rewrite !R0 by lra. cbn [reject rbind]. rewrite (poisson_ok (Sn k)) by lra. cbn [rbind]. rewrite !(quot_ok _ (Sx k)) by lra. cbn [rbind].
    rewrite (poisson_ok _ (Sy k) (Sx k)); [|lra|lra|apply (proj1 (poisson_rec (Sn k) _ _ X Y)); lra]. cbn [rbind].
    unfold quot at 1. destruct (Req_EM_T _ 0) as [_|N]; [reflexivity|]. exfalso. apply N. rewrite (m2_q k X Y). unfold m2. rewrite M. ring.
Qed.

(** A missing keyword is refused. *)
Theorem C94_missing_rejected : forall d p key, (1 <= d <= 3)%nat ->
  In key (match d with 1%nat => keys1 | 2%nat => keys2 | _ => keys3 end) -> p key = None -> ortho_material d p = Throw.
Proof.
  intros d p key Hd Hk Hp.
  assert (R : forall ks, In key ks -> require p ks = Throw).
  { induction ks as [|a r IH]; [intros []|]. intros [->|I]; cbn [require]; [rewrite Hp; reflexivity|]. destruct (p a); [apply IH, I|reflexivity]. }
  dims d; cbn [ortho_material]; rewrite (R _ Hk); reflexivity.
Qed.

(** A solid entered with the constants of an isotropic material is that isotropic material; so is a bar. *)
Theorem C94_isotropic : forall E v, 0 < E -> -1 < v < 1 / 2 ->
  (forall p, let g := E / (2 * (1 + v)) in
     entered3 p {| Ex := E; Ey := E; Ez := E; Gxy := g; Gxz := g; Gyz := g; nuxy := v; nuxz := v; nuyz := v |} ->
     exists C, ortho_material 3 p = Ok C /\ forall i j, (i < 6)%nat -> (j < 6)%nat -> C i j = isotropic_material 3 E v i j) /\
  (forall p, p "Youngs Modulus"%string = Some E -> p "Poissons Ratio"%string = Some v ->
     exists C, ortho_material 1 p = Ok C /\ C 0%nat 0%nat = isotropic_material 1 E v 0 0).
Proof.
  intros E v HE Hv. assert (Q : E / E = 1) by (field; lra). split.
  - intros p g H. set (k := {| Ex := E; Ey := E; Ez := E; Gxy := g; Gxz := g; Gyz := g; nuxy := v; nuxz := v; nuyz := v |}) in *.
    assert (Dk : det k = (1 + v) * (1 + v) * (1 - 2 * v)) by (unfold det; cbn [k Ex Ey Ez nuxy nuxz nuyz]; rewrite Q; ring).
    assert (Pg : 0 < g) by (apply Rdiv_lt_0_compat; lra).
    assert (V : v * v < 1) by nra.
    assert (G : good3 k). { unfold good3. rewrite Dk. unfold m12, m23, m13. cbn [k Ex Ey Ez Gxy Gxz Gyz nuxy nuxz nuyz]. rewrite Q. repeat split; try lra. repeat apply Rmult_lt_0_compat; lra. }
    destruct (accepted3_conv p k H G) as (C & EC & F). exists C. split; [exact EC|]. intros i j Hi Hj. rewrite F. unfold closed3, isotropic_material, voigt_pattern. rewrite Dk. cbv zeta. cbn [k Ex Ey Ez Gxy Gxz Gyz nuxy nuxz nuyz]. rewrite Q. unfold g.
    do 6 (destruct i as [|i]; [do 6 (destruct j as [|j]; [cbn [Nat.ltb Nat.leb Nat.eqb andb]; try reflexivity; field; lra|]); lia|]). lia.
  - intros p HE' Hv'. unfold ortho_material, keys1, require. rewrite HE', Hv'. cbn [rbind]. unfold stiffness1, get. rewrite HE', Hv'. cbn [rbind].
    rewrite quot_ok by (apply Rmult_integral_contrapositive_currified; lra). cbn [rbind]. eexists. split; [reflexivity|]. unfold isotropic_material, voigt_pattern. cbn. field. lra.
Qed.
(** In the plane it is not: the orthotropic sheet is in plane stress, the isotropic material in plane strain. *)
Theorem C94_isotropic_sheet_differs : forall E v p, 0 < E -> 0 < v < 1 / 2 ->
  entered2 p {| Sx := E; Sy := E; Sg := E / (2 * (1 + v)); Sn := v |} ->
  exists C, ortho_material 2 p = Ok C /\ C 0%nat 0%nat < isotropic_material 2 E v 0 0 /\ C 0%nat 1%nat < isotropic_material 2 E v 0 1.
Proof.
  intros E v p HE Hv H. set (k := {| Sx := E; Sy := E; Sg := E / (2 * (1 + v)); Sn := v |}) in *.
  assert (Q : E / E = 1) by (field; lra). assert (Pg : 0 < E / (2 * (1 + v))) by (apply Rdiv_lt_0_compat; lra).
  assert (V : v * v < 1) by nra.
  assert (G : good2 k). { unfold good2, m2. cbn [k Sx Sy Sg Sn]. rewrite Q. repeat split; lra. }
  destruct (accepted2_conv p k H G) as (C & EC & F). exists C. split; [exact EC|]. rewrite !F. unfold closed2, isotropic_material, voigt_pattern. cbv zeta. cbn [k Sx Sy Sg Sn Nat.ltb Nat.leb Nat.eqb andb]. rewrite Q.
  assert (P1 : 0 < (1 + v) * (1 - 2 * v)) by nra. split.
  - replace (E / ((1 + v) * (1 - 2 * v)) * (1 - v)) with (E / (1 - v * (v * 1)) * ((1 - v) * (1 - v) / (1 - 2 * v))) by (field; repeat split; nra).
    rewrite <- (Rmult_1_r (E / (1 - v * (v * 1)))) at 1. apply Rmult_lt_compat_l; [apply Rdiv_lt_0_compat; nra|].
    apply Rmult_lt_reg_r with (1 - 2 * v); [lra|]. unfold Rdiv. rewrite Rmult_assoc, Rinv_l by lra. nra.
  - replace (E / ((1 + v) * (1 - 2 * v)) * v) with (v * E / (1 - v * (v * 1)) * ((1 - v) / (1 - 2 * v))) by (field; repeat split; nra).
    rewrite <- (Rmult_1_r (v * E / (1 - v * (v * 1)))) at 1. apply Rmult_lt_compat_l; [apply Rdiv_lt_0_compat; nra|].
    apply Rmult_lt_reg_r with (1 - 2 * v); [lra|]. unfold Rdiv. rewrite Rmult_assoc, Rinv_l by lra. nra.
Qed.

(** Density: the entered one, else 1. *)
Theorem C94_density : forall p, (forall r, p "Mass Density"%string = Some r -> ortho_density p = r) /\ (p "Mass Density"%string = None -> ortho_density p = 1).
Proof. intros p. unfold ortho_density, get_or. split; [intros r ->; reflexivity|intros ->; reflexivity]. Qed.

(** A carbon-fibre-like solid and sheet meet the hypotheses. *)
Definition fibre : solid := {| Ex := 140; Ey := 10; Ez := 9; Gxy := 5; Gxz := 4; Gyz := 3; nuxy := 3 / 10; nuxz := 1 / 5; nuyz := 2 / 5 |}.
Example C94_fibre_accepted : entered3 (input3 fibre) fibre /\ exists C, ortho_material 3 (input3 fibre) = Ok C /\ positive 6 C.
Proof.
  split; [apply input3_entered|]. assert (G : good3 fibre). { unfold good3, m12, m23, m13, det. cbn. repeat split; lra. }
  destruct (accepted3_conv _ _ (input3_entered fibre) G) as (C & E & F). exists C. split; [exact E|].
  intros x N. rewrite (energy_ext 6 C (closed3 fibre) x F). apply closed3_pos; auto; cbn; lra.
Qed.
Definition bad_sheet : sheet := {| Sx := 1; Sy := 4; Sg := 1; Sn := 1 |}.
Example C94_bad_sheet : entered2 (input2 bad_sheet) bad_sheet /\ energy 3 (compliance2 bad_sheet) (vec3 1 1 0) < 0 /\ ortho_material 2 (input2 bad_sheet) = Throw.
Proof.
  split; [apply input2_entered|]. assert (N : energy 3 (compliance2 bad_sheet) (vec3 1 1 0) < 0) by (rewrite energy_compliance2; unfold normal2; cbn; lra).
  split; [exact N|]. apply (proj2 C94_unstable_rejected _ _ _ (input2_entered bad_sheet)) with (4 := N); cbn; lra.
Qed.

Print Assumptions C94_stable_accepted.
Print Assumptions C94_unstable_rejected.
Print Assumptions C94_accepted_partial.
Print Assumptions C94_refuted.
Print Assumptions C94_edge_not_a_number.
Print Assumptions C94_missing_rejected.
Print Assumptions C94_isotropic.
Print Assumptions C94_isotropic_sheet_differs.
Print Assumptions C94_density.
