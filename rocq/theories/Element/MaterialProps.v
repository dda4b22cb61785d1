(** C33-C37, C70: stiffness, stress laws, principal values, von Mises measure. *)
From Coq Require Import Reals List Arith Bool Lia Lra String.
From Verif Require Import Base.Field Base.Sums Base.Res Element.ElementModel Element.ElementProof Element.MaterialModel Element.ElementSpec Element.MaterialSpec Element.JacobiProof.
Import ListNotations.
Local Open Scope R_scope.

Lemma hooke_pattern d a b c lam mu : (1 <= d <= 3)%nat -> a = lam + 2 * mu -> b = lam -> c = mu ->
  forall e i, (i < num_voigt d)%nat -> rs (num_voigt d) (fun j => e j * voigt_pattern d a b c i j) = hooke d lam mu e i.
Proof.
  intros Hd -> -> -> e i Hi. dims d; cbn in Hi; destruct i as [|[|[|[|[|[|i]]]]]]; try lia; unfold hooke, voigt_pattern; rsx; cbn; rsx; ring.
Qed.
Lemma pattern_sym d a b c i j : voigt_pattern d a b c i j = voigt_pattern d a b c j i.
Proof.
  unfold voigt_pattern. rewrite (Bool.andb_comm (Nat.ltb j d)), (Nat.eqb_sym j i). reflexivity.
Qed.
Lemma admissible_den E v : admissible E v -> 0 < 1 + v /\ 0 < 1 - 2 * v.
Proof. unfold admissible. lra. Qed.

(** ** C33 *)
Theorem C33_stiffness : forall d E v, (1 <= d <= 3)%nat -> admissible E v ->
  forall C, C = isotropic_material d E v \/ C = isotropic_constant d E v ->
  (forall e i, (i < num_voigt d)%nat -> linear_stress (num_voigt d) C (fun _ => 0) e i = hooke d (lame E v) (shear_mod E v) e i) /\
  (forall i j, C i j = C j i) /\
  (forall e, (exists i, (i < num_voigt d)%nat /\ e i <> 0) ->
     0 < rs (num_voigt d) (fun i => e i * linear_stress (num_voigt d) C (fun _ => 0) e i)).
Proof.
  intros d E v Hd Ha C HC. destruct (admissible_den E v Ha) as [P1 P2].
  assert (A : forall e i, (i < num_voigt d)%nat -> linear_stress (num_voigt d) C (fun _ => 0) e i = hooke d (lame E v) (shear_mod E v) e i).
  { intros e i Hi. unfold linear_stress.
    rewrite (rsum_ext _ _ (fun j => e j * C i j)) by (intros; req; ring).
    destruct HC as [->| ->]; (apply hooke_pattern; [exact Hd| | | |exact Hi]; unfold lame, shear_mod; field; lra). }
  split; [exact A|]. split.
  - intros i j. destruct HC as [->| ->]; apply pattern_sym.
  - intros e He. unfold rs. rewrite (rsum_ext _ _ (fun i => e i * hooke d (lame E v) (shear_mod E v) e i)) by (intros i Hi; rewrite A by exact Hi; reflexivity).
    assert (M : 0 < shear_mod E v) by (unfold shear_mod; apply Rdiv_lt_0_compat; unfold admissible in Ha; lra).
    assert (B : 0 < 3 * lame E v + 2 * shear_mod E v).
    { replace (3 * lame E v + 2 * shear_mod E v) with (E / (1 - 2 * v)) by (unfold lame, shear_mod; field; lra). apply Rdiv_lt_0_compat; unfold admissible in Ha; lra. }
    set (lam := lame E v) in *. set (mu := shear_mod E v) in *. clearbody lam mu. clear A HC.
    assert (SQ : forall a : R, 0 <= a * a) by (intros; apply Rle_0_sqr).
    assert (SP : forall a : R, a <> 0 -> 0 < a * a) by (intros; apply Rsqr_pos_lt; assumption).
    dims d; unfold hooke; rsx; cbn; rsx.
    + destruct He as (i & Hi & Hn). cbn in Hi. assert (i = 0)%nat by lia. subst i. pose proof (SP _ Hn). nra.
    + set (x := e 0%nat) in *. set (y := e 1%nat) in *. set (z := e 2%nat) in *.
      replace (0 + x * (lam * (0 + x + y) + 2 * mu * x) + y * (lam * (0 + x + y) + 2 * mu * y) + z * (mu * z))
        with ((lam + mu) * ((x + y) * (x + y)) + mu * ((x - y) * (x - y)) + mu * (z * z)) by ring.
      assert (L : 0 < lam + mu) by lra.
      pose proof (SQ (x + y)). pose proof (SQ (x - y)). pose proof (SQ z).
      assert (T1 : 0 <= (lam + mu) * ((x + y) * (x + y))) by (apply Rmult_le_pos; lra).
      assert (T2 : 0 <= mu * ((x - y) * (x - y))) by (apply Rmult_le_pos; lra).
      assert (T3 : 0 <= mu * (z * z)) by (apply Rmult_le_pos; lra).
      destruct (Req_dec z 0) as [Ez|Nz]; [|pose proof (SP _ Nz); assert (0 < mu * (z * z)) by (apply Rmult_lt_0_compat; lra); lra].
      destruct (Req_dec (x - y) 0) as [Ed|Nd]; [|pose proof (SP _ Nd); assert (0 < mu * ((x - y) * (x - y))) by (apply Rmult_lt_0_compat; lra); lra].
      assert (Ns : x + y <> 0).
      { intros Es. destruct He as (i & Hi & Hn). cbn in Hi. destruct i as [|[|[|i]]]; try lia; apply Hn; [fold x|fold y|fold z]; lra. }
      pose proof (SP _ Ns). assert (0 < (lam + mu) * ((x + y) * (x + y))) by (apply Rmult_lt_0_compat; lra). lra.
    + set (x := e 0%nat) in *. set (y := e 1%nat) in *. set (z := e 2%nat) in *. set (p := e 3%nat) in *. set (q := e 4%nat) in *. set (r := e 5%nat) in *.
      match goal with |- 0 < ?g => replace g with ((lam + 2 * mu / 3) * ((x + y + z) * (x + y + z)) + 2 * mu / 3 * ((x - y) * (x - y) + (y - z) * (y - z) + (x - z) * (x - z)) + mu * (p * p + q * q + r * r)) by field end.
      assert (L : 0 < lam + 2 * mu / 3) by lra.
      pose proof (SQ (x + y + z)). pose proof (SQ (x - y)). pose proof (SQ (y - z)). pose proof (SQ (x - z)). pose proof (SQ p). pose proof (SQ q). pose proof (SQ r).
      assert (T1 : 0 <= (lam + 2 * mu / 3) * ((x + y + z) * (x + y + z))) by (apply Rmult_le_pos; lra).
      assert (T2 : 0 <= 2 * mu / 3 * ((x - y) * (x - y) + (y - z) * (y - z) + (x - z) * (x - z))) by (apply Rmult_le_pos; lra).
      assert (T3 : 0 <= mu * (p * p + q * q + r * r)) by (apply Rmult_le_pos; lra).
      destruct (Rle_lt_dec (p * p + q * q + r * r) 0) as [Zs|Ps]; [|assert (0 < mu * (p * p + q * q + r * r)) by (apply Rmult_lt_0_compat; lra); lra].
      destruct (Rle_lt_dec ((x - y) * (x - y) + (y - z) * (y - z) + (x - z) * (x - z)) 0) as [Zd|Pd]; [|assert (0 < 2 * mu / 3 * ((x - y) * (x - y) + (y - z) * (y - z) + (x - z) * (x - z))) by (apply Rmult_lt_0_compat; lra); lra].
      destruct (Req_dec (x + y + z) 0) as [Es|Ns]; [exfalso|pose proof (SP _ Ns); assert (0 < (lam + 2 * mu / 3) * ((x + y + z) * (x + y + z))) by (apply Rmult_lt_0_compat; lra); lra].
      assert (R0 : forall a, a * a <= 0 -> a = 0) by (intros a Hl; destruct (Req_dec a 0) as [|N]; [assumption|pose proof (SP _ N); lra]).
      assert (p = 0) by (apply R0; lra). assert (q = 0) by (apply R0; lra). assert (r = 0) by (apply R0; lra).
      assert (x - y = 0) by (apply R0; lra). assert (y - z = 0) by (apply R0; lra).
      destruct He as (i & Hi & Hn). cbn in Hi. destruct i as [|[|[|[|[|[|i]]]]]]; try lia; apply Hn; [fold x|fold y|fold z|fold p|fold q|fold r]; lra.
Qed.
Print Assumptions C33_stiffness.
Example C33_case : admissible 210 (3 / 10) /\ admissible 1 (- / 2). Proof. unfold admissible. lra. Qed.

(** The temperature-dependent version in two and three dimensions is the constant one at E(T) = E0 + E1 T + E2 T^2. *)
Theorem C33_functor_partial : forall d E0 E1 E2 v T i j, (2 <= d <= 3)%nat ->
  isotropic_functor d E0 E1 E2 v T i j = isotropic_constant d (E0 + E1 * T + E2 * T * T) v i j.
Proof.
  intros d E0 E1 E2 v T i j Hd. unfold isotropic_functor, isotropic_constant, functor_at, voigt_pattern.
  destruct d as [|[|[|[|d]]]]; try lia; destruct (Nat.ltb i _ && Nat.ltb j _)%bool; destruct (Nat.eqb i j); ring.
Qed.
Print Assumptions C33_functor_partial.
Theorem C33_functor_refuted : ~ (forall d E0 E1 E2 v T i j, (1 <= d <= 3)%nat -> admissible (E0 + E1 * T + E2 * T * T) v -> (i < num_voigt d)%nat -> (j < num_voigt d)%nat ->
  isotropic_functor d E0 E1 E2 v T i j = isotropic_constant d (E0 + E1 * T + E2 * T * T) v i j).
Proof.
  intros H. specialize (H 1%nat 1 0 0 (1 / 4) 0 0%nat 0%nat ltac:(lia) ltac:(unfold admissible; lra) ltac:(cbn; lia) ltac:(cbn; lia)).
  unfold isotropic_functor, isotropic_constant, functor_at, voigt_pattern in H. cbn in H. lra.
Qed.
Print Assumptions C33_functor_refuted.

(** The reference strain only shifts the strain and the default pressure scaling is the bulk modulus. *)
Theorem C33_reference_and_pressure : forall d E v ref e i, (1 <= d <= 3)%nat -> admissible E v -> (i < num_voigt d)%nat ->
  linear_stress (num_voigt d) (isotropic_material d E v) ref e i = hooke d (lame E v) (shear_mod E v) (fun j => e j - ref j) i /\
  pressure_scaling E v = lame E v + 2 * shear_mod E v / 3.
Proof.
  intros d E v ref e i Hd Ha Hi. destruct (admissible_den E v Ha) as [P1 P2]. split.
  - rewrite <- (proj1 (C33_stiffness d E v Hd Ha _ (or_introl eq_refl)) (fun j => e j - ref j) i Hi). unfold linear_stress.
    apply rsum_ext. intros. req. ring.
  - unfold pressure_scaling, lame, shear_mod. field. lra.
Qed.
Print Assumptions C33_reference_and_pressure.
(** Stiffness-proportional damping: along every strain history with the given rates the damped stress is the stress plus b times its time derivative. *)
Theorem C33_rayleigh : forall nv C ref b (e : nat -> R -> R) vg t i, (forall j, (j < nv)%nat -> derivable_pt_lim (e j) t (vg j)) ->
  exists rate, derivable_pt_lim (fun t => linear_stress nv C ref (fun j => e j t) i) t rate /\
    linear_stress_rayleigh nv C ref b (fun j => e j t) vg i = linear_stress nv C ref (fun j => e j t) i + b * rate.
Proof.
  intros nv C ref b e vg t i. induction nv as [|nv IH]; intros H.
  - exists 0. split; [apply (derivable_pt_lim_const 0)|]. change (0 = 0 + b * 0). ring.
  - destruct IH as (r & H1 & H2); [intros j Hj; apply H; lia|]. exists (r + vg nv * C i nv). split.
    + unfold linear_stress. cbn [sum]. change (@radd R_ring) with Rplus. apply (derivable_pt_lim_plus (fun t => linear_stress nv C ref (fun j => e j t) i) (fun t => (e nv t - ref nv) * C i nv)); [exact H1|].
      replace (vg nv * C i nv) with ((vg nv - 0) * C i nv + (e nv t - ref nv) * 0) by ring.
      apply (derivable_pt_lim_mult (fun t => e nv t - ref nv) (fun _ => C i nv)); [|apply derivable_pt_lim_const].
      apply (derivable_pt_lim_minus (e nv) (fun _ => ref nv)); [apply H; lia|apply derivable_pt_lim_const].
    + unfold linear_stress_rayleigh, linear_stress in *. cbn [sum]. change (@radd R_ring) with Rplus. rewrite H2. req. ring.
Qed.
Print Assumptions C33_rayleigh.
Example C33_rayleigh_case : forall j, (j < 3)%nat -> derivable_pt_lim (fun t => INR j * t) 5 (INR j).
Proof. intros j _. pose proof (derivable_pt_lim_scal id (INR j) 5 1 (derivable_pt_lim_id 5)) as H. rewrite Rmult_1_r in H. exact H. Qed.

(** ** C70: user-given stiffness: always symmetric, missing entries follow the cubic pattern, and the temperature-dependent form is
    the constant form of the interpolated values. *)
Lemma sym_entry_sym l i j : sym_entry i j l = sym_entry j i l.
Proof.
  unfold sym_entry. induction l as [|[[a b] r] l IH]; [reflexivity|]. cbn [find].
  destruct ((Nat.eqb a i && Nat.eqb b j) || (Nat.eqb a j && Nat.eqb b i))%bool eqn:E1;
    destruct ((Nat.eqb a j && Nat.eqb b i) || (Nat.eqb a i && Nat.eqb b j))%bool eqn:E2; try reflexivity; [| |exact IH];
    rewrite Bool.orb_comm in E1; rewrite E1 in E2; discriminate E2.
Qed.
Theorem C70_symmetric : forall d p,
  (forall C, rank4_constant d p = Ok C -> forall i j, C i j = C j i) /\
  (forall F, rank4_functor d p = Ok F -> forall T i j, F T i j = F T j i).
Proof.
  intros d p. split.
  - intros C H i j. destruct d as [|[|[|d]]]; cbn in H; repeat (match type of H with context [get p ?k] => destruct (get p k); cbn in H; try discriminate H end);
      injection H as <-; apply sym_entry_sym.
  - intros F H T i j. destruct d as [|[|[|d]]]; cbn in H; repeat (match type of H with context [get p ?k] => destruct (get p k); cbn in H; try discriminate H end);
      injection H as <-; unfold functor_at; rewrite !(sym_entry_sym _ i j); reflexivity.
Qed.
Print Assumptions C70_symmetric.
(** Exactly the required keys are needed. *)
Theorem C70_required : forall d p, (1 <= d <= 3)%nat ->
  ((exists C, rank4_constant d p = Ok C) <-> (p "c11"%string <> None /\ (d = 2%nat -> p "c33"%string <> None) /\ (d = 3%nat -> p "c44"%string <> None))) /\
  ((exists F, rank4_functor d p = Ok F) <-> (p "c011"%string <> None /\ (d = 2%nat -> p "c033"%string <> None) /\ (d = 3%nat -> p "c044"%string <> None))).
Proof.
  intros d p Hd. split; dims d; unfold rank4_constant, rank4_functor, get.
  - destruct (p "c11"%string); cbn; split; intros H; try (split; [|split]; congruence || (intros; lia)); eauto; [destruct H; discriminate|tauto].
  - destruct (p "c11"%string), (p "c33"%string); cbn; split; intros H; try (split; [|split]; congruence || (intros; lia)); eauto; try (destruct H; discriminate); exfalso; destruct H as (H1 & H2 & H3); try congruence; apply H2; reflexivity.
  - destruct (p "c11"%string), (p "c44"%string); cbn; split; intros H; try (split; [|split]; congruence || (intros; lia)); eauto; try (destruct H; discriminate); exfalso; destruct H as (H1 & H2 & H3); try congruence; apply H3; reflexivity.
  - destruct (p "c011"%string); cbn; split; intros H; try (split; [|split]; congruence || (intros; lia)); eauto; [destruct H; discriminate|tauto].
  - destruct (p "c011"%string), (p "c033"%string); cbn; split; intros H; try (split; [|split]; congruence || (intros; lia)); eauto; try (destruct H; discriminate); exfalso; destruct H as (H1 & H2 & H3); try congruence; apply H2; reflexivity.
  - destruct (p "c011"%string), (p "c044"%string); cbn; split; intros H; try (split; [|split]; congruence || (intros; lia)); eauto; try (destruct H; discriminate); exfalso; destruct H as (H1 & H2 & H3); try congruence; apply H3; reflexivity.
Qed.
Print Assumptions C70_required.
(** Every entry: the entry the user gave for its index pair, else the one of the pair it falls back to, else zero; in the temperature-dependent form, order by order. *)
Theorem C70_entries : forall d p i j, (1 <= d <= 3)%nat -> (i < num_voigt d)%nat -> (j < num_voigt d)%nat ->
  (forall C, rank4_constant d p = Ok C -> C i j = stiffness_entry d p "" i j) /\
  (forall F T, rank4_functor d p = Ok F -> F T i j = stiffness_entry d p "0" i j + stiffness_entry d p "1" i j * T + stiffness_entry d p "2" i j * T ^ 2).
Proof.
  intros d p i j Hd Hi Hj. split.
  - intros C H. dims d; cbn in Hi, Hj; unfold rank4_constant, rank4_functor, get in H; repeat (match type of H with context [match p ?k with _ => _ end] => destruct (p k) eqn:?; cbn [rbind] in H; try discriminate H end); injection H as <-;
      destruct i as [|[|[|[|[|[|i]]]]]]; try lia; destruct j as [|[|[|[|[|[|j]]]]]]; try lia; unfold stiffness_entry, given; cbn; unfold get_or;
      repeat match goal with |- context [match p ?k with _ => _ end] => destruct (p k) eqn:? end; congruence || reflexivity.
  - intros F T H. dims d; cbn in Hi, Hj; unfold rank4_constant, rank4_functor, get in H; repeat (match type of H with context [match p ?k with _ => _ end] => destruct (p k) eqn:?; cbn [rbind] in H; try discriminate H end); injection H as <-;
      destruct i as [|[|[|[|[|[|i]]]]]]; try lia; destruct j as [|[|[|[|[|[|j]]]]]]; try lia; unfold functor_at, stiffness_entry, given; cbn; unfold get_or;
      repeat match goal with |- context [match p ?k with _ => _ end] => destruct (p k) eqn:? end; try congruence;
      repeat match goal with H : Some _ = Some _ |- _ => injection H as H end; subst; ring.
Qed.
Print Assumptions C70_entries.
(** A list with c11, c12, c44 only gives the cubic material, in three dimensions. *)
Theorem C70_cubic : forall p c11 c12 c44, p "c11"%string = Some c11 -> p "c12"%string = Some c12 -> p "c44"%string = Some c44 ->
  (forall k, List.In k ["c22"; "c33"; "c13"; "c23"; "c55"; "c66"]%string -> p k = None) ->
  exists C, rank4_constant 3 p = Ok C /\ forall i j, (i < 6)%nat -> (j < 6)%nat -> C i j = cubic_material 3 c11 c12 c44 i j.
Proof.
  intros p c11 c12 c44 H1 H2 H3 HN. unfold rank4_constant, get, get_or. rewrite H1, H2, H3.
  rewrite !HN by (cbn; tauto). cbn [rbind]. eexists. split; [reflexivity|].
  intros i j Hi Hj. destruct i as [|[|[|[|[|[|i]]]]]]; try lia; destruct j as [|[|[|[|[|[|j]]]]]]; try lia; reflexivity.
Qed.
Print Assumptions C70_cubic.
Definition cubic_list : plist := fun k => if String.eqb k "c11" then Some 3 else if String.eqb k "c12" then Some 1 else if String.eqb k "c44" then Some 2 else None.
Example C70_case : cubic_list "c11"%string = Some 3 /\ cubic_list "c44"%string = Some 2 /\ forall k, List.In k ["c22"; "c33"; "c13"; "c23"; "c55"; "c66"]%string -> cubic_list k = None.
Proof. split; [reflexivity|]. split; [reflexivity|]. intros k H. cbn in H. repeat destruct H as [<-|H]; try reflexivity. destruct H. Qed.

(** ** C34: Cauchy stress for plasticity *)
(** Which components are normal, and the trace, in the orders {11,22,12,33} (two dimensions) and {11,22,33,23,13,12} (three). *)
Definition plane_normal (v : nat) : bool := negb (Nat.eqb v 2).
Definition solid_normal (v : nat) : bool := Nat.ltb v 3.
Theorem C34_plane_strain_partial : forall K G e v, (v < 4)%nat ->
  cauchy_stress 2 K G e v = isotropic_component K G (e 0%nat + e 1%nat + e 3%nat) (plane_normal v) (e v).
Proof. intros K G e v Hv. destruct v as [|[|[|[|v]]]]; try lia; unfold isotropic_component; cbn; ring. Qed.
Print Assumptions C34_plane_strain_partial.
Theorem C34_refuted : ~ (forall K G e v, 0 < K -> 0 < G -> (v < 6)%nat ->
  cauchy_stress 3 K G e v = isotropic_component K G (e 0%nat + e 1%nat + e 2%nat) (solid_normal v) (e v)).
Proof.
  intros H. specialize (H 1 1 (fun v => match v with 3%nat => 1 | _ => 0 end) 0%nat ltac:(lra) ltac:(lra) ltac:(lia)).
  unfold isotropic_component in H. cbn in H. lra.
Qed.
Print Assumptions C34_refuted.
(** Exactly when the three-dimensional kernel is right: the 33 strain equals the 23 shear strain, or K = 2G/3. *)
Theorem C34_solid_partial : forall K G e,
  (forall v, (v < 6)%nat -> cauchy_stress 3 K G e v = isotropic_component K G (e 0%nat + e 1%nat + e 2%nat) (solid_normal v) (e v)) <->
  (e 2%nat = e 3%nat \/ 3 * K = 2 * G).
Proof.
  intros K G e. split.
  - intros H. specialize (H 0%nat ltac:(lia)). unfold isotropic_component in H. cbn in H.
    assert (E : (3 * K - 2 * G) * (e 2%nat - e 3%nat) = 0) by lra. apply Rmult_integral in E. destruct E as [E|E]; [right|left]; lra.
  - intros H v Hv. unfold isotropic_component.
    assert (E : K * e 3%nat - 2 * G * e 3%nat / 3 = K * e 2%nat - 2 * G * e 2%nat / 3).
    { destruct H as [H|H]; [rewrite H; reflexivity|]. replace K with (2 * G / 3) by lra. field. }
    destruct v as [|[|[|[|[|[|v]]]]]]; try lia; cbn; lra.
Qed.
Print Assumptions C34_solid_partial.
(** In one dimension the bulk term is divided by three. *)
Theorem C34_bar_refuted : ~ (forall K G e, 0 < K -> 0 < G -> cauchy_stress 1 K G e 0 = isotropic_component K G (e 0%nat) true (e 0%nat)).
Proof. intros H. specialize (H 1 1 (fun _ => 1) ltac:(lra) ltac:(lra)). unfold isotropic_component in H. cbn in H. lra. Qed.
Print Assumptions C34_bar_refuted.
(** The deviatoric stress is the isotropic law with no bulk term, and is trace-free. *)
Theorem C34_deviatoric : forall G e,
  (forall v, (v < 4)%nat -> deviatoric_stress 2 G e v = isotropic_component 0 G (e 0%nat + e 1%nat + e 3%nat) (plane_normal v) (e v)) /\
  (forall v, (v < 6)%nat -> deviatoric_stress 3 G e v = isotropic_component 0 G (e 0%nat + e 1%nat + e 2%nat) (solid_normal v) (e v)) /\
  deviatoric_stress 2 G e 0 + deviatoric_stress 2 G e 1 + deviatoric_stress 2 G e 3 = 0 /\
  deviatoric_stress 3 G e 0 + deviatoric_stress 3 G e 1 + deviatoric_stress 3 G e 2 = 0.
Proof.
  intros G e. split; [|split; [|split]].
  - intros v Hv. destruct v as [|[|[|[|v]]]]; try lia; unfold isotropic_component; cbn; field.
  - intros v Hv. destruct v as [|[|[|[|[|[|v]]]]]]; try lia; unfold isotropic_component; cbn; field.
  - cbn. field.
  - cbn. field.
Qed.
Print Assumptions C34_deviatoric.

(** ** C35 *)
Definition shear2 (st : bool) (t : nat -> R) : R := if st then t 2%nat / 2 else t 2%nat.
Theorem C35_partial : forall st t, 0 <= t 2%nat -> are_eigenvalues2 (t 0%nat) (shear2 st t) (t 1%nat) (fst (eigenvalues2 st t)) (snd (eigenvalues2 st t)).
Proof.
  intros st t H x. unfold eigenvalues2. fold (shear2 st t).
  assert (Hb : 0 <= shear2 st t) by (unfold shear2; destruct st; lra). set (b := shear2 st t) in *. clearbody b.
  set (a := t 0%nat). set (d := t 1%nat). cbv zeta. destruct (Rlt_dec 0 b) as [P|P]; cbn [fst snd].
  - set (tau := (d - a) / (2 * b)). set (tn := tangent tau). set (c := 1 / sqrt (1 + tn * tn)). set (s := tn * c).
    pose proof (annihilate a b d ltac:(lra)) as Z. cbv zeta in Z. fold tau in Z. fold tn in Z. fold c in Z. fold s in Z.
    pose proof (cs_norm tn) as N. cbv zeta in N. fold c in N. fold s in N.
    set (l0 := c * (a * c - b * s) - s * (b * c - d * s)). set (l1 := c * (d * c + b * s) + s * (b * c + a * s)).
    assert (S : l0 + l1 = a + d). { transitivity ((a + d) * (c * c + s * s)); [unfold l0, l1; ring|rewrite N; ring]. }
    assert (D : l0 * l1 = a * d - b * b).
    { transitivity ((a * d - b * b) * ((c * c + s * s) * (c * c + s * s)) + (c * s * (a - d) + b * (c * c - s * s)) * (c * s * (a - d) + b * (c * c - s * s))); [unfold l0, l1; ring|].
      rewrite N, Z. ring. }
    replace ((l0 - x) * (l1 - x)) with (l0 * l1 - (l0 + l1) * x + x * x) by ring. rewrite S, D. ring.
  - assert (b = 0) by lra. subst b. ring.
Qed.
Print Assumptions C35_partial.
Example C35_case : 0 <= (fun v => match v with 0%nat => 1 | 1%nat => 2 | _ => 3 end) 2%nat. Proof. cbn. lra. Qed.
Theorem C35_refuted : ~ (forall st t, are_eigenvalues2 (t 0%nat) (shear2 st t) (t 1%nat) (fst (eigenvalues2 st t)) (snd (eigenvalues2 st t))).
Proof.
  intros H. specialize (H false (fun v => match v with 2%nat => -1 | _ => 0 end) 0). unfold eigenvalues2, shear2 in H. cbn in H.
  destruct (Rlt_dec 0 (-1)) as [P|P]; [lra|]. cbn in H. lra.
Qed.
Print Assumptions C35_refuted.
(** With negative shear the routine returns the diagonal: wrong for every such tensor. *)
Theorem C35_negative_shear_wrong : forall st t, t 2%nat < 0 ->
  eigenvalues2 st t = (t 0%nat, t 1%nat) /\ ~ are_eigenvalues2 (t 0%nat) (shear2 st t) (t 1%nat) (fst (eigenvalues2 st t)) (snd (eigenvalues2 st t)).
Proof.
  intros st t H.
  assert (Hb : shear2 st t < 0) by (unfold shear2; destruct st; lra).
  assert (E : eigenvalues2 st t = (t 0%nat, t 1%nat)).
  { unfold eigenvalues2. fold (shear2 st t). cbv zeta. destruct (Rlt_dec 0 (shear2 st t)); [lra|]. f_equal; ring. }
  split; [exact E|]. intros A. specialize (A 0). rewrite E in A. cbn in A. nra.
Qed.
Print Assumptions C35_negative_shear_wrong.

(** ** C36: for every Voigt tensor and every number n+1 of rotations there is an orthonormal triple of vectors q_0, q_1, q_2 that the
    returned values almost belong to: |T q_i - l_i q_i|^2 is at most 2/3 (1/2)^n times the initial off-diagonal mass, or
    3 * 10^-30; the trace is exactly kept, and so are the other invariants of the rotated tensor whose diagonal is returned. *)
Lemma tensor_symm st t : symm3 (tensor3 st t). Proof. split; [|split]; reflexivity. Qed.
Lemma tensor_spec st t i j : tensor3 st t i j = voigt_tensor st t i j.
Proof. destruct i as [|[|[|i]]], j as [|[|[|j]]]; cbn; try reflexivity; destruct st; field. Qed.
Theorem C36_jacobi : forall n st t,
  let T := voigt_tensor st t in let l := eigenvalues3 (S n) st t in
  exists q, orthonormal q /\
    (forall i, (i < 3)%nat -> norm2 (residual T q l i) <= Rmax (2 / 3 * (1 / 2) ^ n * off_mass T) (3 * (/ 10 ^ 15 * / 10 ^ 15))) /\
    l 0%nat + l 1%nat + l 2%nat = trace3 T.
Proof.
  intros n st t T l.
  assert (HT : symm3 T) by (split; [|split]; reflexivity).
  destruct (jacobi_similar (S n) (tensor3 st t) (tensor_symm st t)) as (SB & Q & [Q1 Q2] & E).
  assert (E' : forall i j, (i < 3)%nat -> (j < 3)%nat -> jacobi (S n) (tensor3 st t) i j = similar Q T i j).
  { intros i j Hi Hj. rewrite E by assumption. apply similar_ext. intros. apply tensor_spec. }
  pose proof (jacobi_off n (tensor3 st t) (tensor_symm st t)) as O.
  assert (OM : off_mass (tensor3 st t) = off_mass T) by (unfold off_mass; rewrite !tensor_spec; reflexivity). rewrite OM in O.
  assert (L : forall i, l i = jacobi (S n) (tensor3 st t) i i) by reflexivity.
  set (B := jacobi (S n) (tensor3 st t)) in *. clearbody B.
  exists Q. split; [exact Q1|]. split.
  - intros i Hi. eapply Rle_trans; [|exact O].
    rewrite <- (norm_rows Q (residual T Q l i) Q2).
    (* coordinate j of the residual is B j i minus the diagonal part *)
    assert (C : forall j, (j < 3)%nat -> rs 3 (fun k => Q k j * residual T Q l i k) = B j i - l i * (if Nat.eqb j i then 1 else 0)).
    { intros j Hj. rewrite E' by assumption. rewrite <- (Q1 j i Hj Hi). unfold residual, similar. rsx. ring. }
    unfold rs at 1. rewrite (rsum_ext 3 _ (fun j => (B j i - l i * (if Nat.eqb j i then 1 else 0)) * (B j i - l i * (if Nat.eqb j i then 1 else 0)))).
    2: { intros j Hj. rewrite C by exact Hj. reflexivity. }
    rewrite L. destruct SB as (S1 & S2 & S3). unfold off_mass. idx i; rsx; cbn [Nat.eqb].
    + rewrite S1, S2. pose proof (Rle_0_sqr (B 1%nat 2%nat)) as P. unfold Rsqr in P. lra.
    + rewrite S3. pose proof (Rle_0_sqr (B 0%nat 2%nat)) as P. unfold Rsqr in P. lra.
    + pose proof (Rle_0_sqr (B 0%nat 1%nat)) as P. unfold Rsqr in P. lra.
  - rewrite !L, !E' by lia. unfold trace3.
    transitivity (rs 3 (fun j => rs 3 (fun k => T j k * rs 3 (fun i => Q j i * Q k i)))); [unfold similar; rsx; ring|].
    unfold rs at 1 4. apply rsum_ext. intros j Hj. unfold rs at 1. rewrite (rsum_single 3 j); [rewrite (Q2 j j Hj Hj), Nat.eqb_refl; req; ring|exact Hj|].
    intros k Hk Hne. rewrite (Q2 j k Hj Hk). destruct (Nat.eqb_spec j k); [congruence|]. req. ring.
Qed.
Print Assumptions C36_jacobi.
(** In particular a diagonal tensor is returned unchanged whatever the number of rotations. *)
Theorem C36_step : forall T, symm3 T -> let B := rotate T (givens T) in
  trace3 B = trace3 T /\ minors3 B = minors3 T /\ det33 B = det33 T /\ (off_mass B <= 3 * (/ 10 ^ 15 * / 10 ^ 15) \/ off_mass B <= 2 / 3 * off_mass T).
Proof.
  intros T HT B. destruct (givens_cases T) as (p & q & c & s & Hp & Hg & Hc & _).
  assert (HB : forall i l, (i < 3)%nat -> (l < 3)%nat -> B i l = similar (gmat p q c s) T i l) by (intros; unfold B; rewrite Hg; apply rotate_similar; assumption).
  assert (ST : off_mass B <= 3 * (/ 10 ^ 15 * / 10 ^ 15) \/ off_mass B <= 2 / 3 * off_mass T).
  { destruct (step_off T HT) as [[H _]|[_ [H _]]]; [left; exact H|right; exact H]. }
  destruct HT as (S1 & S2 & S3). split; [|split; [|split; [|exact ST]]].
  - unfold trace3, rs. cbn [sum]. rewrite !HB by lia.
    destruct Hp as [[-> ->]|[[-> ->]|[-> ->]]].
    + transitivity ((c * c + s * s) * (T 0%nat 0%nat + T 1%nat 1%nat) + T 2%nat 2%nat); [unfold similar; rsx; cbn; rewrite S1, ?S2, ?S3; ring|rewrite Hc; rsx; ring].
    + transitivity ((c * c + s * s) * (T 0%nat 0%nat + T 2%nat 2%nat) + T 1%nat 1%nat); [unfold similar; rsx; cbn; rewrite ?S1, S2, ?S3; ring|rewrite Hc; rsx; ring].
    + transitivity ((c * c + s * s) * (T 1%nat 1%nat + T 2%nat 2%nat) + T 0%nat 0%nat); [unfold similar; rsx; cbn; rewrite ?S1, ?S2, S3; ring|rewrite Hc; rsx; ring].
  - unfold minors3. rewrite !HB by lia. rewrite S1, S2, S3.
    set (m01 := T 0%nat 0%nat * T 1%nat 1%nat - T 0%nat 1%nat * T 0%nat 1%nat). set (m02 := T 0%nat 0%nat * T 2%nat 2%nat - T 0%nat 2%nat * T 0%nat 2%nat). set (m12 := T 1%nat 1%nat * T 2%nat 2%nat - T 1%nat 2%nat * T 1%nat 2%nat).
    destruct Hp as [[-> ->]|[[-> ->]|[-> ->]]].
    + transitivity ((c * c + s * s) * (c * c + s * s) * m01 + (c * c + s * s) * (m02 + m12)); [unfold m01, m02, m12, similar; rsx; cbn; rewrite S1, S2, S3; ring|rewrite Hc; ring].
    + transitivity ((c * c + s * s) * (c * c + s * s) * m02 + (c * c + s * s) * (m01 + m12)); [unfold m01, m02, m12, similar; rsx; cbn; rewrite S1, S2, S3; ring|rewrite Hc; ring].
    + transitivity ((c * c + s * s) * (c * c + s * s) * m12 + (c * c + s * s) * (m01 + m02)); [unfold m01, m02, m12, similar; rsx; cbn; rewrite S1, S2, S3; ring|rewrite Hc; ring].
  - transitivity ((c * c + s * s) * (c * c + s * s) * det33 T); [|rewrite Hc; ring].
    unfold det33. rewrite !HB by lia. destruct Hp as [[-> ->]|[[-> ->]|[-> ->]]]; unfold similar; rsx; cbn; rewrite S1, S2, S3; ring.
Qed.
Print Assumptions C36_step.
Example C36_case : symm3 (voigt_tensor true (fun v => INR v)) /\ off_mass (voigt_tensor true (fun v => INR v)) = 25 / 2.
Proof. split; [split; [|split]; reflexivity|]. unfold off_mass. cbn. field. Qed.

(** ** C37 *)
Definition stress_tensor (s : nat -> R) := voigt_tensor false s.
Lemma vm_dev s : 3 / 2 * contract (deviator (stress_tensor s)) (deviator (stress_tensor s)) =
  / 2 * ((s 0%nat - s 1%nat) * (s 0%nat - s 1%nat) + (s 1%nat - s 2%nat) * (s 1%nat - s 2%nat) + (s 2%nat - s 0%nat) * (s 2%nat - s 0%nat)) + 3 * (s 3%nat * s 3%nat + s 4%nat * s 4%nat + s 5%nat * s 5%nat).
Proof. unfold contract, deviator, trace3. rsx. cbn. rsx. field. Qed.
Theorem C37_deviator : forall s, von_mises 3 s = sqrt (3 / 2 * contract (deviator (stress_tensor s)) (deviator (stress_tensor s))) /\ 0 <= von_mises 3 s.
Proof. intros s. rewrite vm_dev. split; [reflexivity|apply sqrt_pos]. Qed.
Print Assumptions C37_deviator.
Theorem C37_pressure_and_scale : forall s p k,
  von_mises 3 (fun v => if Nat.ltb v 3 then s v + p else s v) = von_mises 3 s /\
  von_mises 3 (fun v => k * s v) = Rabs k * von_mises 3 s.
Proof.
  intros s p k. split.
  - unfold von_mises. cbn [Nat.ltb Nat.leb]. f_equal. ring.
  - unfold von_mises. rewrite <- (sqrt_Rsqr_abs k), <- sqrt_mult.
    + f_equal. unfold Rsqr. ring.
    + apply Rle_0_sqr.
    + pose proof (fun a : R => Rle_0_sqr a) as SQ. unfold Rsqr in SQ.
      pose proof (SQ (s 0%nat - s 1%nat)). pose proof (SQ (s 1%nat - s 2%nat)). pose proof (SQ (s 2%nat - s 0%nat)). pose proof (SQ (s 3%nat)). pose proof (SQ (s 4%nat)). pose proof (SQ (s 5%nat)). cbv zeta. lra.
Qed.
Print Assumptions C37_pressure_and_scale.
(** Plane stress: the two-dimensional value is the three-dimensional one with s33 = s23 = s13 = 0. *)
Theorem C37_plane_stress : forall s, von_mises 2 s = von_mises 3 (fun v => match v with 0%nat => s 0%nat | 1%nat => s 1%nat | 5%nat => s 2%nat | _ => 0 end).
Proof. intros s. unfold von_mises. f_equal. field. Qed.
Print Assumptions C37_plane_stress.
(** Rotation: rotating the stress tensor leaves the measure unchanged. *)
Theorem C37_rotation : forall Q s s', orthonormal Q -> orthonormal (fun i j => Q j i) ->
  (forall i j, (i < 3)%nat -> (j < 3)%nat -> stress_tensor s' i j = similar Q (stress_tensor s) i j) -> von_mises 3 s' = von_mises 3 s.
Proof.
  intros Q s s' HQ HQ' H. rewrite !(proj1 (C37_deviator _)). f_equal. f_equal.
  assert (Tr : trace3 (stress_tensor s') = trace3 (stress_tensor s)).
  { unfold trace3 at 1. unfold rs at 1. rewrite (rsum_ext 3 _ (fun i => similar Q (stress_tensor s) i i)) by (intros; apply H; assumption).
    set (T := stress_tensor s). unfold trace3.
    transitivity (rs 3 (fun j => rs 3 (fun k => T j k * rs 3 (fun i => Q j i * Q k i)))); [unfold similar; rsx; ring|].
    unfold rs at 1 4. apply rsum_ext. intros j Hj. unfold rs at 1. rewrite (rsum_single 3 j); [rewrite (HQ' j j Hj Hj), Nat.eqb_refl; req; ring|exact Hj|].
    intros k Hk Hne. rewrite (HQ' j k Hj Hk). destruct (Nat.eqb_spec j k); [congruence|]. req. ring. }
  assert (D : forall i j, (i < 3)%nat -> (j < 3)%nat -> deviator (stress_tensor s') i j = similar Q (deviator (stress_tensor s)) i j).
  { intros i j Hi Hj. unfold deviator at 1. rewrite Tr, H by assumption.
    transitivity (similar Q (stress_tensor s) i j - trace3 (stress_tensor s) / 3 * rs 3 (fun k => Q k i * Q k j)).
    - rewrite (HQ i j Hi Hj). destruct (Nat.eqb i j); ring.
    - unfold deviator, similar. set (T := stress_tensor s). set (t := trace3 T / 3). rsx. cbn [Nat.eqb]. ring. }
  set (S := deviator (stress_tensor s)) in *. set (S' := deviator (stress_tensor s')) in *. clearbody S S'.
  unfold contract. unfold rs at 1 2. rewrite (rsum_ext 3 _ (fun i => rs 3 (fun j => similar Q S i j * similar Q S i j))).
  2: { intros i Hi. unfold rs. apply rsum_ext. intros j Hj. rewrite D by assumption. reflexivity. }
  (* columns: M = S Q, then rows *)
  transitivity (rs 3 (fun j => rs 3 (fun i => rs 3 (fun a => Q a i * rs 3 (fun k => S a k * Q k j)) * rs 3 (fun a => Q a i * rs 3 (fun k => S a k * Q k j))))).
  { unfold similar. rsx. ring. }
  unfold rs at 1. rewrite (rsum_ext 3 _ (fun j => norm2 (fun a => rs 3 (fun k => S a k * Q k j)))).
  2: { intros j Hj. exact (norm_rows Q (fun a => rs 3 (fun k => S a k * Q k j)) HQ'). }
  transitivity (rs 3 (fun a => rs 3 (fun j => rs 3 (fun k => Q k j * S a k) * rs 3 (fun k => Q k j * S a k)))).
  { unfold norm2. rsx. ring. }
  unfold rs at 1. apply rsum_ext. intros a Ha. rewrite (norm_rows Q (fun k => S a k) HQ'). reflexivity.
Qed.
Print Assumptions C37_rotation.
(** In one dimension the signed stress is returned, so the measure can be negative. *)
Theorem C37_bar_refuted : ~ (forall s, 0 <= von_mises 1 s).
Proof. intros H. specialize (H (fun _ => -1)). cbn in H. lra. Qed.
Print Assumptions C37_bar_refuted.
