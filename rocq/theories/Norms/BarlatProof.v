(** Lemmas for the normalised stress criteria: the analytic principal values of a symmetric matrix. *)
From Coq Require Import String Reals List Arith Bool ZArith Lia Lra.
From Verif Require Import Base.Field Base.Sums Base.Res Element.ElementModel Element.ElementSpec Element.ElementProof
  Residual.ResidualModel Residual.ResidualSpec Residual.ResidualProof Ortho.OrthoModel Norms.NormsModel Norms.NormsSpec Norms.NormsProof.
Import ListNotations.
Local Open Scope R_scope.

Lemma acos_m1 : acos (-1) = PI.
Proof. replace (-1) with (- (1)) by ring. rewrite acos_opp, acos_1. ring. Qed.
Lemma cos_triple x : cos (3 * x) = 4 * (cos x * cos x * cos x) - 3 * cos x.
Proof.
  replace (3 * x) with (x + 2 * x) by ring. rewrite cos_plus, cos_2a_cos, sin_2a.
  pose proof (sin2_cos2 x) as E. unfold Rsqr in E. replace (sin x * (2 * sin x * cos x)) with (2 * (sin x * sin x) * cos x) by ring.
  replace (sin x * sin x) with (1 - cos x * cos x) by lra. ring.
Qed.
Lemma sqrt3 : sqrt 3 * sqrt 3 = 3.
Proof. apply sqrt_sqrt. lra. Qed.
Lemma cos_third x : cos (x + 2 * (PI / 3)) = - (1 / 2) * cos x - sqrt 3 / 2 * sin x.
Proof. rewrite cos_plus, cos_2PI3, sin_2PI3. field. Qed.
Lemma cos_two_thirds x : cos (x + 2 * (2 * (PI / 3))) = - (1 / 2) * cos x + sqrt 3 / 2 * sin x.
Proof.
  rewrite cos_plus, (cos_2a_cos (2 * (PI / 3))), (sin_2a (2 * (PI / 3))), cos_2PI3, sin_2PI3. field.
Qed.
(** Three numbers whose cosines are a third of a turn apart. *)
Lemma thirds t : let a := cos (t / 3) in let b := cos ((t + 4 * acos (-1)) / 3) in let c := cos ((t + 2 * acos (-1)) / 3) in
  a + b + c = 0 /\ a * b + b * c + c * a = - (3 / 4) /\ a * b * c = cos t / 4.
Proof.
  cbv zeta. rewrite acos_m1. replace ((t + 4 * PI) / 3) with (t / 3 + 2 * (2 * (PI / 3))) by field. replace ((t + 2 * PI) / 3) with (t / 3 + 2 * (PI / 3)) by field.
  rewrite cos_third, cos_two_thirds. pose proof (sin2_cos2 (t / 3)) as E. unfold Rsqr in E. pose proof sqrt3 as S.
  pose proof (cos_triple (t / 3)) as T. replace (3 * (t / 3)) with t in T by field. rewrite T.
  set (c := cos (t / 3)) in *. set (s := sin (t / 3)) in *. set (q := sqrt 3) in *.
  assert (E' : s * s = 1 - c * c) by lra. split; [field|]. split.
  - replace (c * (- (1 / 2) * c + q / 2 * s) + (- (1 / 2) * c + q / 2 * s) * (- (1 / 2) * c - q / 2 * s) + (- (1 / 2) * c - q / 2 * s) * c)
      with (- (3 / 4) * (c * c) - (q * q) / 4 * (s * s)) by field. rewrite S, E'. field.
  - replace (c * (- (1 / 2) * c + q / 2 * s) * (- (1 / 2) * c - q / 2 * s)) with (c * c * c / 4 - c * ((q * q) / 4 * (s * s))) by field. rewrite S, E'. field.
Qed.

(** ** Invariants *)
Lemma H1_trace s : H1 s = trace3 s / 3. Proof. reflexivity. Qed.
Lemma H2_minors s : H2 s = - minors3 s / 3. Proof. unfold H2, minors3. field. Qed.
Lemma H3_det s : H3 s = det3 s / 2. Proof. unfold H3, det3. field. Qed.
Definition spread (s : nat -> R) : R := H1 s * H1 s + H2 s.
Lemma spread_squares s : spread s =
  ((s 0%nat - s 1%nat) * (s 0%nat - s 1%nat) + (s 1%nat - s 2%nat) * (s 1%nat - s 2%nat) + (s 2%nat - s 0%nat) * (s 2%nat - s 0%nat)) / 18
  + (s 3%nat * s 3%nat + s 4%nat * s 4%nat + s 5%nat * s 5%nat) / 3.
Proof. unfold spread, H1, H2. field. Qed.
Lemma spread_nonneg s : 0 <= spread s.
Proof.
  rewrite spread_squares. pose proof (Rle_0_sqr (s 0%nat - s 1%nat)). pose proof (Rle_0_sqr (s 1%nat - s 2%nat)). pose proof (Rle_0_sqr (s 2%nat - s 0%nat)).
  pose proof (Rle_0_sqr (s 3%nat)). pose proof (Rle_0_sqr (s 4%nat)). pose proof (Rle_0_sqr (s 5%nat)). unfold Rsqr in *. lra.
Qed.
(** The cubic has three real roots: Q Q <= P P P. *)
Lemma lagrange a0 a1 a2 a3 a4 a5 m0 m1 m2 m3 m4 m5 :
  (m0 * a0 + m1 * a1 + m2 * a2 + 2 * (m3 * a3 + m4 * a4 + m5 * a5)) * (m0 * a0 + m1 * a1 + m2 * a2 + 2 * (m3 * a3 + m4 * a4 + m5 * a5)) <=
  (m0 * m0 + m1 * m1 + m2 * m2 + 2 * (m3 * m3 + m4 * m4 + m5 * m5)) * (a0 * a0 + a1 * a1 + a2 * a2 + 2 * (a3 * a3 + a4 * a4 + a5 * a5)).
Proof.
  set (q := fun x y : R => (x - y) * (x - y)).
  assert (N : forall x y, 0 <= q x y) by (intros; apply Rle_0_sqr).
  assert (E : (m0 * m0 + m1 * m1 + m2 * m2 + 2 * (m3 * m3 + m4 * m4 + m5 * m5)) * (a0 * a0 + a1 * a1 + a2 * a2 + 2 * (a3 * a3 + a4 * a4 + a5 * a5))
    - (m0 * a0 + m1 * a1 + m2 * a2 + 2 * (m3 * a3 + m4 * a4 + m5 * a5)) * (m0 * a0 + m1 * a1 + m2 * a2 + 2 * (m3 * a3 + m4 * a4 + m5 * a5)) =
    q (m0 * a1) (m1 * a0) + q (m0 * a2) (m2 * a0) + q (m1 * a2) (m2 * a1)
    + 2 * (q (m0 * a3) (m3 * a0) + q (m0 * a4) (m4 * a0) + q (m0 * a5) (m5 * a0) + q (m1 * a3) (m3 * a1) + q (m1 * a4) (m4 * a1) + q (m1 * a5) (m5 * a1)
         + q (m2 * a3) (m3 * a2) + q (m2 * a4) (m4 * a2) + q (m2 * a5) (m5 * a2))
    + 4 * (q (m3 * a4) (m4 * a3) + q (m3 * a5) (m5 * a3) + q (m4 * a5) (m5 * a4))) by (unfold q; ring).
  pose proof (N (m0 * a1) (m1 * a0)); pose proof (N (m0 * a2) (m2 * a0)); pose proof (N (m1 * a2) (m2 * a1));
  pose proof (N (m0 * a3) (m3 * a0)); pose proof (N (m0 * a4) (m4 * a0)); pose proof (N (m0 * a5) (m5 * a0));
  pose proof (N (m1 * a3) (m3 * a1)); pose proof (N (m1 * a4) (m4 * a1)); pose proof (N (m1 * a5) (m5 * a1));
  pose proof (N (m2 * a3) (m3 * a2)); pose proof (N (m2 * a4) (m4 * a2)); pose proof (N (m2 * a5) (m5 * a2));
  pose proof (N (m3 * a4) (m4 * a3)); pose proof (N (m3 * a5) (m5 * a3)); pose proof (N (m4 * a5) (m5 * a4)). lra.
Qed.
Lemma traceless_bound a b d e f : let c := - a - b in let t := a * a + b * b + c * c + 2 * (d * d + e * e + f * f) in
  let D := a * b * c + 2 * d * e * f - a * d * d - b * e * e - c * f * f in 54 * (D * D) <= t * t * t.
Proof.
  cbv zeta. set (c := - a - b). set (t := a * a + b * b + c * c + 2 * (d * d + e * e + f * f)). set (D := a * b * c + 2 * d * e * f - a * d * d - b * e * e - c * f * f).
  pose proof (lagrange a b c d e f (a * a + f * f + e * e - t / 3) (f * f + b * b + d * d - t / 3) (e * e + d * d + c * c - t / 3) (f * e + b * d + d * c) (a * e + f * d + e * c) (a * f + f * b + e * d)) as L.
  assert (E1 : (a * a + f * f + e * e - t / 3) * a + (f * f + b * b + d * d - t / 3) * b + (e * e + d * d + c * c - t / 3) * c
    + 2 * ((f * e + b * d + d * c) * d + (a * e + f * d + e * c) * e + (a * f + f * b + e * d) * f) = 3 * D) by (unfold t, D, c; field).
  assert (E2 : (a * a + f * f + e * e - t / 3) * (a * a + f * f + e * e - t / 3) + (f * f + b * b + d * d - t / 3) * (f * f + b * b + d * d - t / 3) + (e * e + d * d + c * c - t / 3) * (e * e + d * d + c * c - t / 3)
    + 2 * ((f * e + b * d + d * c) * (f * e + b * d + d * c) + (a * e + f * d + e * c) * (a * e + f * d + e * c) + (a * f + f * b + e * d) * (a * f + f * b + e * d)) = t * t / 6) by (unfold t, c; field).
  rewrite E1, E2 in L. fold t in L. lra.
Qed.
Lemma cubic_real s : QQ s * QQ s <= spread s * spread s * spread s.
Proof.
  pose proof (traceless_bound (s 0%nat - H1 s) (s 1%nat - H1 s) (s 3%nat) (s 4%nat) (s 5%nat)) as L. cbv zeta in L.
  set (a := s 0%nat - H1 s) in *. set (b := s 1%nat - H1 s) in *.
  assert (EC : - a - b = s 2%nat - H1 s) by (unfold a, b, H1; field).
  rewrite EC in L.
  replace (a * a + b * b + (s 2%nat - H1 s) * (s 2%nat - H1 s) + 2 * (s 3%nat * s 3%nat + s 4%nat * s 4%nat + s 5%nat * s 5%nat)) with (6 * spread s) in L by (unfold a, b, spread, H1, H2; field).
  replace (a * b * (s 2%nat - H1 s) + 2 * s 3%nat * s 4%nat * s 5%nat - a * s 3%nat * s 3%nat - b * s 4%nat * s 4%nat - (s 2%nat - H1 s) * s 5%nat * s 5%nat) with (2 * QQ s) in L
    by (unfold a, b, QQ, H1, H2, H3; field).
  lra.
Qed.
Lemma PP_spread s : PP s = spread s.
Proof. unfold PP. fold (spread s). destruct (Rlt_dec 0 (spread s)) as [|H]; [reflexivity|]. pose proof (spread_nonneg s). lra. Qed.
Lemma power_three_halves x : 0 < x -> Rpower x (3 / 2) = sqrt x * sqrt x * sqrt x.
Proof.
  intros H. replace (sqrt x * sqrt x * sqrt x) with (sqrt x ^ 3) by (cbn; ring). rewrite <- Rpower_pow by (apply sqrt_lt_R0; exact H).
  rewrite <- Rpower_sqrt by exact H. rewrite Rpower_mult. f_equal. cbn. field.
Qed.
Lemma cosine_value s : 0 < spread s -> cosine s = Ok (QQ s / (sqrt (spread s) * sqrt (spread s) * sqrt (spread s))).
Proof.
  intros H. unfold cosine. rewrite PP_spread. unfold pow_real. destruct (Rlt_dec (spread s) 0); [lra|]. destruct (Req_EM_T (spread s) 0); [lra|]. cbn [rbind].
  rewrite power_three_halves by exact H. unfold quot. destruct (Req_EM_T _ 0) as [E|_]; [|reflexivity]. exfalso.
  pose proof (sqrt_lt_R0 _ H). apply Rmult_integral in E as [E|E]; [apply Rmult_integral in E as [E|E]|]; lra.
Qed.
Lemma cosine_bound s : 0 < spread s -> -1 <= QQ s / (sqrt (spread s) * sqrt (spread s) * sqrt (spread s)) <= 1.
Proof.
  intros H. pose proof (sqrt_lt_R0 _ H) as P. pose proof (sqrt_sqrt (spread s) ltac:(lra)) as SS. pose proof (cubic_real s) as C. set (r := sqrt (spread s)) in *.
  assert (R3 : 0 < r * r * r) by (apply Rmult_lt_0_compat; [apply Rmult_lt_0_compat|]; assumption).
  set (x := QQ s / (r * r * r)). assert (EQ : QQ s = x * (r * r * r)) by (unfold x; field; lra).
  assert (X2 : x * x <= 1).
  { apply Rmult_le_reg_r with (r * r * r * (r * r * r)); [apply Rmult_lt_0_compat; assumption|]. rewrite EQ in C. rewrite <- SS in C. lra. }
  split; destruct (Rle_lt_dec x 1); destruct (Rle_lt_dec (-1) x); try assumption; nra.
Qed.
Lemma principal_value s : 0 < spread s -> exists a b c, principal s = Ok (a, b, c) /\
  a + b + c = trace3 s /\ a * b + b * c + c * a = minors3 s /\ a * b * c = det3 s.
Proof.
  intros H. unfold principal, theta. rewrite cosine_value by exact H. cbn [rbind]. pose proof (cosine_bound s H) as B.
  set (x := QQ s / (sqrt (spread s) * sqrt (spread s) * sqrt (spread s))) in *. unfold acos_real. destruct (Rlt_dec x (-1)); [lra|]. destruct (Rlt_dec 1 x); [lra|]. cbn [rbind].
  fold (spread s). unfold sqrt_real. destruct (Rlt_dec (spread s) 0); [lra|]. cbn [rbind]. do 3 eexists. split; [reflexivity|].
  pose proof (thirds (acos x)) as T. cbv zeta in T. rewrite cos_acos in T by exact B. destruct T as (T1 & T2 & T3).
  set (p := cos (acos x / 3)) in *. set (q := cos ((acos x + 4 * acos (-1)) / 3)) in *. set (u := cos ((acos x + 2 * acos (-1)) / 3)) in *.
  pose proof (sqrt_lt_R0 _ H) as RP. pose proof (sqrt_sqrt (spread s) ltac:(lra)) as SS. set (r := sqrt (spread s)) in *.
  assert (EQ : QQ s = x * (r * r * r)) by (unfold x; field; lra).
  set (h := H1 s) in *.
  assert (TR : trace3 s = 3 * h) by (unfold h, H1, trace3; field).
  assert (MI : minors3 s = 3 * h * h - 3 * (r * r)) by (rewrite SS; unfold spread, h, minors3, H1, H2; field).
  assert (DE : det3 s = 2 * QQ s + h * h * h - 3 * h * (r * r)) by (rewrite SS; unfold spread, h, QQ, det3, H1, H2, H3; field).
  rewrite TR, MI, DE, EQ. split; [|split].
  - replace (h + 2 * r * p + (h + 2 * r * q) + (h + 2 * r * u)) with (3 * h + 2 * r * (p + q + u)) by ring. rewrite T1. ring.
  - replace ((h + 2 * r * p) * (h + 2 * r * q) + (h + 2 * r * q) * (h + 2 * r * u) + (h + 2 * r * u) * (h + 2 * r * p))
      with (3 * h * h + 4 * h * r * (p + q + u) + 4 * (r * r) * (p * q + q * u + u * p)) by ring. rewrite T1, T2. field.
  - replace ((h + 2 * r * p) * (h + 2 * r * q) * (h + 2 * r * u))
      with (h * h * h + 2 * h * h * r * (p + q + u) + 4 * h * (r * r) * (p * q + q * u + u * p) + 8 * (r * r * r) * (p * q * u)) by ring. rewrite T1, T2, T3. field.
Qed.
Lemma principal_none s : spread s = 0 -> principal s = UB.
Proof.
  intros H. unfold principal, theta, cosine. rewrite PP_spread, H. unfold pow_real. destruct (Rlt_dec 0 0); [lra|]. destruct (Req_EM_T 0 0); [|lra].
  destruct (Req_EM_T (3 / 2) 0); [lra|]. destruct (Rlt_dec (3 / 2) 0); [lra|]. cbn [rbind]. unfold quot. destruct (Req_EM_T 0 0); [reflexivity|lra].
Qed.
Lemma principal_ext s t : (forall i, (i < 6)%nat -> s i = t i) -> principal s = principal t.
Proof.
  intros H. assert (E1 : H1 s = H1 t) by (unfold H1; rewrite !H by lia; reflexivity). assert (E2 : H2 s = H2 t) by (unfold H2; rewrite !H by lia; reflexivity).
  assert (E3 : H3 s = H3 t) by (unfold H3; rewrite !H by lia; reflexivity). unfold principal, theta, cosine, PP, QQ. rewrite E1, E2, E3. reflexivity.
Qed.
