(** C115: the p-norm criteria are the p-norms of the stress and flux fields. *)
From Coq Require Import String Reals List Arith Bool ZArith Lia Lra.
From Verif Require Import Base.Field Base.Sums Base.Res Element.ElementModel Element.ElementSpec Element.ElementProof Element.ElementProps Element.MaterialModel
  Penalty.PenaltyModel Residual.ResidualModel Residual.ResidualSpec Residual.ResidualProof Residual.ResidualProps Residual.ResidualEnergyProps Ortho.OrthoModel LevelSet.LevelSetProof
  Norms.NormsModel Norms.NormsSpec Norms.NormsProof.
Import ListNotations.
Local Open Scope R_scope.

(** Stress of a cell without reference strain, and the penalty of its average density. *)
Definition stress_at (d : nat) (X : nat -> nat -> R) (U : nat -> R) (c : cell elastic) (v : nat) : R :=
  rs (num_voigt d) (fun j => e_stiff (c_mat c) v j * strain d d (fun _ => 0) (gather d U c) (cell_gradient d (gather_coords X c)) j).
Definition weight_of {M} (d : nat) (pen : R -> R) (Z : nat -> R) (c : cell M) : R := pen (rs (S d) (fun a => Z (c_node c a)) / INR (S d)).
Definition measure_of {M} (d : nat) (X : nat -> nat -> R) (c : cell M) : R := simplex_measure d (fun a i => X (c_node c a) i).
(** What a cell shows: the magnitude of its stress, times its penalty. *)
Definition shown (d : nat) (pen : R -> R) (X : nat -> nat -> R) (U Z : nat -> R) (c : cell elastic) : R :=
  Rabs (weight_of d pen Z c) * magnitude (num_voigt d) (stress_at d X U c).

Lemma shown_tensor d pen X U Z c : magnitude (num_voigt d) (stress_tensor d pen e_stiff (fun _ _ => 0) X U Z c) = shown d pen X U Z c.
Proof.
  unfold shown. rewrite <- magnitude_scal. apply magnitude_ext. intros i Hi. unfold stress_tensor, weigh, linear_stress, stress_at, rs.
  change (cell_density (S d) (gather_control Z c)) with (rs (S d) (fun a => Z (c_node c a)) / INR (S d)). fold (weight_of d pen Z c).
  rewrite Rmult_comm. f_equal. apply rsum_ext. intros j Hj. req. ring.
Qed.
Lemma volume_loop {M} d nn X (cells : list (cell M)) c : (1 <= d <= 3)%nat -> mesh_ok d nn X cells -> In c cells ->
  cell_volume d (gather_coords X c) * loop_weight d = measure_of d X c /\ 0 < measure_of d X c.
Proof.
  intros Hd Hm Hc. destruct (mesh_cell _ _ _ _ _ Hm Hc) as [_ Hv]. rewrite weight_loop by exact Hd.
  change (cell_volume d (gather_coords X c) * cub_weight d) with (cell_measure d (gather_coords X c)).
  destruct (measure_simplex d (gather_coords X c) Hd Hv) as [E P]. change (measure_of d X c) with (simplex_measure d (gather_coords X c)). rewrite <- E. split; [reflexivity|exact P].
Qed.
Theorem C115_value : forall d nn k pen X U Z cells, (1 <= d <= 3)%nat -> (1 <= k)%nat -> mesh_ok d nn X cells ->
  exists v, stress_pnorm d Plain (INR k) pen X U Z cells = Ok v /\ is_root k (sum_over cells (fun c => measure_of d X c * shown d pen X U Z c ^ k)) v.
Proof.
  intros d nn k pen X U Z cells Hd Hk Hm. unfold stress_pnorm.
  destruct (criterion_plain (num_voigt d) k (stress_tensor d pen e_stiff (fun _ _ => 0) X U Z) (fun c => cell_volume d (gather_coords X c) * loop_weight d) cells Hk) as (v & E & H).
  { intros c Hc. destruct (volume_loop d nn X cells c Hd Hm Hc) as [-> P]. lra. }
  exists v. split; [exact E|]. erewrite sum_over_ext; [exact H|]. intros c Hc. cbv beta. destruct (volume_loop d nn X cells c Hd Hm Hc) as [-> _]. rewrite shown_tensor. reflexivity.
Qed.
Print Assumptions C115_value.

(** Loads [s] times as large show [|s|] times the value; the sum of two states shows at most the sum of their values. *)
Lemma stress_at_add d X U V c v : (1 <= d <= 3)%nat -> stress_at d X (fun k => U k + V k) c v = stress_at d X U c v + stress_at d X V c v.
Proof.
  intros Hd. unfold stress_at, rs. rewrite <- rsum_add. apply rsum_ext. intros j Hj. rewrite <- Rmult_plus_distr_l. f_equal.
  unfold strain, gather. destruct (nth_error (voigt_pairs d) j) as [[p q]|]; [|ring].
  destruct (Nat.eqb p q); rewrite ?Rplus_0_l, <- rsum_add; apply rsum_ext; intros; req; ring.
Qed.
Lemma stress_at_scal d X s U c v : stress_at d X (fun k => s * U k) c v = s * stress_at d X U c v.
Proof.
  unfold stress_at, rs. rewrite <- rsum_scal_l. apply rsum_ext. intros j Hj.
  transitivity (e_stiff (c_mat c) v j * (s * strain d d (fun _ => 0) (gather d U c) (cell_gradient d (gather_coords X c)) j)); [|req; ring]. f_equal.
  unfold strain, gather. destruct (nth_error (voigt_pairs d) j) as [[p q]|]; [|ring].
  destruct (Nat.eqb p q); rewrite ?Rplus_0_l, <- rsum_scal_l; apply rsum_ext; intros; req; ring.
Qed.
Lemma shown_scal d pen X s U Z c : shown d pen X (fun k => s * U k) Z c = Rabs s * shown d pen X U Z c.
Proof.
  unfold shown. rewrite (magnitude_ext _ _ (fun v => s * stress_at d X U c v)) by (intros; apply stress_at_scal). rewrite magnitude_scal. ring.
Qed.
Lemma shown_add d pen X U V Z c : (1 <= d <= 3)%nat -> shown d pen X (fun k => U k + V k) Z c <= shown d pen X U Z c + shown d pen X V Z c.
Proof.
  intros Hd. unfold shown. rewrite (magnitude_ext _ _ (fun v => stress_at d X U c v + stress_at d X V c v)) by (intros; apply stress_at_add; exact Hd).
  rewrite <- Rmult_plus_distr_l. apply Rmult_le_compat_l; [apply Rabs_pos|apply magnitude_add].
Qed.
Lemma shown_nonneg d pen X U Z c : 0 <= shown d pen X U Z c.
Proof. unfold shown. apply Rmult_le_pos; [apply Rabs_pos|apply magnitude_nonneg]. Qed.
Theorem C115_homogeneous : forall d nn k pen X U Z cells s, (1 <= d <= 3)%nat -> (1 <= k)%nat -> mesh_ok d nn X cells ->
  exists v, stress_pnorm d Plain (INR k) pen X U Z cells = Ok v /\ stress_pnorm d Plain (INR k) pen X (fun i => s * U i) Z cells = Ok (Rabs s * v).
Proof.
  intros d nn k pen X U Z cells s Hd Hk Hm. destruct (C115_value d nn k pen X U Z cells Hd Hk Hm) as (v & E & [V0 V]).
  destruct (C115_value d nn k pen X (fun i => s * U i) Z cells Hd Hk Hm) as (w & E' & W). exists v. split; [exact E|]. rewrite E'. f_equal.
  apply (root_unique k _ _ _ Hk W). split; [apply Rmult_le_pos; [apply Rabs_pos|exact V0]|]. rewrite Rpow_mult_distr, V, <- sum_over_scal.
  apply sum_over_ext. intros c _. rewrite shown_scal, Rpow_mult_distr. ring.
Qed.
Print Assumptions C115_homogeneous.
Lemma sum_over_le {A} (l : list A) f g : (forall x, In x l -> f x <= g x) -> sum_over l f <= sum_over l g.
Proof.
  intros H. induction l as [|x l IH]; [right; reflexivity|]. cbn. apply Rplus_le_compat; [apply H; left; reflexivity|apply IH; intros; apply H; right; assumption].
Qed.
Lemma sum_over_in {A} (l : list A) f x : (forall y, In y l -> 0 <= f y) -> In x l -> f x <= sum_over l f.
Proof.
  intros H Hx. induction l as [|y l IH]; [destruct Hx|]. cbn. assert (0 <= sum_over l f) by (apply sum_over_nonneg; intros; apply H; right; assumption).
  assert (0 <= f y) by (apply H; left; reflexivity). destruct Hx as [->|Hx]; [lra|]. specialize (IH (fun z Hz => H z (or_intror Hz)) Hx). lra.
Qed.
Lemma minkowski {A} (l : list A) (m f g h : A -> R) k a b t : (1 <= k)%nat -> (forall x, In x l -> 0 <= m x) ->
  (forall x, In x l -> 0 <= f x /\ 0 <= g x /\ 0 <= h x <= f x + g x) ->
  is_root k (sum_over l (fun x => m x * f x ^ k)) a -> is_root k (sum_over l (fun x => m x * g x ^ k)) b -> is_root k (sum_over l (fun x => m x * h x ^ k)) t ->
  t <= a + b.
Proof.
  intros Hk Hm H [A0 Ha] [B0 Hb] [T0 Ht]. apply (pow_le_base t (a + b) k Hk T0 ltac:(lra)). rewrite Ht.
  assert (Z : forall a f, 0 <= a -> (forall x, In x l -> 0 <= f x) -> a ^ k = sum_over l (fun x => m x * f x ^ k) -> a = 0 -> forall x, In x l -> m x * f x ^ k = 0).
  { intros a' f' _ Hf E ->. rewrite pow_i in E by lia. intros x Hx.
    assert (N : forall y, In y l -> 0 <= m y * f' y ^ k) by (intros y Hy; apply Rmult_le_pos; [apply Hm; exact Hy|apply pow_le, Hf; exact Hy]).
    pose proof (sum_over_in l (fun y => m y * f' y ^ k) x N Hx) as L. cbv beta in L. specialize (N x Hx). lra. }
  assert (Hle : forall x, In x l -> m x * h x ^ k <= m x * (f x + g x) ^ k).
  { intros x Hx. apply Rmult_le_compat_l; [apply Hm; exact Hx|]. apply pow_incr. apply (H x Hx). }
  apply Rle_trans with (sum_over l (fun x => m x * (f x + g x) ^ k)); [apply sum_over_le; exact Hle|].
  destruct (Req_dec a 0) as [EA|NA].
  { rewrite EA, Rplus_0_l, Hb. right. apply sum_over_ext. intros x Hx. destruct (H x Hx) as (F0 & G0 & _).
    specialize (Z a f A0 (fun y Hy => proj1 (H y Hy)) Ha EA x Hx). apply Rmult_integral in Z as [Z|Z]; [rewrite Z; ring|].
    assert (F : f x = 0). { destruct (Req_dec (f x) 0) as [|N]; [assumption|]. exfalso. apply (pow_nonzero (f x) k N). exact Z. } rewrite F, Rplus_0_l. reflexivity. }
  destruct (Req_dec b 0) as [EB|NB].
  { rewrite EB, Rplus_0_r, Ha. right. apply sum_over_ext. intros x Hx. destruct (H x Hx) as (F0 & G0 & _).
    specialize (Z b g B0 (fun y Hy => proj1 (proj2 (H y Hy))) Hb EB x Hx). apply Rmult_integral in Z as [Z|Z]; [rewrite Z; ring|].
    assert (F : g x = 0). { destruct (Req_dec (g x) 0) as [|N]; [assumption|]. exfalso. apply (pow_nonzero (g x) k N). exact Z. } rewrite F, Rplus_0_r. reflexivity. }
  assert (AB : 0 < a + b) by lra. set (lam := a / (a + b)).
  assert (L : 0 <= lam <= 1).
  { unfold lam. split; [apply Rmult_le_pos; [lra|left; apply Rinv_0_lt_compat; lra]|]. apply Rmult_le_reg_r with (a + b); [lra|]. unfold Rdiv. rewrite Rmult_assoc, Rinv_l by lra. lra. }
  assert (AK : a ^ k <> 0) by (apply pow_nonzero; lra). assert (BK : b ^ k <> 0) by (apply pow_nonzero; lra).
  assert (P : forall x, In x l -> m x * (f x + g x) ^ k <= (a + b) ^ k * (lam * / a ^ k * (m x * f x ^ k) + (1 - lam) * / b ^ k * (m x * g x ^ k))).
  { intros x Hx. destruct (H x Hx) as (F0 & G0 & _).
    assert (FA : 0 <= f x / a) by (apply Rmult_le_pos; [assumption|left; apply Rinv_0_lt_compat; lra]).
    assert (GB : 0 <= g x / b) by (apply Rmult_le_pos; [assumption|left; apply Rinv_0_lt_compat; lra]).
    pose proof (pow_convex k (f x / a) (g x / b) lam Hk FA GB L) as C.
    replace (f x + g x) with ((a + b) * (lam * (f x / a) + (1 - lam) * (g x / b))) by (unfold lam; field; lra).
    rewrite Rpow_mult_distr.
    replace ((a + b) ^ k * (lam * / a ^ k * (m x * f x ^ k) + (1 - lam) * / b ^ k * (m x * g x ^ k)))
      with (m x * ((a + b) ^ k * (lam * (f x / a) ^ k + (1 - lam) * (g x / b) ^ k))).
    2: { unfold Rdiv. rewrite !Rpow_mult_distr, !pow_inv. ring. }
    apply Rmult_le_compat_l; [apply Hm; exact Hx|]. apply Rmult_le_compat_l; [apply pow_le; lra|exact C]. }
  eapply Rle_trans; [apply sum_over_le; exact P|]. rewrite sum_over_scal, sum_over_add, !sum_over_scal, <- Ha, <- Hb. right. field. split; assumption.
Qed.
Theorem C115_convex : forall d nn k pen X U V Z cells, (1 <= d <= 3)%nat -> (1 <= k)%nat -> mesh_ok d nn X cells ->
  exists a b t, stress_pnorm d Plain (INR k) pen X U Z cells = Ok a /\ stress_pnorm d Plain (INR k) pen X V Z cells = Ok b /\
    stress_pnorm d Plain (INR k) pen X (fun i => U i + V i) Z cells = Ok t /\ t <= a + b.
Proof.
  intros d nn k pen X U V Z cells Hd Hk Hm. destruct (C115_value d nn k pen X U Z cells Hd Hk Hm) as (a & Ea & A).
  destruct (C115_value d nn k pen X V Z cells Hd Hk Hm) as (b & Eb & B). destruct (C115_value d nn k pen X (fun i => U i + V i) Z cells Hd Hk Hm) as (t & Et & T).
  exists a, b, t. do 3 (split; [assumption|]). apply (minkowski cells (measure_of d X) (shown d pen X U Z) (shown d pen X V Z) (shown d pen X (fun i => U i + V i) Z) k a b t Hk); try assumption.
  - intros c Hc. left. apply (volume_loop d nn X cells c Hd Hm Hc).
  - intros c Hc. split; [apply shown_nonneg|]. split; [apply shown_nonneg|]. split; [apply shown_nonneg|apply shown_add; exact Hd].
Qed.
Print Assumptions C115_convex.

(** The value lies between the largest stress times a root of the volume of its cell and the largest stress times a root of the whole volume, and
    tends to the largest stress as the exponent grows. *)
Theorem C115_bounds : forall d nn k pen X U Z cells top, (1 <= d <= 3)%nat -> (1 <= k)%nat -> mesh_ok d nn X cells ->
  (forall c, In c cells -> shown d pen X U Z c <= top) ->
  exists v, stress_pnorm d Plain (INR k) pen X U Z cells = Ok v /\ 0 <= v /\ v ^ k <= sum_over cells (measure_of d X) * top ^ k /\
    forall c, In c cells -> measure_of d X c * shown d pen X U Z c ^ k <= v ^ k.
Proof.
  intros d nn k pen X U Z cells top Hd Hk Hm Ht. destruct (C115_value d nn k pen X U Z cells Hd Hk Hm) as (v & E & [V0 V]).
  assert (VP : forall c, In c cells -> 0 < measure_of d X c) by (intros c Hc; apply (volume_loop d nn X cells c Hd Hm Hc)).
  exists v. split; [exact E|]. split; [exact V0|]. rewrite V. split.
  - rewrite Rmult_comm, <- sum_over_scal. apply sum_over_le. intros c Hc. rewrite Rmult_comm. apply Rmult_le_compat_r; [left; apply VP; exact Hc|].
    apply pow_incr. split; [apply shown_nonneg|apply Ht; exact Hc].
  - intros c Hc. apply (sum_over_in cells (fun c => measure_of d X c * shown d pen X U Z c ^ k)); [|exact Hc]. intros y Hy.
    apply Rmult_le_pos; [left; apply VP; exact Hy|apply pow_le, shown_nonneg].
Qed.
Print Assumptions C115_bounds.
Lemma grows x B : 0 < x -> exists K, (1 <= K)%nat /\ forall k, (K <= k)%nat -> B < (1 + x) ^ k.
Proof.
  intros Hx. assert (HA : exists n, B / x < INR n).
  { exists (Z.to_nat (up (B / x))). pose proof (archimed (B / x)) as [A _]. rewrite INR_IZR_INZ. apply Rlt_le_trans with (IZR (up (B / x))); [lra|]. apply IZR_le. lia. }
  destruct HA as [n Hn]. exists (S n). split; [lia|]. intros k Hk. pose proof (poly k x Hx) as P.
  assert (B < INR k * x); [|lra]. apply Rmult_lt_reg_r with (/ x); [apply Rinv_0_lt_compat; exact Hx|]. rewrite Rmult_assoc, Rinv_r by lra.
  assert (INR n <= INR k) by (apply le_INR; lia). unfold Rdiv in Hn. lra.
Qed.
Theorem C115_limit : forall d nn pen X U Z cells c0, (1 <= d <= 3)%nat -> mesh_ok d nn X cells -> In c0 cells ->
  (forall c, In c cells -> shown d pen X U Z c <= shown d pen X U Z c0) ->
  forall eps, 0 < eps -> exists K, forall k, (K <= k)%nat ->
    exists v, stress_pnorm d Plain (INR k) pen X U Z cells = Ok v /\ Rabs (v - shown d pen X U Z c0) < eps.
Proof.
  intros d nn pen X U Z cells c0 Hd Hm Hc0 Ht eps He. set (M := shown d pen X U Z c0) in *. assert (M0 : 0 <= M) by apply shown_nonneg.
  set (vol := sum_over cells (measure_of d X)). set (v0 := measure_of d X c0). assert (P0 : 0 < v0) by (apply (volume_loop d nn X cells c0 Hd Hm Hc0)).
  assert (UP : exists K1, (1 <= K1)%nat /\ forall k, (K1 <= k)%nat -> forall v, 0 <= v -> v ^ k <= vol * M ^ k -> v < M + eps).
  { destruct (Req_dec M 0) as [Z0|N0].
    - exists 1%nat. split; [lia|]. intros k Hk v V0 V. rewrite Z0, pow_i, Rmult_0_r in V by lia. destruct (Rlt_le_dec v (M + eps)) as [|L]; [assumption|]. exfalso.
      assert (0 < v ^ k) by (apply pow_lt; lra). lra.
    - assert (X0 : 0 < eps / M) by (apply Rdiv_lt_0_compat; lra). destruct (grows (eps / M) vol X0) as (K & HK & G). exists K. split; [exact HK|]. intros k Hk v V0 V.
      destruct (Rlt_le_dec v (M + eps)) as [|L]; [assumption|]. exfalso. specialize (G k Hk).
      assert ((M + eps) ^ k <= v ^ k) by (apply pow_incr; lra). replace (M + eps) with (M * (1 + eps / M)) in H by (field; exact N0). rewrite Rpow_mult_distr in H.
      assert (0 < M ^ k) by (apply pow_lt; lra). assert (M ^ k * vol < M ^ k * (1 + eps / M) ^ k) by (apply Rmult_lt_compat_l; lra). lra. }
  assert (LOW : exists K2, (1 <= K2)%nat /\ forall k, (K2 <= k)%nat -> forall v, 0 <= v -> v0 * M ^ k <= v ^ k -> M - eps < v).
  { destruct (Rlt_le_dec (M - eps) 0) as [Neg|Pos].
    - exists 1%nat. split; [lia|]. intros k _ v V0 _. lra.
    - destruct (Req_dec (M - eps) 0) as [Z0|N0].
      + exists 1%nat. split; [lia|]. intros k Hk v V0 V. destruct (Rlt_le_dec (M - eps) v) as [|L]; [assumption|]. exfalso. assert (v = 0) by lra. subst v.
        rewrite pow_i in V by lia. assert (0 < M ^ k) by (apply pow_lt; lra). nra.
      + assert (X0 : 0 < eps / (M - eps)) by (apply Rdiv_lt_0_compat; lra). destruct (grows (eps / (M - eps)) (/ v0) X0) as (K & HK & G). exists K. split; [exact HK|]. intros k Hk v V0 V.
        destruct (Rlt_le_dec (M - eps) v) as [|L]; [assumption|]. exfalso. specialize (G k Hk).
        assert (v ^ k <= (M - eps) ^ k) by (apply pow_incr; lra). replace M with ((M - eps) * (1 + eps / (M - eps))) in V at 1 by (field; exact N0). rewrite Rpow_mult_distr in V.
        set (q := (M - eps) ^ k) in *. assert (0 < q) by (apply pow_lt; lra). set (r := (1 + eps / (M - eps)) ^ k) in *.
        assert (1 < v0 * r). { apply Rmult_lt_reg_l with (/ v0); [apply Rinv_0_lt_compat; exact P0|]. rewrite <- Rmult_assoc, Rinv_l by lra. lra. }
        assert (q * 1 < q * (v0 * r)) by (apply Rmult_lt_compat_l; assumption). lra. }
  destruct UP as (K1 & HK1 & UP), LOW as (K2 & HK2 & LOW). exists (Nat.max K1 K2). intros k Hk.
  destruct (C115_bounds d nn k pen X U Z cells M Hd ltac:(lia) Hm Ht) as (v & E & V0 & Hu & Hl). exists v. split; [exact E|].
  specialize (UP k ltac:(lia) v V0 Hu). specialize (LOW k ltac:(lia) v V0 (Hl c0 Hc0)). apply Rabs_def1; lra.
Qed.
Print Assumptions C115_limit.

(** The value is zero exactly when no cell with a nonzero penalty is stressed. *)
Theorem C115_zero : forall d nn k pen X U Z cells, (1 <= d <= 3)%nat -> (1 <= k)%nat -> mesh_ok d nn X cells ->
  (forall c, In c cells -> weight_of d pen Z c <> 0) ->
  exists v, stress_pnorm d Plain (INR k) pen X U Z cells = Ok v /\
    (v = 0 <-> forall c i, In c cells -> (i < num_voigt d)%nat -> stress_at d X U c i = 0).
Proof.
  intros d nn k pen X U Z cells Hd Hk Hm Hw. destruct (C115_value d nn k pen X U Z cells Hd Hk Hm) as (v & E & [V0 V]). exists v. split; [exact E|].
  assert (VP : forall c, In c cells -> 0 < measure_of d X c) by (intros c Hc; apply (volume_loop d nn X cells c Hd Hm Hc)). split.
  - intros -> c i Hc Hi. rewrite pow_i in V by lia.
    pose proof (sum_over_in cells (fun c => measure_of d X c * shown d pen X U Z c ^ k) c) as L. cbv beta in L. rewrite <- V in L.
    assert (S0 : shown d pen X U Z c = 0).
    { destruct (Req_dec (shown d pen X U Z c) 0) as [|N]; [assumption|]. exfalso. pose proof (shown_nonneg d pen X U Z c) as S.
      assert (0 < shown d pen X U Z c ^ k) by (apply pow_lt; lra).
      assert (measure_of d X c * shown d pen X U Z c ^ k <= 0).
      { apply L; [|exact Hc]. intros y Hy. apply Rmult_le_pos; [left; apply VP; exact Hy|apply pow_le, shown_nonneg]. }
      pose proof (Rmult_lt_0_compat _ _ (VP c Hc) H). lra. }
    unfold shown in S0. apply Rmult_integral in S0 as [S0|S0]; [exfalso; apply (Rabs_no_R0 _ (Hw c Hc)); exact S0|]. exact (proj1 (magnitude_zero _ _) S0 i Hi).
  - intros H. apply (root_unique k 0 v 0 Hk); [|split; [lra|apply pow_i; lia]]. split; [exact V0|]. rewrite V.
    apply sum_over_0. intros c Hc. unfold shown. rewrite (proj2 (magnitude_zero _ _) (fun i Hi => H c i Hc Hi)), Rmult_0_r, pow_i by lia. ring.
Qed.
Print Assumptions C115_zero.

(** The same for the hyperbolic criterion, with the reference strain of the material, and for electromechanics. *)
Lemma measure_mesh {M} d nn X (cells : list (cell M)) c : (1 <= d <= 3)%nat -> mesh_ok d nn X cells -> In c cells ->
  cell_measure d (gather_coords X c) = measure_of d X c /\ 0 < measure_of d X c.
Proof. intros Hd Hm Hc. rewrite <- (proj1 (volume_loop d nn X cells c Hd Hm Hc)), weight_loop by exact Hd. split; [reflexivity|]. rewrite <- weight_loop by exact Hd. rewrite (proj1 (volume_loop d nn X cells c Hd Hm Hc)). apply (volume_loop d nn X cells c Hd Hm Hc). Qed.
Theorem C115_hyperbolic : forall d nn k pen X U Z cells, (1 <= d <= 3)%nat -> (1 <= k)%nat -> mesh_ok d nn X cells ->
  exists v, hyperbolic_stress_pnorm d Plain (INR k) pen X U Z cells = Ok v /\ is_root k (sum_over cells (fun c => measure_of d X c *
    (Rabs (weight_of d pen Z c) * magnitude (num_voigt d) (fun i => rs (num_voigt d) (fun j => e_stiff (c_mat c) i j *
        (strain d d (fun _ => 0) (gather d U c) (cell_gradient d (gather_coords X c)) j - e_ref (c_mat c) j)))) ^ k)) v.
Proof.
  intros d nn k pen X U Z cells Hd Hk Hm. unfold hyperbolic_stress_pnorm.
  destruct (criterion_plain (num_voigt d) k (stress_tensor d pen e_stiff e_ref X U Z) (fun c => cell_measure d (gather_coords X c)) cells Hk) as (v & E & H).
  { intros c Hc. destruct (measure_mesh d nn X cells c Hd Hm Hc) as [-> P]. lra. }
  exists v. split; [exact E|]. erewrite sum_over_ext; [exact H|]. intros c Hc. cbv beta. destruct (measure_mesh d nn X cells c Hd Hm Hc) as [-> _].
  f_equal. f_equal. rewrite <- magnitude_scal. apply magnitude_ext. intros i Hi. unfold stress_tensor, weigh, linear_stress, rs.
  change (cell_density (S d) (gather_control Z c)) with (rs (S d) (fun a => Z (c_node c a)) / INR (S d)). fold (weight_of d pen Z c).
  rewrite Rmult_comm. f_equal. apply rsum_ext. intros j Hj. req. ring.
Qed.
Print Assumptions C115_hyperbolic.
Theorem C115_electromechanical : forall d nn k pen X U Z cells, (1 <= d <= 3)%nat -> (1 <= k)%nat -> mesh_ok d nn X cells ->
  exists v, em_stress_pnorm d Plain (INR k) pen X U Z cells = Ok v /\ is_root k (sum_over cells (fun c => measure_of d X c *
    (Rabs (weight_of d pen Z c) * magnitude (num_voigt d) (fun i =>
        rs (num_voigt d) (fun j => p_stiff (c_mat c) i j * strain d (S d) (fun _ => 0) (gather (S d) U c) (cell_gradient d (gather_coords X c)) j)
        + rs d (fun j => p_alpha (c_mat c) * p_piezo (c_mat c) j i * scalar_gradient d (S d) d (gather (S d) U c) (cell_gradient d (gather_coords X c)) j))) ^ k)) v.
Proof.
  intros d nn k pen X U Z cells Hd Hk Hm. unfold em_stress_pnorm. cbv zeta.
  match goal with |- context [criterion _ _ _ ?T _ _] => destruct (criterion_plain (num_voigt d) k T (fun c => cell_measure d (gather_coords X c)) cells Hk) as (v & E & H) end.
  { intros c Hc. destruct (measure_mesh d nn X cells c Hd Hm Hc) as [-> P]. lra. }
  exists v. split; [exact E|]. erewrite sum_over_ext; [exact H|]. intros c Hc. cbv beta. destruct (measure_mesh d nn X cells c Hd Hm Hc) as [-> _].
  f_equal. f_equal. rewrite <- magnitude_scal. apply magnitude_ext. intros i Hi. unfold weigh, em_stress, rs.
  change (cell_density (S d) (gather_control Z c)) with (rs (S d) (fun a => Z (c_node c a)) / INR (S d)). fold (weight_of d pen Z c).
  rewrite Rmult_comm. f_equal. unfold Rminus. f_equal; [apply rsum_ext; intros; req; ring|]. rewrite <- rsum_opp. apply rsum_ext. intros j Hj.
  unfold em_field, scalar_gradient. req. rewrite Rminus_0_l. ring.
Qed.
Print Assumptions C115_electromechanical.

(** ** Where it fails *)
(** The exponent is cut to an integer in the cells and not in the root: with 'Exponent' 2.5 doubling the state does not double the value. *)
Definition unit_bar : elastic := mkElastic (fun _ _ => 1) (fun _ => 1).
Lemma bar_shown U Z : (forall c, In c (bar unit_bar) -> magnitude 1 (stress_tensor 1 (fun _ => 1) e_stiff (fun _ _ => 0) bar_X U Z c) = Rabs (U 1%nat - U 0%nat)) /\
  cell_volume 1 (gather_coords bar_X (mkCell (fun a => a) unit_bar)) * loop_weight 1 = 1.
Proof.
  split.
  - intros c [<-|[]]. rewrite (magnitude_ext 1 _ (fun i => (U 1%nat - U 0%nat) * 1)).
    + rewrite magnitude_scal. replace (magnitude 1 (fun _ => 1)) with 1; [ring|]. unfold magnitude, rs. rsums. replace (0 + 1 * 1) with 1 by ring. rewrite sqrt_1. reflexivity.
    + intros i Hi. assert (i = 0)%nat by lia. subst i. unfold stress_tensor, weigh, linear_stress, strain. cbn [num_voigt]. rsums.
      unfold cell_gradient, gradient1, det1, gather_coords, gather, bar_X. cbn. rsums. replace (0 - 1) with (-1) by ring. field.
  - unfold cell_volume, cell_det, det1, gather_coords, bar_X, loop_weight. cbn -[Rabs]. replace (0 - 1) with (- (1)) by ring. rewrite Rabs_Ropp, Rabs_R1. ring.
Qed.
Lemma int_part_between x (z : Z) : 0 <= x -> IZR z <= x < IZR z + 1 -> to_int x = z.
Proof.
  intros H0 H. unfold to_int. destruct (Rlt_dec x 0); [lra|]. unfold Int_part. rewrite <- (tech_up x (z + 1)); [lia| |]; rewrite plus_IZR; lra.
Qed.
Lemma bar_fraction U Z : 0 < Rabs (U 1%nat - U 0%nat) ->
  stress_pnorm 1 Plain (5 / 2) (fun _ => 1) bar_X U Z (bar unit_bar) = Ok (Rpower (Rabs (U 1%nat - U 0%nat) * Rabs (U 1%nat - U 0%nat)) (2 / 5)).
Proof.
  intros HP. unfold stress_pnorm, criterion. destruct (bar_shown U Z) as [HS HV]. unfold bar. cbn [totalR foldR]. rewrite HV.
  unfold norm_cell, plain_cell. rewrite (int_part_between (5 / 2) 2) by lra. rewrite <- magnitude_sqr, HS by (left; reflexivity).
  set (a := Rabs (U 1%nat - U 0%nat)) in *. assert (A2 : 0 < a * a) by (apply Rmult_lt_0_compat; assumption).
  unfold pow_real at 1. destruct (Rlt_dec (a * a) 0); [lra|]. destruct (Req_EM_T (a * a) 0); [lra|]. cbn [rbind].
  replace (2 / 2) with 1 by field. rewrite Rpower_1, Rplus_0_l, Rmult_1_r by assumption. unfold totalR, root, quot. cbn [foldR rbind]. destruct (Req_EM_T (5 / 2) 0); [lra|]. cbn [rbind].
  unfold pow_real. destruct (Rlt_dec (a * a) 0); [lra|]. destruct (Req_EM_T (a * a) 0); [lra|]. do 2 f_equal. field.
Qed.
Theorem C115_exponent_refuted : ~ (forall d nn e pen X U Z cells s, (1 <= d <= 3)%nat -> 1 <= e -> mesh_ok d nn X cells ->
  exists v, stress_pnorm d Plain e pen X U Z cells = Ok v /\ stress_pnorm d Plain e pen X (fun i => s * U i) Z cells = Ok (Rabs s * v)).
Proof.
  intros H. destruct (H 1%nat 2%nat (5 / 2) (fun _ => 1) bar_X (fun n => INR n) (fun _ => 1) (bar unit_bar) 32 ltac:(lia) ltac:(lra) (bar_ok unit_bar)) as (v & E & E').
  assert (A1 : Rabs (INR 1 - INR 0) = 1) by (cbn; rewrite Rminus_0_r; apply Rabs_R1).
  assert (A2 : Rabs (32 * INR 1 - 32 * INR 0) = 32) by (cbn; rewrite Rmult_0_r, Rmult_1_r, Rminus_0_r; apply Rabs_pos_eq; lra).
  rewrite bar_fraction in E by (rewrite A1; lra). rewrite bar_fraction in E' by (rewrite A2; lra). rewrite A1 in E. rewrite A2 in E'.
  injection E as <-. injection E' as E'. rewrite Rmult_1_r in E'. unfold Rpower at 2 in E'. rewrite ln_1, Rmult_0_r, exp_0, (Rabs_pos_eq 32) in E' by lra.
  assert (P : Rpower (32 * 32) (2 / 5) = 16).
  { replace (32 * 32) with (Rpower 2 10). 2: { change 10 with (INR 10) || (replace 10 with (INR 10) by (cbn; ring)). rewrite Rpower_pow by lra. cbn. ring. }
    rewrite Rpower_mult. replace (10 * (2 / 5)) with (INR 4) by (cbn; field). rewrite Rpower_pow by lra. cbn. ring. }
  rewrite P in E'. lra.
Qed.
Print Assumptions C115_exponent_refuted.

(** The stress criterion of statics leaves the reference strain out: a bar in its unstressed state shows a value. *)
Theorem C115_reference_refuted : exists U, (forall k, elastostatic 1 (fun _ => 1) None bar_X U (fun _ => 1) (bar unit_bar) k = 0) /\
  exists v, stress_pnorm 1 Plain (INR 2) (fun _ => 1) bar_X U (fun _ => 1) (bar unit_bar) = Ok v /\ v = 1 /\
    hyperbolic_stress_pnorm 1 Plain (INR 2) (fun _ => 1) bar_X U (fun _ => 1) (bar unit_bar) = Ok 0.
Proof.
  exists (fun n => INR n). split.
  - intros k. apply assemble_0. intros c j [<-|[]] _. unfold elastostatic_cell. rewrite divergence_0; [reflexivity|lia|]. intros v Hv. cbn [num_voigt] in Hv.
    assert (v = 0)%nat by lia. subst v. unfold weigh, elastic_stress, add_forcing, linear_stress, strain. cbn [num_voigt]. rsums.
    unfold cell_gradient, gradient1, det1, gather_coords, gather, bar_X. cbn. rsums. replace (0 - 1) with (-1) by ring. field.
  - destruct (C115_value 1 2 2 (fun _ => 1) bar_X (fun n => INR n) (fun _ => 1) (bar unit_bar) ltac:(lia) ltac:(lia) (bar_ok unit_bar)) as (v & E & H).
    exists v. split; [exact E|]. split.
    + apply (root_unique 2 _ v 1 ltac:(lia) H). split; [lra|]. cbn [bar sum_over]. rewrite <- shown_tensor.
      change (num_voigt 1) with 1%nat. rewrite (proj1 (bar_shown (fun n => INR n) (fun _ => 1))) by (left; reflexivity).
      unfold measure_of, simplex_measure, bar_X. cbn -[Rabs]. rewrite !Rminus_0_r, Rabs_R1. ring.
    + destruct (C115_hyperbolic 1 2 2 (fun _ => 1) bar_X (fun n => INR n) (fun _ => 1) (bar unit_bar) ltac:(lia) ltac:(lia) (bar_ok unit_bar)) as (w & E' & H').
      rewrite E'. f_equal. apply (root_unique 2 _ w 0 ltac:(lia) H'). split; [lra|]. cbn [bar sum_over].
      rewrite (proj2 (magnitude_zero _ _)); [cbn; ring|]. intros i Hi. cbn [num_voigt] in *. unfold strain, rs. rsums.
      unfold cell_gradient, gradient1, det1, gather_coords, gather, bar_X. cbn. rsums. replace (0 - 1) with (-1) by ring. field.
Qed.
Print Assumptions C115_reference_refuted.

(** A shear stress is counted once, not twice: turning the body together with its displacements changes the value. *)
Definition turn (Q : nat -> nat -> R) (x : nat -> R) (i : nat) : R := rs 2 (fun j => Q i j * x j).
Definition quarter (i j : nat) : R := match i, j with 0%nat, 0%nat => 3 / 5 | 0%nat, _ => - (4 / 5) | _, 0%nat => 4 / 5 | _, _ => 3 / 5 end.
Definition cork : elastic := mkElastic (isotropic_material 2 1 0) (fun _ => 0).
Definition stretch (i j : nat) : R := match i, j with 0%nat, 0%nat => 1 | 1%nat, 1%nat => -1 | _, _ => 0 end.
Lemma cork_shown X A U Z c : In c (square cork) -> mesh_ok 2 4 X (square cork) -> moves 2 4 2 X (fun _ => 0) A U ->
  shown 2 (fun _ => 1) X U Z c ^ 2 = A 0%nat 0%nat * A 0%nat 0%nat + A 1%nat 1%nat * A 1%nat 1%nat + (A 0%nat 1%nat + A 1%nat 0%nat) / 2 * ((A 0%nat 1%nat + A 1%nat 0%nat) / 2).
Proof.
  intros Hc Hm HU. unfold shown, weight_of. rewrite Rabs_R1, Rmult_1_l. cbn [pow]. rewrite Rmult_1_r, magnitude_sqr. cbn [num_voigt]. destruct (mesh_cell _ _ _ _ _ Hm Hc) as [Hn Hv].
  assert (SE : forall v, (v < 3)%nat -> strain 2 2 (fun _ => 0) (gather 2 U c) (cell_gradient 2 (gather_coords X c)) v = engineering_strain 2 A v).
  { intros v Hv'. apply (proj1 (C32_strain 2 2 _ (fun _ => 0) A _ ltac:(lia) ltac:(lia) Hv (gather_moves 2 4 2 X (fun _ => 0) A U c ltac:(lia) Hn HU)) v Hv'). }
  assert (CM : c_mat c = cork) by (destruct Hc as [<-|[<-|[]]]; reflexivity).
  unfold stress_at, rs. rewrite CM. cbn [num_voigt]. rsums. rewrite !SE by lia. unfold cork, isotropic_material, voigt_pattern, engineering_strain. cbn. field.
Qed.
Theorem C115_rotation_refuted : exists X U X' U' v v',
  (forall i j, (i < 2)%nat -> (j < 2)%nat -> rs 2 (fun k => quarter i k * quarter j k) = if Nat.eqb i j then 1 else 0) /\
  (forall n i, (n < 4)%nat -> (i < 2)%nat -> X' n i = turn quarter (X n) i /\ U' (n * 2 + i)%nat = turn quarter (fun j => U (n * 2 + j)%nat) i) /\
  mesh_ok 2 4 X (square cork) /\ mesh_ok 2 4 X' (square cork) /\
  stress_pnorm 2 Plain (INR 2) (fun _ => 1) X U (fun _ => 1) (square cork) = Ok v /\
  stress_pnorm 2 Plain (INR 2) (fun _ => 1) X' U' (fun _ => 1) (square cork) = Ok v' /\ v <> v'.
Proof.
  set (X' := fun n i => turn quarter (square_X n) i). set (U := fun k => rs 2 (fun j => stretch (k mod 2) j * square_X (k / 2) j)).
  set (U' := fun k => turn quarter (fun j => U ((k / 2) * 2 + j)%nat) (k mod 2)).
  set (A' := fun i j => rs 2 (fun p => rs 2 (fun q => quarter i p * stretch p q * quarter j q))).
  assert (D : forall n i, (i < 2)%nat -> ((n * 2 + i) / 2 = n)%nat /\ ((n * 2 + i) mod 2 = i)%nat).
  { intros n i Hi. split; [rewrite Nat.div_add_l, Nat.div_small by lia; lia|rewrite Nat.add_comm, Nat.mod_add, Nat.mod_small by lia; reflexivity]. }
  assert (M' : mesh_ok 2 4 X' (square cork)).
  { intros c Hc. cbn in Hc. destruct Hc as [<-|[<-|[]]]; (split; [intros a Ha; destruct a as [|[|[|a]]]; cbn; lia|]);
      unfold simplex_measure, X', turn, rs; rsums; cbn -[Rabs]; intros E; apply Rmult_integral in E as [E|E]; [|lra| |lra]; revert E; apply Rabs_no_R0; lra. }
  assert (MU : moves 2 4 2 square_X (fun _ => 0) stretch U).
  { intros n i _ Hi. unfold U, affine. destruct (D n i Hi) as [-> ->]. unfold rs. rewrite Rplus_0_l. reflexivity. }
  assert (MU' : moves 2 4 2 X' (fun _ => 0) A' U').
  { intros n i _ Hi. unfold U', affine. destruct (D n i Hi) as [-> ->]. unfold turn, rs. rewrite Rplus_0_l. rsums.
    unfold U. destruct (D n 0%nat ltac:(lia)) as [-> ->]. destruct (D n 1%nat ltac:(lia)) as [-> ->]. unfold A', X', turn, rs. rsums.
    destruct i as [|[|i]]; [| |lia]; unfold quarter, stretch; field. }
  destruct (C115_value 2 4 2 (fun _ => 1) square_X U (fun _ => 1) (square cork) ltac:(lia) ltac:(lia) (square_ok cork)) as (v & E & [_ H]).
  destruct (C115_value 2 4 2 (fun _ => 1) X' U' (fun _ => 1) (square cork) ltac:(lia) ltac:(lia) M') as (v' & E' & [_ H']).
  exists square_X, U, X', U', v, v'. split; [|split; [|split; [apply square_ok|split; [exact M'|split; [exact E|split; [exact E'|]]]]]].
  - intros i j Hi Hj. unfold rs. rsums. destruct i as [|[|i]]; [| |lia]; (destruct j as [|[|j]]; [| |lia]); cbn; field.
  - intros n i _ Hi. split; [reflexivity|]. unfold U'. destruct (D n i Hi) as [-> ->]. reflexivity.
  - intros EV. subst v'. rewrite H in H'.
    assert (S : sum_over (square cork) (fun c => measure_of 2 square_X c * shown 2 (fun _ => 1) square_X U (fun _ => 1) c ^ 2) = 2 * sum_over (square cork) (measure_of 2 square_X)).
    { rewrite <- sum_over_scal. apply sum_over_ext. intros c Hc. rewrite (cork_shown square_X stretch U (fun _ => 1) c Hc (square_ok cork) MU). unfold stretch. field. }
    assert (S' : sum_over (square cork) (fun c => measure_of 2 X' c * shown 2 (fun _ => 1) X' U' (fun _ => 1) c ^ 2) = 674 / 625 * sum_over (square cork) (measure_of 2 X')).
    { rewrite <- sum_over_scal. apply sum_over_ext. intros c Hc. rewrite (cork_shown X' A' U' (fun _ => 1) c Hc M' MU'). unfold A', rs. rsums. unfold quarter, stretch. field. }
    rewrite S, S' in H'.
    assert (T : sum_over (square cork) (measure_of 2 X') = sum_over (square cork) (measure_of 2 square_X)).
    { apply sum_over_ext. intros c Hc. unfold measure_of, simplex_measure. f_equal. f_equal. unfold X', turn, rs. rsums. unfold quarter. field. }
    rewrite T in H'.
    assert (P : 0 < sum_over (square cork) (measure_of 2 square_X)).
    { cbn [square sum_over]. pose proof (proj2 (volume_loop 2 4 square_X (square cork) _ ltac:(lia) (square_ok cork) (or_introl eq_refl))).
      pose proof (proj2 (volume_loop 2 4 square_X (square cork) _ ltac:(lia) (square_ok cork) (or_intror (or_introl eq_refl)))). lra. }
    lra.
Qed.
Print Assumptions C115_rotation_refuted.

(** ** The flux criterion *)
Definition conducted (d : nat) (X : nat -> nat -> R) (T : nat -> R) (c : cell thermal) (i : nat) : R :=
  - rs d (fun j => t_cond_const (c_mat c) i j * scalar_gradient d 1 0 (gather 1 T c) (cell_gradient d (gather_coords X c)) j).
(** For laws that do not depend on the temperature, and integer exponents. *)
Theorem C115_flux_partial : forall d nn k pen X T Z cells, (1 <= d <= 3)%nat -> (1 <= k)%nat -> mesh_ok d nn X cells ->
  (forall c, In c cells -> t_nonlinear (c_mat c) = false) ->
  exists v, flux_pnorm d (INR k) pen X T Z cells = Ok v /\
    is_root k (sum_over cells (fun c => measure_of d X c * (Rabs (weight_of d pen Z c) * magnitude d (conducted d X T c)) ^ k)) v.
Proof.
  intros d nn k pen X T Z cells Hd Hk Hm Hl. unfold flux_pnorm. cbv zeta.
  rewrite (totalR_ok _ (fun c => measure_of d X c * (Rabs (weight_of d pen Z c) * magnitude d (conducted d X T c)) ^ k)).
  2: { intros c Hc. rewrite plain_value by exact Hk. rewrite (proj1 (measure_mesh d nn X cells c Hd Hm Hc)), Rmult_comm. do 3 f_equal. rewrite <- magnitude_scal. apply magnitude_ext.
       intros i Hi. unfold flux_tensor, weigh, flux_no_temperature, thermal_flux, conducted, rs. rewrite (Hl c Hc).
       change (cell_density (S d) (gather_control Z c)) with (rs (S d) (fun a => Z (c_node c a)) / INR (S d)). fold (weight_of d pen Z c).
       rewrite Rmult_comm, Rminus_0_l. do 2 f_equal. apply rsum_ext. intros j Hj. req. ring. }
  rewrite to_int_INR, <- INR_IZR_INZ. cbn [rbind]. apply root_value; [|exact Hk]. apply sum_over_nonneg. intros c Hc.
  apply Rmult_le_pos; [left; apply (measure_mesh d nn X cells c Hd Hm Hc)|]. apply pow_le. apply Rmult_le_pos; [apply Rabs_pos|apply magnitude_nonneg].
Qed.
Print Assumptions C115_flux_partial.
(** A fraction of the exponent is dropped. *)
Theorem C115_flux_truncated : forall d e pen X T Z cells, flux_pnorm d e pen X T Z cells = flux_pnorm d (IZR (to_int e)) pen X T Z cells.
Proof.
  intros d e pen X T Z cells. assert (E : to_int (IZR (to_int e)) = to_int e).
  { generalize (to_int e) as z. intros z. unfold to_int. destruct (Rlt_dec (IZR z) 0) as [H|H].
    - rewrite <- opp_IZR. unfold Int_part. rewrite <- (tech_up (IZR (- z)) (- z + 1)); [lia| |]; rewrite plus_IZR; lra.
    - unfold Int_part. rewrite <- (tech_up (IZR z) (z + 1)); [lia| |]; rewrite plus_IZR; lra. }
  unfold flux_pnorm. rewrite E. reflexivity.
Qed.
Print Assumptions C115_flux_truncated.
(** With a law that depends on the temperature the criterion sees no flux, though heat is conducted. *)
Theorem C115_flux_refuted : exists T v, flux_pnorm 1 (INR 2) (fun _ => 1) bar_X T (fun _ => 1) (bar hot_law) = Ok v /\ v = 0 /\
  work 2 (thermostatic 1 (fun _ => 1) bar_X T (fun _ => 1) (bar hot_law)) T <> 0.
Proof.
  exists ramp_T, 0. split; [|split; [reflexivity|]].
  - unfold flux_pnorm. cbv zeta. rewrite (totalR_ok _ (fun _ => 0)).
    2: { intros c [<-|[]]. rewrite plain_value by lia. rewrite (proj2 (magnitude_zero _ _)); [cbn; f_equal; ring|]. intros i Hi. unfold flux_tensor, weigh, flux_no_temperature, thermal_flux.
         cbn [c_mat hot_law t_nonlinear]. rewrite rsum_0; [ring|]. intros. req. ring. }
    rewrite to_int_INR, <- INR_IZR_INZ. cbn [rbind bar sum_over]. destruct (root_value 2 (0 + 0) ltac:(lra) ltac:(lia)) as (v & E & H). rewrite E. f_equal.
    apply (root_unique 2 _ v 0 ltac:(lia) H). split; [lra|]. cbn. ring.
  - rewrite bar_work. cbn. lra.
Qed.
Print Assumptions C115_flux_refuted.
(** A mesh with a stressed cell, for the theorems above. *)
Example C115_reachable : exists v, stress_pnorm 1 Plain (INR 3) (fun _ => 1) bar_X (fun n => INR n) (fun _ => 1) (bar unit_bar) = Ok v /\ v = 1.
Proof.
  destruct (C115_value 1 2 3 (fun _ => 1) bar_X (fun n => INR n) (fun _ => 1) (bar unit_bar) ltac:(lia) ltac:(lia) (bar_ok unit_bar)) as (v & E & H).
  exists v. split; [exact E|]. apply (root_unique 3 _ v 1 ltac:(lia) H). split; [lra|]. cbn [bar sum_over]. rewrite <- shown_tensor.
  change (num_voigt 1) with 1%nat. rewrite (proj1 (bar_shown (fun n => INR n) (fun _ => 1))) by (left; reflexivity).
  unfold measure_of, simplex_measure, bar_X. cbn -[Rabs]. rewrite !Rminus_0_r, Rabs_R1. ring.
Qed.

(** ** Gradients *)
Lemma root_derivative k x : (1 <= k)%nat -> 0 < x -> forall r : R -> R, (forall y, 0 <= y -> is_root k y (r y)) ->
  exists f, root_factor (INR k) x = Ok f /\ derivable_pt_lim r x f.
Proof.
  intros Hk Hx r Hr. assert (K : 0 < INR k) by (apply lt_0_INR; lia).
  exists (1 / INR k * Rpower x (1 / INR k - 1)). split.
  - unfold root_factor, quot. destruct (Req_EM_T (INR k) 0); [lra|]. cbn [rbind]. unfold pow_real. destruct (Rlt_dec x 0); [lra|]. destruct (Req_EM_T x 0); [lra|]. cbn [rbind].
    f_equal. replace ((1 - INR k) / INR k) with (1 / INR k - 1) by (field; lra). field. lra.
  - pose proof (derivable_pt_lim_power x (1 / INR k) Hx) as P. intros eps He. destruct (P eps He) as [dl Hd].
    assert (M : 0 < Rmin dl x) by (apply Rmin_pos; [apply cond_pos|exact Hx]). exists (mkposreal _ M). intros h Hh Hs. cbn [pos] in Hs.
    assert (B1 := Rmin_l dl x). assert (B2 := Rmin_r dl x). apply Rabs_def2 in Hs as Hs'.
    assert (E : forall y, 0 < y -> r y = Rpower y (1 / INR k)).
    { intros y Hy. apply (root_unique k y _ _ Hk (Hr y ltac:(lra))). destruct (pow_real_root y k ltac:(lra) Hk) as (v & Ev & Hv). unfold pow_real in Ev.
      destruct (Rlt_dec y 0); [lra|]. destruct (Req_EM_T y 0); [lra|]. injection Ev as ->. exact Hv. }
    rewrite !E by lra. apply Hd; [exact Hh|lra].
Qed.
(** The factor that multiplies the gradient of the sum makes it the gradient of the criterion: along every path of displacements on which the sum has the derivative D. *)
Theorem C115_gradient : forall d nn k pen X (U : R -> nat -> R) Z cells s g D, (1 <= d <= 3)%nat -> (1 <= k)%nat -> mesh_ok d nn X cells ->
  let T x := sum_over cells (fun c => measure_of d X c * shown d pen X (U x) Z c ^ k) in
  (forall x, stress_pnorm d Plain (INR k) pen X (U x) Z cells = Ok (g x)) -> derivable_pt_lim T s D -> 0 < T s ->
  exists f, root_factor (INR k) (T s) = Ok f /\ derivable_pt_lim g s (f * D).
Proof.
  intros d nn k pen X U Z cells s g D Hd Hk Hm T Hg HD HT.
  assert (R0 : exists r : R -> R, forall y, 0 <= y -> is_root k y (r y)).
  { exists (fun y => match root (INR k) y with Ok v => v | _ => 0 end). intros y Hy. destruct (root_value k y Hy Hk) as (v & E & Hv). rewrite E. exact Hv. }
  destruct R0 as [r Hr]. destruct (root_derivative k (T s) Hk HT r Hr) as (f & Ef & Df). exists f. split; [exact Ef|].
  assert (G : forall x, r (T x) = g x).
  { intros x. destruct (C115_value d nn k pen X (U x) Z cells Hd Hk Hm) as (v & E & Hv). rewrite Hg in E. injection E as ->. apply (root_unique k (T x) _ _ Hk); [|exact Hv]. apply Hr.
    destruct Hv as [V0 V1]. unfold T. rewrite <- V1. apply pow_le. exact V0. }
  pose proof (derivable_pt_lim_comp T r s D f HD Df) as C. intros eps He. destruct (C eps He) as [dl Hdl]. exists dl. intros h Hh Hs. specialize (Hdl h Hh Hs). unfold comp in Hdl. rewrite !G in Hdl. exact Hdl.
Qed.
Print Assumptions C115_gradient.
(** Without stress the factor is an infinity, for every exponent above one: the unloaded body has a criterion value, zero (C115_zero), but no gradient. *)
Theorem C115_gradient_refuted : forall k, (2 <= k)%nat -> root_factor (INR k) 0 = UB.
Proof.
  intros k Hk. assert (K : 2 <= INR k) by (change 2 with (INR 2); apply le_INR; exact Hk). unfold root_factor, quot. destruct (Req_EM_T (INR k) 0); [lra|]. cbn [rbind].
  assert (L : (1 - INR k) / INR k < 0). { apply Rmult_lt_reg_r with (INR k); [lra|]. replace ((1 - INR k) / INR k * INR k) with (1 - INR k) by (field; lra). lra. }
  unfold pow_real. destruct (Rlt_dec 0 0); [lra|]. destruct (Req_EM_T 0 0); [|contradiction]. destruct (Req_EM_T _ 0); [lra|]. destruct (Rlt_dec _ 0); [reflexivity|lra].
Qed.
Print Assumptions C115_gradient_refuted.
(** Stretching the bar: the derivative of the criterion in the stretch. *)
Example C115_gradient_reachable : let T (x : R) := sum_over (bar unit_bar) (fun c => measure_of 1 bar_X c * shown 1 (fun _ => 1) bar_X (fun n => x * INR n) (fun _ => 1) c ^ 2) in derivable_pt_lim T 1 2 /\ T 1 = 1.
Proof.
  assert (E : forall x, sum_over (bar unit_bar) (fun c => measure_of 1 bar_X c * shown 1 (fun _ => 1) bar_X (fun n => x * INR n) (fun _ => 1) c ^ 2) = x * x).
  { intros x. cbn [bar sum_over]. rewrite <- shown_tensor. change (num_voigt 1) with 1%nat. unfold magnitude, rs. rewrite pow2_sqrt.
    2: { apply squares_nonneg. }
    rsums. unfold stress_tensor, weigh, linear_stress, strain, cell_gradient, gradient1, det1, gather_coords, gather, bar_X. cbn [num_voigt]. rsums. unfold measure_of, simplex_measure. cbn -[Rabs].
    rewrite !Rminus_0_r, Rabs_R1. rsums. cbn -[Rabs]. field. }
  cbv zeta. split; [|rewrite E; ring]. intros eps He. exists (mkposreal eps He). intros h Hh Hs. cbn [pos] in Hs. rewrite !E.
  replace (((1 + h) * (1 + h) - 1 * 1) / h - 2) with h by (field; exact Hh). exact Hs.
Qed.
