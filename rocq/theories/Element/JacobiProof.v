(** Lemmas on the Jacobi eigenvalue iteration. *)
From Coq Require Import Reals List Arith Bool Lia Lra.
From Verif Require Import Base.Field Base.Sums Element.ElementModel Element.ElementProof Element.MaterialModel Element.ElementSpec Element.MaterialSpec.
Import ListNotations.
Local Open Scope R_scope.

Ltac rsx := unfold rs in *; cbn [sum] in *; change (@radd R_ring) with Rplus in *; change (@r0 R_ring) with 0 in *; change (@rmul R_ring) with Rmult in *; try req.
Ltac idx i := destruct i as [|[|[|i]]]; [| | |exfalso; lia].

Definition symm3 (T : nat -> nat -> R) : Prop := T 1%nat 0%nat = T 0%nat 1%nat /\ T 2%nat 0%nat = T 0%nat 2%nat /\ T 2%nat 1%nat = T 1%nat 2%nat.

Lemma tangent_root tau : tangent tau * tangent tau + 2 * tau * tangent tau - 1 = 0.
Proof.
  unfold tangent. assert (H0 : 0 <= 1 + tau * tau) by nra. set (r := sqrt (1 + tau * tau)).
  assert (Hr : r * r = 1 + tau * tau) by (apply sqrt_sqrt; exact H0).
  assert (Hp : 0 <= r) by apply sqrt_pos.
  destruct (Rle_dec 0 tau) as [H|H].
  - assert (D : 0 < tau + r) by nra.
    replace (1 / (tau + r) * (1 / (tau + r)) + 2 * tau * (1 / (tau + r)) - 1) with ((1 + tau * tau - r * r) / ((tau + r) * (tau + r))) by (field; lra).
    rewrite Hr. field. lra.
  - assert (D : 0 < r - tau) by nra.
    replace (-1 / (r - tau) * (-1 / (r - tau)) + 2 * tau * (-1 / (r - tau)) - 1) with ((1 + tau * tau - r * r) / ((r - tau) * (r - tau))) by (field; lra).
    rewrite Hr. field. lra.
Qed.

Lemma cs_norm t : let c := 1 / sqrt (1 + t * t) in c * c + (t * c) * (t * c) = 1.
Proof.
  intros c. assert (H0 : 0 < 1 + t * t) by nra. assert (H1 : 0 < sqrt (1 + t * t)) by (apply sqrt_lt_R0; exact H0).
  assert (Hs : sqrt (1 + t * t) * sqrt (1 + t * t) = 1 + t * t) by (apply sqrt_sqrt; lra).
  unfold c. set (r := sqrt (1 + t * t)) in *.
  replace (1 / r * (1 / r) + t * (1 / r) * (t * (1 / r))) with ((1 + t * t) / (r * r)) by (field; lra).
  rewrite Hs. field. nra.
Qed.
(** The rotation annihilates the pivot. *)
Lemma annihilate a b c0 : b <> 0 -> let tau := (c0 - a) / (2 * b) in let t := tangent tau in let c := 1 / sqrt (1 + t * t) in let s := t * c in
  c * s * (a - c0) + b * (c * c - s * s) = 0.
Proof.
  intros Hb tau t c s. pose proof (tangent_root tau) as H. fold t in H.
  assert (E : c0 - a = 2 * b * tau) by (unfold tau; field; exact Hb).
  unfold s. replace (c * (t * c) * (a - c0) + b * (c * c - t * c * (t * c))) with (- (c * c) * (b * (t * t) + (c0 - a) * t - b)) by ring.
  rewrite E. replace (b * (t * t) + 2 * b * tau * t - b) with (b * (t * t + 2 * tau * t - 1)) by ring. rewrite H. ring.
Qed.

Definition gmat (p q : nat) (c s : R) : nat -> nat -> R :=
  fun i j => if (Nat.eqb i p && Nat.eqb j p)%bool then c else if (Nat.eqb i p && Nat.eqb j q)%bool then s
             else if (Nat.eqb i q && Nat.eqb j p)%bool then - s else if (Nat.eqb i q && Nat.eqb j q)%bool then c
             else if Nat.eqb i j then 1 else 0.
Definition pair3 (p q : nat) : Prop := (p = 0 /\ q = 1 \/ p = 0 /\ q = 2 \/ p = 1 /\ q = 2)%nat.

Lemma pivot_max T : let (p, q) := pivot T in pair3 p q /\
  Rabs (T 0%nat 1%nat) <= Rabs (T p q) /\ Rabs (T 0%nat 2%nat) <= Rabs (T p q) /\ Rabs (T 1%nat 2%nat) <= Rabs (T p q).
Proof.
  unfold pivot, Rgeb, pair3.
  destruct (Rle_dec (Rabs (T 1%nat 2%nat)) (Rabs (T 0%nat 2%nat))), (Rle_dec (Rabs (T 0%nat 2%nat)) (Rabs (T 0%nat 1%nat))), (Rle_dec (Rabs (T 1%nat 2%nat)) (Rabs (T 0%nat 1%nat)));
    cbn; (split; [tauto|]); lra.
Qed.

Lemma givens_cases T : exists p q c s, pair3 p q /\ givens T = gmat p q c s /\ c * c + s * s = 1 /\
  Rabs (T 0%nat 1%nat) <= Rabs (T p q) /\ Rabs (T 0%nat 2%nat) <= Rabs (T p q) /\ Rabs (T 1%nat 2%nat) <= Rabs (T p q) /\
  ((Rabs (T p q) <= tiny /\ c = 1 /\ s = 0) \/ c * s * (T p p - T q q) + T p q * (c * c - s * s) = 0).
Proof.
  pose proof (pivot_max T) as H. unfold givens. destruct (pivot T) as [p q]. destruct H as (H1 & H2 & H3 & H4).
  destruct (Rlt_dec tiny (Rabs (T p q))) as [L|L].
  - assert (N : T p q <> 0). { intros E. rewrite E, Rabs_R0 in L. unfold tiny in L. assert (0 < / 10 ^ 15) by (apply Rinv_0_lt_compat; apply pow_lt; lra). lra. }
    eexists p, q, _, _. split; [exact H1|]. split; [reflexivity|]. split; [apply cs_norm|]. repeat (split; [assumption|]). right.
    apply (annihilate (T p p) (T p q) (T q q) N).
  - exists p, q, 1, 0. split; [exact H1|]. split; [reflexivity|]. split; [ring|]. repeat (split; [assumption|]). left. split; [lra|]. split; reflexivity.
Qed.

Definition orth2 (Q : nat -> nat -> R) : Prop := orthonormal Q /\ orthonormal (fun i j => Q j i).
Lemma orth_gmat p q c s : pair3 p q -> c * c + s * s = 1 -> orth2 (gmat p q c s).
Proof.
  intros Hp Hc. split; intros i j Hi Hj; destruct Hp as [[-> ->]|[[-> ->]|[-> ->]]]; idx i; idx j; rsx; cbn; lra.
Qed.
Lemma orth_mul G Q : orth2 G -> orth2 Q -> orth2 (mm (K := R_ring) 3 G Q).
Proof.
  intros [G1 G2] [Q1 Q2].
  assert (A : forall G Q, orthonormal G -> orthonormal Q -> orthonormal (fun i j => rs 3 (fun k => G i k * Q k j))).
  { clear. intros G Q HG HQ i j Hi Hj.
    transitivity (rs 3 (fun a => rs 3 (fun b => Q a i * Q b j * rs 3 (fun k => G k a * G k b)))); [rsx; ring|].
    rewrite <- (HQ i j Hi Hj). unfold rs at 1.
    rewrite (rsum_ext 3 _ (fun a => Q a i * Q a j)); [reflexivity|]. intros a Ha. unfold rs at 1.
    rewrite (rsum_single 3 a); [rewrite HG, Nat.eqb_refl by assumption; req; ring|exact Ha|].
    intros b Hb Hne. rewrite HG by assumption. destruct (Nat.eqb_spec a b); [congruence|]. req. ring. }
  split.
  - exact (A G Q G1 Q1).
  - intros i j Hi Hj. rewrite <- (A (fun i j => Q j i) (fun i j => G j i) Q2 G2 i j Hi Hj). unfold mm. rsx. ring.
Qed.

Lemma rotate_similar T G : symm3 T -> forall i l, (i < 3)%nat -> (l < 3)%nat -> rotate T G i l = similar G T i l.
Proof.
  intros (H1 & H2 & H3) i l Hi Hl. unfold rotate, similar. destruct (Nat.leb_spec i l); [reflexivity|]. rsx. rewrite H1, H2, H3. ring.
Qed.
Lemma rotate_symm T G : symm3 (rotate T G).
Proof. unfold symm3, rotate. split; [|split]; reflexivity. Qed.
Lemma similar_ext Q T T' i l : (forall j k, (j < 3)%nat -> (k < 3)%nat -> T j k = T' j k) -> similar Q T i l = similar Q T' i l.
Proof. intros H. unfold similar, rs. apply rsum_ext. intros j Hj. apply rsum_ext. intros k Hk. rewrite H by assumption. reflexivity. Qed.
Lemma similar_mul G Q T i l : similar Q (similar G T) i l = similar (mm (K := R_ring) 3 G Q) T i l.
Proof. unfold similar, mm. rsx. ring. Qed.

Lemma jacobi_similar n : forall T, symm3 T -> symm3 (jacobi n T) /\
  exists Q, orth2 Q /\ forall i l, (i < 3)%nat -> (l < 3)%nat -> jacobi n T i l = similar Q T i l.
Proof.
  induction n as [|n IH]; intros T HT.
  - split; [exact HT|]. exists (fun i j => if Nat.eqb i j then 1 else 0). split.
    + split; intros i j Hi Hj; idx i; idx j; rsx; cbn; ring.
    + intros i l Hi Hl. unfold similar. cbn [jacobi]. idx i; idx l; rsx; cbn [Nat.eqb]; ring.
  - cbn [jacobi]. destruct (IH (rotate T (givens T)) (rotate_symm _ _)) as (S1 & Q & HQ & E). split; [exact S1|].
    exists (mm (K := R_ring) 3 (givens T) Q).
    destruct (givens_cases T) as (p & q & c & s & Hp & Hg & Hc & _). split.
    + apply orth_mul; [|exact HQ]. rewrite Hg. apply orth_gmat; assumption.
    + intros i l Hi Hl. rewrite E by assumption. rewrite <- similar_mul. apply similar_ext. intros. apply rotate_similar; assumption.
Qed.

(** ** Off-diagonal mass *)
Lemma Rsq_abs_le a b : Rabs a <= Rabs b -> a * a <= b * b.
Proof. intros H. apply Rsqr_le_abs_1 in H. exact H. Qed.
Definition has_zero (T : nat -> nat -> R) : Prop := T 0%nat 1%nat = 0 \/ T 0%nat 2%nat = 0 \/ T 1%nat 2%nat = 0.
Definition floor_ : R := 3 * (tiny * tiny).
Lemma step_off T : symm3 T -> let B := rotate T (givens T) in
  (off_mass B <= floor_ /\ (forall i j, (i < 3)%nat -> (j < 3)%nat -> B i j = T i j)) \/
  (has_zero B /\ off_mass B <= 2 / 3 * off_mass T /\ (has_zero T -> off_mass B <= 1 / 2 * off_mass T)).
Proof.
  intros HT B. destruct (givens_cases T) as (p & q & c & s & Hp & Hg & Hc & M1 & M2 & M3 & Hd).
  assert (HB : forall i l, (i < 3)%nat -> (l < 3)%nat -> B i l = similar (gmat p q c s) T i l) by (intros; unfold B; rewrite Hg; apply rotate_similar; assumption).
  destruct Hd as [(Ht & -> & ->)|Hz].
  - left. assert (E : forall i j, (i < 3)%nat -> (j < 3)%nat -> B i j = T i j).
    { intros i j Hi Hj. rewrite HB by assumption. unfold similar. destruct Hp as [[-> ->]|[[-> ->]|[-> ->]]]; idx i; idx j; rsx; cbn; ring. }
    split; [|exact E]. unfold off_mass. rewrite !E by lia.
    assert (P : 0 < tiny) by (unfold tiny; apply Rinv_0_lt_compat; apply pow_lt; lra).
    assert (Q : forall a, Rabs a <= Rabs (T p q) -> a * a <= tiny * tiny). { intros a Ha. apply Rsq_abs_le. rewrite (Rabs_pos_eq tiny) by lra. lra. }
    pose proof (Q _ M1). pose proof (Q _ M2). pose proof (Q _ M3). unfold floor_. lra.
  - right. destruct HT as (S1 & S2 & S3).
    apply Rsq_abs_le in M1, M2, M3.
    assert (O : off_mass B = off_mass T - T p q * T p q /\ B p q = 0).
    { unfold off_mass. rewrite !HB by lia. destruct Hp as [[-> ->]|[[-> ->]|[-> ->]]].
      - assert (Z : similar (gmat 0 1 c s) T 0 1 = 0). { rewrite <- Hz. unfold similar. rsx; cbn. rewrite S1, S2, S3. ring. }
        rewrite HB, Z by lia. split; [|reflexivity].
        assert (Y : similar (gmat 0 1 c s) T 0 2 * similar (gmat 0 1 c s) T 0 2 + similar (gmat 0 1 c s) T 1 2 * similar (gmat 0 1 c s) T 1 2 = (c * c + s * s) * (T 0%nat 2%nat * T 0%nat 2%nat + T 1%nat 2%nat * T 1%nat 2%nat)).
        { unfold similar. rsx; cbn. rewrite S1, S2, S3. ring. }
        rewrite Hc in Y. lra.
      - assert (Z : similar (gmat 0 2 c s) T 0 2 = 0). { rewrite <- Hz. unfold similar. rsx; cbn. rewrite S1, S2, S3. ring. }
        rewrite HB, Z by lia. split; [|reflexivity].
        assert (Y : similar (gmat 0 2 c s) T 0 1 * similar (gmat 0 2 c s) T 0 1 + similar (gmat 0 2 c s) T 1 2 * similar (gmat 0 2 c s) T 1 2 = (c * c + s * s) * (T 0%nat 1%nat * T 0%nat 1%nat + T 1%nat 2%nat * T 1%nat 2%nat)).
        { unfold similar. rsx; cbn. rewrite S1, S2, S3. ring. }
        rewrite Hc in Y. lra.
      - assert (Z : similar (gmat 1 2 c s) T 1 2 = 0). { rewrite <- Hz. unfold similar. rsx; cbn. rewrite S1, S2, S3. ring. }
        rewrite HB, Z by lia. split; [|reflexivity].
        assert (Y : similar (gmat 1 2 c s) T 0 1 * similar (gmat 1 2 c s) T 0 1 + similar (gmat 1 2 c s) T 0 2 * similar (gmat 1 2 c s) T 0 2 = (c * c + s * s) * (T 0%nat 1%nat * T 0%nat 1%nat + T 0%nat 2%nat * T 0%nat 2%nat)).
        { unfold similar. rsx; cbn. rewrite S1, S2, S3. ring. }
        rewrite Hc in Y. lra. }
    destruct O as (O & Zb). split; [|split].
    + unfold has_zero. destruct Hp as [[-> ->]|[[-> ->]|[-> ->]]]; tauto.
    + rewrite O. unfold off_mass. lra.
    + intros [H|[H|H]]; rewrite O; unfold off_mass; rewrite H in *; lra.
Qed.
Lemma off_nonneg T : 0 <= off_mass T. Proof. unfold off_mass. nra. Qed.
Lemma jacobi_off_zero n : forall T, symm3 T -> has_zero T -> off_mass (jacobi n T) <= Rmax ((1 / 2) ^ n * off_mass T) floor_.
Proof.
  induction n as [|n IH]; intros T HT HZ.
  - cbn [jacobi pow]. rewrite Rmult_1_l. apply Rmax_l.
  - cbn [jacobi]. pose proof (step_off T HT) as H. set (B := rotate T (givens T)) in *. cbv zeta in H.
    assert (P : 0 <= (1 / 2) ^ n) by (apply pow_le; lra).
    pose proof (pow_incr (1 / 2) 1 n ltac:(lra)) as P1. rewrite pow1 in P1.
    destruct H as [(H1 & H2)|(H1 & _ & H2)].
    + assert (Zb : has_zero B) by (unfold has_zero in *; rewrite !H2 by lia; exact HZ).
      eapply Rle_trans; [apply (IH B (rotate_symm _ _) Zb)|]. apply Rmax_lub; [|apply Rmax_r].
      eapply Rle_trans; [|apply Rmax_r]. pose proof (off_nonneg B). nra.
    + eapply Rle_trans; [apply (IH B (rotate_symm _ _) H1)|]. apply Rmax_lub; [|apply Rmax_r].
      eapply Rle_trans; [|apply Rmax_l]. specialize (H2 HZ). cbn [pow]. nra.
Qed.
Lemma off_small n : forall T, symm3 T -> off_mass T <= floor_ -> off_mass (jacobi n T) <= floor_.
Proof.
  induction n as [|n IH]; intros T HT H; [exact H|]. cbn [jacobi]. apply IH; [apply rotate_symm|].
  destruct (step_off T HT) as [(H1 & _)|(_ & H1 & _)]; [exact H1|]. pose proof (off_nonneg T). lra.
Qed.
Lemma jacobi_off n T : symm3 T -> off_mass (jacobi (S n) T) <= Rmax (2 / 3 * (1 / 2) ^ n * off_mass T) floor_.
Proof.
  intros HT. cbn [jacobi]. destruct (step_off T HT) as [(H1 & _)|(H1 & H2 & _)].
  - eapply Rle_trans; [apply off_small; [apply rotate_symm|exact H1]|]. apply Rmax_r.
  - eapply Rle_trans; [apply jacobi_off_zero; [apply rotate_symm|exact H1]|]. apply Rmax_lub; [|apply Rmax_r].
    eapply Rle_trans; [|apply Rmax_l]. assert (P : 0 <= (1 / 2) ^ n) by (apply pow_le; lra).
    replace (2 / 3 * (1 / 2) ^ n * off_mass T) with ((1 / 2) ^ n * (2 / 3 * off_mass T)) by ring. apply Rmult_le_compat_l; assumption.
Qed.

(** ** Norms in an orthonormal basis *)
Lemma norm_rows Q m : orthonormal (fun i j => Q j i) -> rs 3 (fun i => rs 3 (fun j => Q j i * m j) * rs 3 (fun j => Q j i * m j)) = norm2 m.
Proof.
  intros H. transitivity (rs 3 (fun j => rs 3 (fun k => m j * m k * rs 3 (fun i => Q j i * Q k i)))); [rsx; ring|].
  unfold norm2, rs at 1. rewrite (rsum_ext 3 _ (fun j => m j * m j)); [reflexivity|]. intros j Hj.
  unfold rs at 1. rewrite (rsum_single 3 j); [rewrite H, Nat.eqb_refl by assumption; req; ring|exact Hj|].
  intros k Hk Hne. rewrite H by assumption. destruct (Nat.eqb_spec j k); [congruence|]. req. ring.
Qed.
