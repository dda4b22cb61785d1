(** C179, C180: transient temperatures follow the numbering and the frame, add up, and approach the steady state. *)
From Coq Require Import Reals List Arith Bool Lia Lra Permutation FinFun.
From Verif Require Import Base.Field Base.Sums Base.Res BC.ConstraintsSpec BC.ConstraintsMain Problem.DenseBC Problem.SmallSolver Problem.EllipticModel Problem.EllipticSpec Problem.EllipticProof Problem.EllipticProps
  Problem.ParabolicModel Problem.ParabolicSpec Problem.ParabolicProof Problem.ParabolicProps
  Element.ElementModel Element.ElementSpec Element.ElementProof Element.ElementProps Penalty.PenaltyModel Residual.Kernel
  Residual.ResidualModel Residual.ResidualSpec Residual.ResidualProof Residual.ResidualProps Residual.ResidualEnergyProps Residual.FrameSpec Residual.FrameProof Residual.FrameProps Residual.NumberProps
  Residual.SupportSpec Residual.SupportProof Residual.SupportProps Residual.PotentialProps Residual.SolveSpec Residual.SolveProof Residual.SolveProps Residual.Gauss Residual.CurveProof Residual.ThermoSolveProps
  Residual.UnitProps Residual.TransientHeatProps Residual.FollowProps.
Import ListNotations.
Local Open Scope R_scope.

(** ** Specification *)
(** Two transient problems stepped alike. *)
Definition same_times {Y Y'} (p : pproblem R_field Y) (p' : pproblem R_field Y') : Prop := pq_alpha p' = pq_alpha p /\ pq_dt p' = pq_dt p /\ pq_steps p' = pq_steps p.
(** The same temperatures prescribed at the renumbered nodes. *)
Definition temperatures_renumbered {Y Y'} (nn : nat) (q : nat -> nat) (p : pproblem R_field Y) (p' : pproblem R_field Y') : Prop :=
  (forall n, (n < nn)%nat -> (In n (pq_dofs p) <-> In (q n) (pq_dofs p'))) /\
  exists V V', takes (pq_dofs p) (pq_vals p) V /\ takes (pq_dofs p') (pq_vals p') V' /\ same_values nn 1 q V V'.
(** The same temperatures prescribed at the same nodes. *)
Definition temperatures_same {Y Y'} (nn : nat) (p : pproblem R_field Y) (p' : pproblem R_field Y') : Prop :=
  (forall n, (n < nn)%nat -> (In n (pq_dofs p) <-> In n (pq_dofs p'))) /\
  exists V, takes (pq_dofs p) (pq_vals p) V /\ takes (pq_dofs p') (pq_vals p') V.
Definition temperatures_combined {Y1 Y2 Y} (nn : nat) (a b : R) (p1 : pproblem R_field Y1) (p2 : pproblem R_field Y2) (p : pproblem R_field Y) : Prop :=
  (forall n, (n < nn)%nat -> (In n (pq_dofs p) <-> In n (pq_dofs p1)) /\ (In n (pq_dofs p) <-> In n (pq_dofs p2))) /\
  exists V1 V2 V, takes (pq_dofs p1) (pq_vals p1) V1 /\ takes (pq_dofs p2) (pq_vals p2) V2 /\ takes (pq_dofs p) (pq_vals p) V /\ forall n, (n < nn)%nat -> V n = a * V1 n + b * V2 n.

(** ** C179: runs follow *)
Lemma trapezoid (t dt v a w : R) : 1 * t + dt * ((1 - a) * v + a * w) = t + dt * ((1 - a) * v + a * w).
Proof. ring. Qed.
Lemma one_times (a b : R) : a = b -> a = 1 * b.
Proof. intros ->. ring. Qed.
Section Run.
Variables (n : nat) (rel : (nat -> R) -> (nat -> R) -> Prop) (val val' : (nat -> R) -> (nat -> R) -> nat -> R).
Hypothesis Hlin : forall x z U U' V V', rel U U' -> rel V V' -> rel (fun k => x * U k + z * V k) (fun k => x * U' k + z * V' k).
Hypothesis Hval : forall U U' V V', rel U U' -> rel V V' -> rel (val U V) (val' U' V').
Lemma heat_follows {Y Y'} (p : pproblem R_field Y) (p' : pproblem R_field Y') y y' F F' h h' V V' : poses_heat p y n val F -> poses_heat p' y' n val' F' -> same_times p p' ->
  corresponds n rel rel (pq_dofs p) (pq_dofs p') -> takes (pq_dofs p) (pq_vals p) V -> takes (pq_dofs p') (pq_vals p') V' -> rel V V' -> rel F F' -> rel (fst (h 0%nat)) (fst (h' 0%nat)) -> rel (snd (h 0%nat)) (snd (h' 0%nat)) ->
  (forall k, (1 <= k < pq_steps p)%nat -> forall cur, heat_step n val F (pq_dofs p) (pq_vals p) (pq_alpha p) (pq_dt p) (psolution p y h (k - 1)%nat) cur ->
    forall i, (i < n)%nat -> fst cur i = fst (psolution p y h k) i /\ snd cur i = snd (psolution p y h k) i) ->
  (forall k, (1 <= k < pq_steps p')%nat -> heat_step n val' F' (pq_dofs p') (pq_vals p') (pq_alpha p') (pq_dt p') (psolution p' y' h' (k - 1)%nat) (psolution p' y' h' k)) ->
  forall k, (k < pq_steps p)%nat -> rel (fst (psolution p y h k)) (fst (psolution p' y' h' k)) /\ rel (snd (psolution p y h k)) (snd (psolution p' y' h' k)).
Proof.
  intros P P' (Ea & Et & Es) C HV HV' RV HF I1 I2 Un Ex k. induction k as [|k IH]; intros Hk; [rewrite !psolution_init; split; assumption|].
  specialize (IH ltac:(lia)). destruct IH as (R1 & R2). specialize (Un (S k) ltac:(lia)). specialize (Ex (S k) ltac:(lia)). replace (S k - 1)%nat with k in * by lia.
  rewrite Ea, Et in Ex. set (prev := psolution p y h k) in *. set (prev' := psolution p' y' h' k) in *. set (cur' := psolution p' y' h' (S k)) in *.
  destruct (ph_conditions _ _ _ _ _ P') as (L' & _ & _). destruct (ph_conditions _ _ _ _ _ P) as (_ & _ & Lt).
  assert (Inj : forall U W U' W', rel U U' -> rel W W' -> (forall k, (k < n)%nat -> U' k = W' k) -> forall k, (k < n)%nat -> U k = W k).
  { intros U W U' W' HU HW E j Hj. destruct (in_dec Nat.eq_dec j (pq_dofs p)) as [I|I].
    - apply (co_held _ _ _ _ _ C U W U' W' HU HW); [|exact Hj|exact I]. intros l Hl _. apply E. exact Hl.
    - apply (co_free _ _ _ _ _ C U W U' W' HU HW); [|exact Hj|exact I]. intros l Hl _. apply E. exact Hl. }
  destruct (co_back _ _ _ _ _ C (fst cur')) as (U & RU). destruct (co_back _ _ _ _ _ C (snd cur')) as (W & RW). destruct Ex as (NW & T1 & T2).
  assert (St : heat_step n val F (pq_dofs p) (pq_vals p) (pq_alpha p) (pq_dt p) prev (U, W)).
  { split; [|split]; cbn [fst snd].
    - set (a := pq_alpha p : R) in *. set (dt := pq_dt p : R) in *. pose proof (Hlin 1 dt _ _ _ _ R1 (Hlin (1 - a) a _ _ _ _ R2 RW)) as LU.
      intros i Hi. rewrite (Inj _ _ _ _ RU LU) with (k := i); [apply trapezoid| |exact Hi]. intros j Hj. exact (eq_trans (NW j Hj) (eq_sym (trapezoid _ _ _ _ _))).
    - intros j w I. pose proof (in_combine_l _ _ _ _ I) as Hin.
      rewrite (co_held _ _ _ _ _ C U V _ V' RU RV) with (k := j); [apply HV; exact I| |apply Lt; exact Hin|exact Hin]. intros l Hl Hl'. exact (takes_listed _ _ _ _ l L' T1 HV' Hl').
    - intros j Hj Hn. apply (co_free _ _ _ _ _ C _ _ _ _ (Hval _ _ _ _ RU RW) HF); [|exact Hj|exact Hn]. intros l Hl Hnl. apply T2; assumption. }
  pose proof (Un _ St) as E. cbn [fst snd] in E. split.
  - apply (co_ext _ _ _ _ _ C U); [exact RU|]. intros j Hj. symmetry. apply (E j Hj).
  - apply (co_ext _ _ _ _ _ C W); [exact RW|]. intros j Hj. symmetry. apply (E j Hj).
Qed.
End Run.
Lemma numbered_heat d nn pen q X X' Z Z' cells cells' : heat_body d nn pen X Z cells -> renumbered_problem d nn q X X' Z Z' cells cells' -> heat_body d nn pen X' Z' cells'.
Proof.
  intros B (Hq & HX & HZ & HC). pose proof (ht_dim _ _ _ _ _ _ B) as Hd. pose proof (ht_mesh _ _ _ _ _ _ B) as Hm.
  assert (To : forall c, In c cells -> exists c' s s', In c' cells' /\ corner_bijection d s s' /\ forall a, (a <= d)%nat -> c_node c' a = q (c_node c (s a))).
  { destruct HC as (mid & HP & F). intros c Hc. apply (Permutation_in _ HP) in Hc. clear HP. induction F as [|x z l l' (E1 & s & s' & H1 & H2) F IH]; [contradiction|]. destruct Hc as [->|Hc].
    + exists z, s, s'. split; [left; reflexivity|]. split; assumption.
    + destruct (IH Hc) as (c' & t & t' & I & G). exists c', t, t'. split; [right; exact I|exact G]. }
  assert (From : forall c', In c' cells' -> exists c s s', In c cells /\ c_mat c' = c_mat c /\ corner_bijection d s s' /\ forall a, (a <= d)%nat -> c_node c' a = q (c_node c (s a))).
  { destruct HC as (mid & HP & F). intros c' Hc'. assert (G : exists c s s', In c mid /\ c_mat c' = c_mat c /\ corner_bijection d s s' /\ forall a, (a <= d)%nat -> c_node c' a = q (c_node c (s a))).
    { clear HP To. induction F as [|x z l l' (E1 & s & s' & H1 & H2) F IH]; [contradiction|]. destruct Hc' as [->|Hc'].
      + exists x, s, s'. split; [left; reflexivity|]. split; [exact E1|]. split; assumption.
      + destruct (IH Hc') as (c & t & t' & I & G). exists c, t, t'. split; [right; exact I|exact G]. }
    destruct G as (c & s & s' & I & G). exists c, s, s'. split; [apply (Permutation_in _ (Permutation_sym HP)); exact I|exact G]. }
  split; [exact Hd|exact (renumbered_mesh d nn q X X' cells cells' Hd Hq Hm HX HC)| |].
  - intros n' Hn'. destruct Hq as [Bq Iq]. assert (S : exists b, (b < nn)%nat /\ q b = n').
    { apply (proj1 (bInjective_bSurjective (f := q) (n := nn) Bq)); [|exact Hn']. intros x z Hx Hz E. apply Iq; assumption. }
    destruct S as (n & Hn & <-). destruct (ht_nodes _ _ _ _ _ _ B n Hn) as (c & a & Ic & Ha & E). destruct (To c Ic) as (c' & s & s' & Ic' & Hs & Nc). destruct (Hs a Ha) as (_ & Bs & _ & Es).
    exists c', (s' a). split; [exact Ic'|]. split; [exact Bs|]. rewrite Nc by exact Bs. rewrite Es, E. reflexivity.
  - intros c' Ic'. destruct (From c' Ic') as (c & s & s' & Ic & EM & Hs & Nc). destruct (ht_cells _ _ _ _ _ _ B c Ic) as (H1 & H2 & H3 & H4 & H5 & H6). rewrite EM. repeat (split; [assumption|]).
    destruct (renumbered_cell d nn q X X' Z Z' cells Hd Hm HX HZ c c' s s' Ic Hs Nc) as (_ & A2 & _). revert H6. unfold solid.
    assert (E : rs (S d) (fun a => Z' (c_node c' a)) = rs (S d) (fun a => Z (c_node c a))) by (unfold rs; apply (sum_corners d s s' (fun a => Z (c_node c a))); [exact Hs|exact A2]).
    rewrite E. trivial.
Qed.
Theorem C179_numbering : forall (Y Y' : Type) (p : pproblem R_field Y) (y : Y) (p' : pproblem R_field Y') (y' : Y') h h' d nn pen q X X' Z Z' cells cells' F F', heat_body d nn pen X Z cells ->
  renumbered_problem d nn q X X' Z Z' cells cells' -> poses_heat p y nn (fun T V => heat_equation d pen X T V Z cells) F -> poses_heat p' y' nn (fun T V => heat_equation d pen X' T V Z' cells') F' ->
  fresh_storage h -> fresh_storage h' -> same_times p p' -> temperatures_renumbered nn q p p' -> same_values nn 1 q F F' -> same_values nn 1 q (fst (h 0%nat)) (fst (h' 0%nat)) ->
  forall k, (k < pq_steps p)%nat -> same_values nn 1 q (fst (psolution p y h k)) (fst (psolution p' y' h' k)) /\ same_values nn 1 q (snd (psolution p y h k)) (snd (psolution p' y' h' k)).
Proof.
  intros Y Y' p y p' y' h h' d nn pen q X X' Z Z' cells cells' F F' B HN P P' Hf Hf' ST (Hin & V & V' & HV & HV' & RV) HF H0. pose proof (ht_dim _ _ _ _ _ _ B) as Hd. pose proof (ht_mesh _ _ _ _ _ _ B) as Hm.
  assert (Hin1 : forall n i, (n < nn)%nat -> (i < 1)%nat -> In (n * 1 + i)%nat (pq_dofs p) <-> In (q n * 1 + i)%nat (pq_dofs p')).
  { intros n i Hn Hi. replace (n * 1 + i)%nat with n by lia. replace (q n * 1 + i)%nat with (q n) by lia. apply Hin. exact Hn. }
  pose proof (numbering_corresponds nn 1 q _ _ (proj1 HN) Hin1) as CO. rewrite Nat.mul_1_r in CO.
  refine (heat_follows nn (same_values nn 1 q) (fun T V => heat_equation d pen X T V Z cells) (fun T V => heat_equation d pen X' T V Z' cells') _ _ p p' y y' F F' h h' V V' P P' ST CO HV HV' RV HF H0 _ _ _).
  - intros x z U U' W W' HU HW n i Hn Hi. cbn beta. rewrite (HU n i Hn Hi), (HW n i Hn Hi). reflexivity.
  - intros U U' W W' HU HW. exact (proj1 (proj2 (C160_heat d nn pen q X X' U U' W W' Z Z' cells cells' Hd Hm HN HU HW))).
  - intros n i _ _. rewrite (proj1 Hf), (proj1 Hf'). reflexivity.
  - intros k Hk cur. exact (proj2 (C168_steps Y p y h d nn pen X Z cells F B P Hf k Hk) cur).
  - intros k Hk. exact (proj1 (C168_steps Y' p' y' h' d nn pen X' Z' cells' F' (numbered_heat d nn pen q X X' Z Z' cells cells' B HN) P' Hf' k Hk)).
Qed.
Print Assumptions C179_numbering.
(** Moving the body as a whole changes no temperature. *)
Theorem C179_frame : forall (Y Y' : Type) (p : pproblem R_field Y) (y : Y) (p' : pproblem R_field Y') (y' : Y') h h' d nn pen t Q X X' Z cells cells' F F', heat_body d nn pen X Z cells -> heat_body d nn pen X' Z cells' ->
  orthogonal d Q -> placed d nn t Q X X' -> moved_cells (turned_conductor d Q) cells cells' ->
  poses_heat p y nn (fun T V => heat_equation d pen X T V Z cells) F -> poses_heat p' y' nn (fun T V => heat_equation d pen X' T V Z cells') F' ->
  fresh_storage h -> fresh_storage h' -> same_times p p' -> temperatures_same nn p p' -> (forall n, (n < nn)%nat -> F' n = F n /\ fst (h' 0%nat) n = fst (h 0%nat) n) ->
  forall k, (k < pq_steps p)%nat -> forall n, (n < nn)%nat -> fst (psolution p' y' h' k) n = fst (psolution p y h k) n /\ snd (psolution p' y' h' k) n = snd (psolution p y h k) n.
Proof.
  intros Y Y' p y p' y' h h' d nn pen t Q X X' Z cells cells' F F' B B' HQ HP HC P P' Hf Hf' ST (Hin & V & HV & HV') HF. pose proof (ht_dim _ _ _ _ _ _ B) as Hd. pose proof (ht_mesh _ _ _ _ _ _ B) as Hm.
  assert (RS : forall k, (k < pq_steps p)%nat -> scaled_values nn 1 (fst (psolution p y h k)) (fst (psolution p' y' h' k)) /\ scaled_values nn 1 (snd (psolution p y h k)) (snd (psolution p' y' h' k))).
  { refine (heat_follows nn (scaled_values nn 1) (fun T V => heat_equation d pen X T V Z cells) (fun T V => heat_equation d pen X' T V Z cells') _ _ p p' y y' F F' h h' V V P P' ST
      (scaling_corresponds nn 1 1 _ _ R1_neq_R0 R1_neq_R0 Hin) HV HV' _ _ _ _ _ _).
    - intros x z U U' W W' HU HW k Hk. rewrite (HU k Hk), (HW k Hk). ring.
    - intros U U' W W' HU HW. assert (K : forall A A', scaled_values nn 1 A A' -> kept nn 1 0 A A') by (intros A A' HA n Hn; rewrite Nat.mul_1_r, Nat.add_0_r, (HA n Hn); ring).
      intros k Hk. destruct (C159_heat d nn pen t Q X X' U U' W W' Z cells cells' Hd HQ Hm HP (K _ _ HU) (K _ _ HW) HC) as (_ & _ & E & _). specialize (E k Hk). rewrite Nat.mul_1_r, Nat.add_0_r in E. rewrite E. ring.
    - intros k Hk. exact (one_times _ _ eq_refl).
    - intros k Hk. exact (one_times _ _ (proj1 (HF k Hk))).
    - intros k Hk. exact (one_times _ _ (proj2 (HF k Hk))).
    - intros k Hk. exact (one_times _ _ (eq_trans (proj1 Hf' k) (eq_sym (proj1 Hf k)))).
    - intros k Hk cur. exact (proj2 (C168_steps Y p y h d nn pen X Z cells F B P Hf k Hk) cur).
    - intros k Hk. exact (proj1 (C168_steps Y' p' y' h' d nn pen X' Z cells' F' B' P' Hf' k Hk)). }
  intros k Hk n Hn. destruct (RS k Hk) as [E1 E2]. split; [exact (eq_trans (E1 n Hn) (Rmult_1_l _))|exact (eq_trans (E2 n Hn) (Rmult_1_l _))].
Qed.
Print Assumptions C179_frame.
(** Runs add up. *)
Lemma heat_combined d nn pen X Z cells a b T1 V1 T2 V2 k : heat_body d nn pen X Z cells -> (k < nn)%nat ->
  heat_equation d pen X (fun j => a * T1 j + b * T2 j) (fun j => a * V1 j + b * V2 j) Z cells k = a * heat_equation d pen X T1 V1 Z cells k + b * heat_equation d pen X T2 V2 Z cells k.
Proof.
  intros B Hk. rewrite !(val_entry d nn pen X Z cells B) by exact Hk.
  rewrite (proj1 (forms_agree d nn pen X Z cells B (fun j => a * T1 j + b * T2 j) (along (along zero T1 a) T2 b) _ ltac:(intros; unfold along; ring))).
  rewrite (proj2 (forms_agree d nn pen X Z cells B (fun j => a * V1 j + b * V2 j) (along (along zero V1 a) V2 b) _ ltac:(intros; unfold along; ring))).
  rewrite !conducts_lin, !stores_lin, (conducts_zero d nn pen X Z cells B), (stores_zero d nn pen X Z cells B). ring.
Qed.
Theorem C179_superposition : forall (Y1 Y2 Y : Type) (p1 : pproblem R_field Y1) (p2 : pproblem R_field Y2) (p : pproblem R_field Y) y1 y2 y h1 h2 h d nn pen X Z cells F1 F2 F a b, heat_body d nn pen X Z cells ->
  poses_heat p1 y1 nn (fun T V => heat_equation d pen X T V Z cells) F1 -> poses_heat p2 y2 nn (fun T V => heat_equation d pen X T V Z cells) F2 -> poses_heat p y nn (fun T V => heat_equation d pen X T V Z cells) F ->
  fresh_storage h1 -> fresh_storage h2 -> fresh_storage h -> same_times p p1 -> same_times p p2 -> temperatures_combined nn a b p1 p2 p ->
  (forall n, (n < nn)%nat -> F n = a * F1 n + b * F2 n) -> (forall n, (n < nn)%nat -> fst (h 0%nat) n = a * fst (h1 0%nat) n + b * fst (h2 0%nat) n) ->
  forall k, (k < pq_steps p)%nat -> forall n, (n < nn)%nat ->
  fst (psolution p y h k) n = a * fst (psolution p1 y1 h1 k) n + b * fst (psolution p2 y2 h2 k) n /\ snd (psolution p y h k) n = a * snd (psolution p1 y1 h1 k) n + b * snd (psolution p2 y2 h2 k) n.
Proof.
  intros Y1 Y2 Y p1 p2 p y1 y2 y h1 h2 h d nn pen X Z cells F1 F2 F a b B P1 P2 P Hf1 Hf2 Hf (A1 & T1 & N1) (A2 & T2 & N2) (Hh & V1 & V2 & V & TV1 & TV2 & TV & CV) HF H0 k.
  induction k as [|k IH]; intros Hk. { intros n Hn. rewrite !psolution_init. split; [apply H0; exact Hn|]. rewrite (proj1 Hf), (proj1 Hf1), (proj1 Hf2). real_goal. ring. }
  specialize (IH ltac:(lia)).
  pose proof (proj1 (C168_steps Y1 p1 y1 h1 d nn pen X Z cells F1 B P1 Hf1 (S k) ltac:(lia))) as E1. pose proof (proj1 (C168_steps Y2 p2 y2 h2 d nn pen X Z cells F2 B P2 Hf2 (S k) ltac:(lia))) as E2.
  pose proof (proj2 (C168_steps Y p y h d nn pen X Z cells F B P Hf (S k) ltac:(lia))) as Un. replace (S k - 1)%nat with k in * by lia. rewrite A1, T1 in E1. rewrite A2, T2 in E2.
  destruct E1 as (W1 & D1 & M1). destruct E2 as (W2 & D2 & M2). destruct (ph_conditions _ _ _ _ _ P1) as (L1 & _ & _). destruct (ph_conditions _ _ _ _ _ P2) as (L2 & _ & _). destruct (ph_conditions _ _ _ _ _ P) as (L & _ & Lt).
  set (c1 := psolution p1 y1 h1 (S k)) in *. set (c2 := psolution p2 y2 h2 (S k)) in *.
  assert (CB : forall t t1 t2 v v1 v2 w1 w2 u1 u2 dt al : R, t = a * t1 + b * t2 -> v = a * v1 + b * v2 -> u1 = t1 + dt * ((1 - al) * v1 + al * w1) -> u2 = t2 + dt * ((1 - al) * v2 + al * w2) ->
    a * u1 + b * u2 = t + dt * ((1 - al) * v + al * (a * w1 + b * w2))) by (intros; subst; ring).
  assert (St : heat_step nn (fun T V => heat_equation d pen X T V Z cells) F (pq_dofs p) (pq_vals p) (pq_alpha p) (pq_dt p) (psolution p y h k) (fun j => a * fst c1 j + b * fst c2 j, fun j => a * snd c1 j + b * snd c2 j)).
  { split; [|split]; cbn [fst snd].
    - intros i Hi. exact (CB _ _ _ _ _ _ _ _ _ _ _ _ (proj1 (IH i Hi)) (proj2 (IH i Hi)) (W1 i Hi) (W2 i Hi)).
    - intros j w I. pose proof (in_combine_l _ _ _ _ I) as Hin. pose proof (Lt j Hin) as Hj. destruct (Hh j Hj) as [H1 H2].
      rewrite (takes_listed _ _ (fst c1) V1 j L1 D1 TV1 (proj1 H1 Hin)), (takes_listed _ _ (fst c2) V2 j L2 D2 TV2 (proj1 H2 Hin)), <- (CV j Hj). exact (TV j w I).
    - intros j Hj Hn. destruct (Hh j Hj) as [H1 H2]. refine (eq_trans (heat_combined d nn pen X Z cells a b (fst c1) (snd c1) (fst c2) (snd c2) j B Hj) (eq_trans _ (eq_sym (HF j Hj)))).
      exact (f_equal2 (fun u v : R => a * u + b * v) (M1 j Hj (fun I => Hn (proj2 H1 I))) (M2 j Hj (fun I => Hn (proj2 H2 I)))). }
  pose proof (Un _ St) as E. cbn [fst snd] in E. intros n Hn. destruct (E n Hn) as [E1 E2]. split; symmetry; assumption.
Qed.
Print Assumptions C179_superposition.

(** ** C180: the steady state *)
Lemma heat_static d nn pen X T Z cells k : heat_body d nn pen X Z cells -> (k < nn)%nat -> heat_equation d pen X T zero Z cells k = thermostatic d pen X T Z cells k.
Proof.
  intros B Hk. pose proof (ht_mesh _ _ _ _ _ _ B) as Hm. rewrite <- (PotentialProps.work_unit nn (heat_equation d pen X T zero Z cells) k Hk), <- (PotentialProps.work_unit nn (thermostatic d pen X T Z cells) k Hk).
  replace nn with (nn * 1)%nat by lia. unfold heat_equation, thermostatic. rewrite !assemble_work by (apply (mesh_nodes d nn X); exact Hm). apply sum_over_ext. intros c Hc. rewrite heat_work, thermostatic_work.
  destruct (ht_cells _ _ _ _ _ _ B c Hc) as (Hl & _). unfold flux_no_temperature, flux_at, thermal_content. rewrite Hl.
  assert (Z0 : interpolate d 1 0 (gather 1 zero c) = 0) by (unfold interpolate, gather; apply rsum_0; intros; req; ring). rewrite Z0. ring.
Qed.
Lemma derivative_shift f c x l : derivable_pt_lim f x l -> derivable_pt_lim (fun t => f t + c) x l.
Proof. intros H. rewrite <- (Rplus_0_r l). exact (derivable_pt_lim_plus f (fct_cte c) x l 0 H (derivable_pt_lim_const c x)). Qed.
Lemma minus_combined (a b : R) : 1 * a + -1 * b = a - b.
Proof. ring. Qed.
Lemma zero_combined (a : R) : 1 * a + -1 * 0 = a.
Proof. ring. Qed.
Section Steady.
Variables (Y : Type) (p : pproblem R_field Y) (y : Y) (h : phistory R_field) (d nn : nat) (pen : R -> R) (X : nat -> nat -> R) (Z : nat -> R) (cells : list (cell thermal)) (F Ts : nat -> R).
Hypothesis B : heat_body d nn pen X Z cells.
Hypothesis P : poses_heat p y nn (fun T V => heat_equation d pen X T V Z cells) F.
Hypothesis Hf : fresh_storage h.
Hypothesis Hheld : takes (pq_dofs p) (pq_vals p) Ts.
Hypothesis Hbal : forall k, (k < nn)%nat -> ~ In k (pq_dofs p) -> thermostatic d pen X Ts Z cells k = F k.
Lemma steady_stays : (forall n, (n < nn)%nat -> fst (h 0%nat) n = Ts n) ->
  forall k, (k < pq_steps p)%nat -> forall n, (n < nn)%nat -> fst (psolution p y h k) n = Ts n /\ snd (psolution p y h k) n = 0.
Proof.
  intros H0 k. induction k as [|k IH]; intros Hk; [intros n Hn; rewrite psolution_init; split; [apply H0; exact Hn|exact (proj1 Hf n)]|]. specialize (IH ltac:(lia)).
  pose proof (proj2 (C168_steps Y p y h d nn pen X Z cells F B P Hf (S k) ltac:(lia))) as Un. replace (S k - 1)%nat with k in Un by lia.
  assert (CB : forall t t0 v dt al : R, t = t0 -> v = 0 -> t0 = t + dt * ((1 - al) * v + al * 0)) by (intros; subst; ring).
  assert (St : heat_step nn (fun T V => heat_equation d pen X T V Z cells) F (pq_dofs p) (pq_vals p) (pq_alpha p) (pq_dt p) (psolution p y h k) (Ts, zero)).
  { split; [|split]; cbn [fst snd].
    - intros i Hi. exact (CB _ _ _ _ _ (proj1 (IH i Hi)) (proj2 (IH i Hi))).
    - exact Hheld.
    - intros j Hj Hn. rewrite (heat_static d nn) by assumption. apply Hbal; assumption. }
  pose proof (Un _ St) as E. cbn [fst snd] in E. intros n Hn. destruct (E n Hn) as [E1 E2]. split; symmetry; assumption.
Qed.
(** The distance from the steady state is itself a run without supplies and with prescribed zeros. *)
Let p0 : pproblem R_field Y := mkPProblem (K := R_field) (Z := Y) (pq_n p) (pq_steps p) (pq_newton p) (fun _ => false) (fun _ => false) (pq_dofs p) (map (fun _ => 0) (pq_vals p)) (pq_solve p) (pq_alpha p) (pq_dt p)
  (mkPPde (K := R_field) (Z := Y) (fun T V z k => pp_value (pq_pde p) T V z k + F k) (pp_gradient_u (pq_pde p)) (pp_gradient_v (pq_pde p)) (pp_gradient_z (pq_pde p)) (pp_gradient_x (pq_pde p))).
Lemma shifted_poses : poses_heat p0 y nn (fun T V => heat_equation d pen X T V Z cells) (fun _ => 0).
Proof.
  split; try (apply P).
  - intros T V k Hk. cbn [p0 pq_pde pp_value]. rewrite (ph_value _ _ _ _ _ P T V k Hk). real_goal. ring.
  - intros V T i j Hi Hj. cbn [p0 pq_pde pp_value pp_gradient_u]. pose proof (ph_states _ _ _ _ _ P V T i j Hi Hj) as D. apply (derivative_shift _ (F i)) in D. exact D.
  - intros T V i j Hi Hj. cbn [p0 pq_pde pp_value pp_gradient_v]. pose proof (ph_rates _ _ _ _ _ P T V i j Hi Hj) as D. apply (derivative_shift _ (F i)) in D. exact D.
  - destruct (ph_conditions _ _ _ _ _ P) as (L & H1 & H2). cbn [p0 pq_dofs pq_vals]. split; [rewrite map_length; exact L|]. split; assumption.
  - right. reflexivity.
Qed.
Lemma distance_step k : (1 <= k < pq_steps p)%nat -> heat_step nn (fun T V => heat_equation d pen X T V Z cells) (fun _ => 0) (pq_dofs p0) (pq_vals p0) (pq_alpha p0) (pq_dt p0)
  ((fun n => fst (psolution p y h (k - 1)%nat) n - Ts n), snd (psolution p y h (k - 1)%nat)) ((fun n => fst (psolution p y h k) n - Ts n), snd (psolution p y h k)).
Proof.
  intros Hk. destruct (proj1 (C168_steps Y p y h d nn pen X Z cells F B P Hf k Hk)) as (S1 & S2 & S3). destruct (ph_conditions _ _ _ _ _ P) as (L & _ & _).
  assert (C1 : forall t t' dt al v w s : R, t' = t + dt * ((1 - al) * v + al * w) -> t' - s = t - s + dt * ((1 - al) * v + al * w)) by (intros; subst; ring).
  split; [|split]; cbn [fst snd p0 pq_dofs pq_vals pq_alpha pq_dt].
  - intros i Hi. exact (C1 _ _ _ _ _ _ _ (S1 i Hi)).
  - intros j w I. assert (W0 : w = 0). { apply in_combine_r in I. apply in_map_iff in I. destruct I as (v & E & _). symmetry. exact E. }
    rewrite W0. apply in_combine_l in I. exact (Rminus_diag_eq _ _ (takes_listed _ _ (fst (psolution p y h k)) Ts j L S2 Hheld I)).
  - intros j Hj Hn. transitivity (heat_equation d pen X (fun n => 1 * fst (psolution p y h k) n + -1 * Ts n) (fun n => 1 * snd (psolution p y h k) n + -1 * zero n) Z cells j).
    { rewrite !(val_entry d nn pen X Z cells B) by exact Hj. f_equal; [apply (forms_agree d nn pen X Z cells B)|apply (forms_agree d nn pen X Z cells B)]; intros; [symmetry; apply minus_combined|symmetry; apply zero_combined]. }
    rewrite (heat_combined d nn) by assumption. rewrite (heat_static d nn) by assumption. rewrite (Hbal j Hj Hn). exact (eq_trans (minus_combined _ _) (Rminus_diag_eq _ _ (S3 j Hj Hn))).
Qed.
Lemma distance_decays : 1 / 2 <= pq_alpha p -> forall j k, (j <= k < pq_steps p)%nat ->
  stored_square d pen X Z cells (fun n => fst (psolution p y h k) n - Ts n) <= stored_square d pen X Z cells (fun n => fst (psolution p y h j) n - Ts n).
Proof.
  intros Ha j k [Hj Hk]. induction Hj as [|k Hj IH]; [apply Rle_refl|].
  apply (Rle_trans _ (stored_square d pen X Z cells (fun n => fst (psolution p y h k) n - Ts n))); [|apply IH; lia].
  refine (square_decays d nn pen X Z cells B Y p0 y (fun _ => 0) shifted_poses (fun k => ((fun n => fst (psolution p y h k) n - Ts n), snd (psolution p y h k))) (pq_steps p) k _ _ (fun _ => eq_refl) _ Ha Hk).
  - intros l Hl. exact (distance_step l Hl).
  - intros i Hi. cbn [snd]. rewrite psolution_init. exact (proj1 Hf i).
  - intros w Iw. cbn [p0 pq_vals] in Iw. apply in_map_iff in Iw. destruct Iw as (v & E & _). symmetry. exact E.
Qed.
End Steady.
(** A body started at temperatures that balance its supplies and take its prescribed temperatures stays there. *)
Theorem C180_steady : forall (Y : Type) (p : pproblem R_field Y) (y : Y) h d nn pen X Z cells F Ts, heat_body d nn pen X Z cells -> poses_heat p y nn (fun T V => heat_equation d pen X T V Z cells) F -> fresh_storage h ->
  takes (pq_dofs p) (pq_vals p) Ts -> (forall k, (k < nn)%nat -> ~ In k (pq_dofs p) -> thermostatic d pen X Ts Z cells k = F k) -> (forall n, (n < nn)%nat -> fst (h 0%nat) n = Ts n) ->
  forall k, (k < pq_steps p)%nat -> forall n, (n < nn)%nat -> fst (psolution p y h k) n = Ts n /\ snd (psolution p y h k) n = 0.
Proof. exact steady_stays. Qed.
Print Assumptions C180_steady.
(** From any start, for a trapezoid weight of at least one half, the distance to the steady state never grows. *)
Theorem C180_approach : forall (Y : Type) (p : pproblem R_field Y) (y : Y) h d nn pen X Z cells F Ts, heat_body d nn pen X Z cells -> poses_heat p y nn (fun T V => heat_equation d pen X T V Z cells) F -> fresh_storage h ->
  takes (pq_dofs p) (pq_vals p) Ts -> (forall k, (k < nn)%nat -> ~ In k (pq_dofs p) -> thermostatic d pen X Ts Z cells k = F k) -> 1 / 2 <= pq_alpha p ->
  forall j k, (j <= k < pq_steps p)%nat ->
  stored_square d pen X Z cells (fun n => fst (psolution p y h k) n - Ts n) <= stored_square d pen X Z cells (fun n => fst (psolution p y h j) n - Ts n).
Proof. exact distance_decays. Qed.
Print Assumptions C180_approach.
(** What the static solve returns for the same supplies and prescribed temperatures is such a steady state. *)
Theorem C180_static_solution : forall (Y Y' : Type) (p : pproblem R_field Y) (y : Y) (ps : problem R_ring Y') (y' : Y') d nn pen X Z cells F, heat_body d nn pen X Z cells ->
  (forall n, (n < nn)%nat -> anchored d (map c_node cells) (listed (bc_dofs ps)) n) -> poses ps y' nn (fun T => thermostatic d pen X T Z cells) F ->
  poses_heat p y nn (fun T V => heat_equation d pen X T V Z cells) F -> pq_dofs p = bc_dofs ps -> pq_vals p = bc_vals ps ->
  (forall h, fresh_storage h -> (forall n, (n < nn)%nat -> fst (h 0%nat) n = solution ps y' n) -> forall k, (k < pq_steps p)%nat -> forall n, (n < nn)%nat -> fst (psolution p y h k) n = solution ps y' n) /\
  (forall h, fresh_storage h -> 1 / 2 <= pq_alpha p -> forall j k, (j <= k < pq_steps p)%nat ->
    stored_square d pen X Z cells (fun n => fst (psolution p y h k) n - solution ps y' n) <= stored_square d pen X Z cells (fun n => fst (psolution p y h j) n - solution ps y' n)).
Proof.
  intros Y Y' p y ps y' d nn pen X Z cells F B HA PS P ED EV. pose proof (ht_dim _ _ _ _ _ _ B) as Hd. pose proof (ht_mesh _ _ _ _ _ _ B) as Hm.
  destruct (C165_heat Y' ps y' d nn pen X Z cells F Hd Hm HA) as [[T1 T2] _]; [|exact PS|].
  { intros c Hc. destruct (ht_cells _ _ _ _ _ _ B c Hc) as (H1 & H2 & H3 & _ & _ & H6). repeat (split; [assumption|]). exact H6. }
  rewrite <- ED in T2. assert (T3 : takes (pq_dofs p) (pq_vals p) (solution ps y')) by (rewrite ED, EV; exact T1). split.
  - intros h Hf H0 k Hk n Hn. exact (proj1 (C180_steady Y p y h d nn pen X Z cells F _ B P Hf T3 T2 H0 k Hk n Hn)).
  - intros h Hf Ha j k Hjk. exact (C180_approach Y p y h d nn pen X Z cells F _ B P Hf T3 T2 Ha j k Hjk).
Qed.
Print Assumptions C180_static_solution.

(** ** The hypotheses met *)
(** A bar whose end [held] is kept at the temperature v, supplied with F: three states of the trapezoid rule with share 1/2, and the static problem. *)
Definition bar_heat (X : nat -> nat -> R) (held : nat) (v : R) (F : nat -> R) : pproblem R_field Datatypes.unit :=
  mkPProblem (K := R_field) (Z := Datatypes.unit) 2 3 1 (fun _ => false) (fun _ => false) [held] [v] (gauss 2) (1 / 2)%R 1%R
    (mkPPde (K := R_field) (Z := Datatypes.unit) (fun T V _ k => heat_equation 1 (fun x => x) X T V (fun _ => 1) (bar rod_law) k - F k)
       (fun _ _ _ => tangent_matrix (fun T => heat_equation 1 (fun x => x) X T zero (fun _ => 1) (bar rod_law)))
       (fun _ _ _ => tangent_matrix (fun V => heat_equation 1 (fun x => x) X zero V (fun _ => 1) (bar rod_law))) (fun _ _ _ _ _ => 0) (fun _ _ _ _ _ => 0)).
Lemma bar_heat_poses X held v F : heat_body 1 2 (fun x => x) X (fun _ => 1) (bar rod_law) -> (held < 2)%nat ->
  poses_heat (bar_heat X held v F) tt 2 (fun T V => heat_equation 1 (fun x => x) X T V (fun _ => 1) (bar rod_law)) F.
Proof.
  intros B Hh. pose proof (val_entry 1 2 (fun x => x) X (fun _ => 1) (bar rod_law) B) as E. split; try reflexivity.
  - intros V T i j Hi Hj. cbn [pq_pde bar_heat pp_value pp_gradient_u]. unfold tangent_matrix.
    apply (affine_derivative _ (heat_equation 1 (fun x => x) X T V (fun _ => 1) (bar rod_law) i - F i)). intros t. rewrite !E by assumption.
    rewrite (proj1 (forms_agree 1 2 _ _ _ _ B (moved T j t) (along T (unit j) t) _ ltac:(intros k Hk; unfold moved, along, unit; destruct (Nat.eqb k j); ring))).
    rewrite conducts_lin, (conducts_zero 1 2) by apply B. ring.
  - intros T V i j Hi Hj. cbn [pq_pde bar_heat pp_value pp_gradient_v]. unfold tangent_matrix.
    apply (affine_derivative _ (heat_equation 1 (fun x => x) X T V (fun _ => 1) (bar rod_law) i - F i)). intros t. rewrite !E by assumption.
    rewrite (proj2 (forms_agree 1 2 _ _ _ _ B (moved V j t) (along V (unit j) t) _ ltac:(intros k Hk; unfold moved, along, unit; destruct (Nat.eqb k j); ring))).
    rewrite stores_lin, (stores_zero 1 2) by apply B. ring.
  - apply gauss_ok.
  - split; [reflexivity|]. split; [repeat constructor; intros []|]. intros k [<-|[]]. exact Hh.
  - cbn. lra.
  - cbn. lra.
  - cbn. lia.
  - left. reflexivity.
Qed.
Lemma rod_law_swapped : renumbered_problem 1 2 swap bar_X swapped_X (fun _ => 1) (fun _ => 1) (bar rod_law) (bar rod_law).
Proof.
  split; [split; [intros [|[|n]] H; cbn; lia|intros [|[|n]] [|[|k]] H1 H2; cbn; lia]|].
  split; [intros [|[|n]] i H _; try lia; reflexivity|]. split; [intros n i _ _; reflexivity|].
  exists (bar rod_law). split; [apply Permutation_refl|]. repeat constructor. exists (fun a => 1 - a)%nat, (fun a => 1 - a)%nat. split; [intros a Ha; lia|].
  intros [|[|a]] Ha; try lia; reflexivity.
Qed.
Example C179_case : heat_body 1 2 (fun x => x) bar_X (fun _ => 1) (bar rod_law) /\ renumbered_problem 1 2 swap bar_X swapped_X (fun _ => 1) (fun _ => 1) (bar rod_law) (bar rod_law) /\
  poses_heat (bar_heat bar_X 1 5 rod_supply) tt 2 (fun T V => heat_equation 1 (fun x => x) bar_X T V (fun _ => 1) (bar rod_law)) rod_supply /\
  poses_heat (bar_heat swapped_X 0 5 (fun k => rod_supply (swap k))) tt 2 (fun T V => heat_equation 1 (fun x => x) swapped_X T V (fun _ => 1) (bar rod_law)) (fun k => rod_supply (swap k)) /\
  same_times (bar_heat bar_X 1 5 rod_supply) (bar_heat swapped_X 0 5 (fun k => rod_supply (swap k))) /\
  temperatures_renumbered 2 swap (bar_heat bar_X 1 5 rod_supply) (bar_heat swapped_X 0 5 (fun k => rod_supply (swap k))) /\
  same_values 2 1 swap rod_supply (fun k => rod_supply (swap k)) /\ temperatures_combined 2 1 2 (bar_heat bar_X 1 5 rod_supply) (bar_heat bar_X 1 7 rod_supply) (bar_heat bar_X 1 19 (fun k => 3 * rod_supply k)).
Proof.
  split; [apply rod_body|]. split; [apply rod_law_swapped|]. split; [apply bar_heat_poses; [apply rod_body|lia]|].
  split; [apply bar_heat_poses; [exact (numbered_heat _ _ _ _ _ _ _ _ _ _ rod_body rod_law_swapped)|lia]|]. split; [repeat split|]. split.
  { split.
    - intros [|[|n]] Hn; try lia; cbn; split; intros H; try (left; reflexivity); destruct H as [H|[]]; discriminate.
    - exists (fun _ => 5), (fun _ => 5). split; [intros k v [E|[]]; congruence|]. split; [intros k v [E|[]]; congruence|]. intros n i _ _; reflexivity. }
  split; [intros [|[|n]] [|i] Hn Hi; try lia; reflexivity|]. split; [intros n _; split; reflexivity|]. exists (fun _ => 5), (fun _ => 7), (fun _ => 19).
  repeat (split; [intros k v [E|[]]; congruence|]). intros n _. ring.
Qed.
(** The same bar turned end for end. *)
Lemma mirrored_law : moved_cells (turned_conductor 1 mirror) (bar rod_law) (bar rod_law).
Proof.
  repeat constructor; intros; try (destruct i as [|i]; try lia; destruct j as [|j]; try lia); unfold turn_tensor, rs; rsums; unfold mirror; cbn; ring.
Qed.
Lemma mirrored_rod : heat_body 1 2 (fun x => x) mirrored_X (fun _ => 1) (bar rod_law).
Proof.
  destruct rod_body as [H1 H2 H3 H4]. split; [exact H1| |exact H3|exact H4].
  exact (moved_mesh 1 2 _ mirror bar_X mirrored_X _ (bar rod_law) (bar rod_law) H1 mirror_orthogonal H2 mirror_placed mirrored_law).
Qed.
Example C179_frame_case : heat_body 1 2 (fun x => x) mirrored_X (fun _ => 1) (bar rod_law) /\ orthogonal 1 mirror /\ placed 1 2 (fun _ => 5) mirror bar_X mirrored_X /\
  moved_cells (turned_conductor 1 mirror) (bar rod_law) (bar rod_law) /\
  poses_heat (bar_heat mirrored_X 1 5 rod_supply) tt 2 (fun T V => heat_equation 1 (fun x => x) mirrored_X T V (fun _ => 1) (bar rod_law)) rod_supply /\
  temperatures_same 2 (bar_heat bar_X 1 5 rod_supply) (bar_heat mirrored_X 1 5 rod_supply).
Proof.
  split; [apply mirrored_rod|]. split; [apply mirror_orthogonal|]. split; [apply mirror_placed|]. split; [apply mirrored_law|]. split; [apply bar_heat_poses; [apply mirrored_rod|lia]|].
  split; [intros n _; reflexivity|]. exists (fun _ => 5). split; intros k v [E|[]]; congruence.
Qed.
(** The steady state of the bar heated at its left end and kept at 5 at its right end: 8 at the left end. *)
Definition bar_static (held : nat) (v : R) (F : nat -> R) : problem R_ring Datatypes.unit :=
  mkProblem (K := R_ring) (Z := Datatypes.unit) 2 1 (fun _ => false) (fun _ => false) [held] [v] false (solver2 (K := R_field))
    (mkPde (K := R_ring) (Z := Datatypes.unit) (fun T _ k => thermostatic 1 (fun x => x) bar_X T (fun _ => 1) (bar rod_law) k - F k)
      (fun _ _ => tangent_matrix (fun T => thermostatic 1 (fun x => x) bar_X T (fun _ => 1) (bar rod_law)))
      (fun _ _ => tangent_matrix (fun T => thermostatic 1 (fun x => x) bar_X T (fun _ => 1) (bar rod_law))) (fun _ _ _ _ => 0) (fun _ _ _ _ => 0)).
Lemma bar_static_poses held v F : (held < 2)%nat -> poses (bar_static held v F) tt 2 (fun T => thermostatic 1 (fun x => x) bar_X T (fun _ => 1) (bar rod_law)) F.
Proof.
  intros Hh. pose proof (val_entry 1 2 (fun x => x) bar_X (fun _ => 1) (bar rod_law) rod_body) as E. split; try reflexivity.
  - intros T i j Hi Hj. cbn [the_pde bar_static p_value p_gradient_u]. unfold tangent_matrix.
    apply (affine_derivative _ (thermostatic 1 (fun x => x) bar_X T (fun _ => 1) (bar rod_law) i - F i)). intros t. rewrite <- !(heat_static 1 2 _ _ _ _ _ _ rod_body Hi). rewrite !E by assumption.
    rewrite (proj1 (forms_agree 1 2 _ _ _ _ rod_body (moved T j t) (along T (unit j) t) _ ltac:(intros k Hk; unfold moved, along, unit; destruct (Nat.eqb k j); ring))).
    rewrite conducts_lin, (conducts_zero 1 2) by apply rod_body. ring.
  - apply (solver2_ok (K := R_field)).
  - split; [reflexivity|]. split; [repeat constructor; intros []|]. intros k [<-|[]]. exact Hh.
  - cbn. lia.
  - left. reflexivity.
Qed.
Definition steady_bar (n : nat) : R := match n with 0%nat => 8 | _ => 5 end.
Definition steady_start : phistory R_field := fun k => (fun i => if Nat.eqb k 0 then steady_bar i else 0, fun _ => 0).
Example C180_case : heat_body 1 2 (fun x => x) bar_X (fun _ => 1) (bar rod_law) /\
  poses_heat (bar_heat bar_X 1 5 rod_supply) tt 2 (fun T V => heat_equation 1 (fun x => x) bar_X T V (fun _ => 1) (bar rod_law)) rod_supply /\
  takes (pq_dofs (bar_heat bar_X 1 5 rod_supply)) (pq_vals (bar_heat bar_X 1 5 rod_supply)) steady_bar /\
  (forall k, (k < 2)%nat -> ~ In k (pq_dofs (bar_heat bar_X 1 5 rod_supply)) -> thermostatic 1 (fun x => x) bar_X steady_bar (fun _ => 1) (bar rod_law) k = rod_supply k) /\
  fresh_storage steady_start /\ fresh_storage rod_start /\ (forall n, (n < 2)%nat -> anchored 1 (map c_node (bar rod_law)) (listed (bc_dofs (bar_static 1 5 rod_supply))) n) /\
  poses (bar_static 1 5 rod_supply) tt 2 (fun T => thermostatic 1 (fun x => x) bar_X T (fun _ => 1) (bar rod_law)) rod_supply.
Proof.
  split; [apply rod_body|]. split; [apply bar_heat_poses; [apply rod_body|lia]|]. split; [intros k v [E|[]]; inversion E; reflexivity|]. split.
  { intros [|[|k]] Hk N; try lia; [|destruct N; left; reflexivity]. rewrite <- (heat_static 1 2 _ _ _ _ _ _ rod_body Hk).
    rewrite (val_entry 1 2 (fun x => x) bar_X (fun _ => 1) (bar rod_law) rod_body) by exact Hk. rewrite (stores_zero 1 2) by apply rod_body.
    unfold conducts. cbn [bar sum_over]. rewrite density_sum. replace (rs 2 (fun a => (fun _ : nat => 1) (c_node (mkCell (fun a : nat => a) rod_law) a)) / INR 2) with 1 by (rewrite rs_const; cbn; field).
    unfold cell_measure, cell_volume, cell_gradient, gradient1, cell_det, det1, gather_coords, gather, bar_X, cub_weight. cbn -[Rabs]. rsums.
    replace (Rabs (0 - 1)) with 1 by (replace (0 - 1) with (- (1)) by ring; rewrite Rabs_Ropp, Rabs_R1; reflexivity). replace (0 - 1) with (-1) by ring. unfold unit. cbn. field. }
  split; [split; [reflexivity|]; intros [|k] i Hk; [lia|split; reflexivity]|]. split; [apply rod_fresh|]. split; [|apply bar_static_poses; lia].
  intros n Hn. assert (A : anchored 1 (map c_node (bar rod_law)) (listed (bc_dofs (bar_static 1 5 rod_supply))) 1) by (apply anchored_here; reflexivity).
  apply (anchored_next 1 (map c_node (bar rod_law)) _ (fun a => a) 1 n); [left; reflexivity|lia|lia|exact A].
Qed.
