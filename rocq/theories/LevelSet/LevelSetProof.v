(** Lemmas on level sets. *)
From Coq Require Import Reals List Arith Bool Lia Lra Permutation.
From Coquelicot Require Import Coquelicot.
From Verif Require Import Base.Field Base.Sums Base.ListUpd Base.Res Base.Scatter Base.Loops Element.ElementModel Element.ElementSpec Element.ElementProof LevelSet.LevelSetModel LevelSet.LevelSetSpec.
Import ListNotations.
Local Open Scope R_scope.

Ltac rg := try req; ring.
Ltac fd := try req; field.
(** ** Sums *)
Lemma rsum_nonneg n f : (forall i, (i < n)%nat -> 0 <= f i) -> 0 <= rsum n f.
Proof. induction n as [|n IH]; intros H; [rsums; lra|]. rsums. assert (0 <= rsum n f) by (apply IH; intros i Hi; apply H; lia). assert (0 <= f n) by (apply H; lia). cbn in *. lra. Qed.
Lemma rsum_zero n f : (forall i, (i < n)%nat -> 0 <= f i) -> rsum n f = 0 -> forall i, (i < n)%nat -> f i = 0.
Proof.
  induction n as [|n IH]; intros H E i Hi; [lia|]. assert (E' : rsum n f + f n = 0) by exact E.
  assert (H1 : 0 <= rsum n f) by (apply rsum_nonneg; intros j Hj; apply H; lia). assert (H2 : 0 <= f n) by (apply H; lia).
  destruct (Nat.eq_dec i n) as [->|]; [cbn in *; lra|]. apply IH; [intros j Hj; apply H; lia|cbn in *; lra|lia].
Qed.
Lemma rsum_opp n f : rsum n (fun i => - f i) = - rsum n f.
Proof. induction n as [|n IH]; [change (0 = - 0); rg|]. cbn [sum]. change (rsum n (fun i => - f i) + - f n = - (rsum n f + f n)). rewrite IH. rg. Qed.
Lemma rsum_scal_r n f c : rsum n (fun i => f i * c) = rsum n f * c.
Proof. rewrite (rsum_ext n _ (fun i => c * f i)) by (intros; rg). rewrite rsum_scal_l. rg. Qed.

(** ** One element *)
Section Elem.
Variables (d : nat) (x : coords) (phi : nat -> R) (speed : R).
Hypothesis Hd : (1 <= d <= 3)%nat.
Hypothesis Hdet : cell_det d x <> 0.
Notation v := (normal_dir d x phi).
Notation mag := (magnitude d v).
Notation c := (coeff d x phi speed).
Hypothesis Hmag : mag <> 0.

Lemma mag_pos : 0 < mag.
Proof. unfold magnitude in *. pose proof (sqrt_pos (rsum d (fun k => v k * v k))). lra. Qed.
Lemma mag_sq : mag * mag = rsum d (fun k => v k * v k).
Proof. unfold magnitude. apply sqrt_sqrt. apply rsum_nonneg. intros k _. pose proof (Rle_0_sqr (v k)). exact H. Qed.
Lemma coeff_sum : rsum (S d) c = 0.
Proof.
  unfold coeff. rewrite rsum_scal_l. rewrite rsum_swap. rewrite (rsum_0 d); [rg|]. intros k Hk. rewrite rsum_scal_l. rewrite gradient_sum by exact Hd. rg.
Qed.
Lemma ham_val : vol_ham d x phi speed = cell_volume d x * (speed * mag).
Proof.
  unfold vol_ham, coeff. rewrite (rsum_ext _ _ (fun a => cell_volume d x * speed * rsum d (fun k => v k / mag * (cell_gradient d x a k * phi a)))).
  - rewrite rsum_scal_l, rsum_swap. rewrite (rsum_ext d _ (fun k => / mag * (v k * v k))).
    + rewrite rsum_scal_l, <- mag_sq. fd. exact Hmag.
    + intros k _. rewrite rsum_scal_l. fold (v k). unfold Rdiv. rg.
  - intros a _. rewrite Rmult_assoc. f_equal. rewrite <- rsum_scal_r. apply rsum_ext. intros k _. rg.
Qed.
Lemma volume_pos : 0 < cell_volume d x.
Proof. apply Rabs_pos_lt. exact Hdet. Qed.
Definition cpos (a : nat) : R := if Rlt_dec (c a) 0 then 0 else c a.
Lemma sum_split_sign : sum_neg d x phi speed = - sum_pos d x phi speed.
Proof.
  assert (E : sum_neg d x phi speed + sum_pos d x phi speed = 0); [|cbn in *; lra]. unfold sum_neg, sum_pos. rewrite <- rsum_add. etransitivity; [|exact coeff_sum]. apply rsum_ext. intros a _. destruct (Rlt_dec (c a) 0); rg.
Qed.
Lemma ham_split : vol_ham d x phi speed = neg_contrib d x phi speed + rsum (S d) (fun a => cpos a * phi a).
Proof. unfold vol_ham, neg_contrib. rewrite <- rsum_add. apply rsum_ext. intros a _. unfold cpos. destruct (Rlt_dec (c a) 0); rg. Qed.
Lemma sum_pos_pos : vol_ham d x phi speed <> 0 -> 0 < sum_pos d x phi speed.
Proof.
  intros H. assert (H1 : 0 <= sum_pos d x phi speed) by (apply rsum_nonneg; intros a _; destruct (Rlt_dec (c a) 0); lra).
  destruct (Req_dec (sum_pos d x phi speed) 0) as [E|E]; [|lra]. exfalso. apply H. apply rsum_0. intros a Ha.
  assert (P : cpos a = 0) by (apply (rsum_zero (S d) cpos); [intros i _; unfold cpos; destruct (Rlt_dec (c i) 0); lra|exact E|exact Ha]).
  assert (N : - (if Rlt_dec (c a) 0 then c a else 0) = 0).
  { apply (rsum_zero (S d) (fun a => - (if Rlt_dec (c a) 0 then c a else 0))); [intros i _; destruct (Rlt_dec (c i) 0); lra| |exact Ha].
    transitivity (- sum_neg d x phi speed); [exact (rsum_opp (S d) _)|]. rewrite sum_split_sign, E. rg. }
  unfold cpos in P. destruct (Rlt_dec (c a) 0); [replace (c a) with 0 by lra|rewrite P]; rg.
Qed.
Lemma alpha_cpos a : alpha d x phi speed a = cpos a / sum_pos d x phi speed * (neg_contrib d x phi speed - sum_neg d x phi speed * phi a) / vol_ham d x phi speed.
Proof.
  unfold alpha, cpos. destruct (Rlt_dec 0 (c a)) as [h|h], (Rlt_dec (c a) 0) as [h'|h']; try lra; try reflexivity.
  - replace (c a) with 0 by lra. unfold Rdiv. rg.
Qed.
Theorem alpha_sum : vol_ham d x phi speed <> 0 -> rsum (S d) (alpha d x phi speed) = 1.
Proof.
  intros H. pose proof (sum_pos_pos H) as HP. set (P := sum_pos d x phi speed) in *. set (H' := vol_ham d x phi speed) in *.
  rewrite (rsum_ext _ _ (fun a => neg_contrib d x phi speed / P / H' * cpos a + / H' * (cpos a * phi a))).
  - rewrite rsum_add, !rsum_scal_l. change (rsum (S d) cpos) with P.
    transitivity ((neg_contrib d x phi speed + rsum (S d) (fun a => cpos a * phi a)) / H'); [fd; split; lra|]. rewrite <- ham_split. fold H'. fd. exact H.
  - intros a _. rewrite alpha_cpos, sum_split_sign. fold P H'. fd. split; lra.
Qed.
Lemma sum_pos_alpha_ge : vol_ham d x phi speed <> 0 -> 1 <= sum_pos_alpha d x phi speed.
Proof.
  intros H. rewrite <- (alpha_sum H). unfold sum_pos_alpha. apply Rminus_le. 
  assert (E : 0 <= rsum (S d) (fun a => (if Rlt_dec 0 (alpha d x phi speed a) then alpha d x phi speed a else 0) + - alpha d x phi speed a)) by (apply rsum_nonneg; intros a _; destruct (Rlt_dec 0 (alpha d x phi speed a)); lra).
  rewrite rsum_add, rsum_opp in E. match type of E with _ <= ?a + - ?b => assert (F : forall u w : R, 0 <= u + - w -> w - u <= 0) by (intros; lra); exact (F a b E) end.
Qed.
Lemma alpha_ham a : 0 < alpha d x phi speed a -> vol_ham d x phi speed <> 0.
Proof.
  intros H E. rewrite alpha_cpos in H. assert (Hc : c a = 0); [|unfold cpos in H; rewrite Hc in H; destruct (Rlt_dec 0 0); unfold Rdiv in H; rewrite !Rmult_0_l in H; lra].
  rewrite ham_val in E. apply Rmult_integral in E. destruct E as [E|E]; [pose proof volume_pos; lra|]. apply Rmult_integral in E. destruct E as [E|E]; [|pose proof mag_pos; lra]. unfold coeff. rewrite E. rg.
Qed.
End Elem.

Lemma flat_map_nil {A B} (f : A -> list B) l : (forall a, In a l -> f a = []) -> flat_map f l = [].
Proof. induction l as [|a l IH]; intros H; [reflexivity|]. cbn [flat_map]. rewrite (H a (or_introl eq_refl)). apply IH. intros b Hb. apply H. right. exact Hb. Qed.
Theorem elem_adds_spec d x phi speed : (1 <= d <= 3)%nat -> cell_det d x <> 0 ->
  let h := speed * magnitude d (normal_dir d x phi) in
  (forall a r w, In (a, (r, w)) (elem_adds d x phi speed) -> (a < S d)%nat /\ 0 < w /\ r = w * h) /\
  (h = 0 -> elem_adds d x phi speed = []) /\
  (h <> 0 -> lsum (K := R_ring) (map (fun p => snd (snd p)) (elem_adds d x phi speed)) = cell_volume d x).
Proof.
  intros Hd Hdet h. unfold elem_adds. destruct (Req_EM_T (magnitude d (normal_dir d x phi)) 0) as [Hm|Hm].
  - split; [intros a r w []|]. split; [reflexivity|]. intros Hh. exfalso. apply Hh. unfold h. rewrite Hm. rg.
  - pose proof (ham_val d x phi speed Hm) as HV. fold h in HV. pose proof (volume_pos d x Hdet) as HP. split; [|split].
    + intros a r w Hin. apply in_flat_map in Hin. destruct Hin as (b & Hb & Hin). apply in_seq in Hb. destruct (Rlt_dec 0 (alpha d x phi speed b)) as [Ha|_]; [|contradiction].
      cbv zeta in Hin. destruct Hin as [Hin|[]]. pose proof (alpha_ham d x phi speed Hdet Hm b Ha) as HH. pose proof (sum_pos_alpha_ge d x phi speed Hd HH) as HS. injection Hin as <- <- <-.
      split; [lia|]. split; [apply Rmult_lt_0_compat; [apply Rdiv_lt_0_compat; [exact Ha|apply Rlt_le_trans with 1; [apply Rlt_0_1|exact HS]]|exact HP]|]. rewrite HV. rg.
    + intros Hh. rewrite Hh, Rmult_0_r in HV. 
      apply flat_map_nil. intros a _. destruct (Rlt_dec 0 (alpha d x phi speed a)) as [Ha|_]; [|reflexivity]. exfalso. exact (alpha_ham d x phi speed Hdet Hm a Ha HV).
    + intros Hh. assert (HH : vol_ham d x phi speed <> 0) by (rewrite HV; apply Rmult_integral_contrapositive_currified; lra).
      pose proof (sum_pos_alpha_ge d x phi speed Hd HH) as HS.
      transitivity (rsum (S d) (fun a => cell_volume d x / sum_pos_alpha d x phi speed * (if Rlt_dec 0 (alpha d x phi speed a) then alpha d x phi speed a else 0))).
      * generalize (S d). intros n. induction n as [|n IH]; [reflexivity|]. rewrite seq_S, flat_map_app, map_app. etransitivity; [exact (lsum_app (K := R_ring) _ _)|]. rewrite IH. cbn [sum plus]. f_equal. cbn [flat_map]. rewrite app_nil_r.
        rewrite Nat.add_0_l. destruct (Rlt_dec 0 (alpha d x phi speed n)); cbn [map lsum fst snd]; [change (@r0 R_ring) with 0; change (@radd R_ring) with Rplus; fd; lra|change (@r0 R_ring) with 0; rg].
      * rewrite rsum_scal_l. change (cell_volume d x / sum_pos_alpha d x phi speed * sum_pos_alpha d x phi speed = cell_volume d x). fd. lra.
Qed.
Theorem nodal_adds_spec d x phi speed : (1 <= d <= 3)%nat -> cell_det d x <> 0 ->
  forall a r w, In (a, (r, w)) (nodal_adds d x phi speed) -> (a < S d)%nat /\ 0 < w /\ r = w * (speed a * magnitude d (normal_dir d x phi)).
Proof.
  intros Hd Hdet a r w. unfold nodal_adds. destruct (Req_EM_T (magnitude d (normal_dir d x phi)) 0) as [Hm|Hm]; [intros []|].
  intros Hin. apply in_flat_map in Hin. destruct Hin as (b & Hb & Hin). apply in_seq in Hb. cbv zeta in Hin. destruct (Rlt_dec 0 (alpha d x phi (speed b) b)) as [Ha|_]; [|contradiction].
  destruct Hin as [Hin|[]]. injection Hin as <- <- <-. split; [lia|]. split; [apply Rmult_lt_0_compat; [exact Ha|apply volume_pos; exact Hdet]|]. rewrite (ham_val d x phi (speed b) Hm). rg.
Qed.
(** The gradient of an affine fd. *)
Lemma normal_affine d x b0 b phi : (1 <= d <= 3)%nat -> cell_det d x <> 0 -> (forall a, (a < S d)%nat -> phi a = ElementSpec.affine d b0 b x a) ->
  magnitude d (normal_dir d x phi) = euclid d b.
Proof.
  intros Hd Hdet H. unfold magnitude, euclid. f_equal. unfold rs. apply rsum_ext. intros k Hk.
  assert (E : normal_dir d x phi k = b k); [|rewrite E; reflexivity]. unfold normal_dir. rewrite <- (linear_field d x b0 b k Hd Hdet Hk). apply rsum_ext. intros a Ha. rewrite (H a Ha). unfold ElementSpec.affine, rs. rg.
Qed.

(** ** Assembly *)
Lemma amount_ext {A} p (l : list A) (f g : A -> nat * R) : (forall a, In a l -> f a = g a) -> amount (K := R_ring) p (map f l) = amount (K := R_ring) p (map g l).
Proof. intros H. f_equal. apply map_ext_in. exact H. Qed.
Theorem assemble_spec o n adds : perm_adds o -> (forall p, In p adds -> (fst p < n)%nat) ->
  exists rhs nrm, assemble o n adds = Ok (rhs, nrm) /\
    (forall i, nth i rhs 0 = amount (K := R_ring) i (map (fun p => (fst p, fst (snd p))) adds)) /\
    (forall i, nth i nrm 0 = amount (K := R_ring) i (map (fun p => (fst p, snd (snd p))) adds)).
Proof.
  intros Ho Hb. unfold assemble.
  assert (HB : forall g : nat * (R * R) -> R, forall p y, In (p, y) (map (fun p => (fst p, g p)) (o adds)) -> (p < length (repeat 0%R n))%nat).
  { intros g p y Hin. apply in_map_iff in Hin. destruct Hin as (q & E & Hin). injection E as <- <-. rewrite repeat_length. apply Hb. apply (Permutation_in _ (Ho adds) Hin). }
  destruct (add_all_spec (K := R_ring) (map (fun p => (fst p, fst (snd p))) (o adds)) (repeat 0 n) (HB (fun p => fst (snd p)))) as (rhs & E1 & _ & H1).
  destruct (add_all_spec (K := R_ring) (map (fun p => (fst p, snd (snd p))) (o adds)) (repeat 0 n) (HB (fun p => snd (snd p)))) as (nrm & E2 & _ & H2).
  exists rhs, nrm. rewrite E1. cbn [rbind]. rewrite E2. cbn [rbind]. split; [reflexivity|].
  assert (Z : forall i, nth i (repeat 0 n) 0 = 0) by (intros i; apply nth_repeat).
  split; intros i; [specialize (H1 i)|specialize (H2 i)]; [rename H1 into H|rename H2 into H].
  - assert (H' : nth i rhs 0 = nth i (repeat 0 n) 0 + amount (K := R_ring) i (map (fun p => (fst p, fst (snd p))) (o adds))) by exact H. rewrite Z, Rplus_0_l in H'. etransitivity; [exact H'|]. exact (amount_perm (K := R_ring) i _ _ (Permutation_map _ (Ho adds))).
  - assert (H' : nth i nrm 0 = nth i (repeat 0 n) 0 + amount (K := R_ring) i (map (fun p => (fst p, snd (snd p))) (o adds))) by exact H. rewrite Z, Rplus_0_l in H'. etransitivity; [exact H'|]. exact (amount_perm (K := R_ring) i _ _ (Permutation_map _ (Ho adds))).
Qed.
Lemma amount_cons_R i p (y : R) l : amount (K := R_ring) i ((p, y) :: l) = (if Nat.eqb p i then y else 0) + amount (K := R_ring) i l.
Proof. reflexivity. Qed.
(** The Hamiltonian of a node is a weighted mean of those of its contributions. *)
Theorem hamiltonian_mean o n adds i lo hi : perm_adds o -> (forall p, In p adds -> (fst p < n)%nat) ->
  (forall r w, In (i, (r, w)) adds -> 0 < w /\ lo * w <= r <= hi * w) ->
  exists rhs nrm, assemble o n adds = Ok (rhs, nrm) /\
    ((forall r w, ~ In (i, (r, w)) adds) /\ nth i nrm 0 = 0 /\ hamiltonian rhs nrm i = 0 \/ 0 < nth i nrm 0 /\ lo <= hamiltonian rhs nrm i <= hi).
Proof.
  intros Ho Hb Hi. destruct (assemble_spec o n adds Ho Hb) as (rhs & nrm & E & HR & HN). exists rhs, nrm. split; [exact E|].
  assert (HA : let N := amount (K := R_ring) i (map (fun p => (fst p, snd (snd p))) adds) in
     (forall r w, ~ In (i, (r, w)) adds) /\ N = 0 \/
     0 < N /\ lo * N <= amount (K := R_ring) i (map (fun p => (fst p, fst (snd p))) adds) <= hi * N).
  { clear - Hi. induction adds as [|[p [r w]] l IH]; [left; split; [intros r w []|reflexivity]|]. cbn [map fst snd]. rewrite !amount_cons_R. cbv zeta.
    assert (IH' := IH (fun r' w' H => Hi r' w' (or_intror H))). cbv zeta in IH'. clear IH.
    set (N := amount (K := R_ring) i (map (fun p => (fst p, snd (snd p))) l)) in *. set (A := amount (K := R_ring) i (map (fun p => (fst p, fst (snd p))) l)) in *.
    assert (HA0 : (forall r w, ~ In (i, (r, w)) l) -> A = 0).
    { intros H. unfold A, amount. clear - H. induction l as [|[q [r w]] l IH]; [reflexivity|]. cbn [map lsum fst snd]. rewrite IH by (intros r' w' H'; exact (H r' w' (or_intror H'))).
      destruct (Nat.eqb_spec q i) as [->|]; [exfalso; exact (H r w (or_introl eq_refl))|cbn; rg]. }
    clearbody N A. destruct (Nat.eqb_spec p i) as [->|Hne].
    - destruct (Hi r w (or_introl eq_refl)) as [Hw Hb]. right. destruct IH' as [[Hno ->]|[HN Hlh]]; [rewrite (HA0 Hno); cbn in *; lra|cbn in *; split; lra].
    - rewrite !Rplus_0_l. destruct IH' as [[Hno HN0]|HN0]; [left|right; exact HN0]. split; [|exact HN0]. intros r' w' [H'|H']; [injection H' as H'; congruence|exact (Hno r' w' H')]. }
  cbv zeta in HA. rewrite <- HN, <- HR in HA. unfold hamiltonian. destruct HA as [[Hno H0]|[HP [Hl Hh]]].
  - left. split; [exact Hno|]. split; [exact H0|]. rewrite H0. destruct (Rlt_dec 0 0); [lra|reflexivity].
  - right. split; [exact HP|]. destruct (Rlt_dec 0 (nth i nrm 0)) as [_|h]; [|contradiction]. split.
    + apply Rmult_le_reg_r with (nth i nrm 0); [exact HP|]. unfold Rdiv. rewrite Rmult_assoc, Rinv_l, Rmult_1_r by lra. exact Hl.
    + apply Rmult_le_reg_r with (nth i nrm 0); [exact HP|]. unfold Rdiv. rewrite Rmult_assoc, Rinv_l, Rmult_1_r by lra. exact Hh.
Qed.
Lemma now_store f v : now (store_next f v) = v.
Proof.
  unfold store_next, now. destruct (Nat.modulo (current f + 1) 2) as [|k] eqn:E; reflexivity.
Qed.

(** ** The smoothed step *)
Lemma glue_derive (f g h : R -> R) a l : (forall s, s <= a -> f s = g s) -> (exists r, 0 < r /\ forall s, a <= s < a + r -> f s = h s) ->
  derivable_pt_lim g a l -> derivable_pt_lim h a l -> derivable_pt_lim f a l.
Proof.
  intros Hg (r & Hr & Hh) Dg Dh e He. destruct (Dg e He) as [d1 H1]. destruct (Dh e He) as [d2 H2].
  assert (Hm : 0 < Rmin r (Rmin d1 d2)) by (repeat apply Rmin_glb_lt; [exact Hr|apply cond_pos|apply cond_pos]).
  exists (mkposreal _ Hm). intros t Ht Hlt. cbn in Hlt.
  assert (L0 : Rabs t < r) by (eapply Rlt_le_trans; [exact Hlt|apply Rmin_l]).
  assert (L12 : Rabs t < Rmin d1 d2) by (eapply Rlt_le_trans; [exact Hlt|apply Rmin_r]).
  assert (L1 : Rabs t < d1) by (eapply Rlt_le_trans; [exact L12|apply Rmin_l]).
  assert (L2 : Rabs t < d2) by (eapply Rlt_le_trans; [exact L12|apply Rmin_r]).
  destruct (Rle_dec t 0) as [h0|h0].
  - rewrite (Hg (a + t)), (Hg a) by lra. apply H1; assumption.
  - rewrite Rabs_right in L0 by lra. rewrite (Hh (a + t)), (Hh a) by lra. apply H2; assumption.
Qed.
Definition ramp (eps s : R) : R := 1 / 2 * (1 + s / eps + sin (PI * s / eps) / PI).
Lemma ramp_derive eps s : 0 < eps -> derivable_pt_lim (ramp eps) s ((1 / 2) / eps * (1 + cos (PI * s / eps))).
Proof.
  intros He. apply is_derive_Reals. unfold ramp. auto_derive; [exact I|]. pose proof PI_neq0. unfold Rdiv. set (C := cos _). field. split; [lra|exact H].
Qed.
Lemma const_derive c s : derivable_pt_lim (fun _ => c) s 0.
Proof. apply derivable_pt_lim_const. Qed.
Lemma ramp_ends eps : 0 < eps -> ramp eps (- eps) = 0 /\ ramp eps eps = 1 /\ cos (PI * (- eps) / eps) = -1 /\ cos (PI * eps / eps) = -1.
Proof.
  intros He. pose proof PI_neq0. unfold ramp. replace (PI * - eps / eps) with (- PI) by (field; lra). replace (PI * eps / eps) with PI by (field; lra).
  rewrite sin_neg, cos_neg, sin_PI, cos_PI. repeat split; field; lra.
Qed.
Theorem heaviside_derive eps s : 0 < eps -> derivable_pt_lim (fun t => heaviside t eps) s (smooth_delta s eps).
Proof.
  intros He. destruct (ramp_ends eps He) as (R0 & R1 & C0 & C1).
  assert (Hlow : forall t, t <= - eps -> heaviside t eps = 0).
  { intros t Ht. unfold heaviside. destruct (Rlt_dec t (- eps)); [reflexivity|]. destruct (Rlt_dec eps t); [lra|]. replace t with (- eps) by lra. exact R0. }
  assert (Hmid : forall t, - eps <= t <= eps -> heaviside t eps = ramp eps t).
  { intros t Ht. unfold heaviside. destruct (Rlt_dec t (- eps)); [lra|]. destruct (Rlt_dec eps t); [lra|]. reflexivity. }
  assert (Hhigh : forall t, eps <= t -> heaviside t eps = 1).
  { intros t Ht. destruct (Req_dec t eps) as [->|Hne]; [rewrite Hmid by lra; exact R1|]. unfold heaviside. destruct (Rlt_dec t (- eps)); [lra|]. destruct (Rlt_dec eps t); [reflexivity|lra]. }
  assert (Loc : forall (g : R -> R) r l, 0 < r -> (forall t, Rabs (t - s) < r -> heaviside t eps = g t) -> derivable_pt_lim g s l -> derivable_pt_lim (fun t => heaviside t eps) s l).
  { intros g r l Hr Hg Dg. apply is_derive_Reals. apply is_derive_Reals in Dg. eapply is_derive_ext_loc; [|exact Dg]. exists (mkposreal r Hr). intros y Hy. symmetry. apply Hg. exact Hy. }
  destruct (Rlt_dec s (- eps)) as [h1|h1].
  - assert (E : smooth_delta s eps = 0) by (unfold smooth_delta; destruct (Rlt_dec s (- eps)); [reflexivity|contradiction]). rewrite E.
    apply (Loc (fun _ => 0) (- eps - s)); [lra| |apply const_derive]. intros t Ht. apply Rabs_def2 in Ht. apply Hlow. lra.
  - destruct (Req_dec s (- eps)) as [->|h2].
    + assert (E : smooth_delta (- eps) eps = 0) by (unfold smooth_delta; destruct (Rlt_dec (- eps) (- eps)); [lra|]; destruct (Rlt_dec eps (- eps)); [lra|]; rewrite C0; unfold Rdiv; ring). rewrite E.
      apply (glue_derive _ (fun _ => 0) (ramp eps)).
      * exact Hlow.
      * exists (2 * eps). split; [lra|]. intros t Ht. apply Hmid. lra.
      * apply const_derive.
      * replace 0 with ((1 / 2) / eps * (1 + cos (PI * (- eps) / eps))) by (rewrite C0; unfold Rdiv; ring). apply ramp_derive. exact He.
    + destruct (Rlt_dec eps s) as [h3|h3].
      * assert (E : smooth_delta s eps = 0) by (unfold smooth_delta; destruct (Rlt_dec s (- eps)); [lra|]; destruct (Rlt_dec eps s); [reflexivity|lra]). rewrite E.
        apply (Loc (fun _ => 1) (s - eps)); [lra| |apply const_derive]. intros t Ht. apply Rabs_def2 in Ht. apply Hhigh. lra.
      * destruct (Req_dec s eps) as [->|h4].
        -- assert (E : smooth_delta eps eps = 0) by (unfold smooth_delta; destruct (Rlt_dec eps (- eps)); [lra|]; destruct (Rlt_dec eps eps); [lra|]; rewrite C1; unfold Rdiv; ring). rewrite E.
           assert (Dr : derivable_pt_lim (ramp eps) eps 0) by (replace 0 with ((1 / 2) / eps * (1 + cos (PI * eps / eps))) by (rewrite C1; unfold Rdiv; ring); apply ramp_derive; exact He).
           apply (glue_derive _ (fun t => if Rlt_dec t (- eps) then heaviside t eps else ramp eps t) (fun _ => 1)).
           ++ intros t Ht. destruct (Rlt_dec t (- eps)); [reflexivity|]. apply Hmid. lra.
           ++ exists 1. split; [lra|]. intros t Ht. apply Hhigh. lra.
           ++ apply is_derive_Reals. apply is_derive_Reals in Dr. eapply is_derive_ext_loc; [|exact Dr]. assert (H2 : 0 < 2 * eps) by lra. exists (mkposreal _ H2). intros y Hy.
              assert (Hy' : Rabs (y - eps) < 2 * eps) by exact Hy. apply Rabs_def2 in Hy'. destruct (Rlt_dec y (- eps)); [lra|reflexivity].
           ++ apply const_derive.
        -- assert (E : smooth_delta s eps = (1 / 2) / eps * (1 + cos (PI * s / eps))) by (unfold smooth_delta; destruct (Rlt_dec s (- eps)); [lra|]; destruct (Rlt_dec eps s); [lra|reflexivity]). rewrite E.
           assert (Hr : 0 < Rmin (s + eps) (eps - s)) by (apply Rmin_glb_lt; lra).
           apply (Loc (ramp eps) _ _ Hr); [|apply ramp_derive; exact He]. intros t Ht. apply Hmid. pose proof (Rmin_l (s + eps) (eps - s)). pose proof (Rmin_r (s + eps) (eps - s)). apply Rabs_def2 in Ht. lra.
Qed.
Lemma delta_nonneg eps s : 0 < eps -> 0 <= smooth_delta s eps.
Proof.
  intros He. unfold smooth_delta. destruct (Rlt_dec s (- eps)); [lra|]. destruct (Rlt_dec eps s); [lra|]. pose proof (COS_bound (PI * s / eps)). apply Rmult_le_pos; [|lra]. apply Rlt_le. apply Rdiv_lt_0_compat; lra.
Qed.
Lemma heaviside_mono eps s t : 0 < eps -> s <= t -> heaviside s eps <= heaviside t eps.
Proof.
  intros He Hst. destruct (Req_dec s t) as [->|Hne]; [lra|]. assert (Hlt : s < t) by lra.
  destruct (MVT_cor2 (fun u => heaviside u eps) (fun u => smooth_delta u eps) s t Hlt (fun c _ => heaviside_derive eps c He)) as (c & Ec & _).
  pose proof (delta_nonneg eps c He). assert (0 <= smooth_delta c eps * (t - s)) by (apply Rmult_le_pos; lra). lra.
Qed.
Lemma heaviside_range eps s : 0 < eps -> 0 <= heaviside s eps <= 1.
Proof.
  intros He. split.
  - assert (E : heaviside (Rmin s (-2 * eps)) eps = 0) by (unfold heaviside; pose proof (Rmin_r s (-2 * eps)); destruct (Rlt_dec (Rmin s (-2 * eps)) (- eps)); [reflexivity|lra]). rewrite <- E. apply heaviside_mono; [exact He|apply Rmin_l].
  - assert (E : heaviside (Rmax s (2 * eps)) eps = 1) by (unfold heaviside; pose proof (Rmax_r s (2 * eps)); destruct (Rlt_dec (Rmax s (2 * eps)) (- eps)); [lra|]; destruct (Rlt_dec eps (Rmax s (2 * eps))); [reflexivity|lra]). rewrite <- E. apply heaviside_mono; [exact He|apply Rmax_l].
Qed.
Lemma compute_volume_nonneg d x : 0 <= compute_volume d x.
Proof. unfold compute_volume. pose proof (Rabs_pos (cell_det d x)). destruct (Nat.eqb d 2); apply Rmult_le_pos; lra. Qed.

(** ** Integrals *)
Lemma integral_derive l m f eps (level : R) : 0 < eps ->
  is_derive (fun c => lsum (K := R_ring) (map (fun e => compute_volume (lm_dim m) (cell_x m e) * heaviside (avg_ls m f e - c) eps) l)) level
            (- lsum (K := R_ring) (map (fun e => compute_volume (lm_dim m) (cell_x m e) * smooth_delta (avg_ls m f e - level) eps) l)).
Proof.
  intros He. induction l as [|e l IH].
  - cbn [map lsum]. replace (- @r0 R_ring) with 0 by (change (@r0 R_ring) with 0; ring). apply is_derive_Reals. exact (const_derive 0 level).
  - cbn [map lsum]. set (V := compute_volume (lm_dim m) (cell_x m e)). set (A := avg_ls m f e).
    set (S1 := lsum (K := R_ring) (map (fun e0 : nat => compute_volume (lm_dim m) (cell_x m e0) * smooth_delta (avg_ls m f e0 - level) eps) l)) in *.
    replace (- @radd R_ring (V * smooth_delta (A - level) eps)%R S1) with (plus (V * (smooth_delta (A - level) eps * -1)) (- S1)) by (change (V * (smooth_delta (A - level) eps * -1) + - S1 = - (V * smooth_delta (A - level) eps + S1)); ring).
    apply (is_derive_plus (fun c => V * heaviside (A - c) eps) (fun c => lsum (K := R_ring) (map (fun e => compute_volume (lm_dim m) (cell_x m e) * heaviside (avg_ls m f e - c) eps) l))); [|exact IH].
    apply is_derive_Reals. apply derivable_pt_lim_scal. apply (derivable_pt_lim_comp (fun c => A - c) (fun t => heaviside t eps)); [|apply heaviside_derive; exact He].
    apply is_derive_Reals. auto_derive; [exact I|ring].
Qed.
