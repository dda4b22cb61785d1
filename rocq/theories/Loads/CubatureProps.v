(** C80, C82: exactness of the cubature rules, and the linear basis on the reference simplex. *)
From Coq Require Import Reals List Arith Bool Lia Lra Psatz.
From Coquelicot Require Import Coquelicot.
From Verif Require Import Base.Field Base.Sums Base.Res Element.ElementProof Loads.LoadsModel Loads.LoadsSpec.
Import ListNotations.
Local Open Scope R_scope.

(** A polynomial: a list of terms, coefficient and exponents of x, y, z. *)
Definition poly := list (R * (nat * nat * nat)).
Definition mono (e : nat * nat * nat) (x y z : R) : R := let '(a, b, c) := e in x ^ a * y ^ b * z ^ c.
Definition peval (p : poly) (x y z : R) : R := fold_right (fun t s => fst t * mono (snd t) x y z + s) 0 p.
Definition term_degree (e : nat * nat * nat) : nat := let '(a, b, c) := e in (a + b + c)%nat.
(** Degree at most [deg], in the first [d] variables only. *)
Definition pdegree (d deg : nat) (p : poly) : Prop :=
  forall t, In t p -> (term_degree (snd t) <= deg)%nat /\ (let '(a, b, c) := snd t in ((d < 2)%nat -> b = 0%nat) /\ ((d < 3)%nat -> c = 0%nat)).
(** The integral over the reference simplex of dimension [d]. *)
Definition integral (d : nat) (p : poly) (I : R) : Prop :=
  match d with 1%nat => int1 (fun x => peval p x 0 0) I | 2%nat => int2 (fun x y => peval p x y 0) I | _ => int3 (peval p) I end.
(** The rule's value: the weighted sum over its points. *)
Definition rule_sum (rule : list (list R * R)) (p : poly) : R :=
  fold_right (fun q s => snd q * peval p (nth 0 (fst q) 0) (nth 1 (fst q) 0) (nth 2 (fst q) 0) + s) 0 rule.

Lemma eq_rint (f : R -> R) a b I J : I = J -> is_RInt f a b J -> is_RInt f a b I.
Proof. intros ->. exact (fun H => H). Qed.
(** The integral of y^b (u-y)^k over [0,u], by parts on b. *)
Lemma beta b : forall k u, is_RInt (fun y => y ^ b * (u - y) ^ k) 0 u (INR (fact b) * INR (fact k) / INR (fact (b + k + 1)) * u ^ (b + k + 1)).
Proof.
  assert (CT : forall a k u y, continuous (fun y => y ^ a * (u - y) ^ k) y).
  { intros a k u y. apply (ex_derive_continuous (K := R_AbsRing) (V := R_NormedModule)). auto_derive. repeat split. }
  assert (FN : forall n, INR (fact n) <> 0) by (intros n; apply INR_fact_neq_0).
  assert (SN : forall n, INR (S n) <> 0) by (intros n; apply not_0_INR; discriminate).
  induction b as [|b IH]; intros k u.
  - set (F := fun y => - (u - y) ^ (S k) / INR (S k)).
    assert (E : INR (fact 0) * INR (fact k) / INR (fact (0 + k + 1)) * u ^ (0 + k + 1) = minus (F u) (F 0)).
    { unfold minus, plus, opp, F; cbn [AbelianGroup.plus AbelianGroup.opp R_AbelianGroup]. cbn. change (match k with O => 1 | S _ => INR k + 1 end) with (INR (S k)). rewrite Rminus_diag_eq by reflexivity. replace (k + 1)%nat with (S k) by lia.
      change (fact (S k)) with (S k * fact k)%nat. rewrite mult_INR. cbn [pow]. rewrite Rminus_0_r. pose proof (SN k). pose proof (FN k). field. split; assumption. }
    rewrite E. apply (is_RInt_derive F (fun y => y ^ 0 * (u - y) ^ k) 0 u); intros y _; [|apply CT]. unfold F. auto_derive; [exact I|]. cbn [pow Nat.pred]. change (match k with O => 1 | S _ => INR k + 1 end) with (INR (S k)). change (u + - y) with (u - y). pose proof (SN k). field. assumption.
  - set (F := fun y => - y ^ (S b) * (u - y) ^ (S k) / INR (S k)).
    assert (H1 : is_RInt (fun y => y ^ S b * (u - y) ^ k - INR (S b) / INR (S k) * (y ^ b * (u - y) ^ (S k))) 0 u 0).
    { assert (E : 0 = minus (F u) (F 0)). { unfold minus, plus, opp, F; cbn [AbelianGroup.plus AbelianGroup.opp R_AbelianGroup]. cbn. rewrite Rminus_diag_eq by reflexivity. pose proof (SN k). field. assumption. }
      apply (eq_rint _ _ _ _ _ E). apply (is_RInt_derive F (fun y => y ^ S b * (u - y) ^ k - INR (S b) / INR (S k) * (y ^ b * (u - y) ^ (S k))) 0 u); intros y _.
      - unfold F. auto_derive; [exact I|]. cbn [pow Nat.pred]. change (match k with O => 1 | S _ => INR k + 1 end) with (INR (S k)). change (match b with O => 1 | S _ => INR b + 1 end) with (INR (S b)). change (u + - y) with (u - y). pose proof (SN k). field. assumption.
      - apply (ex_derive_continuous (K := R_AbsRing) (V := R_NormedModule)). auto_derive. repeat split. }
    pose proof (is_RInt_scal (V := R_NormedModule) _ _ _ (INR (S b) / INR (S k)) _ (IH (S k) u)) as H2.
    pose proof (is_RInt_plus (V := R_NormedModule) _ _ _ _ _ _ H1 H2) as H3. cbn in H3. unfold plus, scal in H3; cbn in H3. unfold mult in H3; cbn in H3.
    replace (S b + k + 1)%nat with (b + S k + 1)%nat by lia.
    apply (is_RInt_ext (fun x => x ^ S b * (u - x) ^ k - INR (S b) / INR (S k) * (x ^ b * (u - x) ^ S k) + INR (S b) / INR (S k) * (x ^ b * (u - x) ^ S k))); [intros; req; ring|].
    assert (E : INR (fact (S b)) * INR (fact k) / INR (fact (b + S k + 1)) * u ^ (b + S k + 1) = 0 + INR (S b) / INR (S k) * (INR (fact b) * INR (fact (S k)) / INR (fact (b + S k + 1)) * u ^ (b + S k + 1))).
    { change (fact (S b)) with (S b * fact b)%nat. change (fact (S k)) with (S k * fact k)%nat. rewrite !mult_INR. pose proof (SN k). pose proof (FN (b + S k + 1)%nat). field. split; assumption. }
    rewrite E. exact H3.
Qed.

(** Linearity of the three integrals. *)
Lemma int1_lin f g c I J : int1 f I -> int1 g J -> int1 (fun x => c * f x + g x) (c * I + J).
Proof. intros H1 H2. apply (is_RInt_plus (V := R_NormedModule) (fun x => c * f x) g 0 1 (c * I) J); [apply (is_RInt_scal (V := R_NormedModule) f 0 1 c I); exact H1|exact H2]. Qed.
Lemma int2_lin f g c I J : int2 f I -> int2 g J -> int2 (fun x y => c * f x y + g x y) (c * I + J).
Proof.
  intros (F & F1 & F2) (G & G1 & G2). exists (fun x => c * F x + G x). split.
  - intros x. apply (is_RInt_plus (V := R_NormedModule) (fun y => c * f x y) (g x) 0 (1 - x) (c * F x) (G x)); [apply (is_RInt_scal (V := R_NormedModule) (f x) 0 (1 - x) c (F x)); apply F1|apply G1].
  - apply int1_lin; assumption.
Qed.
Lemma int3_lin f g c I J : int3 f I -> int3 g J -> int3 (fun x y z => c * f x y z + g x y z) (c * I + J).
Proof.
  intros (F & F1 & F2) (G & G1 & G2). exists (fun x y => c * F x y + G x y). split.
  - intros x y. apply (is_RInt_plus (V := R_NormedModule) (fun z => c * f x y z) (g x y) 0 (1 - x - y) (c * F x y) (G x y)); [apply (is_RInt_scal (V := R_NormedModule) (f x y) 0 (1 - x - y) c (F x y)); apply F1|apply G1].
  - apply int2_lin; assumption.
Qed.
Lemma int_zero d : integral d [] 0.
Proof.
  assert (Z : forall u, is_RInt (fun _ => 0) 0 u 0). { intros u. pose proof (is_RInt_const (V := R_NormedModule) 0 u 0) as H. unfold scal in H; cbn in H. unfold mult in H; cbn in H. rewrite Rmult_0_r in H. exact H. }
  assert (Z2 : int2 (fun _ _ => 0) 0) by (exists (fun _ => 0); split; [intros x; apply Z|apply Z]).
  destruct d as [|[|[|d]]]; cbn; [exists (fun _ _ => 0); split; [intros; apply Z|exact Z2]|apply Z|exact Z2|exists (fun _ _ => 0); split; [intros; apply Z|exact Z2]].
Qed.
(** The integral of a monomial: a! b! c! / (a + b + c + d)!. *)
Definition mono_int (d : nat) (e : nat * nat * nat) : R := let '(a, b, c) := e in INR (fact a) * INR (fact b) * INR (fact c) / INR (fact (a + b + c + d)).
Definition mono_integral (d : nat) (e : nat * nat * nat) (I : R) : Prop :=
  match d with 1%nat => int1 (fun x => mono e x 0 0) I | 2%nat => int2 (fun x y => mono e x y 0) I | _ => int3 (mono e) I end.
Lemma scaled (f : R -> R) a b c I J : is_RInt f a b I -> J = c * I -> is_RInt (fun x => c * f x) a b J.
Proof. intros H ->. apply (is_RInt_scal (V := R_NormedModule) f a b c I H). Qed.
Lemma mono_int_ok d e : (1 <= d <= 3)%nat -> (let '(a, b, c) := e in ((d < 2)%nat -> b = 0%nat) /\ ((d < 3)%nat -> c = 0%nat)) -> mono_integral d e (mono_int d e).
Proof.
  intros Hd. destruct e as [[a b] c]. intros [HV1 HV2].
  assert (FN : forall n, INR (fact n) <> 0) by (intros n; apply INR_fact_neq_0).
  destruct d as [|[|[|[|]]]]; try lia; cbn [mono_integral].
  - rewrite (HV1 ltac:(lia)), (HV2 ltac:(lia)) in *. unfold int1, mono_int, mono. apply (is_RInt_ext (fun y => y ^ a * (1 - y) ^ 0)); [intros; cbn; req; ring|].
    pose proof (beta a 0 1) as H. rewrite pow1, Rmult_1_r in H. cbn in H |- *. rewrite !Nat.add_0_r, !Rmult_1_r in *. exact H.
  - rewrite (HV2 ltac:(lia)) in *. unfold int2, mono_int, mono. exists (fun x => INR (fact b) / INR (fact (b + 1)) * (x ^ a * (1 - x) ^ (b + 1))). split.
    + intros x. apply (is_RInt_ext (fun y => x ^ a * (y ^ b * (1 - x - y) ^ 0))); [intros; cbn; req; ring|]. eapply scaled; [apply beta|]. rewrite Nat.add_0_r. cbn [fact INR]. pose proof (FN (b + 1)%nat). field. assumption.
    + eapply scaled; [apply (beta a (b + 1) 1)|]. rewrite pow1. replace (a + b + 0 + 2)%nat with (a + (b + 1) + 1)%nat by lia. cbn [fact INR]. pose proof (FN (b + 1)%nat). pose proof (FN (a + (b + 1) + 1)%nat). field. split; assumption.
  - unfold int3, int2, mono_int, mono. exists (fun x y => INR (fact c) / INR (fact (c + 1)) * (x ^ a * (y ^ b * (1 - x - y) ^ (c + 1)))). split; [|exists (fun x => INR (fact c) * INR (fact b) / INR (fact (b + c + 2)) * (x ^ a * (1 - x) ^ (b + c + 2))); split].
    + intros x y. apply (is_RInt_ext (fun z => x ^ a * y ^ b * (z ^ c * (1 - x - y - z) ^ 0))); [intros; cbn; req; ring|]. eapply scaled; [apply beta|]. rewrite Nat.add_0_r. cbn [fact INR]. pose proof (FN (c + 1)%nat). field. assumption.
    + intros x. apply (is_RInt_ext (fun y => INR (fact c) / INR (fact (c + 1)) * x ^ a * (y ^ b * (1 - x - y) ^ (c + 1)))); [intros; cbn; req; ring|]. eapply scaled; [apply beta|]. replace (b + (c + 1) + 1)%nat with (b + c + 2)%nat by lia. pose proof (FN (c + 1)%nat). pose proof (FN (b + c + 2)%nat). field. split; assumption.
    + eapply scaled; [apply (beta a (b + c + 2) 1)|]. rewrite pow1. replace (a + b + c + 3)%nat with (a + (b + c + 2) + 1)%nat by lia. pose proof (FN (b + c + 2)%nat). pose proof (FN (a + (b + c + 2) + 1)%nat). field. split; assumption.
Qed.
(** The integral of a polynomial. *)
Definition pint (d : nat) (p : poly) : R := fold_right (fun t s => fst t * mono_int d (snd t) + s) 0 p.
Lemma pint_ok d deg p : (1 <= d <= 3)%nat -> pdegree d deg p -> integral d p (pint d p).
Proof.
  intros Hd. induction p as [|[k e] p IH]; intros H; [apply int_zero|].
  assert (IH' := IH (fun t Ht => H t (or_intror Ht))). destruct (H (k, e) (or_introl eq_refl)) as [_ He]. cbn [snd] in He. pose proof (mono_int_ok d e Hd He) as M. clear H IH.
  destruct d as [|[|[|[|]]]]; try lia; cbn [integral mono_integral pint peval fold_right fst snd] in *; [apply int1_lin|apply int2_lin|apply int3_lin]; assumption.
Qed.

(** ** C80 *)
Lemma rule_lin rule k e p : rule_sum rule ((k, e) :: p) = k * fold_right (fun q s => snd q * mono e (nth 0 (fst q) 0) (nth 1 (fst q) 0) (nth 2 (fst q) 0) + s) 0 rule + rule_sum rule p.
Proof. unfold rule_sum, peval. induction rule as [|q rule IH]; [cbn; ring|]. cbn [fold_right fst snd] in *. rewrite IH. ring. Qed.
Ltac small n := destruct n as [|[|[|[|n]]]]; [| | | |exfalso; lia].
(** The rules given by rationals integrate every polynomial of their degree exactly. *)
Theorem C80_exact : forall d deg rule p, (1 <= d <= 3)%nat -> (deg <= 3)%nat -> ~ (d = 1%nat /\ (2 <= deg)%nat) -> ~ (d = 3%nat /\ deg = 2%nat) ->
  cubature d deg = Ok rule -> pdegree d deg p -> integral d p (rule_sum rule p).
Proof.
  intros d deg rule p Hd Hg X1 X2 HR HP. assert (E : rule_sum rule p = pint d p); [|rewrite E; eapply pint_ok; eassumption].
  induction p as [|[k e] p IH]; [unfold rule_sum, pint, peval; clear; induction rule as [|q r IH]; [reflexivity|cbn [fold_right fst snd] in *; rewrite IH; ring]|].
  rewrite rule_lin. rewrite IH by (intros t Ht; apply HP; right; exact Ht). cbn [pint fold_right fst snd]. f_equal. f_equal.
  destruct (HP (k, e) (or_introl eq_refl)) as [HT HV]. cbn [snd] in *. clear IH HP. destruct e as [[a b] c]. destruct HV as [V1 V2]. cbn [term_degree] in HT.
  destruct d as [|[|[|[|]]]]; try lia; destruct deg as [|[|[|[|]]]]; try lia; cbn [cubature] in HR; injection HR as <-; cbn [fold_right fst snd nth];
  try rewrite (V1 ltac:(lia)) in *; try rewrite (V2 ltac:(lia)) in *; clear V1 V2 X1 X2; unfold mono, mono_int;
  try small a; try small b; try small c; try lia; cbn; field.
Qed.
Print Assumptions C80_exact.
(** The other two rules hold rounded square roots; their error is below 10^-39 times the sum of the absolute coefficients. *)
Definition coef_norm (p : poly) : R := fold_right (fun t s => Rabs (fst t) + s) 0 p.
Definition tiny : R := 1 / 1000000000000000000000000000000000000000.
Theorem C80_rounded : forall d deg rule p, (d = 1%nat /\ (2 <= deg <= 3)%nat) \/ (d = 3%nat /\ deg = 2%nat) ->
  cubature d deg = Ok rule -> pdegree d deg p -> exists I, integral d p I /\ Rabs (rule_sum rule p - I) <= tiny * coef_norm p.
Proof.
  intros d deg rule p Hd HR HP. exists (pint d p). split; [apply (pint_ok d deg); [lia|exact HP]|].
  induction p as [|[k e] p IH].
  - replace (rule_sum rule []) with 0; [cbn; rewrite Rminus_0_r, Rabs_R0; lra|]. unfold rule_sum, peval; clear; induction rule as [|q r IH]; [reflexivity|cbn [fold_right fst snd] in *; rewrite <- IH; ring].
  - assert (IH' := IH (fun t Ht => HP t (or_intror Ht))). clear IH. rewrite rule_lin. cbn [pint coef_norm fold_right fst snd]. fold (pint d p). fold (coef_norm p).
    set (m := fold_right _ 0 rule). assert (M : Rabs (m - mono_int d e) <= tiny).
    { destruct (HP (k, e) (or_introl eq_refl)) as [HT HV]. cbn [snd] in *. clear HP IH'. destruct e as [[a b] c]. destruct HV as [V1 V2]. cbn [term_degree] in HT. unfold m.
      assert (T40 : 10 ^ 40 = 10000000000000000000000000000000000000000) by (cbn; ring).
      destruct Hd as [[-> Hg]|[-> ->]].
      - rewrite (V1 ltac:(lia)), (V2 ltac:(lia)) in *. destruct deg as [|[|[|[|]]]]; try lia; cbn [cubature] in HR; injection HR as <-; cbn [fold_right fst snd nth]; unfold mono, mono_int, sqrt3_3, tiny; rewrite T40; small a; try lia; cbn; apply Rabs_le; split; lra.
      - cbn [cubature] in HR; injection HR as <-; cbn [fold_right fst snd nth]; unfold mono, mono_int, tet_a, tet_b, tiny; rewrite T40; small a; small b; small c; try lia; cbn; apply Rabs_le; split; lra. }
    replace (k * m + rule_sum rule p - (k * mono_int d e + pint d p)) with (k * (m - mono_int d e) + (rule_sum rule p - pint d p)) by ring.
    eapply Rle_trans; [apply Rabs_triang|]. rewrite Rabs_mult, Rmult_plus_distr_l. apply Rplus_le_compat; [|exact IH']. rewrite (Rmult_comm tiny). apply Rmult_le_compat_l; [apply Rabs_pos|exact M].
Qed.
Print Assumptions C80_rounded.
(** Anything else is refused. *)
Theorem C80_refused : forall d deg, ((d < 1 \/ 3 < d) \/ 3 < deg)%nat -> cubature d deg = Throw.
Proof. intros d deg H. destruct d as [|[|[|[|]]]]; try reflexivity; destruct deg as [|[|[|[|]]]]; try reflexivity; lia. Qed.
Print Assumptions C80_refused.
(** x^3 - 2 x y z + y^2 on the tetrahedron. *)
Example C80_applies : exists rule, cubature 3 3 = Ok rule /\ pdegree 3 3 [(1, (3, 0, 0)%nat); (- (2), (1, 1, 1)%nat); (1, (0, 2, 0)%nat)] /\ rule_sum rule [(1, (3, 0, 0)%nat); (- (2), (1, 1, 1)%nat); (1, (0, 2, 0)%nat)] = 1 / 120 - 2 / 720 + 1 / 60.
Proof. eexists. split; [reflexivity|]. split; [intros t [<-|[<-|[<-|[]]]]; cbn; lia|]. cbn. field. Qed.

(** ** C82: the linear basis *)
Theorem C82_basis : forall d, (1 <= d)%nat ->
  (forall p, rsum (d + 1) (basis_value d p) = 1) /\
  (forall n m, (n <= d)%nat -> (m <= d)%nat -> basis_value d (ref_coord m) n = if Nat.eqb n m then 1 else 0) /\
  (forall n c p, (n <= d)%nat -> (c < d)%nat -> is_derive (fun t => basis_value d (fun k => if Nat.eqb k c then t else p k) n) (p c) (basis_gradient d n c)) /\
  (forall c, (c < d)%nat -> rsum (d + 1) (fun n => basis_gradient d n c) = 0).
Proof.
  intros d Hd. split; [|split; [|split]].
  - intros p. rewrite Nat.add_1_r. cbn [sum]. unfold basis_value at 2. rewrite Nat.ltb_irrefl. rewrite (sum_ext (K := R_ring) d _ p) by (intros n Hn; unfold basis_value; rewrite (proj2 (Nat.ltb_lt n d) Hn); reflexivity).
    generalize (rsum d p). intros V. rsums. ring.
  - intros n m Hn Hm. unfold basis_value, ref_coord. destruct (Nat.ltb_spec n d) as [h|h]; [rewrite Nat.eqb_sym; reflexivity|]. assert (n = d) as -> by lia.
    destruct (Nat.eqb_spec d m) as [<-|Hne].
    + rewrite (sum_0 (K := R_ring)); [change (1 - 0 = 1); ring|]. intros i Hi. destruct (Nat.eqb_spec d i); [lia|reflexivity].
    + rewrite (sum_single (K := R_ring) d m); [rewrite Nat.eqb_refl; change (1 - 1 = 0); ring|lia|]. intros i Hi Hne'. destruct (Nat.eqb_spec m i); [congruence|reflexivity].
  - intros n c p Hn Hc. unfold basis_value, basis_gradient. destruct (Nat.ltb_spec n d) as [h|h].
    + destruct (Nat.eqb_spec n c) as [->|Hne]; [apply (is_derive_id (K := R_AbsRing))|apply (is_derive_const (K := R_AbsRing) (V := R_NormedModule))].
    + apply (is_derive_ext (fun t => (1 - rsum d (fun k => if Nat.eqb k c then 0 else p k)) - t)).
      * intros t0. revert t0. change (forall t : R, @eq R (1 - rsum d (fun k => if Nat.eqb k c then 0 else p k) - t) (1 - rsum d (fun k => if Nat.eqb k c then t else p k))). intros t.
        assert (S : @eq R (rsum d (fun k => if Nat.eqb k c then t else p k)) (rsum d (fun k => if Nat.eqb k c then 0 else p k) + t)).
        { transitivity (rsum d (fun k => (if Nat.eqb k c then 0 else p k) + (if Nat.eqb k c then t else 0))).
          - apply (sum_ext (K := R_ring)). intros k Hk. destruct (Nat.eqb k c); req; ring.
          - etransitivity; [apply (sum_add (K := R_ring))|]. apply (f_equal2 Rplus); [reflexivity|]. etransitivity; [apply (sum_single (K := R_ring) d c _ Hc)|rewrite Nat.eqb_refl; reflexivity]. intros k Hk Hne. destruct (Nat.eqb_spec k c); [contradiction|reflexivity]. }
        rewrite S. generalize (rsum d (fun k => if Nat.eqb k c then 0 else p k)). intros V. change (@eq R (1 - V - t) (1 - (V + t))). ring.
      * generalize (rsum d (fun k => if Nat.eqb k c then 0 else p k)). intros V. change (rcar R_ring) with R in V. auto_derive; [exact I|ring].
  - intros c Hc. rewrite Nat.add_1_r. cbn [sum]. unfold basis_gradient at 2. rewrite Nat.ltb_irrefl. rewrite (sum_single (K := R_ring) d c _ Hc).
    + unfold basis_gradient. rewrite (proj2 (Nat.ltb_lt c d) Hc), Nat.eqb_refl. change (1 + - (1) = 0). ring.
    + intros k Hk Hne. unfold basis_gradient. rewrite (proj2 (Nat.ltb_lt k d) Hk). destruct (Nat.eqb_spec k c); [contradiction|reflexivity].
Qed.
Print Assumptions C82_basis.
