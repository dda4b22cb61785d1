(** C116: the normalisation of the stress criterion.  C117: the Barlat norm. *)
From Coq Require Import String Reals List Arith Bool ZArith Lia Lra.
From Verif Require Import Base.Field Base.Sums Base.Res Element.ElementModel Element.ElementSpec Element.ElementProof Element.ElementProps
  Penalty.PenaltyModel Residual.ResidualModel Residual.ResidualSpec Residual.ResidualProof Residual.ResidualProps Residual.ResidualEnergyProps Ortho.OrthoModel
  Norms.NormsModel Norms.NormsSpec Norms.NormsProof Norms.BarlatProof Norms.PNormProps.
Import ListNotations.
Local Open Scope R_scope.

(** ** C116 *)
Lemma pow_int_nat x k : pow_int x (Z.of_nat k) = Ok (x ^ k).
Proof.
  unfold pow_int. rewrite pow_powerRZ. destruct (Z.ltb_spec (Z.of_nat k) 0); [lia|]. destruct (Req_EM_T x 0); reflexivity.
Qed.
Lemma weighted_value n k w r s vol : 0 <= w -> r <> 0 ->
  weighted_cell n w r (to_int (INR k)) s vol = Ok ((sqrt w / r * magnitude n s) ^ k * vol).
Proof.
  intros Hw Hr. unfold weighted_cell, sqrt_real. pose proof (squares_nonneg n s) as Q. destruct (Rlt_dec (w * _) 0) as [L|_]; [exfalso; pose proof (Rmult_le_pos _ _ Hw Q); cbn in *; lra|].
  cbn [rbind]. unfold quot. destruct (Req_EM_T r 0); [contradiction|]. cbn [rbind]. rewrite to_int_INR, pow_int_nat. cbn [rbind]. do 3 f_equal.
  rewrite sqrt_mult by assumption. unfold magnitude, rs, Rdiv. req. ring.
Qed.
(** 'Scalar Product Weight' w and 'Reference Weight' r multiply the value by sqrt(w)/r. *)
Theorem C116_weighted : forall d nn k pen X U Z cells w r, (1 <= d <= 3)%nat -> (1 <= k)%nat -> mesh_ok d nn X cells -> 0 <= w -> 0 < r ->
  exists v, stress_pnorm d Plain (INR k) pen X U Z cells = Ok v /\ stress_pnorm d (Weighted w r) (INR k) pen X U Z cells = Ok (sqrt w / r * v).
Proof.
  intros d nn k pen X U Z cells w r Hd Hk Hm Hw Hr. destruct (C115_value d nn k pen X U Z cells Hd Hk Hm) as (v & E & [V0 V]). exists v. split; [exact E|].
  assert (F0 : 0 <= sqrt w / r) by (apply Rmult_le_pos; [apply sqrt_pos|left; apply Rinv_0_lt_compat; exact Hr]).
  unfold stress_pnorm, criterion, norm_cell. rewrite (totalR_ok _ (fun c => (sqrt w / r) ^ k * (measure_of d X c * shown d pen X U Z c ^ k))).
  2: { intros c Hc. rewrite weighted_value by lra. rewrite (proj1 (volume_loop d nn X cells c Hd Hm Hc)), shown_tensor, Rpow_mult_distr. f_equal. ring. }
  cbn [rbind]. rewrite sum_over_scal, <- V, <- Rpow_mult_distr.
  destruct (root_value k ((sqrt w / r * v) ^ k)) as (u & Eu & Hu); [apply pow_le, Rmult_le_pos; assumption|exact Hk|]. rewrite Eu. f_equal.
  apply (root_unique k _ _ _ Hk Hu). split; [apply Rmult_le_pos; assumption|reflexivity].
Qed.
Print Assumptions C116_weighted.
(** What a list of parameters gives. *)
Theorem C116_created : forall p e n, create_norm p = Ok (e, n) ->
  n_entries p "Exponent"%string = Some (EReal e) /\
  match n_normalize p with
  | None => n = Plain
  | Some (nl, sc, ba) => exists t, nl "Type"%string = Some (EStr t) /\
      (t = "Scalar"%string -> exists w r, n = Weighted w r /\
         (forall x, sc "Scalar Product Weight"%string = Some (EReal x) -> w = x) /\ (sc "Scalar Product Weight"%string = None -> w = 1) /\
         (forall x, sc "Reference Weight"%string = Some (EReal x) -> r = x) /\ (sc "Reference Weight"%string = None -> r = 1)) /\
      (t = "Barlat"%string -> exists a r T1 T2, n = Barlat a r T1 T2 /\ (forall x, ba "Reference Weight"%string = Some (EReal x) -> r = x) /\
         forall i, (i < 6)%nat -> exists l1 l2, ba ("T1" ++ digit i)%string = Some (EArray l1) /\ ba ("T2" ++ digit i)%string = Some (EArray l2) /\
           forall j, (j < 6)%nat -> nth_error l1 j = Some (T1 i j) /\ nth_error l2 j = Some (T2 i j))
  end.
Proof.
  assert (NR : forall q k x, need_real q k = Ok x -> q k = Some (EReal x)).
  { intros q k x H. unfold need_real in H. destruct (q k) as [[]|]; try discriminate. injection H as <-. reflexivity. }
  assert (ROWS : forall q name T, rows q name = Ok T -> forall i, (i < 6)%nat -> exists l, q (name i) = Some (EArray l) /\ forall j, (j < 6)%nat -> nth_error l j = Some (T i j)).
  { intros q name T H i Hi. unfold rows in H. cbn [seq mapR] in H.
    assert (NRW : forall k, match need_row q k with Ok l => q k = Some (EArray l) /\ (6 <= length l)%nat | _ => True end).
    { intros k. unfold need_row. destruct (q k) as [[| | |l]|]; try exact I. destruct (Nat.ltb_spec (length l) 6); [exact I|]. split; [reflexivity|assumption]. }
    pose proof (NRW (name 0%nat)) as R0. pose proof (NRW (name 1%nat)) as R1. pose proof (NRW (name 2%nat)) as R2. pose proof (NRW (name 3%nat)) as R3. pose proof (NRW (name 4%nat)) as R4. pose proof (NRW (name 5%nat)) as R5.
    destruct (need_row q (name 0%nat)) as [l0| |]; [|discriminate|discriminate]. destruct (need_row q (name 1%nat)) as [l1| |]; [|discriminate|discriminate].
    destruct (need_row q (name 2%nat)) as [l2| |]; [|discriminate|discriminate]. destruct (need_row q (name 3%nat)) as [l3| |]; [|discriminate|discriminate].
    destruct (need_row q (name 4%nat)) as [l4| |]; [|discriminate|discriminate]. destruct (need_row q (name 5%nat)) as [l5| |]; [|discriminate|discriminate].
    cbn [rbind] in H. injection H as <-.
    destruct i as [|[|[|[|[|[|i]]]]]]; [exists l0|exists l1|exists l2|exists l3|exists l4|exists l5|lia];
      (split; [apply R0 || apply R1 || apply R2 || apply R3 || apply R4 || apply R5|]); intros j Hj; cbn [nth]; apply nth_error_nth'; lia. }
  assert (BAR : forall ba n, read_barlat ba = Ok n -> exists a r T1 T2, n = Barlat a r T1 T2 /\ (forall x, ba "Reference Weight"%string = Some (EReal x) -> r = x) /\
         forall i, (i < 6)%nat -> exists l1 l2, ba ("T1" ++ digit i)%string = Some (EArray l1) /\ ba ("T2" ++ digit i)%string = Some (EArray l2) /\
           forall j, (j < 6)%nat -> nth_error l1 j = Some (T1 i j) /\ nth_error l2 j = Some (T2 i j)).
  { intros ba n H. unfold read_barlat in H. destruct (barlat_exponent ba) as [a| |]; [|discriminate|discriminate]. cbn [rbind] in H.
    destruct (rows ba (fun i => ("T1" ++ digit i)%string)) as [t1| |] eqn:E1; [|discriminate|discriminate]. cbn [rbind] in H.
    destruct (rows ba (fun i => ("T2" ++ digit i)%string)) as [t2| |] eqn:E2; [|discriminate|discriminate]. cbn [rbind] in H. injection H as <-.
    do 4 eexists. split; [reflexivity|]. split; [intros x Hx; unfold real_or; rewrite Hx; reflexivity|]. intros i Hi.
    destruct (ROWS _ _ _ E1 i Hi) as (l1 & L1 & N1). destruct (ROWS _ _ _ E2 i Hi) as (l2 & L2 & N2). exists l1, l2. split; [exact L1|]. split; [exact L2|].
    intros j Hj. split; [apply N1; exact Hj|apply N2; exact Hj]. }
  intros p e n H. unfold create_norm in H. destruct (n_normalize p) as [[[nl sc] ba]|].
  - unfold need_string in H. destruct (nl "Type"%string) as [[| |t|]|] eqn:ET; try discriminate. cbn [rbind] in H.
    destruct (String.eqb_spec t "Barlat") as [EB|NB]; [|destruct (String.eqb_spec t "Scalar") as [ES|NS]];
      destruct (need_real (n_entries p) "Exponent") as [e'| |] eqn:EE; try discriminate; cbn [rbind] in H; apply NR in EE.
    + destruct (read_barlat ba) as [n'| |] eqn:EN; try discriminate. cbn [rbind] in H. injection H as <- <-. split; [exact EE|]. exists t. split; [reflexivity|].
      split; [intros ES; rewrite ES in EB; discriminate|]. intros _. apply BAR. exact EN.
    + injection H as <- <-. split; [exact EE|]. exists t. split; [reflexivity|]. split; [|intros EB; contradiction]. intros _. unfold read_weighted. do 2 eexists. split; [reflexivity|].
      unfold real_or. repeat split; try (intros x Hx; rewrite Hx; reflexivity); intros Hx; rewrite Hx; reflexivity.
    + injection H as <- <-. split; [exact EE|]. exists t. split; [reflexivity|]. split; intros EB; contradiction.
  - destruct (need_real (n_entries p) "Exponent") as [e'| |] eqn:EE; try discriminate. cbn [rbind] in H. injection H as <- <-. split; [apply NR; exact EE|reflexivity].
Qed.
Print Assumptions C116_created.
(** A type of normalisation that does not exist is accepted: the criterion is not normalised. *)
Definition unknown_norm (t : string) : norm_params :=
  mkNorm (fun k => if String.eqb k "Exponent" then Some (EReal 6) else None) (Some ((fun k => if String.eqb k "Type" then Some (EStr t) else None), (fun _ => None), fun _ => None)).
Theorem C116_unknown_refuted : forall t, t <> "Barlat"%string -> t <> "Scalar"%string -> create_norm (unknown_norm t) = Ok (6, Plain).
Proof.
  intros t HB HS. unfold create_norm, unknown_norm. cbn. destruct (String.eqb_spec t "Barlat"); [contradiction|]. destruct (String.eqb_spec t "Scalar"); [contradiction|]. reflexivity.
Qed.
Print Assumptions C116_unknown_refuted.
(** 'Barlat Exponent' has no effect: as a real number it is not looked at, as an integer it is an error. *)
Theorem C116_barlat_exponent_refuted :
  (forall p a r T1 T2, read_barlat p = Ok (Barlat a r T1 T2) -> a = 6%Z) /\
  (forall p z, p "Barlat Exponent"%string = Some (EInt z) -> read_barlat p = Throw) /\
  exists p, p "Barlat Exponent"%string = Some (EReal 8) /\ exists r T1 T2, read_barlat p = Ok (Barlat 6 r T1 T2).
Proof.
  assert (BE : forall p, barlat_exponent p = Ok 6%Z \/ barlat_exponent p = Throw /\ exists z, p "Barlat Exponent"%string = Some (EInt z)).
  { intros p. unfold barlat_exponent, need_real. destruct (p "Barlat Exponent"%string) as [[z| | |]|]; [right|left|left|left|left]; try reflexivity. split; [reflexivity|]. exists z. reflexivity. }
  split; [|split].
  - intros p a r T1 T2 H. unfold read_barlat in H. destruct (BE p) as [E|[E _]]; rewrite E in H; cbn [rbind] in H; [|discriminate].
    destruct (rows p _) as [t1| |]; cbn [rbind] in H; try discriminate. destruct (rows p _) as [t2| |]; cbn [rbind] in H; try discriminate. injection H as <- _ _ _. reflexivity.
  - intros p z H. unfold read_barlat, barlat_exponent. rewrite H. cbn [rbind]. unfold need_real. rewrite H. reflexivity.
  - exists (fun k => if String.eqb k "Barlat Exponent" then Some (EReal 8) else Some (EArray [1; 0; 0; 0; 0; 0])). split; [reflexivity|]. do 3 eexists. reflexivity.
Qed.
Print Assumptions C116_barlat_exponent_refuted.
Example C116_reachable : exists p e w r, create_norm p = Ok (e, Weighted w r) /\ e = 3 /\ w = 2 /\ r = 5.
Proof.
  exists (mkNorm (fun k => if String.eqb k "Exponent" then Some (EReal 3) else None)
            (Some ((fun k => if String.eqb k "Type" then Some (EStr "Scalar") else None),
                   (fun k => if String.eqb k "Reference Weight" then Some (EReal 5) else Some (EReal 2)), fun _ => None))).
  do 3 eexists. split; [reflexivity|]. repeat split; reflexivity.
Qed.

(** ** C117 *)
(** The analytic values are the principal values: the roots of the characteristic polynomial, all of them.  They are found for every matrix that is
    not a multiple of the identity. *)
Theorem C117_principal : forall s a b c, principal s = Ok (a, b, c) -> forall x, characteristic s x = (a - x) * (b - x) * (c - x).
Proof.
  intros s a b c H x. destruct (Req_dec (spread s) 0) as [Z|N]; [rewrite principal_none in H by exact Z; discriminate|].
  pose proof (spread_nonneg s). destruct (principal_value s ltac:(lra)) as (a' & b' & c' & E & T & M & D). rewrite E in H. injection H as <- <- <-.
  replace ((a' - x) * (b' - x) * (c' - x)) with (a' * b' * c' - x * (a' * b' + b' * c' + c' * a') + x * x * (a' + b' + c') - x * x * x) by ring. rewrite T, M, D.
  unfold characteristic, det3, trace3, minors3. cbn. ring.
Qed.
Print Assumptions C117_principal.
Theorem C117_defined : forall s, (exists a b c, principal s = Ok (a, b, c)) <->
  ~ (s 0%nat = s 1%nat /\ s 1%nat = s 2%nat /\ s 3%nat = 0 /\ s 4%nat = 0 /\ s 5%nat = 0).
Proof.
  intros s. split.
  - intros (a & b & c & E) (E1 & E2 & E3 & E4 & E5). rewrite principal_none in E; [discriminate|]. rewrite spread_squares, E1, E2, E3, E4, E5. field.
  - intros H. destruct (Req_dec (spread s) 0) as [Z|N].
    + exfalso. apply H. rewrite spread_squares in Z.
      pose proof (Rle_0_sqr (s 0%nat - s 1%nat)). pose proof (Rle_0_sqr (s 1%nat - s 2%nat)). pose proof (Rle_0_sqr (s 2%nat - s 0%nat)).
      pose proof (Rle_0_sqr (s 3%nat)). pose proof (Rle_0_sqr (s 4%nat)). pose proof (Rle_0_sqr (s 5%nat)). unfold Rsqr in *.
      assert (Q : forall x, x * x <= 0 -> x = 0). { intros x Hx. pose proof (Rle_0_sqr x) as Y. unfold Rsqr in Y. assert (x * x = 0) by lra. apply Rmult_integral in H6 as [|]; assumption. }
      assert (s 0%nat - s 1%nat = 0) by (apply Q; lra). assert (s 1%nat - s 2%nat = 0) by (apply Q; lra).
      split; [lra|]. split; [lra|]. split; [|split]; apply Q; lra.
    + pose proof (spread_nonneg s). destruct (principal_value s ltac:(lra)) as (a & b & c & E & _). exists a, b, c. exact E.
Qed.
Print Assumptions C117_defined.
(** A pressure has no effect on the norm, in three dimensions and for all coefficients. *)
Lemma transform_pressure T t q i : transform (dev_map T) (six 6 (fun j => t j + if Nat.ltb j 3 then q else 0)) i = transform (dev_map T) (six 6 t) i.
Proof.
  unfold transform, six. rsums. unfold dev_map. rsums. unfold to_dev. cbn. field.
Qed.
Theorem C117_pressure : forall a ref T1 T2 p t vol q,
  barlat_cell 6 a ref T1 T2 p (fun j => t j + if Nat.ltb j 3 then q else 0) vol = barlat_cell 6 a ref T1 T2 p t vol.
Proof.
  intros a ref T1 T2 p t vol q. unfold barlat_cell. rewrite (principal_ext _ _ (fun i _ => transform_pressure T1 t q i)), (principal_ext _ _ (fun i _ => transform_pressure T2 t q i)). reflexivity.
Qed.
Print Assumptions C117_pressure.
(** With unit coefficients the cell value is that of the sixth-power differences of the principal stresses. *)
Definition unit_coefficients (i j : nat) : R := if Nat.eqb i j then 1 else 0.
Lemma unit_transform n t i : (i < 6)%nat -> transform (dev_map unit_coefficients) (six n t) i = deviator (six n t) i.
Proof.
  intros Hi. unfold transform. rsums. unfold dev_map. rsums. unfold unit_coefficients, to_dev, deviator, trace3.
  destruct i as [|[|[|[|[|[|i]]]]]]; [| | | | | |lia]; cbn; field.
Qed.
Lemma deviator_characteristic s x : characteristic (deviator s) x = characteristic s (x + trace3 s / 3).
Proof. unfold characteristic, deviator, det3. cbn. field. Qed.
Lemma cubic_split a b c s h : (forall x, characteristic s (x + h) = (a - x) * (b - x) * (c - x)) -> forall x, characteristic s x = (a + h - x) * (b + h - x) * (c + h - x).
Proof. intros H x. replace x with (x - h + h) at 1 by ring. rewrite H. ring. Qed.
Theorem C117_isotropic : forall n ref k t vol, 0 < ref -> (1 <= k)%nat ->
  ~ (let s := six n t in s 0%nat = s 1%nat /\ s 1%nat = s 2%nat /\ s 3%nat = 0 /\ s 4%nat = 0 /\ s 5%nat = 0) ->
  exists p q r f, (forall x, characteristic (six n t) x = (p - x) * (q - x) * (r - x)) /\ is_root 6 (((p - q) ^ 6 + (q - r) ^ 6 + (r - p) ^ 6) / 2) f /\
    barlat_cell n 6 ref unit_coefficients unit_coefficients (Z.of_nat k) t vol = Ok ((f / ref) ^ k * vol).
Proof.
  intros n ref k t vol Hr Hk Hs. cbv zeta in Hs. set (s := six n t) in *.
  assert (PD : principal (transform (dev_map unit_coefficients) s) = principal (deviator s)) by (apply principal_ext; intros i Hi; apply unit_transform; exact Hi).
  destruct (proj2 (C117_defined (deviator s))) as (a & b & c & E).
  { intros (E1 & E2 & E3 & E4 & E5). apply Hs. unfold deviator in *. cbn in *. repeat split; try assumption; lra. }
  exists (a + trace3 s / 3), (b + trace3 s / 3), (c + trace3 s / 3).
  set (S6 := ((a - b) ^ 6 + (b - c) ^ 6 + (c - a) ^ 6) / 2).
  assert (N6 : forall x, 0 <= x ^ 6). { intros x. replace (x ^ 6) with (Rsqr (x ^ 3)) by (unfold Rsqr; ring). apply Rle_0_sqr. }
  assert (S0 : 0 <= S6) by (unfold S6; pose proof (N6 (a - b)); pose proof (N6 (b - c)); pose proof (N6 (c - a)); lra).
  destruct (pow_real_root S6 6 S0 ltac:(lia)) as (f & Ef & Hf). exists f. split; [|split].
  - apply cubic_split. intros x. rewrite <- deviator_characteristic. apply C117_principal. exact E.
  - replace (a + trace3 s / 3 - (b + trace3 s / 3)) with (a - b) by ring. replace (b + trace3 s / 3 - (c + trace3 s / 3)) with (b - c) by ring.
    replace (c + trace3 s / 3 - (a + trace3 s / 3)) with (c - a) by ring. exact Hf.
  - unfold barlat_cell. fold s. rewrite PD, E. cbn [rbind]. change 6%Z with (Z.of_nat 6). cbn [mapR]. rewrite !pow_int_nat. cbn [rbind fold_left].
    unfold quot at 1. destruct (Req_EM_T (IZR (Z.of_nat 6)) 0) as [X|_]; [cbn in X; lra|]. cbn [rbind].
    replace (IZR (Z.of_nat 6)) with (INR 6) by (rewrite INR_IZR_INZ; reflexivity).
    match goal with |- context [pow_real ?v _] => replace v with S6 by (unfold S6; field) end. rewrite Ef. cbn [rbind].
    unfold quot. destruct (Req_EM_T ref 0); [lra|]. cbn [rbind]. rewrite pow_int_nat. reflexivity.
Qed.
Print Assumptions C117_isotropic.
(** The cell value in general, for even exponents: the mean of the differences between the principal values of the two transformed deviators. *)
Lemma transform_image d T t i : (1 <= d <= 3)%nat -> (i < 6)%nat -> transform (dev_map T) (six (num_voigt d) t) i = image T (space_deviator d t) i.
Proof.
  intros Hd Hi. unfold image, rs. dims d; unfold transform; rsums; unfold dev_map; rsums; unfold to_dev, space_deviator, in_space; cbn; field.
Qed.
Definition spherical (s : nat -> R) : Prop := s 0%nat = s 1%nat /\ s 1%nat = s 2%nat /\ s 3%nat = 0 /\ s 4%nat = 0 /\ s 5%nat = 0.
Definition principal_values (s : nat -> R) (a : nat -> R) : Prop := forall x, characteristic s x = (a 0%nat - x) * (a 1%nat - x) * (a 2%nat - x).
Theorem C117_formula : forall d m ref T1 T2 k t vol, (1 <= d <= 3)%nat -> (1 <= m)%nat -> 0 < ref ->
  ~ spherical (image T1 (space_deviator d t)) -> ~ spherical (image T2 (space_deviator d t)) ->
  exists a b f, principal_values (image T1 (space_deviator d t)) a /\ principal_values (image T2 (space_deviator d t)) b /\
    is_root (2 * m) (rs 3 (fun i => rs 3 (fun j => (a i - b j) ^ (2 * m))) / 4) f /\
    barlat_cell (num_voigt d) (Z.of_nat (2 * m)) ref T1 T2 (Z.of_nat k) t vol = Ok ((f / ref) ^ k * vol).
Proof.
  intros d m ref T1 T2 k t vol Hd Hm Hr H1 H2.
  assert (P : forall T, ~ spherical (image T (space_deviator d t)) -> exists x y z, principal (transform (dev_map T) (six (num_voigt d) t)) = Ok (x, y, z) /\
     principal_values (image T (space_deviator d t)) (fun i => match i with 0%nat => x | 1%nat => y | _ => z end)).
  { intros T HT. destruct (proj2 (C117_defined _) HT) as (x & y & z & E). exists x, y, z. split; [|intros w; apply (C117_principal _ _ _ _ E)].
    rewrite <- E. apply principal_ext. intros i Hi. apply transform_image; assumption. }
  destruct (P T1 H1) as (a1 & a2 & a3 & Ea & Pa). destruct (P T2 H2) as (b1 & b2 & b3 & Eb & Pb). clear P.
  set (a := fun i : nat => match i with 0%nat => a1 | 1%nat => a2 | _ => a3 end) in *. set (b := fun i : nat => match i with 0%nat => b1 | 1%nat => b2 | _ => b3 end) in *.
  set (S := rs 3 (fun i => rs 3 (fun j => (a i - b j) ^ (2 * m))) / 4).
  assert (N : forall x, 0 <= x ^ (2 * m)). { intros x. rewrite pow_mult. apply pow_le. cbn. pose proof (Rle_0_sqr x) as Q. unfold Rsqr in Q. lra. }
  assert (S0 : 0 <= S). { unfold S, rs. rsums. unfold a, b. pose proof (N (a1 - b1)). pose proof (N (a1 - b2)). pose proof (N (a1 - b3)). pose proof (N (a2 - b1)). pose proof (N (a2 - b2)). pose proof (N (a2 - b3)).
    pose proof (N (a3 - b1)). pose proof (N (a3 - b2)). pose proof (N (a3 - b3)). lra. }
  destruct (pow_real_root S (2 * m) S0 ltac:(lia)) as (f & Ef & Hf). exists a, b, f. split; [exact Pa|]. split; [exact Pb|]. split; [exact Hf|].
  unfold barlat_cell. rewrite Ea, Eb. cbn [rbind mapR]. rewrite !pow_int_nat. cbn [rbind fold_left].
  unfold quot at 1. rewrite <- INR_IZR_INZ. destruct (Req_EM_T (INR (2 * m)) 0) as [X|_]; [pose proof (lt_0_INR (2 * m) ltac:(lia)); lra|]. cbn [rbind].
  match goal with |- context [pow_real ?v _] => replace v with S by (unfold S, rs; rsums; unfold a, b; field) end. rewrite Ef. cbn [rbind].
  unfold quot. destruct (Req_EM_T ref 0); [lra|]. cbn [rbind]. rewrite pow_int_nat. reflexivity.
Qed.
Print Assumptions C117_formula.
(** Plane shear with unit coefficients: neither transformed deviator is spherical. *)
Example C117_formula_reachable : ~ spherical (image unit_coefficients (space_deviator 2 (fun j => if Nat.eqb j 2 then 1 else 0))).
Proof. intros (_ & _ & _ & _ & E). revert E. unfold image, rs. rsums. unfold unit_coefficients, space_deviator, in_space. cbn. lra. Qed.
(** In uniaxial stress it is the stress itself. *)
Definition uniaxial (sigma : R) (j : nat) : R := match j with 0%nat => sigma | _ => 0 end.
Lemma six_uniaxial n sigma i : (n = 1 \/ n = 3 \/ n = 6)%nat -> six n (uniaxial sigma) i = uniaxial sigma i.
Proof. intros H. destruct H as [H|[H|H]]; rewrite H; destruct i as [|[|[|[|[|[|i]]]]]]; reflexivity. Qed.
Theorem C117_uniaxial : forall n sigma ref k vol, (n = 1 \/ n = 3 \/ n = 6)%nat -> sigma <> 0 -> 0 < ref -> (1 <= k)%nat ->
  barlat_cell n 6 ref unit_coefficients unit_coefficients (Z.of_nat k) (uniaxial sigma) vol = Ok ((Rabs sigma / ref) ^ k * vol).
Proof.
  intros n sigma ref k vol Hn Hs Hr Hk. destruct (C117_isotropic n ref k (uniaxial sigma) vol Hr Hk) as (p & q & r & f & HP & HF & E).
  { cbv zeta. rewrite !six_uniaxial by exact Hn. intros (E & _). apply Hs. exact E. }
  rewrite E. do 4 f_equal. apply (root_unique 6 _ _ _ ltac:(lia) HF). split; [apply Rabs_pos|].
  assert (C : forall x, (p - x) * (q - x) * (r - x) = (sigma - x) * (x * x)).
  { intros x. rewrite <- HP. unfold characteristic, det3. cbn [Nat.ltb Nat.leb]. rewrite !six_uniaxial by exact Hn. cbn. ring. }
  assert (C0 := C 0). assert (C1 := C 1). assert (C2 := C (-1)).
  assert (E3 : p * q * r = 0) by lra.
  assert (E2 : p * q + q * r + r * p = 0) by lra. assert (E1 : p + q + r = sigma) by lra. clear C C0 C1 C2 HP E.
  replace (Rabs sigma ^ 6) with (sigma ^ 6). 2: { destruct (Rcase_abs sigma) as [L|L]; [rewrite Rabs_left by exact L|rewrite Rabs_right by exact L]; ring. }
  subst sigma. apply Rmult_integral in E3 as [E3|E3]; [apply Rmult_integral in E3 as [E3|E3]|]; subst;
    match type of E2 with ?e = 0 => idtac end.
  - assert (Q : q * r = 0) by lra. apply Rmult_integral in Q as [Q|Q]; subst; field.
  - assert (Q : p * r = 0) by lra. apply Rmult_integral in Q as [Q|Q]; subst; field.
  - assert (Q : p * q = 0) by lra. apply Rmult_integral in Q as [Q|Q]; subst; field.
Qed.
Print Assumptions C117_uniaxial.
(** Without stress the norm is not defined: the unloaded body has no criterion value. *)
Theorem C117_unloaded_refuted : forall d a r T1 T2 e pen X Z c cells, stress_pnorm d (Barlat a r T1 T2) e pen X (fun _ => 0) Z (c :: cells) = UB.
Proof.
  intros d a r T1 T2 e pen X Z c cells. unfold stress_pnorm, criterion, totalR. cbn [foldR]. unfold norm_cell, barlat_cell.
  rewrite principal_none; [reflexivity|].
  assert (Z0 : forall i, stress_tensor d pen e_stiff (fun _ _ => 0) X (fun _ => 0) Z c i = 0).
  { intros i. unfold stress_tensor, weigh, linear_stress. rewrite rsum_0; [req; ring|]. intros j Hj.
    assert (S0 : strain d d (fun _ => 0) (gather d (fun _ => 0) c) (cell_gradient d (gather_coords X c)) j = 0).
    { unfold strain. destruct (nth_error (voigt_pairs d) j) as [[p q]|]; [|reflexivity]. unfold gather. destruct (Nat.eqb p q); rewrite rsum_0; try (intros; req; ring); ring. }
    rewrite S0. req. ring. }
  assert (S6 : forall i, six (num_voigt d) (stress_tensor d pen e_stiff (fun _ _ => 0) X (fun _ => 0) Z c) i = 0).
  { intros i. unfold six. destruct (num_voigt d) as [|[|[|[|[|[|[|m]]]]]]]; try reflexivity; rewrite ?Z0; try (destruct (Nat.ltb i 6); reflexivity);
      destruct i as [|[|[|[|[|[|i]]]]]]; reflexivity || apply Z0. }
  assert (T0 : forall i, transform (dev_map T1) (six (num_voigt d) (stress_tensor d pen e_stiff (fun _ _ => 0) X (fun _ => 0) Z c)) i = 0).
  { intros i. unfold transform. apply rsum_0. intros j _. rewrite S6. req. ring. }
  rewrite spread_squares, !T0. field.
Qed.
Print Assumptions C117_unloaded_refuted.
(** In uniaxial stress (in every one-dimensional problem) the gradient is not defined: acos is taken at 1 or -1, where its derivative is infinite. *)
Theorem C117_gradient_refuted : forall n sigma, (n = 1 \/ n = 3 \/ n = 6)%nat -> sigma <> 0 ->
  exists x, cosine (transform (dev_map unit_coefficients) (six n (uniaxial sigma))) = Ok x /\ acos_factor x = UB.
Proof.
  intros n sigma Hn Hs. set (s := transform (dev_map unit_coefficients) (six n (uniaxial sigma))).
  assert (V : forall i, (i < 6)%nat -> s i = deviator (uniaxial sigma) i).
  { intros i Hi. unfold s. rewrite unit_transform by exact Hi. unfold deviator, trace3. rewrite !six_uniaxial by exact Hn. reflexivity. }
  assert (EH1 : H1 s = 0) by (unfold H1; rewrite !V by lia; unfold deviator, trace3, uniaxial; cbn; field).
  assert (EH2 : H2 s = sigma * sigma / 9) by (unfold H2; rewrite !V by lia; unfold deviator, trace3, uniaxial; cbn; field).
  assert (EH3 : H3 s = sigma * sigma * sigma / 27) by (unfold H3; rewrite !V by lia; unfold deviator, trace3, uniaxial; cbn; field).
  assert (SP : spread s = sigma * sigma / 9) by (unfold spread; rewrite EH1, EH2; field).
  assert (S2 : 0 < sigma * sigma) by (apply Rsqr_pos_lt; exact Hs).
  eexists. split; [apply cosine_value; rewrite SP; lra|].
  pose proof (sqrt_lt_R0 (spread s) ltac:(rewrite SP; lra)) as RP. pose proof (sqrt_sqrt (spread s) ltac:(rewrite SP; lra)) as SS. set (r := sqrt (spread s)) in *.
  assert (QE : QQ s = sigma * sigma * sigma / 27) by (unfold QQ; rewrite EH1, EH2, EH3; field).
  assert (X2 : QQ s / (r * r * r) * (QQ s / (r * r * r)) = 1).
  { replace (QQ s / (r * r * r) * (QQ s / (r * r * r))) with (QQ s * QQ s / ((r * r) * (r * r) * (r * r))) by (field; lra). rewrite SS, SP, QE. field. exact Hs. }
  unfold acos_factor. rewrite X2. replace (1 - 1) with 0 by ring. rewrite sqrt_0. unfold quot. destruct (Req_EM_T 0 0); [reflexivity|lra].
Qed.
Print Assumptions C117_gradient_refuted.
(** A state that is not uniaxial: pure shear. *)
Example C117_reachable : exists p q r, principal (fun i => if Nat.eqb i 5 then 1 else 0) = Ok (p, q, r) /\ p * q * r = 0 /\ p * q + q * r + r * p = -1.
Proof.
  destruct (proj2 (C117_defined (fun i => if Nat.eqb i 5 then 1 else 0))) as (p & q & r & E).
  { cbn. intros (_ & _ & _ & _ & E). lra. }
  exists p, q, r. split; [exact E|]. pose proof (C117_principal _ _ _ _ E) as H. assert (A := H 0). assert (B := H 1). assert (C := H (-1)). unfold characteristic, det3 in *. cbn in *. split; lra.
Qed.
