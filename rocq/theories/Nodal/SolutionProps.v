(** C123: the 'Solution' criterion is a mean over a node set, with the gradient of that mean. *)
From Coq Require Import String Reals List Arith Bool Lia Lra.
From Verif Require Import Base.Field Base.Sums Base.Res Element.ElementModel Element.ElementSpec Element.ElementProof Residual.ResidualModel Residual.ResidualSpec Residual.ResidualProof
  Ortho.OrthoModel Norms.NormsSpec Norms.NormsProof Norms.PNormProps Nodal.NodalSpec Nodal.SolutionModel.
Import ListNotations.
Local Open Scope R_scope.

(** ** The loops *)
Lemma fold_rsum n (f : nat -> R) a : fold_left (fun s i => s + f i) (seq 0 n) a = a + rsum n f.
Proof.
  induction n as [|n IH]; [cbn; change (@r0 R_ring) with 0; ring|]. rewrite seq_S, fold_left_app. cbn [fold_left]. rewrite IH. cbn [sum plus]. change (@radd R_ring) with Rplus. ring.
Qed.
Lemma fold_sum_over {A} (f : A -> R) l : forall a, fold_left (fun s x => s + f x) l a = a + sum_over l f.
Proof. induction l as [|x l IH]; intros a; cbn [fold_left sum_over]; [ring|]. rewrite IH. ring. Qed.
Lemma length_value nd w u n : node_length nd w u n = weighted nd w u n.
Proof.
  unfold node_length. rewrite fold_rsum, Rplus_0_l. unfold weighted, magnitude, rs.
  assert (P : 0 <= rsum nd (fun i => w i * u (nd * n + i)%nat * (w i * u (nd * n + i)%nat))) by apply squares_nonneg.
  destruct (Rlt_dec 0 _) as [L|L]; [reflexivity|]. match goal with |- ?x = _ => replace x with 0 by lra end. symmetry. apply sqrt_0.
Qed.
Lemma value_general nd f us u : sf_nodes f <> [] ->
  solution_value nd f (us ++ [u]) = Ok (mean (sf_nodes f) (if sf_magnitude f then weighted nd (sf_normal f) u else component nd (sf_normal f) u)).
Proof.
  intros Hn. unfold solution_value. destruct (us ++ [u]) as [|x l] eqn:E; [destruct us; discriminate|]. rewrite <- E, last_last.
  assert (N : INR (length (sf_nodes f)) <> 0). { apply not_0_INR. destruct (sf_nodes f); [contradiction|discriminate]. }
  unfold quot. destruct (Req_EM_T _ 0) as [Z|_]; [contradiction|]. unfold mean. f_equal. f_equal. destruct (sf_magnitude f).
  - rewrite fold_sum_over, Rplus_0_l. apply sum_over_ext. intros n _. apply length_value.
  - transitivity (fold_left (fun s n => s + component nd (sf_normal f) u n) (sf_nodes f) 0).
    { clear Hn N. generalize 0. induction (sf_nodes f) as [|n l' IH]; intros a; [reflexivity|]. cbn [fold_left]. rewrite fold_rsum. unfold component, rs in *. apply IH. }
    rewrite fold_sum_over. ring.
Qed.
(** What gradient_u writes at a node of the set. *)
Definition grad_entry (nd : nat) (f : solution_function) (u : nat -> R) (n i : nat) : R :=
  let N := INR (length (sf_nodes f)) in
  if sf_magnitude f then (if Req_EM_T (weighted nd (sf_normal f) u n) 0 then 0
                          else sf_normal f i * (sf_normal f i * u (nd * n + i)%nat) / (weighted nd (sf_normal f) u n * N))
  else sf_normal f i / N.
Lemma inner_writes nd (e : nat -> R) m n : forall g k, (m <= nd)%nat ->
  fold_left (fun g i => fun k => if Nat.eqb k (nd * n + i) then e i else g k) (seq 0 m) g k =
  if andb (Nat.leb (nd * n) k) (Nat.ltb k (nd * n + m)) then e (k - nd * n)%nat else g k.
Proof.
  induction m as [|m IH]; intros g k H.
  - cbn [seq fold_left]. destruct (Nat.leb_spec (nd * n) k); destruct (Nat.ltb_spec k (nd * n + 0)); try reflexivity. lia.
  - rewrite seq_S, fold_left_app. cbn [fold_left plus]. destruct (Nat.eqb_spec k (nd * n + m)) as [E|E].
    + destruct (Nat.leb_spec (nd * n) k); [|lia]. destruct (Nat.ltb_spec k (nd * n + S m)); [|lia]. cbn. f_equal. lia.
    + rewrite IH by lia. destruct (Nat.leb_spec (nd * n) k); cbn [andb]; [|reflexivity].
      destruct (Nat.ltb_spec k (nd * n + m)); destruct (Nat.ltb_spec k (nd * n + S m)); try reflexivity; lia.
Qed.
Lemma outer_writes nd (e : nat -> nat -> R) n i l : (i < nd)%nat -> forall g,
  fold_left (fun g n => fold_left (fun g i => fun k => if Nat.eqb k (nd * n + i) then e n i else g k) (seq 0 nd) g) l g (nd * n + i)%nat
    = if in_dec Nat.eq_dec n l then e n i else g (nd * n + i)%nat.
Proof.
  intros Hi. induction l as [|x l IH]; intros g; [reflexivity|]. cbn [fold_left]. rewrite IH.
  destruct (in_dec Nat.eq_dec n l) as [I|I]; destruct (in_dec Nat.eq_dec n (x :: l)) as [J|J]; try reflexivity.
  - exfalso. apply J. right. exact I.
  - rewrite inner_writes by lia. destruct J as [<-|J]; [|contradiction].
    destruct (Nat.leb_spec (nd * x) (nd * x + i)); [|lia]. destruct (Nat.ltb_spec (nd * x + i) (nd * x + nd)); [|lia]. cbn. f_equal. lia.
  - rewrite inner_writes by lia. assert (N : n <> x) by (intros ->; apply J; left; reflexivity).
    destruct (Nat.leb_spec (nd * x) (nd * n + i)); cbn [andb]; [|reflexivity]. destruct (Nat.ltb_spec (nd * n + i) (nd * x + nd)); [|reflexivity]. exfalso. nia.
Qed.
Lemma gradient_general nd f states step u : nth_error states step = Some u -> exists g, solution_gradient nd f states step = Ok g /\
  forall n i, (i < nd)%nat -> g (nd * n + i)%nat = if in_dec Nat.eq_dec n (sf_nodes f) then grad_entry nd f u n i else 0.
Proof.
  intros H. unfold solution_gradient. rewrite H. eexists. split; [reflexivity|]. intros n i Hi.
  pose proof (outer_writes nd (fun n i => if sf_magnitude f then (let ds := node_length nd (sf_normal f) u n in if Req_EM_T ds 0 then 0 else sf_normal f i * (sf_normal f i * u (nd * n + i)%nat) / (ds * INR (length (sf_nodes f))))
    else sf_normal f i / INR (length (sf_nodes f))) n i (sf_nodes f) Hi (fun _ => 0)) as K. cbv zeta in K. cbv zeta. rewrite K. unfold grad_entry. rewrite length_value. reflexivity.
Qed.
(** ** Sums over the unknowns as sums over the nodes *)
Lemma rsum_blocks nd nn (f : nat -> R) : rsum (nd * nn) f = rsum nn (fun n => rsum nd (fun i => f (nd * n + i)%nat)).
Proof.
  induction nn as [|nn IH]; [rewrite Nat.mul_0_r; reflexivity|]. rewrite Nat.mul_succ_r.
  change (rsum (nd * nn + nd) f) with (sum (K := R_ring) (nd * nn + nd) f). rewrite sum_split. cbn [sum]. f_equal. exact IH.
Qed.
Lemma rsum_set (h : nat -> R) l nn : NoDup l -> (forall n, In n l -> (n < nn)%nat) ->
  rsum nn (fun n => if in_dec Nat.eq_dec n l then h n else 0) = sum_over l h.
Proof.
  intros Hl Hb. induction Hl as [|x l Hx Hl IH]; [apply rsum_0; intros; reflexivity|]. cbn [sum_over]. rewrite <- IH by (intros n Hn; apply Hb; right; exact Hn).
  assert (S : rsum nn (fun n => if Nat.eqb n x then h n else 0) = h x).
  { rewrite (rsum_single nn x) by (try (apply Hb; left; reflexivity); intros j _ Hj; rewrite (proj2 (Nat.eqb_neq j x) Hj); reflexivity). rewrite Nat.eqb_refl. reflexivity. }
  rewrite <- S, <- rsum_add. apply rsum_ext. intros n _. destruct (Nat.eqb_spec n x) as [->|N].
  - destruct (in_dec Nat.eq_dec x (x :: l)) as [_|J]; [|exfalso; apply J; left; reflexivity]. destruct (in_dec Nat.eq_dec x l); [contradiction|]. req. ring.
  - destruct (in_dec Nat.eq_dec n (x :: l)) as [J|J]; destruct (in_dec Nat.eq_dec n l) as [I|I]; req; try ring.
    + destruct J as [->|J]; contradiction.
    + exfalso. apply J. right. exact I.
Qed.
Lemma gradient_work nd nn f states step u v : NoDup (sf_nodes f) -> (forall n, In n (sf_nodes f) -> (n < nn)%nat) -> nth_error states step = Some u ->
  exists g, solution_gradient nd f states step = Ok g /\ work (nd * nn) g v = sum_over (sf_nodes f) (fun n => rsum nd (fun i => grad_entry nd f u n i * v (nd * n + i)%nat)).
Proof.
  intros Hl Hb H. destruct (gradient_general nd f states step u H) as (g & E & G). exists g. split; [exact E|].
  unfold work, rs. rewrite rsum_blocks. rewrite <- (rsum_set _ (sf_nodes f) nn Hl Hb). apply rsum_ext. intros n _. destruct (in_dec Nat.eq_dec n (sf_nodes f)) as [I|I].
  - apply rsum_ext. intros i Hi. rewrite (G n i Hi). destruct (in_dec _ _ _); [reflexivity|contradiction].
  - apply rsum_0. intros i Hi. rewrite (G n i Hi). destruct (in_dec _ _ _); [contradiction|]. req. ring.
Qed.

(** ** Value *)
Theorem C123_value : forall nd v0 p sets f us u, create_solution nd v0 p sets = Ok f -> sf_nodes f <> [] ->
  solution_value nd f (us ++ [u]) = Ok (mean (sf_nodes f) (if sf_magnitude f then weighted nd (sf_normal f) u else component nd (sf_normal f) u)).
Proof. intros. apply value_general. assumption. Qed.
Print Assumptions C123_value.
(** A set without nodes has no mean. *)
Theorem C123_empty_refuted : forall nd f us u, sf_nodes f = [] -> solution_value nd f (us ++ [u]) = UB.
Proof.
  intros nd f us u H. unfold solution_value. destruct (us ++ [u]) eqn:E; [reflexivity|]. rewrite H. cbn [length INR]. unfold quot. destruct (Req_EM_T 0 0); [reflexivity|contradiction].
Qed.
Print Assumptions C123_empty_refuted.

(** ** Gradient *)
Lemma quadratic_derivative (q : R -> R) a b c : (forall x, q x = a + 2 * b * x + c * (x * x)) -> derivable_pt_lim q 0 (2 * b).
Proof.
  intros E eps He. assert (C : 0 < Rabs c + 1) by (pose proof (Rabs_pos c); lra). assert (M : 0 < eps / (Rabs c + 1)) by (apply Rdiv_lt_0_compat; lra).
  exists (mkposreal _ M). intros h Hh Hs. cbn [pos] in Hs. rewrite !E. replace ((a + 2 * b * (0 + h) + c * ((0 + h) * (0 + h)) - (a + 2 * b * 0 + c * (0 * 0))) / h - 2 * b) with (c * h) by (field; exact Hh).
  rewrite Rabs_mult. pose proof (Rabs_pos h). apply Rle_lt_trans with ((Rabs c + 1) * Rabs h); [pose proof (Rabs_pos c); nra|].
  apply Rlt_le_trans with ((Rabs c + 1) * (eps / (Rabs c + 1))); [apply Rmult_lt_compat_l; lra|]. right. field. lra.
Qed.
Lemma derivable_ext (f g : R -> R) x l : (forall y, f y = g y) -> derivable_pt_lim f x l -> derivable_pt_lim g x l.
Proof. intros E H eps He. destruct (H eps He) as [d Hd]. exists d. intros h Hh Hs. rewrite <- !E. exact (Hd h Hh Hs). Qed.
Lemma derivable_sum_over {A} (F : A -> R -> R) D l x : (forall a, In a l -> derivable_pt_lim (F a) x (D a)) -> derivable_pt_lim (fun y => sum_over l (fun a => F a y)) x (sum_over l D).
Proof.
  induction l as [|a l IH]; intros H; cbn [sum_over]; [apply derivable_pt_lim_const|].
  apply (derivable_pt_lim_plus (F a) (fun y => sum_over l (fun a => F a y))); [apply H; left; reflexivity|apply IH; intros b Hb; apply H; right; exact Hb].
Qed.
Lemma weighted_derivative nd w u v n : weighted nd w u n <> 0 ->
  derivable_pt_lim (fun x => weighted nd w (fun k => u k + x * v k) n) 0 (rsum nd (fun i => w i * (w i * u (nd * n + i)%nat) * v (nd * n + i)%nat) / weighted nd w u n).
Proof.
  intros Hw. set (B := rsum nd (fun i => w i * (w i * u (nd * n + i)%nat) * v (nd * n + i)%nat)).
  set (A := rsum nd (fun i => w i * u (nd * n + i)%nat * (w i * u (nd * n + i)%nat))). set (C := rsum nd (fun i => w i * v (nd * n + i)%nat * (w i * v (nd * n + i)%nat))).
  assert (Q : forall x, rsum nd (fun i => w i * (u (nd * n + i)%nat + x * v (nd * n + i)%nat) * (w i * (u (nd * n + i)%nat + x * v (nd * n + i)%nat))) = A + 2 * B * x + C * (x * x)).
  { intros x. rewrite (rsum_ext nd _ (fun i => w i * u (nd * n + i)%nat * (w i * u (nd * n + i)%nat) + ((2 * x) * (w i * (w i * u (nd * n + i)%nat) * v (nd * n + i)%nat) + (x * x) * (w i * v (nd * n + i)%nat * (w i * v (nd * n + i)%nat)))))
      by (intros; req; ring). rewrite !rsum_add, !rsum_scal_l. fold A B C. match goal with |- ?l = ?r => change (@eq R l r) end. change (@radd R_ring) with Rplus. ring. }
  assert (A0 : 0 <= A) by apply squares_nonneg. assert (W : weighted nd w u n = sqrt A) by reflexivity.
  assert (AP : 0 < A). { destruct A0 as [P|P]; [exact P|]. exfalso. apply Hw. rewrite W, <- P. apply sqrt_0. }
  pose proof (quadratic_derivative _ A B C Q) as D1.
  pose proof (derivable_pt_lim_comp _ sqrt 0 (2 * B) (/ (2 * sqrt A)) D1) as D2. cbv beta in D2. rewrite (Q 0) in D2.
  assert (Z : forall a b c : R, a + 2 * b * 0 + c * (0 * 0) = a) by (intros; ring). rewrite Z in D2. specialize (D2 (derivable_pt_lim_sqrt A AP)).
  replace (B / weighted nd w u n) with (/ (2 * sqrt A) * (2 * B)). 2: { rewrite W. field. rewrite <- W. exact Hw. }
  exact D2.
Qed.
(** The gradient with respect to the solution of the last step is the gradient of the value: in every direction, where the magnitudes of the nodes are not zero. *)
Theorem C123_gradient : forall nd v0 p sets f nn us u v, create_solution nd v0 p sets = Ok f -> sf_nodes f <> [] -> NoDup (sf_nodes f) -> (forall n, In n (sf_nodes f) -> (n < nn)%nat) ->
  (sf_magnitude f = true -> forall n, In n (sf_nodes f) -> weighted nd (sf_normal f) u n <> 0) ->
  exists g, solution_gradient nd f (us ++ [u]) (length us) = Ok g /\
    forall F, (forall x, solution_value nd f (us ++ [fun k => u k + x * v k]) = Ok (F x)) -> derivable_pt_lim F 0 (work (nd * nn) g v).
Proof.
  intros nd v0 p sets f nn us u v _ Hn Hl Hb Hw.
  destruct (gradient_work nd nn f (us ++ [u]) (length us) u v Hl Hb) as (g & E & G). { rewrite nth_error_app2, Nat.sub_diag by lia. reflexivity. }
  exists g. split; [exact E|]. intros F HF. rewrite G.
  assert (N : INR (length (sf_nodes f)) <> 0). { apply not_0_INR. destruct (sf_nodes f); [contradiction|discriminate]. }
  set (N0 := INR (length (sf_nodes f))) in *.
  apply (derivable_ext (fun x => sum_over (sf_nodes f) (fun n => / N0 * (if sf_magnitude f then weighted nd (sf_normal f) (fun k => u k + x * v k) n else component nd (sf_normal f) (fun k => u k + x * v k) n)))).
  { intros x. pose proof (HF x) as V. rewrite value_general in V by exact Hn. injection V as <-. unfold mean. fold N0. rewrite sum_over_scal. unfold Rdiv. rewrite Rmult_comm. f_equal. destruct (sf_magnitude f); reflexivity. }
  apply derivable_sum_over. intros n Hin.
  assert (D : derivable_pt_lim (fun x => if sf_magnitude f then weighted nd (sf_normal f) (fun k => u k + x * v k) n else component nd (sf_normal f) (fun k => u k + x * v k) n) 0
    (N0 * rsum nd (fun i => grad_entry nd f u n i * v (nd * n + i)%nat))).
  { unfold grad_entry. fold N0. destruct (sf_magnitude f) eqn:M.
    - pose proof (Hw eq_refl n Hin) as W. pose proof (weighted_derivative nd (sf_normal f) u v n W) as D. destruct (Req_EM_T _ 0); [contradiction|].
      match type of D with derivable_pt_lim _ _ ?l => match goal with |- derivable_pt_lim _ _ ?r => replace r with l; [exact D|] end end.
      unfold Rdiv. rewrite rsum_scal_r, <- rsum_scal_l. apply rsum_ext. intros i Hi. req. field. split; assumption.
    - set (a := component nd (sf_normal f) u n). set (b := component nd (sf_normal f) v n).
      replace (N0 * rsum nd (fun i => sf_normal f i / N0 * v (nd * n + i)%nat)) with (2 * (b / 2)).
      2: { rewrite <- rsum_scal_l. unfold b, component, rs. match goal with |- 2 * (?x / 2) = _ => transitivity x; [field|] end. apply rsum_ext. intros i Hi. req. field. exact N. }
      apply (quadratic_derivative _ a (b / 2) 0). intros x. unfold a, b, component, rs.
      rewrite (rsum_ext nd _ (fun i => sf_normal f i * u (nd * n + i)%nat + x * (sf_normal f i * v (nd * n + i)%nat))) by (intros; req; ring).
      rewrite rsum_add, rsum_scal_l. change (@radd R_ring) with Rplus. match goal with |- ?l = ?r => change (@eq R l r) end. field. }
  pose proof (derivable_pt_lim_scal _ (/ N0) 0 _ D) as D'. rewrite <- Rmult_assoc, Rinv_l, Rmult_1_l in D' by exact N. exact D'.
Qed.
Print Assumptions C123_gradient.
(** For every solution, also where magnitudes vanish: the value of any other solution is at least what the gradient predicts, and exactly that for a component. *)
Theorem C123_subgradient : forall nd v0 p sets f nn us u us' u', create_solution nd v0 p sets = Ok f -> sf_nodes f <> [] -> NoDup (sf_nodes f) -> (forall n, In n (sf_nodes f) -> (n < nn)%nat) ->
  exists g a a', solution_gradient nd f (us ++ [u]) (length us) = Ok g /\ solution_value nd f (us ++ [u]) = Ok a /\ solution_value nd f (us' ++ [u']) = Ok a' /\ a + work (nd * nn) g (fun k => u' k - u k) <= a' /\ (sf_magnitude f = false -> a + work (nd * nn) g (fun k => u' k - u k) = a').
Proof.
  intros nd v0 p sets f nn us u us' u' _ Hn Hl Hb.
  destruct (gradient_work nd nn f (us ++ [u]) (length us) u (fun k => u' k - u k) Hl Hb) as (g & E & G). { rewrite nth_error_app2, Nat.sub_diag by lia. reflexivity. }
  exists g. rewrite !value_general by exact Hn. do 2 eexists. split; [exact E|]. split; [reflexivity|]. split; [reflexivity|]. rewrite G. unfold mean.
  assert (N : 0 < INR (length (sf_nodes f))). { apply lt_0_INR. destruct (sf_nodes f); [contradiction|cbn; lia]. }
  set (N0 := INR (length (sf_nodes f))) in *. unfold Rdiv. rewrite !sum_over_scal_r, <- sum_over_add.
  assert (L : sf_magnitude f = false -> forall n, component nd (sf_normal f) u n * / N0 + rsum nd (fun i => grad_entry nd f u n i * (u' (nd * n + i)%nat - u (nd * n + i)%nat)) = component nd (sf_normal f) u' n * / N0).
  { intros M n. unfold grad_entry. fold N0. rewrite M. unfold component, rs. rewrite !rsum_scal_r, <- rsum_add. apply rsum_ext. intros i Hi. req. field. lra. }
  split.
  - apply sum_over_le. intros n Hin. destruct (sf_magnitude f) eqn:M; [|right; apply L; reflexivity].
    set (w := sf_normal f). assert (P : 0 < / N0) by (apply Rinv_0_lt_compat; exact N). unfold grad_entry. rewrite M. fold N0 w.
    destruct (Req_EM_T (weighted nd w u n) 0) as [Z|Z].
    + rewrite Z. rewrite rsum_0 by (intros; req; ring). assert (0 <= weighted nd w u' n) by apply magnitude_nonneg. nra.
    + assert (WP : 0 < weighted nd w u n). { assert (0 <= weighted nd w u n) by apply magnitude_nonneg. lra. }
      pose proof (cauchy nd (fun i => w i * u (nd * n + i)%nat) (fun i => w i * u' (nd * n + i)%nat)) as C. fold (weighted nd w u n) (weighted nd w u' n) in C.
      pose proof (magnitude_sqr nd (fun i => w i * u (nd * n + i)%nat)) as Q. fold (weighted nd w u n) in Q.
      set (S := rsum nd (fun i => w i * u (nd * n + i)%nat * (w i * u' (nd * n + i)%nat))) in *. set (W := weighted nd w u n) in *.
      replace (rsum nd (fun i => w i * (w i * u (nd * n + i)%nat) / (W * N0) * (u' (nd * n + i)%nat - u (nd * n + i)%nat))) with ((S - W * W) * / (W * N0)).
      2: { rewrite Q. unfold S. rewrite <- rsum_sub, rsum_scal_r. apply rsum_ext. intros i Hi. unfold Rdiv. req. ring. }
      replace (W * / N0 + (S - W * W) * / (W * N0)) with (S / W * / N0) by (field; split; lra). apply Rmult_le_compat_r; [lra|].
      apply Rmult_le_reg_r with W; [exact WP|]. unfold Rdiv. rewrite Rmult_assoc, Rinv_l, Rmult_1_r by exact Z. lra.
  - intros M. rewrite M. apply sum_over_ext. intros n _. apply L. exact M.
Qed.
Print Assumptions C123_subgradient.
(** Nothing but the node set matters: the gradient vanishes at every other node, and the value does not change with the controls and coordinates. *)
Theorem C123_elsewhere : forall nd f states step g n i, solution_gradient nd f states step = Ok g -> (i < nd)%nat -> ~ In n (sf_nodes f) -> g (nd * n + i)%nat = 0.
Proof.
  intros nd f states step g n i E Hi Hn. destruct (nth_error states step) as [u|] eqn:H; [|unfold solution_gradient in E; rewrite H in E; discriminate].
  destruct (gradient_general nd f states step u H) as (g' & E' & G). rewrite E in E'. injection E' as <-. rewrite (G n i Hi). destruct (in_dec _ _ _); [contradiction|reflexivity].
Qed.
Print Assumptions C123_elsewhere.
(** Neither the control nor the coordinates enter the value: along any of them it is a constant function, whose derivative is what is returned. *)
Theorem C123_other_gradients : forall nd f states a, solution_value nd f states = Ok a ->
  forall k x, derivable_pt_lim (fun _ => a) x (solution_gradient_z f k) /\ derivable_pt_lim (fun _ => a) x (solution_gradient_x f k).
Proof. intros nd f states a _ k x. split; apply derivable_pt_lim_const. Qed.
Print Assumptions C123_other_gradients.
(** The steps before the last do not enter the value, but their gradient is not zero. *)
Theorem C123_steps_refuted : exists f g, sf_nodes f = [0%nat] /\ solution_gradient 1 f [fun _ => 1; fun _ => 1] 0 = Ok g /\ g 0%nat = 1 /\ forall u u', solution_value 1 f [u; fun _ => 1] = solution_value 1 f [u'; fun _ => 1].
Proof.
  exists (mkSol (fun _ => 1) false [0%nat]). eexists. split; [reflexivity|]. split; [reflexivity|]. split; [cbn; field|]. intros u u'. reflexivity.
Qed.
Print Assumptions C123_steps_refuted.

(** ** Input *)
Theorem C123_input : forall nd v0 p sets f, create_solution nd v0 p sets = Ok f ->
  (exists dom, sp_domain p = Some dom /\ sets dom = Some (sf_nodes f)) /\ (sf_magnitude f = true <-> sp_magnitude p = Some (Some true)) /\ (forall l, sp_normal p = Some l -> forall i, (i < nd)%nat -> (i < length l)%nat -> sf_normal f i = nth i l 0) /\ (sp_normal p = None -> nd = 1%nat /\ sf_normal f 0%nat = 1).
Proof.
  intros nd v0 p sets f H. unfold create_solution in H. destruct (sp_domain p) as [dom|]; [|discriminate].
  destruct (match sp_magnitude p with None => Ok false | Some (Some b) => Ok b | Some None => Throw end) as [m| |] eqn:EM; try discriminate. cbn [rbind] in H.
  destruct (read_normal nd v0 (sp_normal p)) as [w| |] eqn:EN; try discriminate. cbn [rbind] in H. destruct (sets dom) as [nodes|] eqn:ES; [|discriminate]. injection H as <-. cbn.
  split; [exists dom; split; [reflexivity|exact ES]|]. split.
  { destruct (sp_magnitude p) as [[b|]|]; try discriminate; injection EM as <-; split; intros H; try congruence; discriminate. }
  unfold read_normal in EN. split.
  - intros l El i Hi Hl. rewrite El in EN. destruct (Nat.ltb_spec nd (length l)); injection EN as <-; [destruct (Nat.ltb_spec i nd)|destruct (Nat.ltb_spec i (length l))]; try reflexivity; lia.
  - intros El. rewrite El in EN. destruct (Nat.eqb_spec nd 1); [|discriminate]. injection EN as <-. split; [assumption|reflexivity].
Qed.
Print Assumptions C123_input.
(** Rejected: no domain, a flag that is not a bool, no normal for more than one value per node, an unknown node set; and nothing else. *)
Theorem C123_rejects : forall nd v0 p sets, create_solution nd v0 p sets = Throw <->
  (sp_domain p = None \/ sp_magnitude p = Some None \/ (sp_normal p = None /\ nd <> 1%nat) \/ (exists dom, sp_domain p = Some dom /\ sets dom = None)).
Proof.
  intros nd v0 p sets. unfold create_solution, read_normal. destruct (sp_domain p) as [dom|]; [|split; [left; reflexivity|reflexivity]].
  destruct (sp_magnitude p) as [[b|]|]; cbn [rbind].
  2: { split; [right; left; reflexivity|reflexivity]. }
  all: destruct (sp_normal p) as [l|]; [destruct (Nat.ltb nd (length l))|destruct (Nat.eqb_spec nd 1)]; cbn [rbind]; destruct (sets dom) eqn:ES; split; intros H; try discriminate; try reflexivity;
    try (right; right; right; exists dom; split; [reflexivity|exact ES]); try (right; right; left; split; [reflexivity|assumption]);
    repeat match goal with Q : _ \/ _ |- _ => destruct Q | Q : exists _, _ |- _ => destruct Q | Q : _ /\ _ |- _ => destruct Q end; try congruence.
Qed.
Print Assumptions C123_rejects.
(** The missing terms of a short normal are said to be zero; they are what the library's vector was built with. *)
Theorem C123_short_partial : forall nd v0 p sets f l i, create_solution nd v0 p sets = Ok f -> sp_normal p = Some l -> (length l <= i < nd)%nat -> sf_normal f i = v0 i.
Proof.
  intros nd v0 p sets f l i H E Hi. unfold create_solution, read_normal in H. rewrite E in H. destruct (sp_domain p); [|discriminate].
  destruct (Nat.ltb_spec nd (length l)); [lia|]. destruct (match sp_magnitude p with None => Ok false | Some (Some b) => Ok b | Some None => Throw end); try discriminate. cbn [rbind] in H.
  destruct (sets s); [|discriminate]. injection H as <-. cbn [sf_normal]. destruct (Nat.ltb_spec i (length l)); [lia|reflexivity].
Qed.
Print Assumptions C123_short_partial.

(** A set of two nodes in the plane, magnitude of the displacement (3, 4) and (0, 0), then (3, 4) and (5, 12). *)
Definition two_params := mkSolParams (Some "tip"%string) (Some (Some true)) (Some [1; 1]).
Definition tip (name : string) : option (list nat) := if String.eqb name "tip" then Some [1%nat; 3%nat] else None.
Definition tip_state (k : nat) : R := match k with 2%nat => 3 | 3%nat => 4 | 6%nat => 5 | 7%nat => 12 | _ => 0 end.
Example C123_reachable : exists f, create_solution 2 (fun _ => 0) two_params tip = Ok f /\ NoDup (sf_nodes f) /\ sf_nodes f <> [] /\ (forall n, In n (sf_nodes f) -> weighted 2 (sf_normal f) tip_state n <> 0) /\ solution_value 2 f [tip_state] = Ok 9.
Proof.
  eexists. split; [reflexivity|]. cbn [sf_nodes sf_normal]. split; [repeat constructor; cbn; intuition discriminate|]. split; [discriminate|].
  assert (W1 : forall w, w 0%nat = 1 -> w 1%nat = 1 -> weighted 2 w tip_state 1 = 5).
  { intros w A B. unfold weighted, magnitude, rs. rsums. cbn [Nat.mul Nat.add tip_state]. rewrite A, B. replace (0 + 1 * 3 * (1 * 3) + 1 * 4 * (1 * 4)) with (5 * 5) by ring. apply sqrt_square. lra. }
  assert (W3 : forall w, w 0%nat = 1 -> w 1%nat = 1 -> weighted 2 w tip_state 3 = 13).
  { intros w A B. unfold weighted, magnitude, rs. rsums. cbn [Nat.mul Nat.add tip_state]. rewrite A, B. replace (0 + 1 * 5 * (1 * 5) + 1 * 12 * (1 * 12)) with (13 * 13) by ring. apply sqrt_square. lra. }
  split.
  - intros n [<-|[<-|[]]]; [rewrite W1|rewrite W3]; try reflexivity; lra.
  - change [tip_state] with ([] ++ [tip_state]). rewrite value_general by discriminate. unfold mean. cbn [sf_nodes sf_magnitude sf_normal sum_over length INR]. rewrite W1, W3 by reflexivity. f_equal. field.
Qed.
