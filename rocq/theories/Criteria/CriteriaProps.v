(** Properties of the criteria (C24-C27, C64). *)
From Coq Require Import Reals List Arith Lia Lra ZArith FunctionalExtensionality.
From Coquelicot Require Import Coquelicot.
From Verif Require Import Base.Field Base.Sums Base.Res Criteria.CriteriaModel Criteria.CriteriaSpec Criteria.CriteriaProof.
Import ListNotations.
Local Open Scope R_scope.

(** ** C24 *)

(** The documented values: weighted sum, quotient (an error for a zero denominator), weighted squares of normalized differences. *)
Theorem C24_values :
  forall (i : inputs) (t : R),
    (forall parts vs, List.Forall2 (fun x v => cvalue (snd x) i t = Ok v) parts vs ->
       cvalue (WSum parts) i t = Ok (rsum_list (map (fun x => fst (fst x) * snd x) (combine parts vs)))) /\
    (forall a b va vb, cvalue a i t = Ok va -> cvalue b i t = Ok vb ->
       (vb <> 0 -> cvalue (CriteriaModel.Div a b) i t = Ok (va / vb)) /\ (vb = 0 -> cvalue (CriteriaModel.Div a b) i t = Throw)) /\
    (forall parts vs, List.Forall2 (fun x v => cvalue (snd x) i t = Ok v) parts vs ->
       cvalue (LSq parts) i t =
         Ok (rsum_list (map (fun x => match x with (w, gold, scale, _, v) => w * ((v - gold) / scale) ^ 2 end) (combine parts vs)))).
Proof.
  intros i t. split; [|split].
  - intros parts vs H. rewrite cvalue_wsum, (wval_ok _ _ _ H). f_equal. ring.
  - intros a b va vb Ha Hb. cbn [cvalue]. rewrite Ha, Hb. cbn [rbind]. destruct (Req_EM_T vb 0); split; intros; congruence.
  - intros parts vs H. rewrite cvalue_lsq, (lval_ok _ _ _ H). f_equal. rewrite Rplus_0_l. f_equal. apply map_ext.
    intros [[[[w g] s] c] v]. reflexivity.
Qed.
Print Assumptions C24_values.

Lemma move_0 v i d : move v i d 0 = i.
Proof.
  destruct i as [s z x]. destruct v as [k| |]; cbn; f_equal; apply functional_extensionality; intros j.
  - destruct (Nat.eqb j k); [|reflexivity]. apply functional_extensionality. intros a. ring.
  - ring.
  - ring.
Qed.

(** Gradients of nested composite criteria are derivatives of their values: with respect to the controls, the configuration, and
    (as the elliptic problem calls it, step 0 and time step 0) the state. *)
Theorem C24_gradients :
  forall (c : crit) (i : inputs) (n : nat) (d : rvec),
    scales_ok c ->
    (forall t, (forall f, In f (leaves c) -> has_gradient n (fun e => sf_value f (move Control i d e) t) (sf_gradient_z f i t) d) ->
       is_gradient n (fun e => cvalue c (move Control i d e) t) (cgradient_z c i t) d) /\
    (forall t, (forall f, In f (leaves c) -> has_gradient n (fun e => sf_value f (move Config i d e) t) (sf_gradient_x f i t) d) ->
       is_gradient n (fun e => cvalue c (move Config i d e) t) (cgradient_x c i t) d) /\
    ((forall f, In f (leaves c) -> has_gradient n (fun e => sf_value f (move (State 0) i d e) 0) (sf_gradient_u f i 0 0) d) ->
       is_gradient n (fun e => cvalue c (move (State 0) i d e) 0) (cgradient_u c i 0 0) d).
Proof.
  intros c i n d Hs. split; [|split].
  - intros t H. pose proof (cgradient_correct n d (move Control i d) t sf_gradient_z c Hs) as G. rewrite move_0 in G. apply G. exact H.
  - intros t H. pose proof (cgradient_correct n d (move Config i d) t sf_gradient_x c Hs) as G. rewrite move_0 in G. apply G. exact H.
  - intros H. rewrite cgradient_u_0.
    pose proof (cgradient_correct n d (move (State 0) i d) 0 (fun f i t => sf_gradient_u f i 0 t) c Hs) as G. rewrite move_0 in G. apply G. exact H.
Qed.
Print Assumptions C24_gradients.

(** Criteria built by the constructors have nonzero normalizations; a length mismatch is an error. *)
Theorem C24_constructed :
  (forall parts weights, (forall c, In c parts -> scales_ok c) ->
     match mk_wsum parts weights with Ok c => length weights = length parts /\ scales_ok c | Throw => length weights <> length parts | UB => False end) /\
  (forall parts weights golds, (forall c, In c parts -> scales_ok c) ->
     match mk_lsq parts weights golds with
     | Ok c => length weights = length parts /\ length golds = length parts /\ scales_ok c
     | Throw => length weights <> length parts \/ length golds <> length parts | UB => False end).
Proof.
  split.
  - intros parts weights H. unfold mk_wsum. destruct (Nat.eqb_spec (length parts) (length weights)) as [E|E]; [|congruence].
    split; [congruence|]. revert weights E. induction parts as [|c parts IH]; intros [|w ws] E; try discriminate; [exact I|].
    split; [apply H; left; reflexivity|]. apply IH; [intros c' Hc'; apply H; right; exact Hc'|cbn in E; lia].
  - intros parts weights golds H. unfold mk_lsq. destruct (Nat.eqb_spec (length parts) (length weights)) as [E|E]; [|left; congruence].
    destruct (Nat.eqb_spec (length parts) (length golds)) as [E'|E']; [|right; congruence].
    split; [congruence|]. split; [congruence|]. revert weights golds E E'.
    induction parts as [|c parts IH]; intros [|w ws] [|g gs] E E'; try discriminate; [exact I|]. cbn.
    split; [split|].
    + cbn. pose proof (lsq_normalization_pos g). lra.
    + apply H. left. reflexivity.
    + apply IH; [intros c' Hc'; apply H; right; exact Hc'|cbn in E; lia|cbn in E'; lia].
Qed.
Print Assumptions C24_constructed.

(** A least-squares criterion over a quotient: value, gradients. *)
Definition ex_f1 : sfun := mkSfun (fun i _ => in_control i 0%nat * in_control i 0%nat) (fun _ _ _ => 0) (fun _ _ _ _ => 0)
  (fun i _ j => match j with O => 2 * in_control i 0%nat | _ => 0 end).
Definition ex_f2 : sfun := mkSfun (fun i _ => in_control i 1%nat) (fun _ _ _ => 0) (fun _ _ _ _ => 0) (fun _ _ j => match j with 1%nat => 1 | _ => 0 end).
Definition ex_crit : crit := LSq [(3, 2, lsq_normalization 2, CriteriaModel.Div (Leaf ex_f1) (Leaf ex_f2))].
Definition ex_in : inputs := mkIn (fun _ _ => 0) (fun j => match j with O => 4 | _ => 2 end) (fun _ => 0).
Example C24_instance :
  scales_ok ex_crit /\ cvalue ex_crit ex_in 0 = Ok 27 /\
  (forall f d, In f (leaves ex_crit) -> has_gradient 2 (fun e => sf_value f (move Control ex_in d e) 0) (sf_gradient_z f ex_in 0) d) /\
  exists g, cgradient_z ex_crit ex_in 0 = Ok g /\ g 0%nat = 36 /\ g 1%nat = -36.
Proof.
  assert (N : lsq_normalization 2 = 2). { unfold lsq_normalization. rewrite (Rabs_pos_eq 2) by lra. destruct (Rgt_dec _ _); [reflexivity|lra]. }
  unfold ex_crit. rewrite N. split; [cbn; repeat split; lra|]. split; [|split].
  - cbn. destruct (Req_EM_T 2 0); [lra|]. cbn. f_equal. field.
  - intros f d [<-|[<-|[]]]; unfold has_gradient; cbn [sf_value sf_gradient_z ex_f1 ex_f2 move in_control ex_in]; auto_derive; try exact I;
      unfold rdot, dot; cbn; ring.
  - unfold cgradient_z. cbn. destruct (Req_EM_T 2 0); [lra|]. cbn. eexists. split; [reflexivity|]. cbn. split; field.
Qed.

(** ** C25 *)

(** A composite criterion ignores the requested step altogether. *)
Theorem C25_step_ignored :
  forall c i k k' t, (forall f, c <> Leaf f) -> cgradient_u c i k t = cgradient_u c i k' t.
Proof. intros c i k k' t H. destruct c; [exfalso; apply (H f); reflexivity|reflexivity|reflexivity|reflexivity]. Qed.
Print Assumptions C25_step_ignored.

(** A part whose state gradients are right at every step; the gradient of the weighted sum made of it alone, with weight 1, at
    step 1 is not the derivative of its value with respect to the state of step 1, and with a nonzero time step neither is that at step 0. *)
Definition ex_f3 : sfun := mkSfun (fun i _ => in_state i 0%nat 0%nat + 2 * in_state i 1%nat 0%nat) (fun _ _ _ => 0)
  (fun _ k _ j => match k, j with O, O => 1 | 1%nat, O => 2 | _, _ => 0 end) (fun _ _ _ => 0).
Theorem C25_refuted :
  exists (f : sfun) (n : nat) (d : rvec),
    (forall i k t, has_gradient n (fun e => sf_value f (move (State k) i d e) t) (sf_gradient_u f i k t) d) /\
    forall i, ~ is_gradient n (fun e => cvalue (WSum [(1, Leaf f)]) (move (State 1) i d e) 0) (cgradient_u (WSum [(1, Leaf f)]) i 1 0) d /\
              ~ is_gradient n (fun e => cvalue (WSum [(1, Leaf f)]) (move (State 0) i d e) 1) (cgradient_u (WSum [(1, Leaf f)]) i 0 1) d.
Proof.
  exists ex_f3, 1%nat, (fun _ => 1). split.
  - intros i k t. unfold has_gradient. destruct k as [|[|k]]; cbn; auto_derive; try exact I; unfold rdot, dot; cbn; ring.
  - assert (S1 : step_of_time 1 = 1%nat) by (unfold step_of_time; change 1 with (INR 1) at 1; rewrite Int_part_INR; reflexivity).
    assert (U : forall (F : R -> R) (a b : R), is_derive F 0 a -> is_derive F 0 b -> a = b).
    { intros F a b Ha Hb. rewrite <- (is_derive_unique F 0 a Ha). apply is_derive_unique. exact Hb. }
    intros i. split; intros H.
    + destruct (H _ eq_refl) as [F [g [_ [HF [Hg HD]]]]]. cbn [cgradient_u rbind] in Hg. rewrite step_of_time_0 in Hg. injection Hg as <-.
      assert (D : is_derive F 0 2).
      { apply (is_derive_ext_loc (fun e => in_state i 0%nat 0%nat + 2 * (in_state i 1%nat 0%nat + e * 1))).
        - generalize HF. apply filter_imp. intros e E. cbn in E. injection E as E. lra.
        - auto_derive; [exact I|ring]. }
      pose proof (U _ _ _ D HD) as E. unfold rdot, dot in E. cbn in E. lra.
    + destruct (H _ eq_refl) as [F [g [_ [HF [Hg HD]]]]]. cbn [cgradient_u rbind] in Hg. rewrite S1 in Hg. injection Hg as <-.
      assert (D : is_derive F 0 1).
      { apply (is_derive_ext_loc (fun e => (in_state i 0%nat 0%nat + e * 1) + 2 * (in_state i 1%nat 0%nat))).
        - generalize HF. apply filter_imp. intros e E. cbn in E. injection E as E. lra.
        - auto_derive; [exact I|ring]. }
      pose proof (U _ _ _ D HD) as E. unfold rdot, dot in E. cbn in E. lra.
Qed.
Print Assumptions C25_refuted.

(** ** C26 *)

Theorem C26_rotated_inertia :
  forall (second : nat -> nat -> crit) (mass : crit) (Q : nat -> nat -> R) (cg : nat -> R) (i : inputs) (t : R) (S : nat -> nat -> R) (m : R),
    (forall a b, (a <= b < 3)%nat -> cvalue (second a b) i t = Ok (S a b)) -> (forall a b, S a b = S b a) -> cvalue mass i t = Ok m ->
    forall ax, cvalue (rotated_inertia second mass Q cg ax) i t =
      Ok (rotate Q (fun a b => inertia_tensor S a b - m * parallel_axis_tensor cg a b) (fst (axes_index ax)) (snd (axes_index ax))).
Proof.
  intros second mass Q cg i t S m HS Sym Hm ax.
  pose proof (HS 0 0 ltac:(lia))%nat as H00. pose proof (HS 1 1 ltac:(lia))%nat as H11. pose proof (HS 2 2 ltac:(lia))%nat as H22.
  pose proof (HS 0 1 ltac:(lia))%nat as H01. pose proof (HS 0 2 ltac:(lia))%nat as H02. pose proof (HS 1 2 ltac:(lia))%nat as H12.
  assert (P : forall ax, cvalue (moment_of_inertia second ax) i t = Ok (inertia_tensor S (fst (axes_index ax)) (snd (axes_index ax)))).
  { intros a. destruct a; cbn [moment_of_inertia axes_index fst snd]; rewrite cvalue_wsum; cbn [wval];
      rewrite ?H00, ?H11, ?H22, ?H01, ?H02, ?H12; cbn [rbind]; rewrite ?H00, ?H11, ?H22; cbn [rbind]; f_equal; unfold inertia_tensor; cbn [Nat.eqb]; ring. }
  unfold rotated_inertia. rewrite cvalue_wsum.
  pose proof (Sym 1 0)%nat as S10. pose proof (Sym 2 0)%nat as S20. pose proof (Sym 2 1)%nat as S21.
  destruct ax; cbn [inertia_weights map app combine axes_index fst snd wval]; repeat (rewrite P; cbn [rbind]); rewrite Hm; cbn [rbind]; f_equal;
    unfold mass_weight, minus_rotated_pat, mm3, tr3, parallel_axis, rotate, inertia_tensor, parallel_axis_tensor; cbn [sum axes_index fst snd Nat.eqb];
    rewrite ?S10, ?S20, ?S21;
    change (@radd R_ring) with Rplus; change (@r0 R_ring) with 0; ring.
Qed.
Print Assumptions C26_rotated_inertia.

(** At the gold mass, centre of gravity and inertia, with Q and l an eigen decomposition of the gold inertia about the centre of
    gravity, the criterion is zero. *)
Theorem C26_gold_is_zero :
  forall (second : nat -> nat -> crit) (first : nat -> crit) (mass : crit) (w cg l ext : nat -> R) (Q S : nat -> nat -> R) (m : R) (i : inputs) (t : R),
    m <> 0 -> (forall a b, (a <= b < 3)%nat -> cvalue (second a b) i t = Ok (S a b)) -> (forall a b, S a b = S b a) ->
    (forall a, (a < 3)%nat -> cvalue (first a) i t = Ok (m * cg a)) -> cvalue mass i t = Ok m ->
    (forall a b, (a < 3)%nat -> (b < 3)%nat ->
       rotate Q (fun a b => inertia_tensor S a b - m * parallel_axis_tensor cg a b) a b = if Nat.eqb a b then l a else 0) ->
    cvalue (all_mass_properties second first mass w m cg Q l ext) i t = Ok 0.
Proof.
  intros second first mass w cg l ext Q S m i t Hm HS Sym H1 HM HQ.
  assert (RI : forall ax, cvalue (rotated_inertia second mass Q cg ax) i t =
     Ok (if Nat.eqb (fst (axes_index ax)) (snd (axes_index ax)) then l (fst (axes_index ax)) else 0)).
  { intros ax. rewrite (C26_rotated_inertia second mass Q cg i t S m HS Sym HM). f_equal. apply HQ; destruct ax; cbn; lia. }
  assert (RD : forall a, (a < 3)%nat -> cvalue (CriteriaModel.Div (first a) mass) i t = Ok (cg a)).
  { intros a Ha. cbn [cvalue]. rewrite (H1 a Ha), HM. cbn [rbind]. destruct (Req_EM_T m 0); [contradiction|]. f_equal. field. exact Hm. }
  unfold all_mass_properties. cbv zeta. rewrite cvalue_lsq.
  assert (L : forall l0 a, List.Forall (fun x : R * R * R * crit => cvalue (snd x) i t = Ok (snd (fst (fst x)))) l0 -> lval (fun c => cvalue c i t) a l0 = Ok a).
  { intros l0. induction l0 as [|[[[w0 g] s] c] l0 IH]; intros a H; [reflexivity|]. inversion H as [|? ? Hx Hl]; subst. cbn [fst snd] in Hx.
    cbn [lval]. rewrite Hx. cbn [rbind]. rewrite (IH _ Hl). f_equal. unfold Rminus. rewrite Rplus_opp_r. unfold Rdiv. rewrite Rmult_0_l. cbn. ring. }
  apply L. repeat (apply List.Forall_cons; [cbn [fst snd]|]); try apply List.Forall_nil; try (rewrite RI; reflexivity); try (apply RD; lia); exact HM.
Qed.
Print Assumptions C26_gold_is_zero.

(** A body: masses 1 at (1,0,0), 2 at (0,1,0), about cg (1/3, 2/3, 0), with the rotation by (3,4)/5 about z. *)
Definition ex_second (a b : nat) : crit := Leaf (mkSfun (fun _ _ => match a, b with O, O => 1 | 1%nat, 1%nat => 2 | _, _ => 0 end) (fun _ _ _ => 0) (fun _ _ _ _ => 0) (fun _ _ _ => 0)).
Definition ex_mass : crit := Leaf (mkSfun (fun _ _ => 3) (fun _ _ _ => 0) (fun _ _ _ _ => 0) (fun _ _ _ => 0)).
Definition ex_Q : nat -> nat -> R := fun a b => match a, b with O, O => 3/5 | O, 1%nat => -4/5 | 1%nat, O => 4/5 | 1%nat, 1%nat => 3/5 | 2%nat, 2%nat => 1 | _, _ => 0 end.
Definition ex_cg : nat -> R := fun a => match a with O => 1/3 | 1%nat => 2/3 | _ => 0 end.
Example C26_instance :
  cvalue (rotated_inertia ex_second ex_mass ex_Q ex_cg XX) ex_in 0 = Ok (98/75) /\
  cvalue (rotated_inertia ex_second ex_mass ex_Q ex_cg XY) ex_in 0 = Ok (-14/75).
Proof. split; unfold rotated_inertia, mass_weight, minus_rotated_pat, mm3, tr3, parallel_axis; cbn; f_equal; field. Qed.
Example C26_gold_instance :
  let Qx := fun a b => match a, b with O, O => -2/3 | O, 1%nat => 2/3 | O, 2%nat => 1/3 | 1%nat, O => -1/3 | 1%nat, 1%nat => -2/3 | 1%nat, _ => 2/3
                      | _, O => 2/3 | _, 1%nat => 1/3 | _, _ => 2/3 end in
  let S := fun a b => match a, b with O, O => 1 | 1%nat, 1%nat => 1 | 2%nat, 2%nat => 1 | _, _ => 0 end in
  forall a b, (a < 3)%nat -> (b < 3)%nat ->
    rotate Qx (fun a b => inertia_tensor S a b - 5 * parallel_axis_tensor (fun _ => 0) a b) a b = if Nat.eqb a b then 2 else 0.
Proof.
  intros Qx S a b Ha Hb. unfold rotate, inertia_tensor, parallel_axis_tensor, Qx, S.
  destruct a as [|[|[|a]]]; try lia; destruct b as [|[|[|b]]]; try lia; cbn; field.
Qed.

(** ** C27 *)

Lemma rsum_list_rev l : rsum_list (rev l) = rsum_list l.
Proof. induction l as [|x l IH]; [reflexivity|]. cbn [rev]. rewrite rsum_list_app, IH. unfold rsum_list. cbn. ring. Qed.
Lemma rsum_list_swap {A B} (g : A -> B -> R) l s :
  rsum_list (map (fun a => rsum_list (map (g a) s)) l) = rsum_list (map (fun b => rsum_list (map (fun a => g a b) l)) s).
Proof.
  induction l as [|a l IH].
  - cbn [map]. induction s as [|b s IHs]; [reflexivity|]. cbn [map]. rewrite rsum_list_cons, <- IHs. unfold rsum_list. cbn. ring.
  - cbn [map]. rewrite rsum_list_cons, IH. clear IH. induction s as [|b s IHs]; [unfold rsum_list; cbn; ring|].
    cbn [map]. rewrite !rsum_list_cons, <- IHs. ring.
Qed.
(** The value of a transient criterion: every step 1..N-1 once, every domain and cell once; the initial state does not matter. *)
Theorem C27_steps_once :
  forall (S P : Type) (N : nat) (f : physics_function S P) (h : nat -> S) (p : P) (t : R),
    physics_value (transient_steps N) f h p t =
      pe_value (ph_post f) (rsum_list (map (fun k => rsum_list (map (fun d => sum (K := R_ring) (de_cells d) (de_value d (h k) p t)) (ph_domains f))) (seq 1 (N - 1)))) /\
    (forall h', (forall k, (1 <= k < N)%nat -> h' k = h k) -> physics_value (transient_steps N) f h' p t = physics_value (transient_steps N) f h p t).
Proof.
  intros S P N f h p t.
  assert (E : forall h, physics_value (transient_steps N) f h p t =
      pe_value (ph_post f) (rsum_list (map (fun k => rsum_list (map (fun d => sum (K := R_ring) (de_cells d) (de_value d (h k) p t)) (ph_domains f))) (seq 1 (N - 1))))).
  { intros h0. rewrite value_total. f_equal. unfold total, transient_steps. rewrite down_seq, rsum_flat.
    rewrite <- rsum_list_swap. f_equal. apply map_ext. intros d. rewrite rsum_flat, map_rev, rsum_list_rev. f_equal. apply map_ext. intros k.
    symmetry. apply cells_sum_list. }
  split; [apply E|]. intros h' Hh. rewrite !E. f_equal. f_equal. apply map_ext_in. intros k Hk. apply in_seq in Hk.
  rewrite (Hh k) by lia. reflexivity.
Qed.
Print Assumptions C27_steps_once.
(** The value of a static criterion: every step 0..N-1 once, every domain and cell once; nothing else of the history matters. *)
Theorem C27_static_steps_once :
  forall (S P : Type) (N : nat) (f : physics_function S P) (h : nat -> S) (p : P) (t : R),
    physics_value (elliptic_steps N) f h p t =
      pe_value (ph_post f) (rsum_list (map (fun k => rsum_list (map (fun d => sum (K := R_ring) (de_cells d) (de_value d (h k) p t)) (ph_domains f))) (seq 0 N))) /\
    (forall h', (forall k, (k < N)%nat -> h' k = h k) -> physics_value (elliptic_steps N) f h' p t = physics_value (elliptic_steps N) f h p t).
Proof.
  intros S P N f h p t.
  assert (E : forall h, physics_value (elliptic_steps N) f h p t =
      pe_value (ph_post f) (rsum_list (map (fun k => rsum_list (map (fun d => sum (K := R_ring) (de_cells d) (de_value d (h k) p t)) (ph_domains f))) (seq 0 N)))).
  { intros h0. rewrite value_total. f_equal. unfold total, elliptic_steps. rewrite rsum_flat.
    rewrite <- rsum_list_swap. f_equal. apply map_ext. intros d. rewrite rsum_flat. f_equal. apply map_ext. intros k.
    symmetry. apply cells_sum_list. }
  split; [apply E|]. intros h' Hh. rewrite !E. f_equal. f_equal. apply map_ext_in. intros k Hk. apply in_seq in Hk.
  rewrite (Hh k) by lia. reflexivity.
Qed.
Print Assumptions C27_static_steps_once.
Definition ex_domain (c : R) : domain_eval R unit := mkDomain 2 (fun s _ _ cell => c * s + INR cell) (fun _ _ _ _ _ => c) (fun _ _ _ _ _ => 0).
Example C27_instance :
  physics_value (transient_steps 3) (mkPhysics [ex_domain 1; ex_domain 10] no_post) (fun k => INR (k * k)) tt 0 = 114.
Proof. cbn. unfold cells_sum. cbn. ring. Qed.

Example C27_static_instance :
  physics_value (elliptic_steps 3) (mkPhysics [ex_domain 1; ex_domain 10] no_post) (fun k => INR (k * k)) tt 0 = 116.
Proof. cbn. unfold cells_sum. cbn. ring. Qed.

(** ** C64 *)

Lemma pnorm_derive p v : p <> 0 -> 0 < v -> is_derive (pe_value (pnorm_post p)) v (pe_scale (pnorm_post p) v).
Proof.
  intros Hp Hv. cbn [pe_value pe_scale pnorm_post]. unfold Rpower.
  evar_last. { apply (is_derive_comp exp (fun v => 1 / p * ln v)). { apply is_derive_exp. }
    apply (is_derive_scal ln v (1 / p)). apply is_derive_ln. exact Hv. }
  cbn. unfold scal; cbn; unfold mult; cbn.
  replace ((1 - p) / p * ln v) with (1 / p * ln v + (- ln v)) by (field; exact Hp).
  rewrite exp_plus, exp_Ropp, exp_ln by exact Hv. field. split; [lra|exact Hp].
Qed.

(** Gradients with respect to the controls or the configuration: derivatives of the value, whatever the number of steps, for the
    plain sum and for p-norms of a positive total. *)
Theorem C64_parameter_gradient :
  forall (S P : Type) (steps : list nat) (f : physics_function S P) (h : nat -> S) (pl : R -> P) (t : R) (n : nat) (d : rvec),
    (forall de k c, In de (ph_domains f) -> In k steps -> (c < de_cells de)%nat ->
       is_derive (fun e => de_value de (h k) (pl e) t c) 0 (rdot n (de_par de (h k) (pl 0) t c) d)) ->
    is_derive (pe_value (ph_post f)) (total steps f h (pl 0) t) (pe_scale (ph_post f) (total steps f h (pl 0) t)) ->
    is_derive (fun e => physics_value steps f h (pl e) t) 0 (rdot n (physics_gradient_par steps f h (pl 0) t) d).
Proof.
  intros S P steps f h pl t n d H Hp.
  apply (is_derive_ext (fun e => pe_value (ph_post f) (total steps f h (pl e) t))); [intros e; symmetry; apply value_total|].
  destruct (accumulate_eq de_par steps f h (pl 0) t) as [E1 E2].
  unfold physics_gradient_par, finish. rewrite E1.
  pose proof (total_gradient steps f (fun _ => h) pl t n d (fun de k c => de_par de (h k) (pl 0) t c) H) as D.
  rewrite (rdot_ext n _ (fun j => pe_scale (ph_post f) (total steps f h (pl 0) t) * rsum_list (flat_map (fun de => flat_map (fun k => map (fun c => de_par de (h k) (pl 0) t c j) (seq 0 (de_cells de))) steps) (ph_domains f)) + 0 * 0))
    by (intros j; rewrite E2; ring).
  rewrite rdot_lin. rewrite Rmult_0_l, Rplus_0_r, Rmult_comm.
  apply (is_derive_comp (V := R_NormedModule) (pe_value (ph_post f)) (fun e => total steps f h (pl e) t)); [exact Hp|exact D].
Qed.
Print Assumptions C64_parameter_gradient.

(** The state gradient of one step k: right for the plain sum, and for p-norms when the criterion has a single step.
    Missing with respect to C64: p-norms over several steps (refuted below). *)
Theorem C64_step_gradient_partial :
  forall (S P : Type) (steps : list nat) (f : physics_function S P) (hl : R -> nat -> S) (p : P) (t : R) (n : nat) (d : rvec) (k : nat),
    NoDup steps -> In k steps -> (forall e j, j <> k -> hl e j = hl 0 j) ->
    (forall de c, In de (ph_domains f) -> (c < de_cells de)%nat ->
       is_derive (fun e => de_value de (hl e k) p t c) 0 (rdot n (de_step de (hl 0 k) p t c) d)) ->
    ph_post f = no_post \/
    (steps = [k] /\ is_derive (pe_value (ph_post f)) (total [k] f (hl 0) p t) (pe_scale (ph_post f) (total [k] f (hl 0) p t))) ->
    is_derive (fun e => physics_value steps f (hl e) p t) 0 (rdot n (physics_gradient_step k f (hl 0) p t) d).
Proof.
  intros S P steps f hl p t n d k Hnd Hin Hfix H Hpost.
  destruct (accumulate_eq de_step [k] f (hl 0) p t) as [E1 E2].
  assert (Dk : is_derive (fun e => total [k] f (hl e) p t) 0 (rdot n (snd (accumulate de_step [k] f (hl 0) p t)) d)).
  { rewrite (rdot_ext n _ _ d E2).
    apply (total_gradient [k] f hl (fun _ => p) t n d (fun de k c => de_step de (hl 0 k) p t c)).
    intros de k' c Hde [<-|[]] Hc. apply H; assumption. }
  destruct Hpost as [Hpost|[-> Hpost]].
  - assert (Dt : is_derive (fun e => total steps f (hl e) p t) 0 (rdot n (snd (accumulate de_step [k] f (hl 0) p t)) d)).
    { destruct (in_split k steps Hin) as [l1 [l2 ->]].
      assert (Et : forall e, total (l1 ++ k :: l2) f (hl e) p t = total [k] f (hl e) p t + total (l1 ++ l2) f (hl 0) p t).
      { clear H Dk E1 E2 Hpost. intros e. unfold total. rewrite !rsum_flat. induction (ph_domains f) as [|de l IH]; [unfold rsum_list; cbn; ring|].
        cbn [map]. rewrite !rsum_list_cons, IH. cbn [flat_map]. rewrite app_nil_r.
        rewrite !flat_map_app. cbn [flat_map]. rewrite !rsum_list_app.
        assert (Ef : forall l0, ~ In k l0 -> flat_map (fun k0 => map (de_value de (hl e k0) p t) (seq 0 (de_cells de))) l0 =
                                        flat_map (fun k0 => map (de_value de (hl 0 k0) p t) (seq 0 (de_cells de))) l0).
        { induction l0 as [|a l0 IHl]; intros Hn; [reflexivity|]. cbn [flat_map]. rewrite IHl by (intros X; apply Hn; right; exact X).
          rewrite (Hfix e a) by (intros ->; apply Hn; left; reflexivity). reflexivity. }
        pose proof (NoDup_remove_2 _ _ _ Hnd) as Hk. rewrite !Ef by (intros X; apply Hk; apply in_or_app; tauto). ring. }
      apply (is_derive_ext (fun e => total [k] f (hl e) p t + total (l1 ++ l2) f (hl 0) p t)); [intros e; symmetry; apply Et|].
      rewrite <- (Rplus_0_r (rdot n _ d)).
      apply (is_derive_plus (V := R_NormedModule) (fun e => total [k] f (hl e) p t) (fun _ => total (l1 ++ l2) f (hl 0) p t)); [exact Dk|].
      apply (is_derive_const (V := R_NormedModule)). }
    apply (is_derive_ext (fun e => total steps f (hl e) p t)).
    { intros e. rewrite value_total, Hpost. reflexivity. }
    unfold physics_gradient_step, finish. rewrite Hpost. cbn [pe_scale no_post].
    rewrite (rdot_ext n _ (snd (accumulate de_step [k] f (hl 0) p t))) by (intros; ring). exact Dt.
  - apply (is_derive_ext (fun e => pe_value (ph_post f) (total [k] f (hl e) p t))); [intros e; symmetry; apply value_total|].
    unfold physics_gradient_step, finish. rewrite E1.
    rewrite (rdot_ext n _ (fun j => pe_scale (ph_post f) (total [k] f (hl 0) p t) * snd (accumulate de_step [k] f (hl 0) p t) j + 0 * 0)) by (intros; ring).
    rewrite rdot_lin, Rmult_0_l, Rplus_0_r, Rmult_comm.
    apply (is_derive_comp (V := R_NormedModule) (pe_value (ph_post f)) (fun e => total [k] f (hl e) p t)); [exact Hpost|exact Dk].
Qed.
Print Assumptions C64_step_gradient_partial.

Definition ex_cell : domain_eval R unit := mkDomain 1 (fun s _ _ _ => s) (fun _ _ _ _ _ => 1) (fun _ _ _ _ _ => 0).
(** A 2-norm over two computed steps: the state gradient of a step uses the value of that step alone. *)
Theorem C64_pnorm_steps_refuted :
  exists (f : physics_function R unit) (hl : R -> nat -> R) (k : nat),
    ph_post f = pnorm_post 2 /\ In k (transient_steps 3) /\ (forall e j, j <> k -> hl e j = hl 0 j) /\ (forall e, hl e k = hl 0 k + e) /\
    (forall de c, In de (ph_domains f) -> (c < de_cells de)%nat ->
       is_derive (fun e => de_value de (hl e k) tt 0 c) 0 (rdot 1 (de_step de (hl 0 k) tt 0 c) (fun _ => 1))) /\
    ~ is_derive (fun e => physics_value (transient_steps 3) f (hl e) tt 0) 0 (rdot 1 (physics_gradient_step k f (hl 0) tt 0) (fun _ => 1)).
Proof.
  exists (mkPhysics [ex_cell] (pnorm_post 2)), (fun e k => if Nat.eqb k 1 then 1 + e else 1), 1%nat.
  split; [reflexivity|]. split; [cbn; tauto|]. split; [|split; [|split]].
  - intros e j Hj. destruct (Nat.eqb_spec j 1); [contradiction|reflexivity].
  - intros e. cbn. ring.
  - intros de c [<-|[]] Hc. cbn. auto_derive; [exact I|]. unfold rdot, dot. cbn. ring.
  - intros H.
    assert (D : is_derive (fun e => physics_value (transient_steps 3) (mkPhysics [ex_cell] (pnorm_post 2)) (fun k => if Nat.eqb k 1 then 1 + e else 1) tt 0) 0
                  (pe_scale (pnorm_post 2) 2)).
    { apply (is_derive_ext (fun e => pe_value (pnorm_post 2) (2 + e))).
      { intros e. rewrite value_total. f_equal. unfold total, rsum_list. cbn. ring. }
      replace (pe_scale (pnorm_post 2) 2) with (1 * pe_scale (pnorm_post 2) 2) by ring.
      apply (is_derive_comp (V := R_NormedModule) (pe_value (pnorm_post 2)) (fun e => 2 + e)).
      - rewrite Rplus_0_r. apply pnorm_derive; lra.
      - auto_derive; [exact I|ring]. }
    pose proof (is_derive_unique _ _ _ D) as E1. pose proof (is_derive_unique _ _ _ H) as E2.
    rewrite E1 in E2. unfold rdot, dot, physics_gradient_step, finish in E2. cbn in E2. unfold cells_sum in E2. cbn in E2.
    assert (X1 : Rpower (0 + (0 + (1 + 0))) ((1 - 2) / 2) = 1) by (unfold Rpower; rewrite !Rplus_0_l, Rplus_0_r, ln_1, Rmult_0_r; apply exp_0).
    rewrite X1 in E2.
    assert (X2 : Rpower 2 ((1 - 2) / 2) < 1).
    { apply Rlt_le_trans with (Rpower 2 0); [apply Rpower_lt; lra|]. rewrite Rpower_O; lra. }
    lra.
Qed.
Print Assumptions C64_pnorm_steps_refuted.
