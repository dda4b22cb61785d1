(** Proofs about the criteria. *)
From Coq Require Import Reals List Arith ZArith Lia Lra.
From Coquelicot Require Import Coquelicot.
From Verif Require Import Base.Field Base.Sums Base.Res Criteria.CriteriaModel Criteria.CriteriaSpec.
Import ListNotations.
Notation Forall := List.Forall.
Local Open Scope R_scope.

Section Ind.
Variable P : crit -> Prop.
Hypothesis HL : forall f, P (Leaf f).
Hypothesis HW : forall l, Forall (fun x => P (snd x)) l -> P (WSum l).
Hypothesis HD : forall a b, P a -> P b -> P (CriteriaModel.Div a b).
Hypothesis HS : forall l, Forall (fun x => P (snd x)) l -> P (LSq l).
Fixpoint crit_nested_ind (c : crit) : P c :=
  match c with
  | Leaf f => HL f
  | WSum l => HW l ((fix go l : Forall (fun x => P (snd x)) l :=
      match l with [] => Forall_nil _ | x :: l' => Forall_cons x (crit_nested_ind (snd x)) (go l') end) l)
  | CriteriaModel.Div a b => HD a b (crit_nested_ind a) (crit_nested_ind b)
  | LSq l => HS l ((fix go l : Forall (fun x => P (snd x)) l :=
      match l with [] => Forall_nil _ | x :: l' => Forall_cons x (crit_nested_ind (snd x)) (go l') end) l)
  end.
End Ind.

(** Named versions of the inner loops. *)
Section Loops.
Variables (vof : crit -> res R) (gof : crit -> res rvec).
Fixpoint wval (acc : R) (l : list (R * crit)) : res R :=
  match l with [] => Ok acc | (w, c') :: l' => let! v := vof c' in wval (acc + w * v) l' end.
Fixpoint lval (acc : R) (l : list (R * R * R * crit)) : res R :=
  match l with [] => Ok acc | (w, g, s, c') :: l' => let! v := vof c' in lval (acc + w * ((v - g) / s) ^ 2) l' end.
Fixpoint wgrad (acc : rvec) (l : list (R * crit)) : res rvec :=
  match l with [] => Ok acc | (w, c') :: l' => let! g := gof c' in wgrad (fun j => acc j + w * g j) l' end.
Fixpoint lgrad (acc : rvec) (l : list (R * R * R * crit)) : res rvec :=
  match l with [] => Ok acc
  | (w, gold, s, c') :: l' => let! v := vof c' in let! g := gof c' in lgrad (fun j => acc j + 2 * w * (v - gold) * g j / (s * s)) l' end.
End Loops.

Lemma cvalue_wsum l i t : cvalue (WSum l) i t = wval (fun c => cvalue c i t) 0 l.
Proof. reflexivity. Qed.
Lemma cvalue_lsq l i t : cvalue (LSq l) i t = lval (fun c => cvalue c i t) 0 l.
Proof. reflexivity. Qed.
Lemma cgradient_wsum leaf l i t : cgradient leaf (WSum l) i t = wgrad (fun c => cgradient leaf c i t) (fun _ => 0) l.
Proof. reflexivity. Qed.
Lemma cgradient_lsq leaf l i t : cgradient leaf (LSq l) i t = lgrad (fun c => cvalue c i t) (fun c => cgradient leaf c i t) (fun _ => 0) l.
Proof. reflexivity. Qed.
Lemma cgradient_u_wsum l i k t : cgradient_u (WSum l) i k t = wgrad (fun c => cgradient_u c i (step_of_time t) 0) (fun _ => 0) l.
Proof. reflexivity. Qed.
Lemma cgradient_u_lsq l i k t : cgradient_u (LSq l) i k t = lgrad (fun c => cvalue c i t) (fun c => cgradient_u c i (step_of_time t) 0) (fun _ => 0) l.
Proof. reflexivity. Qed.

(** ** Linearity of the pairing *)
Lemma rdot_lin n a b (x y d : rvec) : rdot n (fun j => a * x j + b * y j) d = a * rdot n x d + b * rdot n y d.
Proof.
  etransitivity; [exact (dot_add_l (K := R_ring) n (fun j => a * x j) (fun j => b * y j) d)|].
  apply (f_equal2 Rplus); apply (dot_scal_l (K := R_ring)).
Qed.
Lemma rdot_ext n (x y d : rvec) : (forall j, x j = y j) -> rdot n x d = rdot n y d.
Proof. intros H. apply (dot_ext (K := R_ring)); intros; [apply H|reflexivity]. Qed.
Lemma rdot_0 n d : rdot n (fun _ => 0) d = 0.
Proof. apply (dot_0_l (K := R_ring)). Qed.

(** ** Composition of gradients *)
Section Compose.
Variables (n : nat) (d : rvec).

Lemma wsum_gradient (line : R -> inputs) (t : R) (gof : crit -> res rvec) l :
  Forall (fun x => is_gradient n (fun e => cvalue (snd x) (line e) t) (gof (snd x)) d) l ->
  forall (a : R -> R) (ga : rvec), is_derive a 0 (rdot n ga d) ->
  is_gradient n (fun e => wval (fun c => cvalue c (line e) t) (a e) l) (wgrad gof ga l) d.
Proof.
  induction 1 as [|[w c] l Hc Hl IH]; intros a ga Ha v Hv.
  - exists a, ga. cbn in Hv. injection Hv as <-. split; [reflexivity|]. split; [apply filter_forall; reflexivity|]. split; [reflexivity|exact Ha].
  - cbn [wval] in Hv. cbn [snd] in Hc. destruct (cvalue c (line 0) t) as [v0| |] eqn:Ev; cbn [rbind] in Hv; try discriminate.
    destruct (Hc v0 Ev) as [F [g [HF0 [HF [Hg HD]]]]].
    destruct (IH (fun e => a e + w * F e) (fun j => ga j + w * g j)) with (v := v) as [G [gg [HG0 [HG [Hgg HDG]]]]].
    + rewrite (rdot_ext n _ (fun j => 1 * ga j + w * g j)) by (intros; ring). rewrite rdot_lin.
      replace (1 * rdot n ga d + w * rdot n g d) with (rdot n ga d + w * rdot n g d) by ring.
      apply (is_derive_plus (V := R_NormedModule) a (fun e => w * F e)); [exact Ha|]. apply (is_derive_scal F 0 w). exact HD.
    + cbn. rewrite HF0. exact Hv.
    + exists G, gg. split; [exact HG0|]. split; [|split; [|exact HDG]].
      * generalize (filter_and _ _ HF HG). apply filter_imp. intros e [E1 E2]. cbn [wval]. rewrite E1. exact E2.
      * cbn [wgrad]. rewrite Hg. exact Hgg.
Qed.

Lemma lsq_gradient (line : R -> inputs) (t : R) (gof : crit -> res rvec) l :
  Forall (fun x => is_gradient n (fun e => cvalue (snd x) (line e) t) (gof (snd x)) d) l ->
  Forall (fun x : R * R * R * crit => snd (fst x) <> 0) l ->
  forall (a : R -> R) (ga : rvec), is_derive a 0 (rdot n ga d) ->
  is_gradient n (fun e => lval (fun c => cvalue c (line e) t) (a e) l) (lgrad (fun c => cvalue c (line 0) t) gof ga l) d.
Proof.
  induction 1 as [|[[[w gold] s] c] l Hc Hl IH]; intros Hs a ga Ha v Hv.
  - exists a, ga. cbn in Hv. injection Hv as <-. split; [reflexivity|]. split; [apply filter_forall; reflexivity|]. split; [reflexivity|exact Ha].
  - inversion Hs as [|? ? Hs0 Hs1]; subst. cbn [fst snd] in Hs0.
    cbn [lval] in Hv. cbn [snd] in Hc. destruct (cvalue c (line 0) t) as [v0| |] eqn:Ev; cbn [rbind] in Hv; try discriminate.
    destruct (Hc v0 Ev) as [F [g [HF0 [HF [Hg HD]]]]].
    destruct (IH Hs1 (fun e => a e + w * ((F e - gold) / s) ^ 2) (fun j => ga j + 2 * w * (v0 - gold) * g j / (s * s))) with (v := v)
      as [G [gg [HG0 [HG [Hgg HDG]]]]].
    + rewrite (rdot_ext n _ (fun j => 1 * ga j + (2 * w * (v0 - gold) / (s * s)) * g j)) by (intros; field; exact Hs0).
      rewrite rdot_lin.
      replace (1 * rdot n ga d + 2 * w * (v0 - gold) / (s * s) * rdot n g d)
        with (rdot n ga d + 2 * w * (v0 - gold) / (s * s) * rdot n g d) by ring.
      apply (is_derive_plus (V := R_NormedModule) a (fun e => w * ((F e - gold) / s) ^ 2)); [exact Ha|].
      auto_derive.
      * exists (rdot n g d). exact HD.
      * change (Derive (fun x => F x) 0) with (Derive F 0). rewrite (is_derive_unique F 0 _ HD), HF0. field. exact Hs0.
    + cbn. rewrite HF0. exact Hv.
    + exists G, gg. split; [exact HG0|]. split; [|split; [|exact HDG]].
      * generalize (filter_and _ _ HF HG). apply filter_imp. intros e [E1 E2]. cbn [lval]. rewrite E1. exact E2.
      * cbn [lgrad]. rewrite Ev. cbn [rbind]. rewrite Hg. exact Hgg.
Qed.

Lemma div_gradient (V1 V2 : R -> res R) (G1 G2 : res rvec) :
  is_gradient n V1 G1 d -> is_gradient n V2 G2 d ->
  is_gradient n (fun e => let! a := V1 e in let! b := V2 e in if Req_EM_T b 0 then Throw else Ok (a / b))
    (let! vn := V1 0 in let! vd := V2 0 in let! gn := G1 in let! gd := G2 in
     if Req_EM_T vd 0 then UB else Ok (fun j => (gn j * vd - gd j * vn) / vd ^ 2)) d.
Proof.
  intros H1 H2 v Hv.
  destruct (V1 0) as [v1| |] eqn:E1; cbn [rbind] in *; try discriminate.
  destruct (V2 0) as [v2| |] eqn:E2; cbn [rbind] in *; try discriminate.
  destruct (Req_EM_T v2 0) as [|Hnz] eqn:Ez; try discriminate. injection Hv as <-.
  destruct (H1 v1 E1) as [F1 [g1 [F10 [L1 [-> D1]]]]]. destruct (H2 v2 E2) as [F2 [g2 [F20 [L2 [-> D2]]]]].
  exists (fun e => F1 e / F2 e), (fun j => (g1 j * v2 - g2 j * v1) / v2 ^ 2).
  split; [rewrite F10, F20; reflexivity|]. split; [|split].
  - assert (Hc : locally 0 (fun e => F2 e <> 0)).
    { assert (Cont : continuous F2 0) by (apply (ex_derive_continuous F2); exists (rdot n g2 d); exact D2).
      apply (Cont (fun y => y <> 0)). rewrite F20. apply (open_neq 0). exact Hnz. }
    generalize (filter_and _ _ L1 (filter_and _ _ L2 Hc)). apply filter_imp. intros e [-> [-> Hne]]. cbn [rbind].
    destruct (Req_EM_T (F2 e) 0); [contradiction|reflexivity].
  - reflexivity.
  - rewrite (rdot_ext n _ (fun j => (/ v2) * g1 j + (- v1 / v2 ^ 2) * g2 j)) by (intros; field; exact Hnz).
    rewrite rdot_lin.
    auto_derive.
    + repeat split; [exists (rdot n g1 d); exact D1|exists (rdot n g2 d); exact D2|rewrite F20; exact Hnz].
    + change (Derive (fun x => F1 x) 0) with (Derive F1 0). change (Derive (fun x => F2 x) 0) with (Derive F2 0).
      rewrite (is_derive_unique F1 0 _ D1), (is_derive_unique F2 0 _ D2), F10, F20. field. exact Hnz.
Qed.
End Compose.

Lemma scales_wsum l : scales_ok (WSum l) -> Forall (fun x => scales_ok (snd x)) l.
Proof. simpl. induction l as [|x l IH]; constructor; [apply H|apply IH, H]. Qed.
Lemma scales_lsq l : scales_ok (LSq l) -> Forall (fun x => scales_ok (snd x)) l /\ Forall (fun x : R * R * R * crit => snd (fst x) <> 0) l.
Proof. simpl. induction l as [|x l IH]; intros H; [split; constructor|]. destruct H as [[Ha Hb] H]. destruct (IH H). split; constructor; auto. Qed.

Lemma Forall_3 {A} (P Q W : A -> Prop) (l : list A) : Forall (fun x => P x -> Q x -> W x) l -> Forall P l -> Forall Q l -> Forall W l.
Proof. induction 1; intros HP HQ; constructor; inversion HP; inversion HQ; subst; auto. Qed.
Lemma leaves_forall {A} (g : A -> crit) (P : sfun -> Prop) (l : list A) :
  (forall f, In f (flat_map (fun x => leaves (g x)) l) -> P f) -> Forall (fun x => forall f, In f (leaves (g x)) -> P f) l.
Proof.
  intros H. apply Forall_forall. intros x Hx f Hf. apply H. apply in_flat_map. exists x. split; assumption.
Qed.

(** The gradient of a composite criterion is that of its value, if those of its leaves are. *)
Theorem cgradient_correct (n : nat) (d : rvec) (line : R -> inputs) (t : R) (leaf : sfun -> inputs -> R -> rvec) c :
  scales_ok c ->
  (forall f, In f (leaves c) -> has_gradient n (fun e => sf_value f (line e) t) (leaf f (line 0) t) d) ->
  is_gradient n (fun e => cvalue c (line e) t) (cgradient leaf c (line 0) t) d.
Proof.
  induction c using crit_nested_ind; intros Hs Hl.
  - intros v Hv. exists (fun e => sf_value f (line e) t), (leaf f (line 0) t).
    split; [injection Hv as <-; reflexivity|]. split; [apply filter_forall; reflexivity|]. split; [reflexivity|].
    apply Hl. left. reflexivity.
  - rewrite cgradient_wsum.
    apply (wsum_gradient n d line t (fun c => cgradient leaf c (line 0) t) l) with (a := fun _ => 0).
    + eapply (Forall_3 _ _ _ l); [|exact (scales_wsum l Hs)|exact (leaves_forall snd _ l Hl)].
      eapply Forall_impl; [|exact H]. cbn beta. intros x Hx H1 H2. exact (Hx H1 H2).
    + rewrite rdot_0. apply (is_derive_const (V := R_NormedModule)).
  - apply (div_gradient n d (fun e => cvalue c1 (line e) t) (fun e => cvalue c2 (line e) t)).
    + apply IHc1; [apply Hs|]. intros f Hf. apply Hl. apply in_or_app. left. exact Hf.
    + apply IHc2; [apply Hs|]. intros f Hf. apply Hl. apply in_or_app. right. exact Hf.
  - rewrite cgradient_lsq. destruct (scales_lsq l Hs) as [Hs1 Hs2].
    apply (lsq_gradient n d line t (fun c => cgradient leaf c (line 0) t) l) with (a := fun _ => 0).
    + eapply (Forall_3 _ _ _ l); [|exact Hs1|exact (leaves_forall snd _ l Hl)].
      eapply Forall_impl; [|exact H]. cbn beta. intros x Hx H1 H2. exact (Hx H1 H2).
    + exact Hs2.
    + rewrite rdot_0. apply (is_derive_const (V := R_NormedModule)).
Qed.

Lemma step_of_time_0 : step_of_time 0 = 0%nat.
Proof. unfold step_of_time. change 0 with (INR 0). rewrite Int_part_INR. reflexivity. Qed.

Lemma wgrad_ext g1 g2 l : Forall (fun x => g1 (snd x) = g2 (snd x)) l -> forall a, wgrad g1 a l = wgrad g2 a l.
Proof.
  induction 1 as [|[w c] l H Hl IH]; intros a; [reflexivity|]. cbn [wgrad]. cbn [snd] in H. rewrite H.
  destruct (g2 c); cbn [rbind]; auto.
Qed.
Lemma lgrad_ext v g1 g2 l : Forall (fun x => g1 (snd x) = g2 (snd x)) l -> forall a, lgrad v g1 a l = lgrad v g2 a l.
Proof.
  induction 1 as [|[[[w gold] s] c] l H Hl IH]; intros a; [reflexivity|]. cbn [lgrad]. cbn [snd] in H. rewrite H.
  destruct (v c); cbn [rbind]; auto. destruct (g2 c); cbn [rbind]; auto.
Qed.
(** At step 0 and with time step 0 the state gradient is composed like the others. *)
Lemma cgradient_u_0 c i : cgradient_u c i 0 0 = cgradient (fun f i t => sf_gradient_u f i 0 t) c i 0.
Proof.
  induction c using crit_nested_ind.
  - reflexivity.
  - rewrite cgradient_u_wsum, cgradient_wsum, step_of_time_0. apply wgrad_ext. exact H.
  - cbn [cgradient_u cgradient]. rewrite step_of_time_0, IHc1, IHc2. reflexivity.
  - rewrite cgradient_u_lsq, cgradient_lsq, step_of_time_0. apply lgrad_ext. exact H.
Qed.

(** ** Values *)
Lemma wval_ok vof l vs : Forall2 (fun x v => vof (snd x) = Ok v) l vs -> forall a,
  wval vof a l = Ok (a + rsum_list (map (fun x => fst (fst x) * snd x) (combine l vs))).
Proof.
  induction 1 as [|[w c] v l vs H Hl IH]; intros a.
  - cbn. f_equal. ring.
  - cbn [wval]. cbn [snd] in H. rewrite H. cbn [rbind]. rewrite IH. f_equal. cbn. unfold rsum_list. ring.
Qed.
Lemma lval_ok vof l vs : Forall2 (fun x v => vof (snd x) = Ok v) l vs -> forall a,
  lval vof a l = Ok (a + rsum_list (map (fun x => fst (fst (fst (fst x))) * ((snd x - snd (fst (fst (fst x)))) / snd (fst (fst x))) ^ 2) (combine l vs))).
Proof.
  induction 1 as [|[[[w g] s] c] v l vs H Hl IH]; intros a.
  - cbn. f_equal. ring.
  - cbn [lval]. cbn [snd] in H. rewrite H. cbn [rbind]. rewrite IH. f_equal. cbn [combine map fst snd]. unfold rsum_list.
    cbn [lsum]. change (@radd R_ring) with Rplus. ring.
Qed.

Lemma lsq_normalization_pos g : 0 < lsq_normalization g.
Proof. unfold lsq_normalization. destruct (Rgt_dec _ _); lra. Qed.
Lemma lsq_user_normalization_pos g : 0 < lsq_user_normalization g.
Proof. unfold lsq_user_normalization. destruct (Rgt_dec _ _); lra. Qed.

(** ** Physics functions *)
Section Physics.
Context {S P : Type}.
Implicit Types (f : physics_function S P) (h : nat -> S) (p : P).

Lemma rsum_list_app l1 l2 : rsum_list (l1 ++ l2) = rsum_list l1 + rsum_list l2.
Proof. apply (lsum_app (K := R_ring)). Qed.
Lemma rsum_list_cons x l : rsum_list (x :: l) = x + rsum_list l.
Proof. reflexivity. Qed.
Lemma cells_sum_list n g : cells_sum n g = rsum_list (map g (seq 0 n)).
Proof. symmetry. apply (lsum_map_seq (K := R_ring)). Qed.

Lemma steps_fold (g : nat -> R) steps : forall a, fold_left (fun acc k => acc + g k) steps a = a + rsum_list (map g steps).
Proof.
  induction steps as [|k steps IH]; intros a; cbn [fold_left map].
  - unfold rsum_list. cbn. ring.
  - rewrite IH. unfold rsum_list. cbn [lsum]. change (@radd R_ring) with Rplus. ring.
Qed.
Lemma rsum_flat {A} (g : A -> list R) l : rsum_list (flat_map g l) = rsum_list (map (fun x => rsum_list (g x)) l).
Proof. induction l as [|x l IH]; [reflexivity|]. cbn [flat_map map]. rewrite rsum_list_app, IH. reflexivity. Qed.

Lemma value_total steps f h p t : physics_value steps f h p t = pe_value (ph_post f) (total steps f h p t).
Proof.
  unfold physics_value, total. f_equal. rewrite rsum_flat.
  assert (G : forall l a, fold_left (fun acc d => fold_left (fun acc k => acc + cells_sum (de_cells d) (de_value d (h k) p t)) steps acc) l a
     = a + rsum_list (map (fun d => rsum_list (flat_map (fun k => map (de_value d (h k) p t) (seq 0 (de_cells d))) steps)) l)).
  { induction l as [|d l IH]; intros a; cbn [fold_left map].
    - unfold rsum_list. cbn. ring.
    - rewrite IH, (steps_fold (fun k => cells_sum (de_cells d) (de_value d (h k) p t))), rsum_list_cons, rsum_flat.
      rewrite (map_ext (fun k => cells_sum (de_cells d) (de_value d (h k) p t)) (fun k => rsum_list (map (de_value d (h k) p t) (seq 0 (de_cells d)))))
        by (intros; apply cells_sum_list). ring. }
  rewrite G. ring.
Qed.

(** The accumulated pair. *)
Lemma accumulate_eq sel steps f h p t :
  fst (accumulate sel steps f h p t) = total steps f h p t /\
  forall j, snd (accumulate sel steps f h p t) j =
    rsum_list (flat_map (fun d => flat_map (fun k => map (fun c => sel d (h k) p t c j) (seq 0 (de_cells d))) steps) (ph_domains f)).
Proof.
  unfold accumulate, total.
  assert (G1 : forall d steps (a : R * rvec), let r := fold_left (fun (acc : R * rvec) k =>
      (fst acc + cells_sum (de_cells d) (de_value d (h k) p t), fun j => snd acc j + cells_sum (de_cells d) (fun c => sel d (h k) p t c j))) steps a in
      fst r = fst a + rsum_list (flat_map (fun k => map (de_value d (h k) p t) (seq 0 (de_cells d))) steps) /\
      forall j, snd r j = snd a j + rsum_list (flat_map (fun k => map (fun c => sel d (h k) p t c j) (seq 0 (de_cells d))) steps)).
  { intros d st. induction st as [|k st IH]; intros a; cbn [fold_left flat_map].
    - cbv zeta. unfold rsum_list. cbn. split; [ring|intros; ring].
    - cbv zeta. destruct (IH (fst a + cells_sum (de_cells d) (de_value d (h k) p t),
         fun j => snd a j + cells_sum (de_cells d) (fun c => sel d (h k) p t c j))) as [E1 E2]. cbv zeta in E1, E2.
      rewrite E1. split.
      + rewrite rsum_list_app. cbn [fst]. rewrite cells_sum_list. ring.
      + intros j. rewrite E2, rsum_list_app. cbn [snd]. rewrite cells_sum_list. ring. }
  assert (G2 : forall l (a : R * rvec), let r := fold_left (fun acc d => fold_left (fun (acc : R * rvec) k =>
      (fst acc + cells_sum (de_cells d) (de_value d (h k) p t), fun j => snd acc j + cells_sum (de_cells d) (fun c => sel d (h k) p t c j))) steps acc) l a in
      fst r = fst a + rsum_list (flat_map (fun d => flat_map (fun k => map (de_value d (h k) p t) (seq 0 (de_cells d))) steps) l) /\
      forall j, snd r j = snd a j + rsum_list (flat_map (fun d => flat_map (fun k => map (fun c => sel d (h k) p t c j) (seq 0 (de_cells d))) steps) l)).
  { induction l as [|d l IH]; intros a; cbn [fold_left flat_map].
    - cbv zeta. unfold rsum_list. cbn. split; [ring|intros; ring].
    - cbv zeta. destruct (G1 d steps a) as [E1 E2]. cbv zeta in E1, E2.
      destruct (IH (fold_left (fun (acc : R * rvec) k =>
        (fst acc + cells_sum (de_cells d) (de_value d (h k) p t), fun j => snd acc j + cells_sum (de_cells d) (fun c => sel d (h k) p t c j))) steps a)) as [F1 F2].
      cbv zeta in F1, F2. rewrite F1, E1. split; [rewrite rsum_list_app; ring|]. intros j. rewrite F2, E2, rsum_list_app. ring. }
  destruct (G2 (ph_domains f) (0, fun _ => 0)) as [E1 E2]. cbv zeta in E1, E2. split.
  - rewrite E1. cbn [fst]. ring.
  - intros j. rewrite E2. cbn [snd]. ring.
Qed.
End Physics.

(** Derivative of a sum over a list. *)
Lemma derive_rsum_list {A} (F : A -> R -> R) (D : A -> R) (l : list A) (x : R) :
  (forall a, In a l -> is_derive (F a) x (D a)) -> is_derive (fun e => rsum_list (map (fun a => F a e) l)) x (rsum_list (map D l)).
Proof.
  intros H. induction l as [|a l IH].
  - change (is_derive (fun _ : R => 0) x 0). apply (is_derive_const (V := R_NormedModule)).
  - cbn [map]. apply (is_derive_plus (V := R_NormedModule) (F a) (fun e => rsum_list (map (fun a => F a e) l))).
    + apply H. left. reflexivity.
    + apply IH. intros b Hb. apply H. right. exact Hb.
Qed.
Lemma rdot_rsum_list {A} n (G : A -> rvec) (l : list A) (d : rvec) :
  rdot n (fun j => rsum_list (map (fun a => G a j) l)) d = rsum_list (map (fun a => rdot n (G a) d) l).
Proof.
  induction l as [|a l IH].
  - cbn [map]. apply rdot_0.
  - cbn [map]. transitivity (rdot n (fun j => 1 * G a j + 1 * rsum_list (map (fun a => G a j) l)) d).
    + apply rdot_ext. intros j. rewrite rsum_list_cons. ring.
    + rewrite rdot_lin, IH, rsum_list_cons. ring.
Qed.

(** The total along a line, and its gradient. *)
Lemma total_gradient {S P} (steps : list nat) (f : physics_function S P) (hl : R -> nat -> S) (pl : R -> P) (t : R) (n : nat) (d : rvec)
    (G : domain_eval S P -> nat -> nat -> rvec) :
  (forall de k c, In de (ph_domains f) -> In k steps -> (c < de_cells de)%nat ->
     is_derive (fun e => de_value de (hl e k) (pl e) t c) 0 (rdot n (G de k c) d)) ->
  is_derive (fun e => total steps f (hl e) (pl e) t) 0
    (rdot n (fun j => rsum_list (flat_map (fun de => flat_map (fun k => map (fun c => G de k c j) (seq 0 (de_cells de))) steps) (ph_domains f))) d).
Proof.
  intros H. unfold total.
  set (idx := flat_map (fun de => flat_map (fun k => map (fun c => (de, k, c)) (seq 0 (de_cells de))) steps) (ph_domains f)).
  assert (E : forall W : domain_eval S P -> nat -> nat -> R,
    flat_map (fun de => flat_map (fun k => map (fun c => W de k c) (seq 0 (de_cells de))) steps) (ph_domains f) =
    map (fun x => W (fst (fst x)) (snd (fst x)) (snd x)) idx).
  { clear H. intros W. unfold idx. clear idx. induction (ph_domains f) as [|de l IH]; [reflexivity|]. cbn [flat_map]. rewrite map_app, <- IH. apply (f_equal2 (@app _)); [|reflexivity].
    clear. induction steps as [|k st IH]; [reflexivity|]. cbn [flat_map]. rewrite map_app, map_map. cbn [fst snd]. apply (f_equal2 (@app _)); [reflexivity|exact IH]. }
  apply (is_derive_ext (fun e => rsum_list (map (fun x => de_value (fst (fst x)) (hl e (snd (fst x))) (pl e) t (snd x)) idx))).
  { intros e. symmetry. apply (f_equal rsum_list). exact (E (fun de k c => de_value de (hl e k) (pl e) t c)). }
  rewrite (rdot_ext n _ (fun j => rsum_list (map (fun x => G (fst (fst x)) (snd (fst x)) (snd x) j) idx))).
  2: { intros j. rewrite (E (fun de k c => G de k c j)). reflexivity. }
  rewrite (rdot_rsum_list n (fun x => G (fst (fst x)) (snd (fst x)) (snd x)) idx d).
  apply (derive_rsum_list (fun x e => de_value (fst (fst x)) (hl e (snd (fst x))) (pl e) t (snd x))).
  intros [[de k] c] Hin. unfold idx in Hin. apply in_flat_map in Hin. destruct Hin as [de' [H1 Hin]].
  apply in_flat_map in Hin. destruct Hin as [k' [H2 Hin]]. apply in_map_iff in Hin. destruct Hin as [c' [Ec H3]].
  injection Ec as <- <- <-. apply in_seq in H3. cbn [fst snd]. apply H; [exact H1|exact H2|lia].
Qed.

Lemma down_seq n : down n = rev (seq 1 n).
Proof.
  induction n as [|n IH]; [reflexivity|]. cbn [down]. rewrite IH, seq_S, rev_app_distr. reflexivity.
Qed.
