(** Lemmas about the mass properties criterion. *)
From Coq Require Import String Reals List Arith Bool Lia Lra Permutation FunctionalExtensionality.
From Verif Require Import Base.Field Base.Sums Base.Res Base.Loops Element.ElementModel Element.ElementSpec Element.ElementProof Penalty.PenaltyModel
  Residual.ResidualModel Residual.ResidualSpec Residual.ResidualProof Criteria.CriteriaModel Criteria.CriteriaSpec Criteria.CriteriaProof Criteria.CriteriaProps
  Mass.MassModel Mass.MassSpec Mass.MassProof.
Import ListNotations.
Local Open Scope R_scope.

Definition body_at (dense : list (cell R)) (i : inputs) : body :=
  design_body 3 (fun n j => in_config i (n * 3 + j)%nat) (in_control i) (cells_of dense).
Definition pvalue (b : body) (pr : property) : R :=
  match pr with PMass => mass_of b | PCG i => centre_of b i | PI a => inertia_of b (fst (axes_index a)) (snd (axes_index a)) end.
Definition is_cg (pr : property) : bool := match pr with PCG _ => true | _ => false end.

Lemma property_named_value b s : property_value b s = option_map (pvalue b) (property_named s).
Proof.
  unfold property_value, property_named.
  repeat match goal with |- context [String.eqb s ?x] => destruct (String.eqb s x); [reflexivity|] end. reflexivity.
Qed.
Lemma property_named_in s : (exists pr, property_named s = Some pr) <-> In s property_names.
Proof.
  unfold property_names, property_named. split.
  - intros [pr H]. repeat match type of H with context [String.eqb s ?x] => let E := fresh in destruct (String.eqb_spec s x) as [E|E]; [rewrite E; cbn [In]; tauto|] end. discriminate.
  - intros H. cbn [In] in H. repeat (destruct H as [<-|H]; [eexists; cbn; reflexivity|]). destruct H.
Qed.
Lemma property_named_none s : ~ In s property_names -> property_named s = None.
Proof. intros H. destruct (property_named s) as [pr|] eqn:E; [|reflexivity]. exfalso. apply H, property_named_in. exists pr. exact E. Qed.

Section Crit.
Variables (gx gz : moment -> inputs -> R -> rvec) (gu : moment -> inputs -> nat -> R -> rvec).
Variable (eig : (nat -> nat -> R) -> (nat -> nat -> R) * (nat -> R)).
Variables (nn : nat) (X0 : nat -> nat -> R).
Notation mc := (moment_crit gx gz gu).

Lemma mc_value dense k i t : cvalue (mc dense k) i t = Ok (let b := body_at dense i in match k with Mass => mass_of b | First a => first_of b a | Second a c => second_of b a c end).
Proof. cbn [moment_crit cvalue sf_value]. f_equal. apply (moment_sum_spec 3 k). lia. Qed.
Lemma second_sym b i j : second_of b i j = second_of b j i.
Proof. unfold second_of. apply sum_over_ext. intros q _. ring. Qed.
Lemma inertia_second b i j : (i < 3)%nat -> (j < 3)%nat -> inertia_of b i j = inertia_tensor (second_of b) i j.
Proof.
  intros Hi Hj. unfold inertia_of, inertia_tensor. destruct (Nat.eqb_spec i j) as [->|Hn]; [|unfold second_of; ring].
  transitivity (sum_over b (fun q => (fst q * (snd q 0%nat * snd q 0%nat) + (fst q * (snd q 1%nat * snd q 1%nat) + fst q * (snd q 2%nat * snd q 2%nat))) + (-1) * (fst q * (snd q j * snd q j)))).
  - apply sum_over_ext. intros q _. unfold rs. rsums. ring.
  - rewrite sum_over_add, !sum_over_add, sum_over_scal. unfold second_of. ring.
Qed.
Lemma inertia_value dense a i t : cvalue (moment_of_inertia (fun a b => mc dense (Second a b)) a) i t = Ok (pvalue (body_at dense i) (PI a)).
Proof.
  destruct a; cbn [moment_of_inertia pvalue axes_index fst snd]; rewrite cvalue_wsum; cbn [wval]; rewrite !mc_value; cbn [rbind]; rewrite ?mc_value; cbn [rbind]; f_equal;
    rewrite inertia_second by lia; unfold inertia_tensor; cbn [Nat.eqb]; ring.
Qed.
Lemma ratio_value dense a i t : cvalue (CriteriaModel.Div (mc dense (First a)) (mc dense Mass)) i t =
  if Req_EM_T (mass_of (body_at dense i)) 0 then Throw else Ok (centre_of (body_at dense i) a).
Proof. change (cvalue (CriteriaModel.Div (mc dense (First a)) (mc dense Mass)) i t) with
  (let! vn := cvalue (mc dense (First a)) i t in let! vd := cvalue (mc dense Mass) i t in if Req_EM_T vd 0 then Throw else Ok (vn / vd)).
  rewrite !mc_value. cbn [rbind]. reflexivity. Qed.

Lemma lval_zero vof l vs : Forall2 (fun x v => vof (snd x) = Ok v) l vs -> List.Forall (fun x : R * R * R * crit => 0 < fst (fst (fst x)) /\ snd (fst x) <> 0) l ->
  exists r, (forall a, lval vof a l = Ok (a + r)) /\ 0 <= r /\ (r = 0 <-> Forall2 (fun x v => v = snd (fst (fst x))) l vs).
Proof.
  induction 1 as [|[[[w g] s] c] v l vs H Hl IH]; intros Hp.
  - exists 0. split; [intros a; cbn; f_equal; ring|]. split; [lra|]. split; [constructor|reflexivity].
  - inversion Hp as [|? ? [Hw Hs] Hp']; subst. cbn [fst snd] in *. destruct (IH Hp') as (r & Hr & Pr & Zr).
    exists (w * ((v - g) / s) ^ 2 + r). split; [|].
    + intros a. cbn [lval]. rewrite H. cbn [rbind]. rewrite Hr. f_equal. ring.
    + assert (Q : 0 <= w * ((v - g) / s) ^ 2) by (apply Rmult_le_pos; [lra|apply pow2_ge_0]). split; [lra|]. split.
      * intros E. constructor; [|apply Zr; lra]. cbn [fst snd]. assert (E' : w * ((v - g) / s) ^ 2 = 0) by lra.
        apply Rmult_integral in E'. destruct E' as [E'|E']; [lra|]. assert (E2 : (v - g) / s = 0).
        { destruct (Req_EM_T ((v - g) / s) 0) as [E2|E2]; [exact E2|]. exfalso. apply (pow_nonzero _ 2 E2). exact E'. }
        assert (v - g = (v - g) / s * s) by (field; exact Hs). rewrite E2 in H0. lra.
      * intros E. inversion E as [|? ? ? ? E1 E2]; subst. cbn [fst snd]. rewrite (proj2 Zr E2). unfold Rdiv. ring.
Qed.

(** ** Itemized *)
Definition kind (s : string) : property := match property_named s with Some pr => pr | None => PMass end.
Definition items (dense : list (cell R)) (l : list (string * R * R)) : list (R * R * R * crit) :=
  map (fun x => item gx gz gu nn X0 dense (kind (fst (fst x))) (snd (fst x)) (snd x)) l.
Lemma itemized_ok dense l : (forall x, In x l -> In (fst (fst x)) property_names) -> itemized gx gz gu nn X0 dense l = Ok (LSq (items dense l)).
Proof.
  intros H. unfold itemized. rewrite (mapR_ok _ (fun x => item gx gz gu nn X0 dense (kind (fst (fst x))) (snd (fst x)) (snd x))); [reflexivity|].
  intros x Hx. destruct (proj2 (property_named_in _) (H x Hx)) as [pr E]. unfold kind. rewrite E. reflexivity.
Qed.
Lemma itemized_throw dense l x : In x l -> ~ In (fst (fst x)) property_names -> itemized gx gz gu nn X0 dense l = Throw.
Proof.
  intros Hx Hn. unfold itemized. enough (E : forall (l : list (string * R * R)), In x l -> mapR (fun x => match property_named (fst (fst x)) with Some pr => Ok (item gx gz gu nn X0 dense pr (snd (fst x)) (snd x)) | None => Throw end) l = Throw)
    by (rewrite (E l Hx); reflexivity).
  clear l Hx. intros l. induction l as [|y l IH]; [intros []|]. intros [->|Hx]; cbn [mapR].
  - rewrite (property_named_none _ Hn). reflexivity.
  - destruct (property_named (fst (fst y))); cbn [rbind]; [|reflexivity]. rewrite (IH Hx). reflexivity.
Qed.
Lemma item_parts dense pr w g : fst (fst (item gx gz gu nn X0 dense pr w g)) = (w, g) /\
  snd (fst (item gx gz gu nn X0 dense pr w g)) = match pr with PCG a => lsq_user_normalization (extent nn X0 a) | _ => lsq_normalization g end /\
  0 < snd (fst (item gx gz gu nn X0 dense pr w g)).
Proof. destruct pr; cbn [item fst snd]; split; [reflexivity| |reflexivity| |reflexivity|]; (split; [reflexivity|]); first [apply lsq_normalization_pos|apply lsq_user_normalization_pos]. Qed.
Lemma item_value dense pr w g i t : cvalue (snd (item gx gz gu nn X0 dense pr w g)) i t =
  if is_cg pr then if Req_EM_T (mass_of (body_at dense i)) 0 then Throw else Ok (pvalue (body_at dense i) pr) else Ok (pvalue (body_at dense i) pr).
Proof. destruct pr; cbn [item snd is_cg pvalue]; [rewrite mc_value; reflexivity|apply ratio_value|apply inertia_value]. Qed.
End Crit.

(** ** Extent of the mesh *)
Lemma fold_max l x : In (fold_left Rmax l x) (x :: l) /\ forall y, In y (x :: l) -> y <= fold_left Rmax l x.
Proof.
  revert x. induction l as [|a l IH]; intros x; cbn [fold_left]; [split; [left; reflexivity|intros y [->|[]]; lra]|]. destruct (IH (Rmax x a)) as [H1 H2]. split.
  - destruct H1 as [H1|H1]; [|right; right; exact H1]. rewrite <- H1. unfold Rmax. destruct (Rle_dec x a); [right; left; reflexivity|left; reflexivity].
  - pose proof (H2 _ (or_introl eq_refl)) as B. pose proof (Rmax_l x a). pose proof (Rmax_r x a). intros y [<-|[<-|Hy]]; [lra|lra|apply H2; right; exact Hy].
Qed.
Lemma fold_min l x : In (fold_left Rmin l x) (x :: l) /\ forall y, In y (x :: l) -> fold_left Rmin l x <= y.
Proof.
  revert x. induction l as [|a l IH]; intros x; cbn [fold_left]; [split; [left; reflexivity|intros y [->|[]]; lra]|]. destruct (IH (Rmin x a)) as [H1 H2]. split.
  - destruct H1 as [H1|H1]; [|right; right; exact H1]. rewrite <- H1. unfold Rmin. destruct (Rle_dec x a); [left; reflexivity|right; left; reflexivity].
  - pose proof (H2 _ (or_introl eq_refl)) as B. pose proof (Rmin_l x a). pose proof (Rmin_r x a). intros y [<-|[<-|Hy]]; [lra|lra|apply H2; right; exact Hy].
Qed.
Lemma extent_spec nn X0 a : (0 < nn)%nat ->
  (exists n m, (n < nn)%nat /\ (m < nn)%nat /\ extent nn X0 a = X0 n a - X0 m a) /\ forall n m, (n < nn)%nat -> (m < nn)%nat -> X0 n a - X0 m a <= extent nn X0 a.
Proof.
  intros Hn. unfold extent. destruct nn as [|k]; [lia|]. cbn [seq map tl hd]. set (l := map (fun n => X0 n a) (seq 1 k)). set (x := X0 0%nat a).
  destruct (fold_max l x) as [M1 M2]. destruct (fold_min l x) as [N1 N2].
  assert (I : forall y, In y (x :: l) <-> exists n, (n < S k)%nat /\ X0 n a = y).
  { intros y. split.
    - intros [<-|H]; [exists 0%nat; split; [lia|reflexivity]|]. apply in_map_iff in H. destruct H as (n & E & H). apply in_seq in H. exists n. split; [lia|exact E].
    - intros (n & H & <-). destruct n as [|n]; [left; reflexivity|]. right. apply in_map_iff. exists (S n). split; [reflexivity|]. apply in_seq. lia. }
  assert (O : fold_left Rmin l x <= fold_left Rmax l x) by (apply N2, M1). rewrite Rabs_pos_eq by lra. split.
  - destruct (proj1 (I _) M1) as (n & H & E). destruct (proj1 (I _) N1) as (m & H' & E'). exists n, m. rewrite E, E'. split; [exact H|]. split; [exact H'|reflexivity].
  - intros n m H H'. pose proof (M2 _ (proj2 (I _) (ex_intro _ n (conj H eq_refl)))). pose proof (N2 _ (proj2 (I _) (ex_intro _ m (conj H' eq_refl)))). lra.
Qed.

(** ** Reading the lists *)
Lemma distinct_nodup l : distinct l = true <-> NoDup l.
Proof.
  induction l as [|x l IH]; [split; [constructor|reflexivity]|]. cbn [distinct]. rewrite andb_true_iff, negb_true_iff, IH. split.
  - intros [H1 H2]. constructor; [|exact H2]. intros Hx. enough (existsb (String.eqb x) l = true) by congruence. apply existsb_exists. exists x. split; [exact Hx|apply String.eqb_refl].
  - intros H. inversion H as [|? ? H1 H2]; subst. split; [|exact H2]. destruct (existsb (String.eqb x) l) eqn:E; [|reflexivity]. apply existsb_exists in E.
    destruct E as (y & Hy & Ey). apply String.eqb_eq in Ey. subst y. contradiction.
Qed.
Lemma known_names l : forallb (fun n => existsb (String.eqb n) property_names) l = true <-> forall n, In n l -> In n property_names.
Proof.
  rewrite forallb_forall. split; intros H n Hn; specialize (H n Hn).
  - apply existsb_exists in H. destruct H as (y & Hy & Ey). apply String.eqb_eq in Ey. subst y. exact Hy.
  - apply existsb_exists. exists n. split; [exact H|apply String.eqb_refl].
Qed.
Lemma names_combine {A B C} (names : list A) (ws : list B) (gs : list C) : length names = length ws -> length names = length gs ->
  map (fun x => fst (fst x)) (combine (combine names ws) gs) = names.
Proof.
  revert ws gs. induction names as [|n names IH]; intros [|w ws] [|g gs] H1 H2; try discriminate; [reflexivity|]. cbn. f_equal. apply IH; cbn in *; lia.
Qed.
Lemma nth_combine {A B C} (names : list A) (ws : list B) (gs : list C) k a b c : length names = length ws -> length names = length gs ->
  nth k (combine (combine names ws) gs) (a, b, c) = (nth k names a, nth k ws b, nth k gs c).
Proof. intros H1 H2. rewrite combine_nth by (rewrite combine_length; lia). rewrite combine_nth by exact H1. reflexivity. Qed.

(** ** All ten *)
Lemma entry_in l n w g : NoDup (map (fun x => fst (fst x)) l) -> In ((n, w), g) l -> entry_of l n = (w, g).
Proof.
  intros Hd Hi. unfold entry_of. induction l as [|[[n' w'] g'] l IH]; [destruct Hi|]. cbn [map] in Hd. inversion Hd as [|? ? H1 H2]; subst. cbn [find fst snd].
  destruct (String.eqb_spec n' n) as [->|Hne].
  - destruct Hi as [E|Hi]; [injection E as -> ->; reflexivity|]. exfalso. apply H1. apply in_map_iff. exists ((n, w), g). split; [reflexivity|exact Hi].
  - destruct Hi as [E|Hi]; [injection E as E _ _; contradiction|]. apply IH; assumption.
Qed.
Lemma rotation_inverse Q (A B : nat -> nat -> R) : orthonormal 3 (fun i j => Q j i) ->
  (forall i j, (i < 3)%nat -> (j < 3)%nat -> rotate Q A i j = rotate Q B i j) -> forall i j, (i < 3)%nat -> (j < 3)%nat -> A i j = B i j.
Proof.
  intros HQ H.
  assert (K : forall (C : nat -> nat -> R) i j, (i < 3)%nat -> (j < 3)%nat -> rsum 3 (fun a => rsum 3 (fun b => Q i a * rotate Q C a b * Q j b)) = C i j).
  { intros C i j Hi Hj. transitivity (rsum 3 (fun k => rsum 3 (fun l => rsum 3 (fun a => Q i a * Q k a) * C k l * rsum 3 (fun b => Q l b * Q j b)))).
    - unfold rotate. rsums. ring.
    - transitivity (rsum 3 (fun k => rsum 3 (fun l => (if Nat.eqb i k then 1 else 0) * C k l * (if Nat.eqb l j then 1 else 0)))).
      + apply rsum_ext. intros k Hk. apply rsum_ext. intros l Hl. f_equal; [f_equal|]; [exact (HQ i k Hi Hk)|exact (HQ l j Hl Hj)].
      + rsums. destruct i as [|[|[|i]]]; [..|lia]; (destruct j as [|[|[|j]]]; [..|lia]); cbn [Nat.eqb]; req; ring. }
  intros i j Hi Hj. rewrite <- (K A i j Hi Hj), <- (K B i j Hi Hj). apply rsum_ext. intros a Ha. apply rsum_ext. intros b Hb. rewrite H by assumption. reflexivity.
Qed.
Lemma rotate_sym Q A : (forall i j, (i < 3)%nat -> (j < 3)%nat -> A i j = A j i) -> forall i j, rotate Q A i j = rotate Q A j i.
Proof.
  intros H i j. unfold rotate. etransitivity; [apply rsum_swap|]. apply rsum_ext. intros k Hk. apply rsum_ext. intros l Hl. rewrite (H l k Hl Hk). req. ring.
Qed.

(** ** Sums of squares *)
Lemma lval_perm vof (l l' : list (R * R * R * crit)) : Permutation l l' -> (forall x, In x l -> vof (snd x) <> UB) -> forall a, lval vof a l = lval vof a l'.
Proof.
  induction 1 as [|[[[w g] s] c] l l' HP IH|[[[w g] s] c] [[[w' g'] s'] c'] l|l1 l2 l3 H1 IH1 H2 IH2]; intros Hn a.
  - reflexivity.
  - cbn [lval]. destruct (vof c); cbn [rbind]; [|reflexivity|reflexivity]. apply IH. intros x Hx. apply Hn. right. exact Hx.
  - cbn [lval]. pose proof (Hn _ (or_introl eq_refl)) as N1. pose proof (Hn _ (or_intror (or_introl eq_refl))) as N2. cbn [snd] in N1, N2.
    destruct (vof c); cbn [rbind]; destruct (vof c'); cbn [rbind]; try reflexivity; try contradiction. f_equal. ring.
  - rewrite IH1 by exact Hn. apply IH2. intros x Hx. apply Hn. apply (Permutation_in x (Permutation_sym H1) Hx).
Qed.
Lemma lval_throw vof (l : list (R * R * R * crit)) y : In y l -> vof (snd y) = Throw -> (forall x, In x l -> vof (snd x) <> UB) -> forall a, lval vof a l = Throw.
Proof.
  induction l as [|[[[w g] s] c] l IH]; [intros []|]. intros Hy Ht Hn a. cbn [lval]. destruct Hy as [<-|Hy].
  - cbn [snd] in Ht. rewrite Ht. reflexivity.
  - pose proof (Hn _ (or_introl eq_refl)) as N1. cbn [snd] in N1. destruct (vof c); cbn [rbind]; [|reflexivity|contradiction]. apply IH; [exact Hy|exact Ht|].
    intros x Hx. apply Hn. right. exact Hx.
Qed.
Lemma lval_sum vof (l : list (R * R * R * crit)) val : (forall x, In x l -> vof (snd x) = Ok (val x)) -> forall a,
  lval vof a l = Ok (a + sum_over l (fun x => fst (fst (fst x)) * ((val x - snd (fst (fst x))) / snd (fst x)) ^ 2)).
Proof.
  induction l as [|[[[w g] s] c] l IH]; intros H a; [cbn; f_equal; ring|]. cbn [lval]. pose proof (H _ (or_introl eq_refl)) as E. cbn [snd] in E. rewrite E. cbn [rbind].
  rewrite IH by (intros; apply H; right; assumption). f_equal. cbn [sum_over fst snd]. ring.
Qed.
Lemma entry_perm l l' n : Permutation l l' -> NoDup (map (fun x => fst (fst x)) l) -> entry_of l n = entry_of l' n.
Proof.
  intros HP Hn. assert (Hn' : NoDup (map (fun x => fst (fst x)) l')) by (apply (Permutation_NoDup (Permutation_map _ HP) Hn)).
  destruct (in_dec string_dec n (map (fun x => fst (fst x)) l)) as [Hi|Hi].
  - apply in_map_iff in Hi. destruct Hi as ([[n' w] g] & E & Hx). cbn [fst] in E. subst n'. rewrite (entry_in l n w g Hn Hx).
    rewrite (entry_in l' n w g Hn' (Permutation_in _ HP Hx)). reflexivity.
  - assert (N : forall l : list (string * R * R), ~ In n (map (fun x => fst (fst x)) l) -> entry_of l n = (0, 0)).
    { clear. intros l H. unfold entry_of. destruct (find _ l) as [x|] eqn:E; [|reflexivity]. apply find_some in E. destruct E as [E1 E2]. apply String.eqb_eq in E2.
      exfalso. apply H. apply in_map_iff. exists x. split; [exact E2|exact E1]. }
    rewrite (N l Hi). symmetry. apply N. intros Hi'. apply Hi. apply (Permutation_in n (Permutation_sym (Permutation_map _ HP)) Hi').
Qed.
Lemma normalization_scale g : lsq_normalization g = value_scale g.
Proof. unfold lsq_normalization, value_scale. destruct (Rgt_dec _ _), (Rle_dec _ _); lra. Qed.
Lemma user_normalization_max e : 0 <= e -> lsq_user_normalization e = Rmax e (1 / 10).
Proof. intros H. unfold lsq_user_normalization. rewrite (Rabs_pos_eq e H). unfold Rmax. destruct (Rgt_dec _ _), (Rle_dec _ _); lra. Qed.
Lemma extent_unique nn X a e : (0 < nn)%nat -> extent_of nn X a e -> extent nn X a = e /\ 0 <= e.
Proof.
  intros Hn [(n & m & H1 & H2 & E) B]. destruct (extent_spec nn X a Hn) as [(n' & m' & H1' & H2' & E') B'].
  pose proof (B n' m' H1' H2'). pose proof (B' n m H1 H2). pose proof (B 0%nat 0%nat Hn Hn). lra.
Qed.
