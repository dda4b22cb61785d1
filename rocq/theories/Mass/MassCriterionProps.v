(** C119: the mass properties criterion. *)
From Coq Require Import String Reals List Arith Bool Lia Lra Permutation FunctionalExtensionality.
From Verif Require Import Base.Field Base.Sums Base.Res Base.Loops Element.ElementModel Element.ElementSpec Element.ElementProof Penalty.PenaltyModel
  Residual.ResidualModel Residual.ResidualSpec Residual.ResidualProof Criteria.CriteriaModel Criteria.CriteriaSpec Criteria.CriteriaProof Criteria.CriteriaProps
  Mass.MassModel Mass.MassSpec Mass.MassProof Mass.CriterionProof.
Import ListNotations.
Local Open Scope R_scope.
Local Open Scope string_scope.

(** ** Where the input is read *)
(** The geometric criterion: under 'Criteria', and densities under 'Material Models', 1 when a material gives none. *)
Theorem C119_geometric_input :
  forall p q f models own material name,
    (subs p "Criteria" = Some q -> subs q name = Some f -> function_list Geometric p name = f) /\
    (subs p "Material Models" = Some models -> subs models material = Some own ->
       (forall r, vals own "Density" = Some (VReal r) -> density Geometric p material = Ok r) /\
       (vals own "Density" = None -> density Geometric p material = Ok 1%R)) /\
    (subs p "Material Models" = None -> forall v, density v p material = Throw) /\
    (* a domain whose material has no entry is not refused: it has no mass *)
    (subs p "Material Models" = Some models -> subs models material = None -> forall v, density v p material = Ok 0%R).
Proof.
  intros p q f models own material name. split; [|split; [|split]].
  - intros H1 H2. unfold function_list, sub. rewrite H1, H2. reflexivity.
  - intros H1 H2. unfold density. rewrite H1, H2. unfold real_default. split; [intros r ->; reflexivity|intros ->; reflexivity].
  - intros H v. unfold density. rewrite H. reflexivity.
  - intros H1 H2 v. unfold density. rewrite H1, H2. reflexivity.
Qed.
Print Assumptions C119_geometric_input.

(** The elliptic criterion has its material's density: not as read.  Whatever the density of the material, 1 is used, unless the problem
    has a list with the name of the material beside 'Material Models'. *)
Theorem C119_elliptic_density_partial :
  forall p models own material, subs p "Material Models" = Some models -> subs models material = Some own -> subs p material = None ->
    density Elliptic p material = Ok 1%R.
Proof. intros p models own material H1 H2 H3. unfold density, sub. rewrite H1, H2, H3. reflexivity. Qed.
Print Assumptions C119_elliptic_density_partial.
Definition one_sub (n : string) (q : plist) : plist := PList (fun _ => None) (fun m => if String.eqb m n then Some q else None).
Definition one_val (n : string) (x : value) : plist := PList (fun m => if String.eqb m n then Some x else None) (fun _ => None).
Theorem C119_elliptic_density_refuted :
  ~ (forall p models own material r, subs p "Material Models" = Some models -> subs models material = Some own -> vals own "Density" = Some (VReal r) ->
       density Elliptic p material = Ok r).
Proof.
  intros H. specialize (H (one_sub "Material Models" (one_sub "steel" (one_val "Density" (VReal 7850)))) _ _ "steel" 7850%R eq_refl eq_refl eq_refl).
  cbn in H. injection H as H. lra.
Qed.
Print Assumptions C119_elliptic_density_refuted.

(** The wanted inertia about the wanted centre of gravity, from the wanted values by name. *)
Definition gold_centre (g : string -> R) (a : nat) : R := g (nth a ["CGx"; "CGy"; "CGz"] "").
Definition gold_inertia (g : string -> R) (a b : nat) : R :=
  (g (nth b (nth a [["Ixx"; "Ixy"; "Ixz"]; ["Ixy"; "Iyy"; "Iyz"]; ["Ixz"; "Iyz"; "Izz"]] []) "") - g "Mass" * parallel_axis_tensor (gold_centre g) a b)%R.

Lemma f2c {A B} (P : A -> B -> Prop) a b l l' : Forall2 P (a :: l) (b :: l') <-> P a b /\ Forall2 P l l'.
Proof. split; [intros H; inversion H; split; assumption|intros [H1 H2]; constructor; assumption]. Qed.
Section Criterion.
Variables (gx gz : moment -> inputs -> R -> rvec) (gu : moment -> inputs -> nat -> R -> rvec).
Variable (eig : (nat -> nat -> R) -> (nat -> nat -> R) * (nat -> R)).
Variables (nn : nat) (X0 : nat -> nat -> R).
Notation make := (mass_properties gx gz gu eig nn X0).

(** A criterion described where every other criterion is, under 'Criteria' only, is refused by the elliptic version. *)
Theorem C119_elliptic_criteria_refuted :
  forall p name cells, subs p name = None -> (forall c, In c cells -> exists r, density Elliptic p (c_mat c) = Ok r) -> make Elliptic 3 p name cells = Throw.
Proof.
  intros p name cells H Hd. unfold mass_properties.
  assert (E : exists dense, mapR (fun c => let! r := density Elliptic p (c_mat c) in Ok (mkCell (c_node c) r)) cells = Ok dense).
  { clear H. induction cells as [|c cells IH]; [eexists; reflexivity|]. cbn [mapR]. destruct (Hd c (or_introl eq_refl)) as [r ->]. cbn [rbind].
    destruct (IH (fun c' H' => Hd c' (or_intror H'))) as [dense ->]. eexists. reflexivity. }
  destruct E as [dense ->]. cbn [rbind]. unfold function_list, sub. rewrite H. reflexivity.
Qed.

(** ** The description of a criterion: names, weights and gold values as read, and the densities *)
Definition described (v : variant) (p : plist) (name : string) (cells : list (cell string)) (names : list string) (ws gs : list R) (rho : string -> R) : Prop :=
  vals (function_list v p name) "Properties" = Some (VStrings names) /\ vals (function_list v p name) "Weights" = Some (VReals ws) /\
  vals (function_list v p name) "Gold Values" = Some (VReals gs) /\ forall c, In c cells -> density v p (c_mat c) = Ok (rho (c_mat c)).
Definition the_body (cells : list (cell string)) (rho : string -> R) (i : inputs) : body :=
  design_body 3 (fun n j => in_config i (n * 3 + j)%nat) (in_control i) (map (fun c => (c_node c, rho (c_mat c))) cells).

Lemma make_eq v p name cells names ws gs rho : described v p name cells names ws gs rho ->
  let dense := map (fun c => mkCell (c_node c) (rho (c_mat c))) cells in let l := combine (combine names ws) gs in
  make v 3 p name cells =
    (if Nat.eqb (length names) (length ws) then if Nat.eqb (length names) (length gs) then
       let! all := all_specified names in if all then Ok (all_properties gx gz gu eig nn X0 dense l) else itemized gx gz gu nn X0 dense l
     else Throw else Throw) /\ forall i, body_at dense i = the_body cells rho i.
Proof.
  intros (H1 & H2 & H3 & H4) dense l. split.
  - unfold mass_properties. rewrite (mapR_ok _ (fun c => mkCell (c_node c) (rho (c_mat c)))) by (intros c Hc; rewrite (H4 c Hc); reflexivity). cbn [rbind].
    unfold need_strings, need_reals. rewrite H1, H2, H3. cbn [rbind]. reflexivity.
  - intros i. unfold body_at, the_body, cells_of, dense. rewrite map_map. reflexivity.
Qed.

(** Lists of different lengths, a name given twice and an unknown name are errors. *)
Theorem C119_rejects :
  forall v p name cells names ws gs rho, described v p name cells names ws gs rho ->
    length names <> length ws \/ length names <> length gs \/ ~ NoDup names \/ (exists n, In n names /\ ~ In n property_names) ->
    make v 3 p name cells = Throw.
Proof.
  intros v p name cells names ws gs rho Hd H. destruct (make_eq v p name cells names ws gs rho Hd) as [-> _].
  destruct (Nat.eqb_spec (length names) (length ws)) as [E1|E1]; [|reflexivity]. destruct (Nat.eqb_spec (length names) (length gs)) as [E2|E2]; [|reflexivity].
  destruct H as [H|[H|[H|H]]]; [contradiction|contradiction| |].
  - unfold all_specified. destruct (distinct names) eqn:E; [|reflexivity]. apply distinct_nodup in E. contradiction.
  - destruct H as (n & Hn & Hk). unfold all_specified. destruct (distinct names); [|reflexivity]. destruct (Nat.eqb (length names) 10).
    + destruct (forallb _ names) eqn:E; [|reflexivity]. exfalso. apply Hk. apply (proj1 (known_names names) E). exact Hn.
    + cbn [rbind]. rewrite <- (names_combine names ws gs E1 E2) in Hn. apply in_map_iff in Hn. destruct Hn as (x & Ex & Hx).
      apply (itemized_throw gx gz gu nn X0 _ _ x Hx). rewrite Ex. exact Hk.
Qed.

Definition gold (l : list (string * R * R)) (n : string) : R := snd (entry_of l n).
Definition at_gold (b : body) (l : list (string * R * R)) : Prop :=
  mass_of b = gold l "Mass" /\ (forall a, (a < 3)%nat -> centre_of b a = gold_cg l a) /\
  forall a c, (a < 3)%nat -> (c < 3)%nat -> inertia_of b a c = gold l (inertia_name a c).
Lemma inertia_sym b a c : inertia_of b a c = inertia_of b c a.
Proof. unfold inertia_of. rewrite (Nat.eqb_sym c a). destruct (Nat.eqb_spec a c) as [->|H]; [reflexivity|]. f_equal. apply sum_over_ext. intros. ring. Qed.
Lemma at_gold_names b l : at_gold b l <-> forall n, In n property_names -> property_value b n = Some (gold l n).
Proof.
  split.
  - intros (H1 & H2 & H3) n Hn. cbn [In property_names] in Hn. unfold gold_cg in H2.
    destruct Hn as [<-|[<-|[<-|[<-|[<-|[<-|[<-|[<-|[<-|[<-|[]]]]]]]]]]]; cbn [property_value String.eqb Ascii.eqb Bool.eqb]; f_equal.
    + exact H1.
    + apply (H2 0%nat); lia.
    + apply (H2 1%nat); lia.
    + apply (H2 2%nat); lia.
    + apply (H3 0%nat 0%nat); lia.
    + apply (H3 1%nat 1%nat); lia.
    + apply (H3 2%nat 2%nat); lia.
    + apply (H3 0%nat 1%nat); lia.
    + apply (H3 0%nat 2%nat); lia.
    + apply (H3 1%nat 2%nat); lia.
  - intros H. assert (G : forall n x, In n property_names -> property_value b n = Some x -> x = gold l n) by (intros n x Hn Hx; rewrite (H n Hn) in Hx; injection Hx as E; symmetry; exact E).
    split; [|split].
    + apply G; [cbn; tauto|reflexivity].
    + intros a Ha. unfold gold_cg. destruct a as [|[|[|a]]]; [..|lia]; apply G; solve [cbn; tauto|reflexivity].
    + intros a c Ha Hc. destruct a as [|[|[|a]]]; [..|lia]; (destruct c as [|[|[|c]]]; [..|lia]); cbn [inertia_name];
        first [apply G; solve [cbn; tauto|reflexivity]|rewrite inertia_sym; apply G; solve [cbn; tauto|reflexivity]].
Qed.

(** The values of the ten parts. *)
Definition rotated (b : body) (l : list (string * R * R)) (a c : nat) : R :=
  rotate (fst (eig (gold_about_cg l))) (fun a c => inertia_of b a c - mass_of b * parallel_axis_tensor (gold_cg l) a c) a c.
Definition ten_values (b : body) (l : list (string * R * R)) : list R :=
  [mass_of b; centre_of b 0; centre_of b 1; centre_of b 2; rotated b l 0 0; rotated b l 1 1; rotated b l 2 2; rotated b l 0 1; rotated b l 0 2; rotated b l 1 2].
Lemma rotated_value dense l ax i t :
  cvalue (rotated_inertia (fun a b => moment_crit gx gz gu dense (Second a b)) (moment_crit gx gz gu dense Mass) (fst (eig (gold_about_cg l))) (gold_cg l) ax) i t =
  Ok (rotated (body_at dense i) l (fst (axes_index ax)) (snd (axes_index ax))).
Proof.
  rewrite (C26_rotated_inertia _ _ _ _ i t (second_of (body_at dense i)) (mass_of (body_at dense i))).
  - f_equal. unfold rotated, rotate. apply rsum_ext. intros k Hk. apply rsum_ext. intros m Hm. rewrite (inertia_second _ k m Hk Hm). reflexivity.
  - intros a b Hab. rewrite mc_value. reflexivity.
  - intros. apply second_sym.
  - rewrite mc_value. reflexivity.
Qed.
Lemma all_parts dense l i t : mass_of (body_at dense i) <> 0 -> exists parts,
  all_properties gx gz gu eig nn X0 dense l = LSq parts /\
  Forall2 (fun x v => cvalue (snd x) i t = Ok v) parts (ten_values (body_at dense i) l) /\
  map (fun x => fst (fst x)) parts = combine (map (fun n => fst (entry_of l n)) property_names)
    (gold l "Mass" :: map (gold_cg l) [0; 1; 2]%nat ++ map (snd (eig (gold_about_cg l))) [0; 1; 2]%nat ++ [0; 0; 0])%R /\
  map (fun x => snd (fst x)) parts = (lsq_normalization (gold l "Mass") :: map (fun a => lsq_user_normalization (extent nn X0 a)) [0; 1; 2]%nat ++
    map (fun a => lsq_normalization (snd (eig (gold_about_cg l)) a)) [0; 1; 2]%nat ++
    (let m := Rmin (snd (eig (gold_about_cg l)) 0%nat) (Rmin (snd (eig (gold_about_cg l)) 1%nat) (snd (eig (gold_about_cg l)) 2%nat)) in
     [lsq_user_normalization m; lsq_user_normalization m; lsq_user_normalization m]))%list.
Proof.
  intros Hm. unfold all_properties, all_mass_properties. cbv zeta. eexists. split; [reflexivity|]. split; [|split; reflexivity].
  assert (RD : forall a, cvalue (CriteriaModel.Div (moment_crit gx gz gu dense (First a)) (moment_crit gx gz gu dense Mass)) i t = Ok (centre_of (body_at dense i) a)).
  { intros a. rewrite ratio_value. destruct (Req_EM_T _ 0); [contradiction|reflexivity]. }
  unfold ten_values. repeat (constructor; [cbn [snd]; first [apply RD|apply (rotated_value dense l)|rewrite mc_value; reflexivity]|]). constructor.
Qed.
Lemma all_zero b l parts : diagonalizes (gold_about_cg l) (fst (eig (gold_about_cg l))) (snd (eig (gold_about_cg l))) ->
  map (fun x : R * R * R * crit => fst (fst x)) parts = combine (map (fun n => fst (entry_of l n)) property_names)
    (gold l "Mass" :: map (gold_cg l) [0; 1; 2]%nat ++ map (snd (eig (gold_about_cg l))) [0; 1; 2]%nat ++ [0; 0; 0])%R ->
  (Forall2 (fun x v => v = snd (fst (fst x))) parts (ten_values b l) <-> at_gold b l).
Proof.
  intros He Hp.
  destruct He as (O1 & O2 & Di). set (Q := fst (eig (gold_about_cg l))) in *. set (lam := snd (eig (gold_about_cg l))) in *.
  assert (F : Forall2 (fun x v => v = snd (fst (fst x))) parts (ten_values b l) <->
    Forall2 (fun g v => v = g) (map snd (map (fun x : R * R * R * crit => fst (fst x)) parts)) (ten_values b l)).
  { generalize (ten_values b l). clear. intros vs. revert vs. induction parts as [|x parts IH]; intros vs.
    - split; intros H; inversion H; constructor.
    - split; intros H; inversion H; subst; constructor; cbn [fst snd] in *; try reflexivity; try (apply IH; assumption). }
  rewrite F, Hp. cbn [map combine property_names app snd].
  assert (PA : forall a c, (a < 3)%nat -> (c < 3)%nat -> gold_about_cg l a c = (gold l (inertia_name a c) - gold l "Mass" * parallel_axis_tensor (gold_cg l) a c)%R).
  { intros a c _ _. unfold gold_about_cg, gold, parallel_axis, parallel_axis_tensor. rsums. destruct (Nat.eqb a c); ring. }
  unfold ten_values. rewrite !f2c.
  assert (RG : at_gold b l <-> mass_of b = gold l "Mass" /\ (forall a, (a < 3)%nat -> centre_of b a = gold_cg l a) /\
     forall a c, (a < 3)%nat -> (c < 3)%nat -> rotated b l a c = if Nat.eqb a c then lam a else 0%R).
  { assert (RE : forall a c, (a < 3)%nat -> (c < 3)%nat -> rotate Q (gold_about_cg l) a c = if Nat.eqb a c then lam a else 0%R) by (intros; apply Di; assumption).
    split; intros (H1 & H2 & H3); (split; [exact H1|]); (split; [exact H2|]); intros a c Ha Hc.
    - rewrite <- RE by assumption. unfold rotated, rotate. fold Q. apply rsum_ext. intros k Hk. apply rsum_ext. intros m Hm. rewrite (PA k m Hk Hm), (H3 k m Hk Hm), H1. reflexivity.
    - assert (E : (inertia_of b a c - mass_of b * parallel_axis_tensor (gold_cg l) a c)%R = gold_about_cg l a c).
      { apply (rotation_inverse Q (fun a c => inertia_of b a c - mass_of b * parallel_axis_tensor (gold_cg l) a c)%R (gold_about_cg l) O2); [|exact Ha|exact Hc].
        intros i j Hi Hj. rewrite RE by assumption. apply H3; assumption. }
      rewrite (PA a c Ha Hc), H1 in E. lra. }
  rewrite RG. clear RG F Hp.
  assert (RS : forall a c, rotated b l a c = rotated b l c a).
  { intros a c. unfold rotated. apply rotate_sym. intros i j Hi Hj. rewrite (inertia_sym b i j). unfold parallel_axis_tensor. rewrite (Nat.eqb_sym j i). ring. }
  split.
  - intros (E0 & E1 & E2 & E3 & E4 & E5 & E6 & E7 & E8 & E9 & _). split; [exact E0|]. split.
    + intros a Ha. destruct a as [|[|[|a]]]; [assumption..|lia].
    + intros a c Ha Hc. destruct a as [|[|[|a]]]; [..|lia]; (destruct c as [|[|[|c]]]; [..|lia]); cbn [Nat.eqb]; solve [assumption|rewrite RS; assumption].
  - intros (H1 & H2 & H3). split; [exact H1|]. do 3 (split; [apply H2; lia|]). split; [exact (H3 0 0 ltac:(lia) ltac:(lia))%nat|]. split; [exact (H3 1 1 ltac:(lia) ltac:(lia))%nat|]. split; [exact (H3 2 2 ltac:(lia) ltac:(lia))%nat|]. split; [exact (H3 0 1 ltac:(lia) ltac:(lia))%nat|]. split; [exact (H3 0 2 ltac:(lia) ltac:(lia))%nat|]. split; [exact (H3 1 2 ltac:(lia) ltac:(lia))%nat|]. constructor.
Qed.

Lemma all_ten names : NoDup names -> length names = 10%nat -> (forall n, In n names -> In n property_names) -> forall n, In n property_names -> In n names.
Proof. intros H1 H2 H3. apply NoDup_length_incl; [exact H1|cbn; lia|exact H3]. Qed.

Lemma listing_gold names ws gs w g : length names = length ws -> length names = length gs -> NoDup names -> (forall n, In n names -> In n property_names) -> length names = 10%nat ->
  (forall k, (k < 10)%nat -> w (nth k names "") = nth k ws 0%R /\ g (nth k names "") = nth k gs 0%R) ->
  let l := combine (combine names ws) gs in
  (forall n, In n property_names -> entry_of l n = (w n, g n)) /\ (forall a, (a < 3)%nat -> gold_cg l a = gold_centre g a) /\
  forall a c, (a < 3)%nat -> (c < 3)%nat -> gold_about_cg l a c = gold_inertia g a c.
Proof.
  intros L1 L2 Hn Hk E10 Hwg l. pose proof (names_combine names ws gs L1 L2) as Nm. fold l in Nm.
  assert (En : forall n, In n property_names -> entry_of l n = (w n, g n)).
  { intros n Hin. apply (all_ten names Hn E10 Hk) in Hin. destruct (In_nth names n "" Hin) as (k & Hk' & <-). destruct (Hwg k ltac:(lia)) as [-> ->].
    apply entry_in; [rewrite Nm; exact Hn|]. rewrite <- (nth_combine names ws gs k "" 0%R 0%R L1 L2). apply nth_In. rewrite <- (map_length (fun x => fst (fst x))). fold l. rewrite Nm. exact Hk'. }
  assert (Cg : forall a, (a < 3)%nat -> gold_cg l a = gold_centre g a).
  { intros a Ha. unfold gold_cg, gold_centre. destruct a as [|[|[|a]]]; [..|lia]; rewrite En by (cbn; tauto); reflexivity. }
  split; [exact En|]. split; [exact Cg|]. intros a c Ha Hc. unfold gold_about_cg, gold_inertia. rewrite (En "Mass") by (cbn; tauto). cbn [snd].
  assert (P : parallel_axis (gold_cg l) a c = parallel_axis_tensor (gold_centre g) a c).
  { unfold parallel_axis, parallel_axis_tensor. rewrite !Cg by (assumption || lia). rsums. destruct (Nat.eqb a c); ring. }
  rewrite P. f_equal. destruct a as [|[|[|a]]]; [..|lia]; (destruct c as [|[|[|c]]]; [..|lia]); cbn [inertia_name nth]; rewrite En by (cbn; tauto); reflexivity.
Qed.

(** The criterion is defined, is never negative, and is zero exactly for the designs that have all the wanted values. *)
Theorem C119_gold :
  forall v p name cells names ws gs rho g, described v p name cells names ws gs rho ->
    length names = length ws -> length names = length gs -> NoDup names -> (forall n, In n names -> In n property_names) ->
    (forall k, (k < length names)%nat -> g (nth k names "") = nth k gs 0%R) ->
    (* the eigenvalue routine diagonalises the wanted inertia, used when all ten properties are given *)
    (length names = 10%nat -> forall A, (forall a b, (a < 3)%nat -> (b < 3)%nat -> A a b = gold_inertia g a b) -> diagonalizes A (fst (eig A)) (snd (eig A))) ->
    (forall w, In w ws -> 0 < w)%R ->
    exists c, make v 3 p name cells = Ok c /\
      forall i t, mass_of (the_body cells rho i) <> 0%R ->
        exists x, cvalue c i t = Ok x /\ (0 <= x)%R /\
          (x = 0%R <-> forall k, (k < length names)%nat -> property_value (the_body cells rho i) (nth k names "") = Some (nth k gs 0%R)).
Proof.
  intros v p name cells names ws gs rho gf Hd L1 L2 Hn Hk Hg He Hw. destruct (make_eq v p name cells names ws gs rho Hd) as [-> HB].
  set (dense := map (fun c => mkCell (c_node c) (rho (c_mat c))) cells) in *. set (l := combine (combine names ws) gs).
  rewrite (proj2 (Nat.eqb_eq _ _) L1), (proj2 (Nat.eqb_eq _ _) L2).
  pose proof (names_combine names ws gs L1 L2) as Nm. fold l in Nm.
  assert (LL : length l = length names) by (rewrite <- Nm, map_length; reflexivity).
  assert (Wl : forall x, In x l -> (0 < snd (fst x))%R).
  { intros [[n w] g] Hx. unfold l in Hx. apply in_combine_l, in_combine_r in Hx. cbn. apply Hw. exact Hx. }
  assert (Kl : forall x, In x l -> In (fst (fst x)) property_names).
  { intros x Hx. apply Hk. rewrite <- Nm. apply in_map_iff. exists x. split; [reflexivity|exact Hx]. }
  assert (Eq : forall b, (forall k, (k < length names)%nat -> property_value b (nth k names "") = Some (nth k gs 0%R)) <-> forall x, In x l -> property_value b (fst (fst x)) = Some (snd x)).
  { intros b. split.
    - intros H x Hx. destruct (In_nth l x ("", 0%R, 0%R) Hx) as (k & Hk' & <-). unfold l in *. rewrite (nth_combine names ws gs k "" 0%R 0%R L1 L2). cbn [fst snd]. apply H. lia.
    - intros H k Hk'. specialize (H (nth k l ("", 0%R, 0%R)) ltac:(apply nth_In; lia)). unfold l in H. rewrite (nth_combine names ws gs k "" 0%R 0%R L1 L2) in H. exact H. }
  unfold all_specified. rewrite (proj2 (distinct_nodup names) Hn). destruct (Nat.eqb_spec (length names) 10) as [E10|E10].
  - rewrite (proj2 (known_names names) Hk). cbn [rbind]. eexists. split; [reflexivity|]. intros i t Hm. rewrite <- HB in Hm |- *.
    destruct (all_parts dense l i t Hm) as (parts & -> & F & G & Sc). rewrite cvalue_lsq.
    pose proof (all_ten names Hn E10 Hk) as Ten.
    assert (Hdi : diagonalizes (gold_about_cg l) (fst (eig (gold_about_cg l))) (snd (eig (gold_about_cg l)))).
    { apply (He E10). set (wt := fun n => fst (entry_of l n)). apply (listing_gold names ws gs wt gf L1 L2 Hn Hk E10). intros k Hk'. split; [|apply Hg; lia].
      unfold wt. rewrite (entry_in l (nth k names "") (nth k ws 0%R) (nth k gs 0%R)); [reflexivity|rewrite Nm; exact Hn|].
      rewrite <- (nth_combine names ws gs k "" 0%R 0%R L1 L2). apply nth_In. fold l. lia. }
    assert (W : forall n, In n property_names -> (0 < fst (entry_of l n))%R).
    { intros n Hin. apply Ten in Hin. rewrite <- Nm in Hin. apply in_map_iff in Hin. destruct Hin as ([[n' w] g] & E & Hx). cbn [fst] in E. subst n'.
      rewrite (entry_in l n w g); [|rewrite Nm; exact Hn|exact Hx]. cbn [fst]. apply (Wl _ Hx). }
    destruct (lval_zero (fun c => cvalue c i t) parts _ F) as (r & Hr & Pr & Zr).
    { apply Forall_forall. intros x Hx. split.
      - pose proof (in_map (fun x => fst (fst (fst x))) parts x Hx) as I. cbv beta in I. rewrite <- (map_map (fun x => fst (fst x)) fst), G in I. apply in_map_iff in I.
        destruct I as ([w g] & E & I). apply in_combine_l in I. apply in_map_iff in I. destruct I as (n & E' & I). rewrite <- E. cbn [fst]. rewrite <- E'. apply W. exact I.
      - pose proof (in_map (fun x => snd (fst x)) parts x Hx) as I. cbv beta in I. rewrite Sc in I. cbn [map app In] in I. cbv zeta in I.
        assert (P1 : forall y, lsq_normalization y <> 0%R) by (intros y; pose proof (lsq_normalization_pos y); lra).
        assert (P2 : forall y, lsq_user_normalization y <> 0%R) by (intros y; pose proof (lsq_user_normalization_pos y); lra).
        repeat (destruct I as [I|I]; [rewrite <- I; first [apply P1|apply P2]|]). destruct I. }
    exists r. rewrite Hr, Rplus_0_l. split; [reflexivity|]. split; [exact Pr|]. rewrite Zr, (all_zero _ _ _ Hdi G), Eq, at_gold_names. split.
    + intros H x Hx. rewrite (H _ (Kl x Hx)). f_equal. destruct x as [[n w] g]. unfold gold. cbn [fst snd]. rewrite (entry_in l n w g); [reflexivity|rewrite Nm; exact Hn|exact Hx].
    + intros H n Hin. apply Ten in Hin. rewrite <- Nm in Hin. apply in_map_iff in Hin. destruct Hin as ([[n' w] g] & E & Hx). cbn [fst] in E. subst n'.
      pose proof (H _ Hx) as E'. cbn [fst snd] in E'. rewrite E'. unfold gold. rewrite (entry_in l n w g); [reflexivity|rewrite Nm; exact Hn|exact Hx].
  - cbn [rbind]. rewrite (itemized_ok gx gz gu nn X0 dense l Kl). eexists. split; [reflexivity|]. intros i t Hm. rewrite <- HB in Hm |- *. rewrite cvalue_lsq.
    assert (F : Forall2 (fun x v => cvalue (snd x) i t = Ok v) (items gx gz gu nn X0 dense l) (map (fun x => pvalue (body_at dense i) (kind (fst (fst x)))) l)).
    { unfold items. clear - Hm. induction l as [|x l IH]; cbn [map]; constructor; [|exact IH]. rewrite item_value. destruct (is_cg _); [|reflexivity].
      destruct (Req_EM_T _ 0); [contradiction|reflexivity]. }
    destruct (lval_zero (fun c => cvalue c i t) _ _ F) as (r & Hr & Pr & Zr).
    { apply Forall_forall. intros y Hy. apply in_map_iff in Hy. destruct Hy as (x & <- & Hx). destruct (item_parts gx gz gu nn X0 dense (kind (fst (fst x))) (snd (fst x)) (snd x)) as (E1 & _ & E3).
      split; [rewrite E1; apply (Wl x Hx)|lra]. }
    exists r. rewrite Hr, Rplus_0_l. split; [reflexivity|]. split; [exact Pr|]. rewrite Zr, Eq. clear - Kl. unfold items. induction l as [|x l IH]; cbn [map].
    + split; [intros _ x []|intros; constructor].
    + rewrite f2c. rewrite (IH (fun y Hy => Kl y (or_intror Hy))). destruct (item_parts gx gz gu nn X0 dense (kind (fst (fst x))) (snd (fst x)) (snd x)) as (E1 & _ & _).
      rewrite E1. cbn [snd].
      assert (PV : property_value (body_at dense i) (fst (fst x)) = Some (pvalue (body_at dense i) (kind (fst (fst x))))).
      { rewrite property_named_value. destruct (proj2 (property_named_in _) (Kl x (or_introl eq_refl))) as [pr E]. unfold kind. rewrite E. reflexivity. }
      split.
      * intros [H1 H2] y [<-|Hy]; [rewrite PV, H1; reflexivity|apply H2; exact Hy].
      * intros H. split; [|intros y Hy; apply H; right; exact Hy]. specialize (H x (or_introl eq_refl)). rewrite PV in H. injection H as H. exact H.
Qed.

Definition the_value (b : body) (n : string) : R := match property_value b n with Some x => x | None => 0%R end.
Lemma kind_scale dense n w g : (0 < nn)%nat -> In n property_names -> forall e, (forall a, (a < 3)%nat -> extent_of nn X0 a (e a)) ->
  snd (fst (item gx gz gu nn X0 dense (kind n) w g)) = property_scale e n g.
Proof.
  intros H0 Hn e He. destruct (item_parts gx gz gu nn X0 dense (kind n) w g) as (_ & -> & _).
  assert (U : forall a, (a < 3)%nat -> lsq_user_normalization (extent nn X0 a) = Rmax (e a) (1 / 10)).
  { intros a Ha. destruct (extent_unique nn X0 a (e a) H0 (He a Ha)) as [E P]. rewrite E. apply user_normalization_max. exact P. }
  cbn [In property_names] in Hn. destruct Hn as [<-|[<-|[<-|[<-|[<-|[<-|[<-|[<-|[<-|[<-|[]]]]]]]]]]]; cbn [kind property_named property_scale String.eqb Ascii.eqb Bool.eqb];
    first [apply normalization_scale|apply U; lia].
Qed.

(** The value when not all ten properties are given: the weighted squares of the differences in units of their scales. *)
Theorem C119_itemized_value :
  forall v p name cells names ws gs rho e, described v p name cells names ws gs rho ->
    length names = length ws -> length names = length gs -> NoDup names -> (forall n, In n names -> In n property_names) -> length names <> 10%nat ->
    (0 < nn)%nat -> (forall a, (a < 3)%nat -> extent_of nn X0 a (e a)) ->
    exists c, make v 3 p name cells = Ok c /\
      forall i t, mass_of (the_body cells rho i) <> 0%R ->
        cvalue c i t = Ok (sum_over (combine (combine names ws) gs) (fun x =>
          snd (fst x) * ((the_value (the_body cells rho i) (fst (fst x)) - snd x) / property_scale e (fst (fst x)) (snd x)) ^ 2))%R.
Proof.
  intros v p name cells names ws gs rho e Hd L1 L2 Hn Hk E10 H0 He. destruct (make_eq v p name cells names ws gs rho Hd) as [-> HB].
  set (dense := map (fun c => mkCell (c_node c) (rho (c_mat c))) cells) in *. set (l := combine (combine names ws) gs).
  rewrite (proj2 (Nat.eqb_eq _ _) L1), (proj2 (Nat.eqb_eq _ _) L2).
  pose proof (names_combine names ws gs L1 L2) as Nm. fold l in Nm.
  assert (Kl : forall x, In x l -> In (fst (fst x)) property_names) by (intros x Hx; apply Hk; rewrite <- Nm; apply in_map_iff; exists x; split; [reflexivity|exact Hx]).
  unfold all_specified. rewrite (proj2 (distinct_nodup names) Hn). destruct (Nat.eqb_spec (length names) 10) as [E|_]; [contradiction|]. cbn [rbind].
  rewrite (itemized_ok gx gz gu nn X0 dense l Kl). eexists. split; [reflexivity|]. intros i t Hm. rewrite <- HB in Hm |- *. rewrite cvalue_lsq.
  match goal with |- _ = Ok ?s => enough (K : forall a, lval (fun c => cvalue c i t) a (items gx gz gu nn X0 dense l) = Ok (a + s)%R) by (rewrite K; f_equal; ring) end.
  clearbody l. clear Nm. revert Kl. unfold items. induction l as [|x l IH]; intros Kl a; [cbn; f_equal; ring|]. cbn [map sum_over].
  pose proof (item_value gx gz gu nn X0 dense (kind (fst (fst x))) (snd (fst x)) (snd x) i t) as V.
  destruct (item_parts gx gz gu nn X0 dense (kind (fst (fst x))) (snd (fst x)) (snd x)) as (E1 & _ & _).
  pose proof (kind_scale dense (fst (fst x)) (snd (fst x)) (snd x) H0 (Kl x (or_introl eq_refl)) e He) as E2.
  destruct (item gx gz gu nn X0 dense (kind (fst (fst x))) (snd (fst x)) (snd x)) as [[wg s] c]. cbn [fst snd] in *. subst wg s. cbn [lval]. rewrite V.
  assert (PV : the_value (body_at dense i) (fst (fst x)) = pvalue (body_at dense i) (kind (fst (fst x)))).
  { unfold the_value. rewrite property_named_value. destruct (proj2 (property_named_in _) (Kl x (or_introl eq_refl))) as [pr E]. unfold kind. rewrite E. reflexivity. }
  rewrite <- PV. assert (RR : (if is_cg (kind (fst (fst x))) then if Req_EM_T (mass_of (body_at dense i)) 0 then Throw else Ok (the_value (body_at dense i) (fst (fst x)))
    else Ok (the_value (body_at dense i) (fst (fst x)))) = Ok (the_value (body_at dense i) (fst (fst x)))).
  { destruct (is_cg _); [|reflexivity]. destruct (Req_EM_T _ 0); [contradiction|reflexivity]. }
  rewrite RR. cbn [rbind]. rewrite (IH (fun y Hy => Kl y (or_intror Hy))). f_equal. ring.
Qed.

(** The value when all ten are given: mass and centre of gravity as above; for the inertia, the tensor about the wanted centre of gravity,
    turned to the principal axes Q of the wanted tensor, against the principal values. *)
Theorem C119_all_value :
  forall v p name cells names ws gs rho e w g, described v p name cells names ws gs rho ->
    length names = length ws -> length names = length gs -> NoDup names -> (forall n, In n names -> In n property_names) -> length names = 10%nat ->
    (0 < nn)%nat -> (forall a, (a < 3)%nat -> extent_of nn X0 a (e a)) ->
    (* the weight and the wanted value of every name *)
    (forall k, (k < 10)%nat -> w (nth k names "") = nth k ws 0%R /\ g (nth k names "") = nth k gs 0%R) ->
    (forall A A', (forall a b, (a < 3)%nat -> (b < 3)%nat -> A a b = A' a b) -> eig A = eig A') ->
    let Q := fst (eig (gold_inertia g)) in let lam := snd (eig (gold_inertia g)) in let small := Rmax (Rabs (Rmin (lam 0%nat) (Rmin (lam 1%nat) (lam 2%nat)))) (1 / 10) in
    exists c, make v 3 p name cells = Ok c /\
      forall i t, let b := the_body cells rho i in mass_of b <> 0%R ->
        let J := rotate Q (fun a c => inertia_of b a c - mass_of b * parallel_axis_tensor (gold_centre g) a c)%R in
        cvalue c i t = Ok (w "Mass" * ((mass_of b - g "Mass") / value_scale (g "Mass")) ^ 2
          + w "CGx" * ((centre_of b 0 - g "CGx") / Rmax (e 0%nat) (1 / 10)) ^ 2
          + w "CGy" * ((centre_of b 1 - g "CGy") / Rmax (e 1%nat) (1 / 10)) ^ 2
          + w "CGz" * ((centre_of b 2 - g "CGz") / Rmax (e 2%nat) (1 / 10)) ^ 2
          + w "Ixx" * ((J 0%nat 0%nat - lam 0%nat) / value_scale (lam 0%nat)) ^ 2
          + w "Iyy" * ((J 1%nat 1%nat - lam 1%nat) / value_scale (lam 1%nat)) ^ 2
          + w "Izz" * ((J 2%nat 2%nat - lam 2%nat) / value_scale (lam 2%nat)) ^ 2
          + w "Ixy" * (J 0%nat 1%nat / small) ^ 2 + w "Ixz" * (J 0%nat 2%nat / small) ^ 2 + w "Iyz" * (J 1%nat 2%nat / small) ^ 2)%R.
Proof.
  intros v p name cells names ws gs rho e w g Hd L1 L2 Hn Hk E10 H0 He Hwg Hext Q lam small. destruct (make_eq v p name cells names ws gs rho Hd) as [Em HB].
  set (dense := map (fun c => mkCell (c_node c) (rho (c_mat c))) cells) in *. set (l := combine (combine names ws) gs).
  fold l in Em. rewrite (proj2 (Nat.eqb_eq _ _) L1), (proj2 (Nat.eqb_eq _ _) L2) in Em.
  pose proof (names_combine names ws gs L1 L2) as Nm. fold l in Nm.
  unfold all_specified in Em. rewrite (proj2 (distinct_nodup names) Hn), E10, Nat.eqb_refl, (proj2 (known_names names) Hk) in Em. cbn [rbind] in Em.
  eexists. split; [exact Em|]. intros i t b Hm J. subst b. rewrite <- HB in Hm. 
  destruct (listing_gold names ws gs w g L1 L2 Hn Hk E10 Hwg) as (En & Cg & Ga). fold l in En, Cg, Ga.
  assert (Eg : eig (gold_about_cg l) = eig (gold_inertia g)) by (apply Hext; exact Ga).
  destruct (all_parts dense l i t Hm) as (parts & -> & F & Gp & Sc). rewrite cvalue_lsq, (lval_ok _ _ _ F). f_equal.
  assert (Ro : forall a c, rotated (body_at dense i) l a c = J a c).
  { intros a c. unfold rotated, J. rewrite Eg, HB. fold Q. unfold rotate. apply rsum_ext. intros k Hk'. apply rsum_ext. intros m Hm'. f_equal. f_equal. f_equal. f_equal.
    unfold parallel_axis_tensor. rewrite !Cg by assumption. rsums. rewrite !Cg by lia. reflexivity. }
  assert (U : forall a, (a < 3)%nat -> lsq_user_normalization (extent nn X0 a) = Rmax (e a) (1 / 10)).
  { intros a Ha. destruct (extent_unique nn X0 a (e a) H0 (He a Ha)) as [E P]. rewrite E. apply user_normalization_max. exact P. }
  assert (Us : forall y, lsq_user_normalization y = Rmax (Rabs y) (1 / 10)).
  { intros y. rewrite <- user_normalization_max by apply Rabs_pos. unfold lsq_user_normalization. rewrite Rabs_Rabsolu. reflexivity. }
  rewrite Eg in Gp, Sc. fold lam in Gp, Sc. cbv zeta in Sc. rewrite (Us (Rmin _ _)) in Sc. fold small in Sc.
  unfold ten_values in *. rewrite !Ro in *. rewrite HB in *.
  destruct parts as [|[[[w0 g0] s0] c0] [|[[[w1 g1] s1] c1] [|[[[w2 g2] s2] c2] [|[[[w3 g3] s3] c3] [|[[[w4 g4] s4] c4] [|[[[w5 g5] s5] c5] [|[[[w6 g6] s6] c6] [|[[[w7 g7] s7] c7] [|[[[w8 g8] s8] c8] [|[[[w9 g9] s9] c9] [|]]]]]]]]]]];
    try discriminate Sc.
  cbn [map combine property_names app fst snd] in Gp, Sc. rewrite !En in Gp by (cbn; tauto). cbn [fst] in Gp. unfold gold in Gp, Sc. rewrite En in Gp, Sc by (cbn; tauto). cbn [snd] in Gp, Sc.
  rewrite !Cg in Gp by lia. rewrite !U in Sc by lia. rewrite !normalization_scale in Sc.
  injection Gp as -> -> -> -> -> -> -> -> -> -> -> -> -> -> -> -> -> -> -> ->. injection Sc as -> -> -> -> -> -> -> -> -> ->.
  unfold rsum_list. cbn [combine map fst snd lsum]. unfold gold_centre. cbn [nth]. change (@radd R_ring) with Rplus. change (@r0 R_ring) with 0%R. rewrite !Rminus_0_r. req. ring.
Qed.

(** The order of the list does not matter. *)
Theorem C119_order :
  forall v p p' name name' cells names ws gs names' ws' gs' rho,
    described v p name cells names ws gs rho -> described v p' name' cells names' ws' gs' rho ->
    length names = length ws -> length names = length gs -> length names' = length ws' -> length names' = length gs' ->
    NoDup names -> (forall n, In n names -> In n property_names) ->
    Permutation (combine (combine names ws) gs) (combine (combine names' ws') gs') ->
    exists c c', make v 3 p name cells = Ok c /\ make v 3 p' name' cells = Ok c' /\ forall i t, cvalue c i t = cvalue c' i t.
Proof.
  intros v p p' name name' cells names ws gs names' ws' gs' rho Hd Hd' L1 L2 L1' L2' Hn Hk HP.
  destruct (make_eq v p name cells names ws gs rho Hd) as [-> _]. destruct (make_eq v p' name' cells names' ws' gs' rho Hd') as [-> _].
  set (dense := map (fun c => mkCell (c_node c) (rho (c_mat c))) cells). 
  rewrite (proj2 (Nat.eqb_eq _ _) L1), (proj2 (Nat.eqb_eq _ _) L2). rewrite (proj2 (Nat.eqb_eq _ _) L1'), (proj2 (Nat.eqb_eq _ _) L2').
  pose proof (names_combine names ws gs L1 L2) as Nm. pose proof (names_combine names' ws' gs' L1' L2') as Nm'.
  set (l := combine (combine names ws) gs) in *. set (l' := combine (combine names' ws') gs') in *.
  assert (PN : Permutation names names') by (rewrite <- Nm, <- Nm'; apply Permutation_map; exact HP).
  assert (Hn' : NoDup names') by (apply (Permutation_NoDup PN Hn)).
  assert (Hk' : forall n, In n names' -> In n property_names) by (intros n Hi; apply Hk; apply (Permutation_in n (Permutation_sym PN) Hi)).
  unfold all_specified. rewrite (proj2 (distinct_nodup names) Hn), (proj2 (distinct_nodup names') Hn'). rewrite <- (Permutation_length PN).
  destruct (Nat.eqb (length names) 10).
  - rewrite (proj2 (known_names names) Hk), (proj2 (known_names names') Hk'). cbn [rbind]. eexists _, _. split; [reflexivity|]. split; [reflexivity|]. intros i t. f_equal.
    assert (E : forall n, entry_of l n = entry_of l' n) by (intros n; apply entry_perm; [exact HP|rewrite Nm; exact Hn]).
    assert (Ec : gold_cg l = gold_cg l') by (apply functional_extensionality; intros a; unfold gold_cg; rewrite E; reflexivity).
    assert (Ea : gold_about_cg l = gold_about_cg l') by (apply functional_extensionality; intros a; apply functional_extensionality; intros c; unfold gold_about_cg; rewrite Ec, !E; reflexivity).
    unfold all_properties. cbv zeta. rewrite Ea, Ec, (E "Mass"). f_equal. apply functional_extensionality. intros k. rewrite E. reflexivity.
  - cbn [rbind]. assert (Kl : forall l names, map (fun x : string * R * R => fst (fst x)) l = names -> (forall n, In n names -> In n property_names) -> forall x, In x l -> In (fst (fst x)) property_names).
    { clear. intros l names <- H x Hx. apply H, in_map_iff. exists x. split; [reflexivity|exact Hx]. }
    rewrite (itemized_ok gx gz gu nn X0 dense l (Kl _ _ Nm Hk)), (itemized_ok gx gz gu nn X0 dense l' (Kl _ _ Nm' Hk')).
    eexists _, _. split; [reflexivity|]. split; [reflexivity|]. intros i t. rewrite !cvalue_lsq. apply lval_perm; [unfold items; apply Permutation_map; exact HP|].
    intros y Hy. unfold items in Hy. apply in_map_iff in Hy. destruct Hy as (x & <- & Hx). rewrite item_value. destruct (is_cg _); [destruct (Req_EM_T _ 0)|]; discriminate.
Qed.

(** A design without mass has no centre of gravity: an error when one is wanted. *)
Theorem C119_no_mass :
  forall v p name cells names ws gs rho, described v p name cells names ws gs rho ->
    length names = length ws -> length names = length gs -> NoDup names -> (forall n, In n names -> In n property_names) ->
    In "CGx" names \/ In "CGy" names \/ In "CGz" names ->
    exists c, make v 3 p name cells = Ok c /\ forall i t, mass_of (the_body cells rho i) = 0%R -> cvalue c i t = Throw.
Proof.
  intros v p name cells names ws gs rho Hd L1 L2 Hn Hk Hc. destruct (make_eq v p name cells names ws gs rho Hd) as [-> HB].
  set (dense := map (fun c => mkCell (c_node c) (rho (c_mat c))) cells) in *. 
  rewrite (proj2 (Nat.eqb_eq _ _) L1), (proj2 (Nat.eqb_eq _ _) L2).
  pose proof (names_combine names ws gs L1 L2) as Nm. set (l := combine (combine names ws) gs) in *.
  assert (Kl : forall x, In x l -> In (fst (fst x)) property_names) by (intros x Hx; apply Hk; rewrite <- Nm; apply in_map_iff; exists x; split; [reflexivity|exact Hx]).
  unfold all_specified. rewrite (proj2 (distinct_nodup names) Hn). destruct (Nat.eqb (length names) 10).
  - rewrite (proj2 (known_names names) Hk). cbn [rbind]. eexists. split; [reflexivity|]. intros i t Hm. rewrite <- HB in Hm.
    unfold all_properties, all_mass_properties. cbv zeta. rewrite cvalue_lsq. cbn [lval]. rewrite mc_value. cbn [rbind]. rewrite ratio_value.
    destruct (Req_EM_T _ 0); [reflexivity|contradiction].
  - cbn [rbind]. rewrite (itemized_ok gx gz gu nn X0 dense l Kl). eexists. split; [reflexivity|]. intros i t Hm. rewrite <- HB in Hm. rewrite cvalue_lsq.
    assert (Ex : exists x, In x l /\ is_cg (kind (fst (fst x))) = true).
    { rewrite <- Nm in Hc. assert (Q : forall n, In n (map (fun x => fst (fst x)) l) -> is_cg (kind n) = true -> exists x, In x l /\ is_cg (kind (fst (fst x))) = true).
      { intros n Hi E. apply in_map_iff in Hi. destruct Hi as (x & <- & Hx). exists x. split; assumption. }
      destruct Hc as [Hc|[Hc|Hc]]; exact (Q _ Hc eq_refl). }
    destruct Ex as (x & Hx & Ex). apply (lval_throw _ _ (item gx gz gu nn X0 dense (kind (fst (fst x))) (snd (fst x)) (snd x))).
    + unfold items. apply in_map_iff. exists x. split; [reflexivity|exact Hx].
    + rewrite item_value, Ex. destruct (Req_EM_T _ 0); [reflexivity|contradiction].
    + intros y Hy. unfold items in Hy. apply in_map_iff in Hy. destruct Hy as (x' & <- & Hx'). rewrite item_value. destruct (is_cg (kind (fst (fst x')))); [destruct (Req_EM_T (mass_of (body_at dense i)) 0)|]; discriminate.
Qed.
End Criterion.
Print Assumptions C119_elliptic_criteria_refuted.
Print Assumptions C119_rejects.
Print Assumptions C119_gold.
Print Assumptions C119_itemized_value.
Print Assumptions C119_all_value.
Print Assumptions C119_order.
Print Assumptions C119_no_mass.

(** A steel design with all ten properties wanted, its input, and a routine that diagonalises the wanted inertia. *)
Definition ex_names : list string := ["Iyz"; "Mass"; "CGx"; "CGy"; "CGz"; "Ixx"; "Iyy"; "Izz"; "Ixy"; "Ixz"].
Definition ex_golds : list R := [-2; 2; 0; 0; 1; 6; 5; 3; 0; 0]%R.
Definition ex_ws : list R := [1; 2; 1; 1; 1; 1; 1; 1; 1; 3]%R.
Definition ex_gold (n : string) : R :=
  if String.eqb n "Iyz" then (-2)%R else if String.eqb n "Mass" then 2%R else if String.eqb n "CGz" then 1%R else if String.eqb n "Ixx" then 6%R
  else if String.eqb n "Iyy" then 5%R else if String.eqb n "Izz" then 3%R else 0%R.
Definition ex_list : plist := PList (fun m => if String.eqb m "Properties" then Some (VStrings ex_names) else if String.eqb m "Weights" then Some (VReals ex_ws)
  else if String.eqb m "Gold Values" then Some (VReals ex_golds) else None) (fun _ => None).
Definition ex_problem : plist := PList (fun _ => None) (fun m => if String.eqb m "Criteria" then Some (one_sub "mass" ex_list)
  else if String.eqb m "Material Models" then Some (one_sub "steel" (one_val "Density" (VReal 2))) else None).
Definition ex_cells : list (cell string) := [mkCell (fun a => a) "steel"].
(** Principal axes x, (y + z)/sqrt 2, (y - z)/sqrt 2 with values 4, 1, 5 of the inertia about (0, 0, 1). *)
Definition ex_eig (A : nat -> nat -> R) : (nat -> nat -> R) * (nat -> R) :=
  (fun i j => match i, j with 0%nat, 0%nat => 1 | 1%nat, 1%nat => / sqrt 2 | 1%nat, 2%nat => / sqrt 2 | 2%nat, 1%nat => / sqrt 2 | 2%nat, 2%nat => - / sqrt 2 | _, _ => 0 end,
   fun j => match j with 0%nat => 4 | 1%nat => 1 | _ => 5 end)%R.
Definition ex_input : inputs := mkIn (fun _ _ => 0%R) (fun _ => 1%R) (fun k => match k with 3%nat => 1 | 7%nat => 1 | 11%nat => 1 | _ => 0 end)%R.
Example C119_instance :
  described Geometric ex_problem "mass" ex_cells ex_names ex_ws ex_golds (fun _ => 2%R) /\ length ex_names = 10%nat /\ NoDup ex_names /\
  (forall n, In n ex_names -> In n property_names) /\ (forall k, (k < length ex_names)%nat -> ex_gold (nth k ex_names "") = nth k ex_golds 0%R) /\
  (forall A, (forall a b, (a < 3)%nat -> (b < 3)%nat -> A a b = gold_inertia ex_gold a b) -> diagonalizes A (fst (ex_eig A)) (snd (ex_eig A))) /\
  mass_of (the_body ex_cells (fun _ => 2%R) ex_input) = (1 / 3)%R.
Proof.
  split; [|split; [|split; [|split; [|split; [|split]]]]].
  - split; [reflexivity|]. split; [reflexivity|]. split; [reflexivity|]. intros c [<-|[]]. reflexivity.
  - reflexivity.
  - apply distinct_nodup. reflexivity.
  - apply known_names. reflexivity.
  - intros k Hk. do 10 (destruct k as [|k]; [reflexivity|]). cbn in Hk. lia.
  - intros A HA. assert (S2 : (/ sqrt 2 * / sqrt 2 = 1 / 2)%R).
    { rewrite <- Rinv_mult. rewrite sqrt_sqrt by lra. field. }
    unfold diagonalizes, orthonormal, ex_eig. cbn [fst snd]. split; [|split]; intros i j Hi Hj; unfold rs; rsums;
      rewrite ?HA by lia; unfold gold_inertia, parallel_axis_tensor, gold_centre; cbn [nth Nat.eqb]; rsums; cbn [nth];
      (destruct i as [|[|[|i]]]; [..|lia]); (destruct j as [|[|[|j]]]; [..|lia]); cbn [Nat.eqb];
      unfold ex_gold; cbn [String.eqb Ascii.eqb Bool.eqb]; req; nra.
  - unfold the_body, design_body, mass_of, ex_cells. cbn [map sum_over fst snd c_node c_mat]. unfold mean, simplex_measure, rs, ex_input. cbn [in_config in_control Nat.mul Nat.add]. rsums. cbn [INR].
    match goal with |- context [Rabs ?t] => replace t with 1%R by ring end. rewrite Rabs_R1. field.
Qed.
