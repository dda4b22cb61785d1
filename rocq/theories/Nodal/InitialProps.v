(** C124: the initial state is the computed fields of the input, evaluated at the nodes. *)
From Coq Require Import String Reals List Arith Bool Lia Lra.
From Verif Require Import Base.Res Nodal.InitialModel.
Import ListNotations.
Local Open Scope R_scope.

(** ** Fields *)
Lemma fields_from (read : reader) (X : nat -> nat -> R) (es : entries) : forall cfs0 cfs : list computed_field, foldR (fun e cfs => match snd e with NotList => Throw | Sublist None => Throw
    | Sublist (Some f) => let! g := read f in Ok (cfs ++ [(fst e, fun p => g (X p))]) end) es cfs0 = Ok cfs ->
  exists more, cfs = cfs0 ++ more /\ Forall2 (fun e cf => fst cf = fst e /\ exists s (g : (nat -> R) -> R), snd e = Sublist (Some s) /\ read s = Ok g /\ forall p, snd cf p = g (X p)) es more.
Proof.
  induction es as [|e es IH]; intros cfs0 cfs H; cbn [foldR] in H.
  - injection H as <-. exists []. rewrite app_nil_r. split; [reflexivity|constructor].
  - destruct (snd e) as [|[s|]] eqn:E; try discriminate. destruct (read s) as [g| |] eqn:R; try discriminate. cbn [rbind] in H.
    destruct (IH _ _ H) as (more & -> & F). exists ((fst e, fun p => g (X p)) :: more). rewrite <- app_assoc. split; [reflexivity|]. constructor; [|exact F].
    split; [reflexivity|]. exists s, g. split; [exact E|]. split; [exact R|]. reflexivity.
Qed.
Lemma fields_general (read : reader) (X : nat -> nat -> R) (es : entries) (cfs : list computed_field) : computed_fields read X es = Ok cfs ->
  Forall2 (fun e cf => fst cf = fst e /\ exists s (g : (nat -> R) -> R), snd e = Sublist (Some s) /\ read s = Ok g /\ forall p, snd cf p = g (X p)) es cfs.
Proof. intros H. destruct (fields_from read X es [] cfs H) as (more & -> & F). exact F. Qed.
Lemma forall2_in_r {A B} (Q : A -> B -> Prop) l l' b : Forall2 Q l l' -> In b l' -> exists a, In a l /\ Q a b.
Proof. intros F. induction F as [|x y l l' Hxy F IH]; intros H; [destruct H|]. destruct H as [<-|H]; [exists x; split; [left; reflexivity|exact Hxy]|]. destruct (IH H) as (a & I & q). exists a. split; [right; exact I|exact q]. Qed.
Lemma forall2_in_l {A B} (Q : A -> B -> Prop) l l' a : Forall2 Q l l' -> In a l -> exists b, In b l' /\ Q a b.
Proof. intros F. induction F as [|x y l l' Hxy F IH]; intros H; [destruct H|]. destruct H as [<-|H]; [exists y; split; [left; reflexivity|exact Hxy]|]. destruct (IH H) as (b & I & q). exists b. split; [right; exact I|exact q]. Qed.
(** ** Copying a field into a state *)
Lemma copy_general (g : nat -> R) off stride nv : (off < stride)%nat -> forall U p j, (j < stride)%nat ->
  fold_left (fun U p => fun k => if Nat.eqb k (stride * p + off) then g p else U k) (seq 0 nv) U (stride * p + j)%nat = if andb (Nat.ltb p nv) (Nat.eqb j off) then g p else U (stride * p + j)%nat.
Proof.
  intros Ho. induction nv as [|nv IH]; intros U p j Hj; [reflexivity|]. rewrite seq_S, fold_left_app. cbn [fold_left plus]. rewrite IH by exact Hj.
  destruct (Nat.eqb_spec (stride * p + j) (stride * nv + off)) as [E|E].
  - assert (p = nv) by nia. subst p. assert (j = off) by lia. subst j. rewrite Nat.eqb_refl. destruct (Nat.ltb_spec nv (S nv)); [reflexivity|lia].
  - destruct (Nat.eqb_spec j off) as [->|N]; [|rewrite !andb_false_r; reflexivity]. rewrite !andb_true_r.
    destruct (Nat.ltb_spec p nv); destruct (Nat.ltb_spec p (S nv)); try reflexivity; [lia|]. exfalso. apply E. assert (p = nv) by lia. subst p. reflexivity.
Qed.
Lemma get_ok cfs name off stride nv size U U' : get_field cfs name off stride nv size U = Ok U' -> (off < stride)%nat ->
  (nv * stride = size)%nat /\ exists g, In (name, g) cfs /\ forall p j, (p < nv)%nat -> (j < stride)%nat -> U' (stride * p + j)%nat = if Nat.eqb j off then g p else U (stride * p + j)%nat.
Proof.
  induction cfs as [|[n g] cfs IH]; intros H Ho; cbn [get_field] in H; [discriminate|]. cbn [fst snd] in H. destruct (String.eqb_spec n name) as [->|N].
  - destruct (Nat.eqb_spec (nv * stride) size) as [S|S]; [|discriminate]. injection H as <-. split; [exact S|]. exists g. split; [left; reflexivity|].
    intros p j Hp Hj. rewrite copy_general by assumption. destruct (Nat.ltb_spec p nv); [reflexivity|lia].
  - destruct (IH H Ho) as (S & g' & I & G). split; [exact S|]. exists g'. split; [right; exact I|exact G].
Qed.
Lemma get_total cfs name off stride nv size U : (exists g, In (name, g) cfs) -> (nv * stride = size)%nat -> exists U', get_field cfs name off stride nv size U = Ok U'.
Proof.
  intros [g I] S. induction cfs as [|[n g'] cfs IH]; [destruct I|]. cbn [get_field fst snd]. destruct (String.eqb_spec n name) as [->|N].
  - rewrite (proj2 (Nat.eqb_eq _ _) S). eexists. reflexivity.
  - destruct I as [E|I]; [injection E as -> _; contradiction|]. apply IH. exact I.
Qed.
Lemma get_throw cfs name off stride nv size U : (exists U', get_field cfs name off stride nv size U = Ok U') \/ get_field cfs name off stride nv size U = Throw.
Proof.
  induction cfs as [|[n g] cfs IH]; [right; reflexivity|]. cbn [get_field fst snd]. destruct (String.eqb n name); [|exact IH]. destruct (Nat.eqb _ _); [left; eexists; reflexivity|right; reflexivity].
Qed.
Lemma get_in cfs name off stride nv size U U' : get_field cfs name off stride nv size U = Ok U' -> (nv * stride = size)%nat /\ exists g, In (name, g) cfs.
Proof.
  induction cfs as [|[n g] cfs IH]; intros H; cbn [get_field] in H; [discriminate|]. cbn [fst snd] in H. destruct (String.eqb_spec n name) as [->|N].
  - destruct (Nat.eqb_spec (nv * stride) size) as [S|S]; [|discriminate]. split; [exact S|]. exists g. left. reflexivity.
  - destruct (IH H) as (S & g' & I). split; [exact S|]. exists g'. right. exact I.
Qed.
(** ** Names *)
Lemma first_some names nm : forall b j, first_index names nm b = Some j -> (b <= j)%nat /\ nth_error names (j - b) = Some nm.
Proof.
  induction names as [|n l IH]; intros b j H; cbn [first_index] in H; [discriminate|]. destruct (String.eqb_spec n nm) as [->|N].
  - injection H as <-. rewrite Nat.sub_diag. split; [lia|reflexivity].
  - destruct (IH _ _ H) as [L E]. split; [lia|]. replace (j - b)%nat with (S (j - S b)) by lia. exact E.
Qed.
Lemma first_none names nm : forall b, first_index names nm b = None <-> ~ In nm names.
Proof.
  induction names as [|n l IH]; intros b; cbn [first_index]; [split; [intros _ []|reflexivity]|]. destruct (String.eqb_spec n nm) as [->|N].
  - split; [discriminate|]. intros H. exfalso. apply H. left. reflexivity.
  - rewrite IH. split; intros H; [intros [E|I]; [contradiction|exact (H I)]|intros I; apply H; right; exact I].
Qed.
Lemma last_acc names nm : forall b o, let r := fold_left (fun s n => (S (fst s), if String.eqb n nm then Some (fst s) else snd s)) names (b, o) in
  (~ In nm names /\ snd r = o) \/ (exists j, (b <= j)%nat /\ snd r = Some j /\ nth_error names (j - b) = Some nm).
Proof.
  induction names as [|n l IH]; intros b o; cbn [fold_left]; [left; split; [intros []|reflexivity]|]. cbn [fst snd].
  destruct (IH (S b) (if String.eqb n nm then Some b else o)) as [[N E]|(j & L & E & F)].
  - cbv zeta in *. destruct (String.eqb_spec n nm) as [->|M].
    + right. exists b. split; [lia|]. split; [exact E|]. rewrite Nat.sub_diag. reflexivity.
    + left. split; [|exact E]. intros [I|I]; contradiction.
  - right. exists j. split; [lia|]. split; [exact E|]. replace (j - b)%nat with (S (j - S b)) by lia. exact F.
Qed.
Lemma last_general names nm : (~ In nm names /\ last_index names nm = None) \/ (exists j, last_index names nm = Some j /\ nth_error names j = Some nm).
Proof. destruct (last_acc names nm 0 None) as [H|(j & _ & E & F)]; [left; exact H|right; exists j; rewrite Nat.sub_0_r in F; split; [exact E|exact F]]. Qed.
Lemma nth_unique (names : list string) i j nm : NoDup names -> nth_error names i = Some nm -> nth_error names j = Some nm -> i = j.
Proof. intros D A B. apply (proj1 (NoDup_nth_error names) D); [apply nth_error_Some; rewrite A; discriminate|congruence]. Qed.

(** ** Transient mechanics *)
Definition hyperbolic_step names dots nv size (cfs : list computed_field) (e : string * holding) (UV : (nat -> R) * (nat -> R)) : res ((nat -> R) * (nat -> R)) :=
  match snd e with
  | NotList => Ok UV
  | Sublist None => Throw
  | Sublist (Some f) =>
      match first_index names (fst e) 0 with
      | Some j => let! U := get_field cfs f j (length names) nv size (fst UV) in Ok (U, snd UV)
      | None => match first_index dots (fst e) 0 with
                | Some j => let! V := get_field cfs f j (length dots) nv size (snd UV) in Ok (fst UV, V)
                | None => Throw
                end
      end
  end.
(** What a step does to the unknown [j] of the nodes: [U'] against [U] for the names [names]. *)
Definition changes (cfs : list computed_field) nv (names : list string) (e : string * holding) (U U' : nat -> R) : Prop :=
  forall j nm p, nth_error names j = Some nm -> (p < nv)%nat ->
    (forall f, e = (nm, Sublist (Some f)) -> exists g, In (f, g) cfs /\ U' (length names * p + j)%nat = g p) /\
    (fst e <> nm \/ snd e = NotList -> U' (length names * p + j)%nat = U (length names * p + j)%nat).
Lemma get_changes cfs nv size names nm0 f j0 U U' : NoDup names -> nth_error names j0 = Some nm0 -> get_field cfs f j0 (length names) nv size U = Ok U' ->
  changes cfs nv names (nm0, Sublist (Some f)) U U'.
Proof.
  intros D H0 H j nm p Hj Hp. assert (L0 : (j0 < length names)%nat) by (apply nth_error_Some; rewrite H0; discriminate). assert (L : (j < length names)%nat) by (apply nth_error_Some; rewrite Hj; discriminate).
  destruct (get_ok _ _ _ _ _ _ _ _ H L0) as (_ & g & I & G). rewrite (G p j Hp L). split.
  - intros f' E. injection E as -> <-. rewrite (nth_unique names j j0 nm D Hj H0), Nat.eqb_refl. exists g. split; [exact I|reflexivity].
  - intros [N|N]; [|discriminate]. cbn in N. destruct (Nat.eqb_spec j j0) as [->|_]; [|reflexivity]. exfalso. apply N. congruence.
Qed.
Lemma step_changes names dots nv size cfs e UV UV' : NoDup names -> NoDup dots -> (forall nm, In nm names -> ~ In nm dots) -> hyperbolic_step names dots nv size cfs e UV = Ok UV' ->
  changes cfs nv names e (fst UV) (fst UV') /\ changes cfs nv dots e (snd UV) (snd UV').
Proof.
  intros Dn Dd X H. unfold hyperbolic_step in H. destruct e as [nm0 h]. cbn [fst snd] in H. destruct h as [|[f|]]; [|  |discriminate].
  - injection H as <-. split; intros j nm p _ _; (split; [intros f E; discriminate|reflexivity]).
  - destruct (first_index names nm0 0) as [j0|] eqn:F.
    + destruct (first_some _ _ _ _ F) as [_ F']. rewrite Nat.sub_0_r in F'. destruct (get_field _ _ _ _ _ _ _) as [U| |] eqn:G; try discriminate. injection H as <-. cbn [fst snd]. split.
      * exact (get_changes _ _ _ _ _ _ _ _ _ Dn F' G).
      * intros j nm p Hj Hp. split; [|reflexivity]. intros f' E. injection E as -> _. exfalso. apply (X nm); [apply (nth_error_In _ _ F')|apply (nth_error_In _ _ Hj)].
    + destruct (first_index dots nm0 0) as [j0|] eqn:F2; [|discriminate]. apply first_none in F.
      destruct (first_some _ _ _ _ F2) as [_ F']. rewrite Nat.sub_0_r in F'. destruct (get_field _ _ _ _ _ _ _) as [V| |] eqn:G; try discriminate. injection H as <-. cbn [fst snd]. split.
      * intros j nm p Hj Hp. split; [|reflexivity]. intros f' E. injection E as -> _. exfalso. apply F. apply (nth_error_In _ _ Hj).
      * exact (get_changes _ _ _ _ _ _ _ _ _ Dd F' G).
Qed.
(** Entry by entry: the value of the entry's field where there is one, and the value at the start elsewhere. *)
Definition filled (cfs : list computed_field) nv (names : list string) (es : entries) (U U' : nat -> R) : Prop :=
  forall j nm p, nth_error names j = Some nm -> (p < nv)%nat ->
    (forall f, In (nm, Sublist (Some f)) es -> exists g, In (f, g) cfs /\ U' (length names * p + j)%nat = g p) /\
    ((forall s, ~ In (nm, Sublist s) es) -> U' (length names * p + j)%nat = U (length names * p + j)%nat).
Lemma filled_cons cfs nv names e es U U1 U2 : ~ In (fst e) (map fst es) -> (snd e <> Sublist None) -> changes cfs nv names e U U1 -> filled cfs nv names es U1 U2 -> filled cfs nv names (e :: es) U U2.
Proof.
  intros N S C F j nm p Hj Hp. destruct (C j nm p Hj Hp) as [C1 C2]. destruct (F j nm p Hj Hp) as [F1 F2]. split.
  - intros f [->|I]; [|apply F1; exact I]. destruct (C1 f eq_refl) as (g & I & E). exists g. split; [exact I|]. rewrite F2; [exact E|].
    intros s I'. apply N. apply in_map_iff. eexists. split; [|exact I']. reflexivity.
  - intros H. rewrite F2 by (intros s I; apply (H s); right; exact I). apply C2. destruct e as [n [|o]]; [right; reflexivity|]. left. cbn. intros ->. apply (H o). left. reflexivity.
Qed.
Lemma hyperbolic_filled names dots nv size cfs : NoDup names -> NoDup dots -> (forall nm, In nm names -> ~ In nm dots) -> forall es UV UV', NoDup (map fst es) ->
  foldR (hyperbolic_step names dots nv size cfs) es UV = Ok UV' -> filled cfs nv names es (fst UV) (fst UV') /\ filled cfs nv dots es (snd UV) (snd UV').
Proof.
  intros Dn Dd X. induction es as [|e es IH]; intros UV UV' D H; cbn [foldR] in H.
  - injection H as <-. split; intros j nm p _ _; (split; [intros f []|reflexivity]).
  - destruct (hyperbolic_step names dots nv size cfs e UV) as [UV1| |] eqn:E; try discriminate. cbn [rbind] in H. cbn [map] in D. inversion D as [|x l N D']. subst.
    destruct (step_changes _ _ _ _ _ _ _ _ Dn Dd X E) as [C1 C2]. destruct (IH _ _ D' H) as [F1 F2].
    assert (S : snd e <> Sublist None). { intros Q. unfold hyperbolic_step in E. rewrite Q in E. discriminate. }
    split; eapply filled_cons; eassumption.
Qed.
(** End to end: the input defines fields [fs] and assigns some of them to unknowns in [es]; names in a parameter list are unique.  The initial displacement of every node is the value
    of the assigned expression at the coordinates of that node, or zero where nothing is assigned; likewise the velocity. *)
Theorem C124_transient : forall read X fs cfs names dots nv size es U V, NoDup (map fst fs) -> NoDup (map fst es) -> NoDup names -> NoDup dots -> (forall nm, In nm names -> ~ In nm dots) ->
  computed_fields read X fs = Ok cfs -> hyperbolic_initial names dots nv size (Some cfs) (Some es) = Ok (U, V) ->
  forall W which, (W, which) = (U, names) \/ (W, which) = (V, dots) -> forall j nm p, nth_error which j = Some nm -> (p < nv)%nat ->
    (forall f, In (nm, Sublist (Some f)) es -> exists s g, In (f, Sublist (Some s)) fs /\ read s = Ok g /\ W (length which * p + j)%nat = g (X p)) /\
    ((forall s, ~ In (nm, Sublist s) es) -> W (length which * p + j)%nat = 0).
Proof.
  intros read X fs cfs names dots nv size es U V Df De Dn Dd Hx Hc H W which HW.
  pose proof (fields_general _ _ _ _ Hc) as F. destruct (hyperbolic_filled names dots nv size cfs Dn Dd Hx es (fun _ => 0, fun _ => 0) (U, V) De H) as [HU HV]. cbn [fst snd] in HU, HV.
  assert (Q : filled cfs nv which es (fun _ => 0) W). { destruct HW as [E|E]; injection E as -> ->; assumption. }
  intros j nm p Hj Hp. destruct (Q j nm p Hj Hp) as [Q1 Q2]. split; [|exact Q2].
  intros f I. destruct (Q1 f I) as (g & I' & E). destruct (forall2_in_r _ _ _ _ F I') as (e & Ie & Ee & s & g' & Es & Er & Eg). exists s, g'. cbn [fst snd] in *. split.
  - destruct e as [n h]. cbn in *. subst. exact Ie.
  - split; [exact Er|]. rewrite E. apply Eg.
Qed.
Print Assumptions C124_transient.
(** Accepted: exactly when every assigned name is one of the unknowns, its field exists and the names are as many as the values per node; everything else throws. *)
Theorem C124_accepts : forall names dots nv size cfs es,
  ((exists UV, hyperbolic_initial names dots nv size (Some cfs) (Some es) = Ok UV) <->
   (forall nm s, In (nm, Sublist s) es -> exists f g, s = Some f /\ In (f, g) cfs /\
      ((In nm names /\ (nv * length names)%nat = size) \/ (~ In nm names /\ In nm dots /\ (nv * length dots)%nat = size)))) /\
  hyperbolic_initial names dots nv size (Some cfs) (Some es) <> UB.
Proof.
  intros names dots nv size cfs es. unfold hyperbolic_initial. fold (hyperbolic_step names dots nv size cfs). generalize ((fun _ : nat => 0), (fun _ : nat => 0)).
  change (fun e UV => hyperbolic_step names dots nv size cfs e UV) with (hyperbolic_step names dots nv size cfs).
  assert (ST : forall e UV, (exists UV', hyperbolic_step names dots nv size cfs e UV = Ok UV') \/ hyperbolic_step names dots nv size cfs e UV = Throw).
  { intros [n [|[f|]]] UV; unfold hyperbolic_step; cbn [fst snd]; [left; eexists; reflexivity| |right; reflexivity].
    destruct (first_index names n 0) as [j|]; [|destruct (first_index dots n 0) as [j|]; [|right; reflexivity]].
    - destruct (get_throw cfs f j (length names) nv size (fst UV)) as [[U E]|E]; rewrite E; [left; eexists; reflexivity|right; reflexivity].
    - destruct (get_throw cfs f j (length dots) nv size (snd UV)) as [[U E]|E]; rewrite E; [left; eexists; reflexivity|right; reflexivity]. }
  assert (SI : forall e UV, (exists UV', hyperbolic_step names dots nv size cfs e UV = Ok UV') <-> (forall s, snd e = Sublist s -> exists f g, s = Some f /\ In (f, g) cfs /\
      ((In (fst e) names /\ (nv * length names)%nat = size) \/ (~ In (fst e) names /\ In (fst e) dots /\ (nv * length dots)%nat = size)))).
  { intros [n [|[f|]]] UV; unfold hyperbolic_step; cbn [fst snd].
    - split; [intros _ s Q; discriminate|intros _; eexists; reflexivity].
    - split.
      + intros [UV' H] s Q. injection Q as <-. exists f. destruct (first_index names n 0) as [j|] eqn:F.
        * destruct (get_field _ _ _ _ _ _ _) as [U| |] eqn:G; try discriminate. destruct (get_in _ _ _ _ _ _ _ _ G) as (S & g & I). exists g. split; [reflexivity|]. split; [exact I|]. left. split; [|exact S].
          destruct (first_some _ _ _ _ F) as [_ F']. apply (nth_error_In _ _ F').
        * destruct (first_index dots n 0) as [j|] eqn:F2; [|discriminate]. destruct (get_field _ _ _ _ _ _ _) as [U| |] eqn:G; try discriminate. destruct (get_in _ _ _ _ _ _ _ _ G) as (S & g & I). exists g.
          split; [reflexivity|]. split; [exact I|]. right. apply first_none in F. split; [exact F|]. split; [|exact S]. destruct (first_some _ _ _ _ F2) as [_ F']. apply (nth_error_In _ _ F').
      + intros H. destruct (H _ eq_refl) as (f' & g & E & I & C). injection E as <-. destruct C as [[N S]|(N & N2 & S)].
        * destruct (first_index names n 0) as [j|] eqn:F; [|apply first_none in F; contradiction]. destruct (get_total cfs f j (length names) nv size (fst UV) ltac:(eexists; exact I) S) as [U E]. rewrite E. eexists. reflexivity.
        * rewrite (proj2 (first_none names n 0) N). destruct (first_index dots n 0) as [j|] eqn:F; [|apply first_none in F; contradiction].
          destruct (get_total cfs f j (length dots) nv size (snd UV) ltac:(eexists; exact I) S) as [U E]. rewrite E. eexists. reflexivity.
    - split; [intros [UV' Q]; discriminate|]. intros H. destruct (H _ eq_refl) as (f & g & E & _). discriminate. }
  intros p. split.
  - revert p. induction es as [|e es IH]; intros UV; cbn [foldR]; [split; [intros _ nm s []|intros _; eexists; reflexivity]|]. split.
    + intros [UV' H]. destruct (hyperbolic_step _ _ _ _ _ e UV) as [UV1| |] eqn:E; try discriminate. cbn [rbind] in H. intros nm s [->|I].
      * apply (proj1 (SI (nm, Sublist s) UV)); [eexists; exact E|reflexivity].
      * apply (proj1 (IH UV1)); [eexists; exact H|exact I].
    + intros H. destruct (proj2 (SI e UV)) as [UV1 E]. { intros s Q. destruct e as [n h]. cbn in Q. subst h. apply H. left. reflexivity. }
      rewrite E. cbn [rbind]. apply (proj2 (IH UV1)). intros nm s I. apply H. right. exact I.
  - revert p. induction es as [|e es IH]; intros UV; cbn [foldR]; [discriminate|]. destruct (ST e UV) as [[UV' E]|E]; rewrite E; [apply IH|discriminate].
Qed.
Print Assumptions C124_accepts.
(** The names of a mechanical problem are always three: in one and two dimensions no initial state is accepted. *)
Theorem C124_mechanics_refuted : forall d nv cfs es nm s, (d = 1 \/ d = 2)%nat -> (0 < nv)%nat -> In (nm, Sublist s) es ->
  hyperbolic_initial displacement_names velocity_names nv (nv * d) (Some cfs) (Some es) = Throw.
Proof.
  intros d nv cfs es nm s Hd Hv I. destruct (C124_accepts displacement_names velocity_names nv (nv * d) cfs es) as [A NU].
  destruct (hyperbolic_initial displacement_names velocity_names nv (nv * d) (Some cfs) (Some es)) as [UV| |] eqn:E; [|reflexivity|contradiction].
  exfalso. destruct (proj1 A (ex_intro _ UV E) nm s I) as (f & g & _ & _ & C). cbn [length displacement_names velocity_names] in C. destruct C as [[_ C]|(_ & _ & C)]; destruct Hd; subst; nia.
Qed.
Print Assumptions C124_mechanics_refuted.
(** An initial state without computed fields throws. *)
Theorem C124_no_fields : forall names dots nv size es, hyperbolic_initial names dots nv size None (Some es) = Throw /\ parabolic_initial names nv size None (Some es) = Throw.
Proof. intros. split; reflexivity. Qed.
Print Assumptions C124_no_fields.

(** ** Transient heat and thermomechanics *)
Definition parabolic_step names nv size (cfs : list computed_field) (e : string * holding) (U : nat -> R) : res (nat -> R) :=
  match snd e with
  | NotList => Ok U
  | Sublist None => Throw
  | Sublist (Some f) =>
      match last_index names (fst e) with
      | Some j => get_field cfs f j (length names) nv size U
      | None => let! _ := get_field cfs f 0 (length names) nv size U in if Nat.eqb nv 0 then Ok U else UB
      end
  end.
Theorem C124_diffusive : forall read X fs cfs names nv size es U, NoDup (map fst fs) -> NoDup (map fst es) -> NoDup names ->
  computed_fields read X fs = Ok cfs -> parabolic_initial names nv size (Some cfs) (Some es) = Ok U ->
  forall j nm p, nth_error names j = Some nm -> (p < nv)%nat ->
    (forall f, In (nm, Sublist (Some f)) es -> exists s g, In (f, Sublist (Some s)) fs /\ read s = Ok g /\ U (length names * p + j)%nat = g (X p)) /\
    ((forall s, ~ In (nm, Sublist s) es) -> U (length names * p + j)%nat = 0).
Proof.
  intros read X fs cfs names nv size es U Df De Dn Hc H.
  pose proof (fields_general _ _ _ _ Hc) as F.
  assert (K : forall es U0 U1, NoDup (map fst es) -> foldR (parabolic_step names nv size cfs) es U0 = Ok U1 -> filled cfs nv names es U0 U1).
  { clear - Dn. induction es as [|e es IH]; intros U0 U1 D H; cbn [foldR] in H.
    - injection H as <-. intros j nm p _ _. split; [intros f []|reflexivity].
    - destruct (parabolic_step names nv size cfs e U0) as [U2| |] eqn:E; try discriminate. cbn [rbind] in H. cbn [map] in D. inversion D as [|x l N D']. subst.
      assert (S : snd e <> Sublist None). { intros Q. unfold parabolic_step in E. rewrite Q in E. discriminate. }
      apply (filled_cons cfs nv names e es U0 U2 U1 N S); [|apply IH; assumption]. unfold parabolic_step in E. destruct e as [n [|[f|]]]; cbn [fst snd] in *; [| |discriminate].
      + injection E as <-. intros j nm p _ _. split; [intros f Q; discriminate|reflexivity].
      + destruct (last_general names n) as [[NI L]|(j0 & L & L')]; rewrite L in E.
        * destruct (get_field _ _ _ _ _ _ _); try discriminate. cbn [rbind] in E. destruct (Nat.eqb nv 0); [|discriminate]. injection E as <-. intros j nm p Hj _. split; [|reflexivity].
          intros f' Q. injection Q as -> _. exfalso. apply NI. apply (nth_error_In _ _ Hj).
        * exact (get_changes _ _ _ _ _ _ _ _ _ Dn L' E). }
  pose proof (K es (fun _ => 0) U De H) as Q0.
  intros j nm p Hj Hp. destruct (Q0 j nm p Hj Hp) as [Q1 Q2]. split; [|exact Q2].
  intros f I. destruct (Q1 f I) as (g & I' & E). destruct (forall2_in_r _ _ _ _ F I') as (e & Ie & Ee & s & g' & Es & Er & Eg). exists s, g'. cbn [fst snd] in *. split.
  - destruct e as [n h]. cbn in *. subst. exact Ie.
  - split; [exact Er|]. rewrite E. apply Eg.
Qed.
Print Assumptions C124_diffusive.
(** A misspelt unknown is not rejected: its field is written before the start of the state. *)
Theorem C124_unknown_refuted : forall names nv nm f g, ~ In nm names -> (0 < nv)%nat -> parabolic_initial names nv (nv * length names) (Some [(f, g)]) (Some [(nm, Sublist (Some f))]) = UB.
Proof.
  intros names nv nm f g N Hv. unfold parabolic_initial. cbn [foldR fst snd]. destruct (last_general names nm) as [[_ L]|(j & _ & L)]; [|exfalso; apply N; apply (nth_error_In _ _ L)].
  rewrite L. cbn [get_field fst snd]. rewrite String.eqb_refl, Nat.eqb_refl. cbn [rbind]. destruct (Nat.eqb_spec nv 0); [lia|reflexivity].
Qed.
Print Assumptions C124_unknown_refuted.
(** In one and two dimensions no initial state of a thermomechanical problem is accepted. *)
Theorem C124_thermomechanics_refuted : forall d nv cfs es nm s, (d = 1 \/ d = 2)%nat -> (0 < nv)%nat -> es = [(nm, Sublist s)] -> parabolic_initial thermomechanical_names nv (nv * S d) (Some cfs) (Some es) = Throw.
Proof.
  intros d nv cfs es nm s Hd Hv ->. unfold parabolic_initial. cbn [foldR fst snd]. destruct s as [f|]; [|reflexivity].
  assert (G : forall j U, get_field cfs f j (length thermomechanical_names) nv (nv * S d) U = Throw).
  { intros j U. destruct (get_throw cfs f j (length thermomechanical_names) nv (nv * S d) U) as [[U' E]|E]; [|exact E]. exfalso. destruct (get_in _ _ _ _ _ _ _ _ E) as [S _]. cbn [length thermomechanical_names] in S. destruct Hd; subst; nia. }
  destruct (last_index thermomechanical_names nm); rewrite G; reflexivity.
Qed.
Print Assumptions C124_thermomechanics_refuted.

(** Three dimensions: an initial velocity, an initial displacement of the second component; and an initial temperature in two dimensions. *)
Definition sample_reader (s : string) : res ((nat -> R) -> R) := if String.eqb s "x" then Ok (fun x => x 0%nat) else if String.eqb s "y+1" then Ok (fun x => x 1%nat + 1) else Throw.
Definition sample_fields : entries := [("along x", Sublist (Some "x")); ("shifted", Sublist (Some "y+1"))]%string.
Definition sample_state : entries := [("Velocity X", Sublist (Some "along x")); ("Displacement Y", Sublist (Some "shifted"))]%string.
Example C124_reachable : exists cfs U V, computed_fields sample_reader (fun p i => INR (p + i)) sample_fields = Ok cfs /\
  hyperbolic_initial displacement_names velocity_names 4 12 (Some cfs) (Some sample_state) = Ok (U, V) /\ U 7%nat = 4 /\ V 6%nat = 2 /\ U 6%nat = 0 /\
  NoDup displacement_names /\ NoDup velocity_names /\ (forall nm, In nm displacement_names -> ~ In nm velocity_names) /\ NoDup (map fst sample_fields) /\ NoDup (map fst sample_state).
Proof.
  do 3 eexists. split; [reflexivity|]. split; [reflexivity|]. split; [cbn; ring|]. split; [cbn; ring|]. split; [reflexivity|].
  split; [repeat constructor; cbn; intuition discriminate|]. split; [repeat constructor; cbn; intuition discriminate|].
  split; [intros nm [<-|[<-|[<-|[]]]] [Q|[Q|[Q|[]]]]; discriminate|]. split; repeat constructor; cbn; intuition discriminate.
Qed.
Example C124_heat_reachable : exists cfs U, computed_fields sample_reader (fun p i => INR (p + i)) sample_fields = Ok cfs /\
  parabolic_initial thermal_names 3 3 (Some cfs) (Some [("Temperature", Sublist (Some "along x"))]%string) = Ok U /\ U 2%nat = 2.
Proof. do 2 eexists. split; [reflexivity|]. split; [reflexivity|]. cbn. ring. Qed.
