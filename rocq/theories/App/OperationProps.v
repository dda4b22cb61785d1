(** C58, C59: which problem an operation runs on, and conditional reinitialisation. *)
From Coq Require Import Reals String Ascii List Arith ZArith Bool Lia Lra.
From Verif Require Import Base.ListUpd Base.Res App.AppModel App.AppSpec App.TargetProps.
Import ListNotations.

Section Generic.
Variables (sol : Type) (initial : plist -> sol) (solve : plist -> list R -> sol) (is_linear : plist -> string -> bool)
  (cvalue : plist -> list R -> sol -> string -> R) (cgradZ cgradX : plist -> list R -> sol -> string -> list R) (factory_ok : plist -> bool) (nverts : plist -> nat).
Notation Step := (step sol initial solve is_linear cvalue cgradZ cgradX factory_ok nverts).
Notation History := (history sol initial solve is_linear cvalue cgradZ cgradX factory_ok nverts).
Notation Run := (run sol initial solve is_linear cvalue cgradZ cgradX factory_ok nverts).
Notation Create := (create_def sol factory_ok).
Notation Start := (start sol initial nverts).
Notation app := (app sol).
Notation Ops := (ops sol). Notation Defs := (defs sol). Notation Current := (current sol). Notation Built := (built sol). Notation Gsol := (gsol sol). Notation Control := (control sol).
Notation Params := (parameters sol). Notation Vals := (vals sol). Notation Gz := (gz sol). Notation Gx := (gx sol).

(** The invariant: if the current definition is unmodified, the problem was built from it. *)
Definition ok (a : app) : Prop := forall d, get (Defs a) (Current a) = Some d -> d_modified d = false -> Built a = Some (d_params d).
Definition no_reload (a : app) : Prop := forall n o, get (Ops a) n = Some o -> o_kind o <> OpReload.

Lemma create_done a n d a' : Create a n d = (a', Done) ->
  Current a' = n /\ Built a' = Some (d_params d) /\ Defs a' = set (Defs a) n (mkDef (d_params d) false) /\ Ops a' = Ops a /\ Control a' = Control a /\ Params a' = Params a /\ Gsol a' = Gsol a /\
  Vals a' = Vals a /\ Gz a' = Gz a /\ Gx a' = Gx a.
Proof.
  unfold create_def, create. destruct (get (d_params d) "Input Mesh"); [destruct (factory_ok (d_params d))|]; intros E; try discriminate.
  injection E as <-. repeat split.
Qed.
Lemma create_reset_done a n d a' : then_reset sol initial nverts (Create a n d) = (a', Done) ->
  Current a' = n /\ Built a' = Some (d_params d) /\ Defs a' = set (Defs a) n (mkDef (d_params d) false) /\ Ops a' = Ops a /\ Params a' = Params a /\ Gsol a' = initial (d_params d).
Proof.
  unfold then_reset. destruct (Create a n d) as [a1 e] eqn:C. destruct e; intros E; try discriminate. injection E as <-.
  destruct (create_done a n d a1 C) as [C1 [C2 [C3 [C4 [C5 [C6 C7]]]]]]. unfold reset. rewrite C2. cbn. repeat split; assumption.
Qed.
(** After the switching part of an operation, the problem and the definition agree. *)
Lemma switch_done a (o : op) d a1 : ok a -> get (Defs a) (o_def o) = Some d ->
  (if negb (String.eqb (o_def o) (Current a)) then then_reset sol initial nverts (Create a (o_def o) d)
   else if d_modified d then Create a (o_def o) d else (a, Done)) = (a1, Done) ->
  Current a1 = o_def o /\ Built a1 = Some (d_params d) /\ (exists d1, get (Defs a1) (o_def o) = Some d1 /\ d_params d1 = d_params d /\ d_modified d1 = false) /\ Ops a1 = Ops a /\ Params a1 = Params a.
Proof.
  intros I G. destruct (String.eqb_spec (o_def o) (Current a)) as [E|N]; cbn [negb].
  - destruct (d_modified d) eqn:M.
    + intros C. destruct (create_done _ _ _ _ C) as [C1 [C2 [C3 [C4 [_ [C6 _]]]]]]. split; [exact C1|]. split; [exact C2|]. split; [|split; assumption].
      rewrite C3. eexists. rewrite get_set, String.eqb_refl. split; [reflexivity|]. split; reflexivity.
    + intros C. injection C as <-. split; [congruence|]. split; [rewrite E in G; apply (I d G M)|]. split; [|split; reflexivity]. exists d. repeat split; assumption.
  - intros C. destruct (create_reset_done _ _ _ _ C) as [C1 [C2 [C3 [C4 [C6 _]]]]]. split; [exact C1|]. split; [exact C2|]. split; [|split; assumption].
    rewrite C3. eexists. rewrite get_set, String.eqb_refl. split; [reflexivity|]. split; reflexivity.
Qed.
Lemma run_done a name o d a' : o_kind o <> OpReload -> get (Ops a) name = Some o -> Built a = Some (d_params d) -> get (Defs a) (Current a) = Some d -> d_modified d = false -> Run a name o = (a', Done) ->
  Built a' = Some (d_params d) /\ Current a' = Current a /\ (exists d', get (Defs a') (Current a) = Some d' /\ d_params d' = d_params d /\ d_modified d' = false) /\ Params a' = Params a /\
  (forall n o', get (Ops a') n = Some o' -> exists o0, get (Ops a) n = Some o0 /\ o_kind o' = o_kind o0 /\ o_def o' = o_def o0).
Proof.
  intros K Go B G M. unfold run. 
  assert (Same : forall n o', get (Ops a) n = Some o' -> exists o0, get (Ops a) n = Some o0 /\ o_kind o' = o_kind o0 /\ o_def o' = o_def o0) by (intros n o' E; exists o'; repeat split; exact E).
  destruct (o_kind o) as [|c t|c t|c t|c|c|oc| |] eqn:Ek; try contradiction; try rewrite B;
    try (intros E; injection E as <-; unfold solved; try (destruct (is_linear (d_params d) c)); cbn; repeat split; try assumption; exists d; repeat split; assumption).
  destruct (has_changed oc (o_local o) (Params a)) as [local changed].
  set (a1 := with_ops sol a (set (Ops a) name (mkOp (o_def o) (OpReinit oc) (o_params o) local))).
  assert (O1 : forall n o', get (Ops a1) n = Some o' -> exists o0, get (Ops a) n = Some o0 /\ o_kind o' = o_kind o0 /\ o_def o' = o_def o0).
  { intros n o'. cbn. rewrite get_set. destruct (String.eqb_spec n name) as [->|]; [|apply Same]. intros E. injection E as <-. exists o. cbn. rewrite Ek. repeat split. exact Go. }
  destruct changed.
  - replace (get (Defs a1) (Current a1)) with (Some d) by (symmetry; exact G). intros C.
    destruct (create_reset_done _ _ _ _ C) as [C1 [C2 [C3 [C4 [C6 _]]]]]. split; [exact C2|]. split; [exact C1|]. split.
    + rewrite C3. change (Current a1) with (Current a). eexists. rewrite get_set, String.eqb_refl. split; [reflexivity|]. split; reflexivity.
    + split; [exact C6|]. rewrite C4. exact O1.
  - intros E. injection E as <-. split; [exact B|]. split; [reflexivity|]. split; [exists d; repeat split; assumption|]. split; [reflexivity|exact O1].
Qed.
Lemma compute_done a name a' : ok a -> no_reload a -> Step a (Compute name) = (a', Done) ->
  exists o d, get (Ops a) name = Some o /\ get (Defs a) (o_def o) = Some d /\ Built a' = Some (d_params d) /\ Current a' = o_def o /\
    (exists d', get (Defs a') (o_def o) = Some d' /\ d_params d' = d_params d /\ d_modified d' = false) /\ Params a' = Params a /\
    (forall n o', get (Ops a') n = Some o' -> exists o0, get (Ops a) n = Some o0 /\ o_kind o' = o_kind o0 /\ o_def o' = o_def o0).
Proof.
  intros I N. cbn [step]. unfold compute. destruct (get (Ops a) name) as [o|] eqn:Go; [|discriminate]. destruct (get (Defs a) (o_def o)) as [d|] eqn:Gd; [|discriminate].
  match goal with |- match ?X with _ => _ end = _ -> _ => destruct X as [a1 e] eqn:S end. destruct e; try discriminate. intros Rn.
  destruct (switch_done a o d a1 I Gd S) as [S1 [S2 [[d1 [S3 [S4 S5]]] [S6 S7]]]].
  rewrite <- S6 in Go. rewrite <- S4 in S2. rewrite <- S1 in S3.
  assert (K : o_kind o <> OpReload) by (apply (N name); rewrite <- S6; exact Go).
  destruct (run_done a1 name o d1 a' K Go S2 S3 S5 Rn) as [R1 [R2 [[d' [R3 [R4 R5]]] [R6 R7]]]].
  exists o, d. split; [reflexivity|]. split; [exact Gd|]. split; [congruence|]. split; [congruence|]. split; [exists d'; split; [congruence|]; split; congruence|]. split; [congruence|].
  rewrite S6 in R7. exact R7.
Qed.
Lemma step_inv a e a' : ok a -> no_reload a -> Step a e = (a', Done) -> ok a' /\ no_reload a'.
Proof.
  intros I N E. destruct e as [name|name pname value|z|v].
  - destruct (compute_done a name a' I N E) as [o [d [Go [Gd [B [C [[d' [D1 [D2 D3]]] [_ O]]]]]]]]. split.
    + intros x Hx Mx. rewrite C, D1 in Hx. injection Hx as <-. rewrite B. congruence.
    + intros n o' Hn. destruct (O n o' Hn) as [o0 [H0 [Hk _]]]. rewrite Hk. apply (N n o0 H0).
  - cbn [step] in E. unfold update in E. destruct (get (Ops a) name) as [o|] eqn:Go; [|discriminate]. destruct (get (o_params o) pname) as [[target old]|]; [|discriminate].
    assert (O : forall n o', get (set (Ops a) name (mkOp (o_def o) (o_kind o) (set (o_params o) pname (target, value)) (o_local o))) n = Some o' -> o_kind o' <> OpReload).
    { intros n o'. rewrite get_set. destruct (String.eqb_spec n name) as [->|]; [intros Q; injection Q as <-; apply (N name o Go)|intros Q; apply (N n o' Q)]. }
    destruct (String.eqb target ""); [injection E as <-; split; [exact I|exact O]|].
    cbn in E. destruct (get (Defs a) (o_def o)) as [d|]; [|discriminate]. destruct (parse_inline (d_params d) target value) as [ps| |]; try discriminate. injection E as <-.
    split; [|exact O]. intros x. cbn. rewrite get_set. destruct (String.eqb_spec (Current a) (o_def o)) as [_|_]; [intros Q; injection Q as <-; discriminate|apply I].
  - cbn [step] in E. destruct (Nat.eqb (List.length z) (List.length (Control a))); [|discriminate]. injection E as <-. split; [exact I|exact N].
  - injection E as <-. split; [exact I|exact N].
Qed.
Lemma history_inv evs : forall a a' rs, ok a -> no_reload a -> History a evs = (a', rs) -> Forall (eq Done) rs -> ok a' /\ no_reload a'.
Proof.
  induction evs as [|e evs IH]; intros a a' rs I N H F; cbn [history] in H; [injection H as <- <-; split; assumption|].
  destruct (Step a e) as [a1 r] eqn:E. destruct r.
  - destruct (History a1 evs) as [a2 rs2] eqn:H2. injection H as <- <-. inversion F; subst. destruct (step_inv a e a1 I N E) as [I1 N1]. apply (IH a1 a2 rs2); assumption.
  - destruct (History a1 evs) as [a2 rs2]. injection H as <- <-. inversion F as [|? ? Q]. discriminate Q.
  - injection H as <- <-. inversion F as [|? ? Q]. discriminate Q.
Qed.
Lemma start_ok os file dn : ok (Start os file dn).
Proof.
  intros d. cbn.
  assert (G : forall l m, (forall n d, get m n = Some d -> d_params d = file n) -> forall n d, get (fold_left (fun m (o : string * op) =>
     match get m (o_def (snd o)) with Some _ => m | None => set m (o_def (snd o)) (mkDef (file (o_def (snd o))) false) end) l m) n = Some d -> d_params d = file n).
  { induction l as [|o l IH]; intros m H n x; [apply H|]. cbn [fold_left]. apply IH. intros n' x'. destruct (get m (o_def (snd o))); [apply H|]. rewrite get_set.
    destruct (String.eqb_spec n' (o_def (snd o))) as [->|]; [intros Q; injection Q as <-; reflexivity|apply H]. }
  intros Q _. rewrite (G os [] ltac:(intros; discriminate) dn d Q). reflexivity.
Qed.

(** In an application without mesh reloading, after any history of parameter updates, imports and operations, an operation runs on a problem built from its own definition's parameters as they are then. *)
Theorem C58_problem_partial : forall os file dn evs a rs name a' o,
  (forall n o, get os n = Some o -> o_kind o <> OpReload) ->
  History (Start os file dn) evs = (a, rs) -> Forall (eq Done) rs -> get (Ops a) name = Some o -> Step a (Compute name) = (a', Done) ->
  exists d, get (Defs a) (o_def o) = Some d /\ Current a' = o_def o /\ Built a' = Some (d_params d).
Proof.
  intros os file dn evs a rs name a' o N H F G E. destruct (history_inv evs _ a rs (start_ok os file dn) N H F) as [I N'].
  destruct (compute_done a name a' I N' E) as [o' [d [Go [Gd [B [C _]]]]]]. rewrite G in Go. injection Go as <-. exists d. split; [exact Gd|]. split; [exact C|exact B].
Qed.
(** What a criterion operation reports: the criterion of the solution of its own definition's current problem (minus the target), for the control in use; and, for the one that computes the gradient too, the
    gradient there.  A criterion the problem calls linear is not solved for; its value and gradient then must not depend on the solution. *)
Theorem C58_reported_partial : forall os file dn evs a rs name a' o d c t,
  (forall n o, get os n = Some o -> o_kind o <> OpReload) ->
  History (Start os file dn) evs = (a, rs) -> Forall (eq Done) rs -> get (Ops a) name = Some o -> get (Defs a) (o_def o) = Some d -> Step a (Compute name) = (a', Done) ->
  let p := d_params d in
  (is_linear p c = true -> forall z s s', cvalue p z s c = cvalue p z s' c /\ cgradZ p z s c = cgradZ p z s' c /\ cgradX p z s c = cgradX p z s' c) ->
  (o_kind o = OpValue c t \/ o_kind o = OpCriterion c t \/ o_kind o = OpCriterionX c t -> get (Vals a') c = Some (cvalue p (Control a') (solve p (Control a')) c - t)%R) /\
  (o_kind o = OpCriterion c t -> get (Gz a') c = Some (cgradZ p (Control a') (solve p (Control a')) c)) /\
  (o_kind o = OpCriterionX c t -> get (Gx a') c = Some (cgradX p (Control a') (solve p (Control a')) c)).
Proof.
  intros os file dn evs a rs name a' o d c t N H F G Gd E p Lin. destruct (history_inv evs _ a rs (start_ok os file dn) N H F) as [I N'].
  cbn [step] in E. unfold compute in E. rewrite G, Gd in E.
  match type of E with match ?X with _ => _ end = _ => destruct X as [a1 e] eqn:S end. destruct e; try discriminate.
  destruct (switch_done a o d a1 I Gd S) as [_ [S2 _]].
  assert (Sv : forall s, (if is_linear p c then s else solve p (Control a1)) = s \/ is_linear p c = false) by (intros s; destruct (is_linear p c); [left; reflexivity|right; reflexivity]).
  split; [|split].
  - intros [K|[K|K]]; unfold run in E; rewrite K, S2 in E; injection E as <-; unfold solved; fold p; destruct (is_linear p c) eqn:L; cbn; rewrite ?get_set, ?String.eqb_refl; try reflexivity;
      f_equal; f_equal; apply (Lin eq_refl).
  - intros K; unfold run in E; rewrite K, S2 in E; injection E as <-; unfold solved; fold p; destruct (is_linear p c) eqn:L; cbn; rewrite ?get_set, ?String.eqb_refl; try reflexivity;
      f_equal; apply (Lin eq_refl).
  - intros K; unfold run in E; rewrite K, S2 in E; injection E as <-; unfold solved; fold p; destruct (is_linear p c) eqn:L; cbn; rewrite ?get_set, ?String.eqb_refl; try reflexivity;
      f_equal; apply (Lin eq_refl).
Qed.
(** The operations that only compute a gradient use the stored solution: it is the right one when the solution was computed just before, by an operation of the same definition. *)
Theorem C58_gradient_partial : forall os file dn evs a rs n1 n2 a1 a' o1 o2 d c,
  (forall n o, get os n = Some o -> o_kind o <> OpReload) ->
  History (Start os file dn) evs = (a, rs) -> Forall (eq Done) rs -> get (Ops a) n1 = Some o1 -> get (Ops a) n2 = Some o2 -> o_def o1 = o_def o2 -> o_kind o1 = OpSolution ->
  get (Defs a) (o_def o1) = Some d -> Step a (Compute n1) = (a1, Done) -> Step a1 (Compute n2) = (a', Done) ->
  let p := d_params d in
  (o_kind o2 = OpGradient c -> get (Gz a') c = Some (cgradZ p (Control a') (solve p (Control a')) c)) /\
  (o_kind o2 = OpGradientX c -> get (Gx a') c = Some (cgradX p (Control a') (solve p (Control a')) c)).
Proof.
  intros os file dn evs a rs n1 n2 a1 a' o1 o2 d c N H F G1 G2 Eo K1 Gd E1 E2 p. destruct (history_inv evs _ a rs (start_ok os file dn) N H F) as [I N'].
  cbn [step] in E1. unfold compute in E1. rewrite G1, Gd in E1.
  match type of E1 with match ?X with _ => _ end = _ => destruct X as [b e] eqn:S end. destruct e; try discriminate.
  destruct (switch_done a o1 d b I Gd S) as [S1 [S2 [[d1 [S3 [S4 S5]]] [S6 S7]]]].
  unfold run in E1. rewrite K1, S2 in E1. injection E1 as <-.
  cbn [step] in E2. unfold compute in E2. cbn [with_sol ops defs current] in E2.
  rewrite S6, G2, <- Eo, S3, S1, String.eqb_refl, S5 in E2. cbn [negb] in E2.
  split; intros K2; unfold run in E2; rewrite K2 in E2; cbn in E2; rewrite S2 in E2; injection E2 as <-; cbn; rewrite get_set, String.eqb_refl; reflexivity.
Qed.

(** While every definition's mesh has n nodes, the control in use is the last imported topology (fully dense before the first), whatever operations, updates and exceptions came in between. *)
Fixpoint last_topology (evs : list event) (z : list R) : list R :=
  match evs with [] => z | Topology z' :: l => last_topology l z' | _ :: l => last_topology l z end.
Lemma then_reset_control n r : (forall p, nverts p = n) -> List.length (Control (fst r)) = n -> Control (fst (then_reset sol initial nverts r)) = Control (fst r).
Proof. intros Hn L. destruct r as [b e]. unfold then_reset. destruct e; try reflexivity. cbn [fst] in *. unfold reset. destruct (Built b) as [q|]; [|reflexivity]. cbn. rewrite L, Hn, Nat.eqb_refl. reflexivity. Qed.
Lemma create_control a n d : Control (fst (Create a n d)) = Control a.
Proof. unfold create_def, create. destruct (get (d_params d) "Input Mesh"); [destruct (factory_ok (d_params d))|]; reflexivity. Qed.
Lemma run_control n a name o : (forall p, nverts p = n) -> List.length (Control a) = n -> Control (fst (Run a name o)) = Control a.
Proof.
  intros Hn L. unfold run. destruct (o_kind o) as [|c t|c t|c t|c|c|oc| |] eqn:Ek;
    try (destruct (Built a) as [p|]; [|reflexivity]; unfold solved; try (destruct (is_linear p c)); reflexivity); try reflexivity.
  - destruct (has_changed oc (o_local o) (Params a)) as [local changed]. destruct changed; [|reflexivity]. match goal with |- context [match ?X with Some _ => _ | None => _ end] => destruct X as [d2|] end; [|reflexivity].
    rewrite (then_reset_control n); rewrite ?create_control; [reflexivity|exact Hn|exact L].
  - unfold create. destruct (get (default_params sol a) "Input Mesh"); [destruct (factory_ok (default_params sol a))|]; try reflexivity. rewrite (then_reset_control n); [reflexivity|exact Hn|exact L].
Qed.
Lemma step_control n a e : (forall p, nverts p = n) -> List.length (Control a) = n -> snd (Step a e) = Done ->
  Control (fst (Step a e)) = match e with Topology z => z | _ => Control a end /\ List.length (Control (fst (Step a e))) = n.
Proof.
  intros Hn L Hd. assert (E : Control (fst (Step a e)) = match e with Topology z => z | _ => Control a end).
  { destruct e as [name|name pname value|z|v]; cbn [step] in *.
    - unfold compute in *. destruct (get (Ops a) name) as [o|]; [|reflexivity]. destruct (get (Defs a) (o_def o)) as [d|]; [|reflexivity].
      assert (C : Control (fst (if negb (String.eqb (o_def o) (Current a)) then then_reset sol initial nverts (Create a (o_def o) d) else if d_modified d then Create a (o_def o) d else (a, Done))) = Control a).
      { destruct (negb _); [rewrite (then_reset_control n); rewrite ?create_control; auto|]. destruct (d_modified d); [apply create_control|reflexivity]. }
      match type of C with context [fst ?X] => destruct X as [a1 e1] end. cbn [fst] in C. destruct e1; [rewrite (run_control n); [exact C|exact Hn|rewrite C; exact L]|exact C|exact C].
    - unfold update. destruct (get (Ops a) name) as [o|]; [|reflexivity]. destruct (get (o_params o) pname) as [[target old]|]; [|reflexivity]. destruct (String.eqb target ""); [reflexivity|].
      cbn. destruct (get (Defs a) (o_def o)) as [d|]; [|reflexivity]. destruct (parse_inline (d_params d) target value); reflexivity.
    - destruct (Nat.eqb (List.length z) (List.length (Control a))); [reflexivity|discriminate].
    - reflexivity. }
  split; [exact E|]. rewrite E. destruct e; try exact L. cbn [step] in Hd. destruct (Nat.eqb_spec (List.length z) (List.length (Control a))); [congruence|discriminate].
Qed.
Theorem C58_control : forall os file dn evs a rs n, (forall p, nverts p = n) ->
  History (Start os file dn) evs = (a, rs) -> Forall (eq Done) rs -> Control a = last_topology evs (repeat 1%R n).
Proof.
  intros os file dn evs a rs n Hn. assert (G : forall a0, List.length (Control a0) = n -> History a0 evs = (a, rs) -> Forall (eq Done) rs -> Control a = last_topology evs (Control a0)).
  { revert a rs. induction evs as [|e evs IH]; intros a rs a0 L H F; cbn [history] in H; [injection H as <- <-; reflexivity|].
    pose proof (step_control n a0 e Hn L) as SC. destruct (Step a0 e) as [a1 r] eqn:E. cbn [fst snd] in SC.
    destruct r; [|destruct (History a1 evs); injection H as <- <-; inversion F as [|? ? Q]; discriminate Q|injection H as <- <-; inversion F as [|? ? Q]; discriminate Q].
    destruct (History a1 evs) as [a2 rs2] eqn:H2. injection H as <- <-. inversion F; subst. destruct (SC eq_refl) as [S1 S2]. rewrite (IH a2 rs2 a1 S2 H2) by assumption. rewrite S1. destruct e; reflexivity. }
  assert (L : List.length (Control (Start os file dn)) = n) by (change (List.length (repeat 1%R (nverts (file dn))) = n); rewrite repeat_length; apply Hn).
  intros H F. rewrite (G _ L H F). change (Control (Start os file dn)) with (repeat 1%R (nverts (file dn))). rewrite Hn. reflexivity.
Qed.
(** A criterion the problem calls linear is evaluated without solving: the stored solution stays; any other criterion operation leaves the solution of the current problem. *)
Theorem C58_solution : forall os file dn evs a rs name a' o d c t,
  (forall n o, get os n = Some o -> o_kind o <> OpReload) ->
  History (Start os file dn) evs = (a, rs) -> Forall (eq Done) rs -> get (Ops a) name = Some o -> get (Defs a) (o_def o) = Some d ->
  (o_kind o = OpValue c t \/ o_kind o = OpCriterion c t \/ o_kind o = OpCriterionX c t) -> Step a (Compute name) = (a', Done) ->
  Gsol a' = if is_linear (d_params d) c then (if String.eqb (o_def o) (Current a) then Gsol a else initial (d_params d)) else solve (d_params d) (Control a').
Proof.
  intros os file dn evs a rs name a' o d c t N H F G Gd K E. destruct (history_inv evs _ a rs (start_ok os file dn) N H F) as [I N'].
  cbn [step] in E. unfold compute in E. rewrite G, Gd in E.
  match type of E with match ?X with _ => _ end = _ => destruct X as [a1 e] eqn:S end. destruct e; try discriminate.
  destruct (switch_done a o d a1 I Gd S) as [_ [S2 _]].
  assert (S3 : Gsol a1 = if String.eqb (o_def o) (Current a) then Gsol a else initial (d_params d)).
  { destruct (String.eqb (o_def o) (Current a)); cbn [negb] in S.
    - destruct (d_modified d); [destruct (create_done _ _ _ _ S) as [_ [_ [_ [_ [_ [_ [X _]]]]]]]; exact X|injection S as <-; reflexivity].
    - destruct (create_reset_done _ _ _ _ S) as [_ [_ [_ [_ [_ X]]]]]. exact X. }
  destruct K as [K|[K|K]]; unfold run in E; rewrite K, S2 in E; injection E as <-; unfold solved; destruct (is_linear (d_params d) c); cbn; try exact S3; reflexivity.
Qed.

(** ** Conditional reinitialisation *)
Definition watch (a : app) (name : string) (last : option (list R)) : Prop := forall o, get (Ops a) name = Some o -> o_kind o = OpReinit true -> o_local o = match last with None => [] | Some v => v end.
Lemma changed_local o v : o_kind o = OpReinit true -> v <> [] -> fst (has_changed true (o_local o) v) = v.
Proof. intros _ N. unfold has_changed. destruct (o_local o) as [|x l] eqn:L; [reflexivity|]. destruct (list_eq_dec Req_EM_T (x :: l) v) as [E|E]; [exact E|reflexivity]. Qed.
Lemma compute_ops a name a' : Step a (Compute name) = (a', Done) -> Params a' = Params a /\
  (forall n, n <> name -> get (Ops a') n = get (Ops a) n) /\
  exists o, get (Ops a) name = Some o /\ get (Ops a') name = Some (match o_kind o with OpReinit b => mkOp (o_def o) (o_kind o) (o_params o) (fst (has_changed b (o_local o) (Params a))) | _ => o end).
Proof.
  cbn [step]. unfold compute. destruct (get (Ops a) name) as [o|] eqn:G; [|discriminate]. destruct (get (Defs a) (o_def o)) as [d|]; [|discriminate].
  match goal with |- match ?X with _ => _ end = _ -> _ => destruct X as [b e] eqn:S end. destruct e; try discriminate.
  assert (P : Params b = Params a /\ Ops b = Ops a).
  { destruct (negb (String.eqb (o_def o) (Current a))); [destruct (create_reset_done _ _ _ _ S) as [_ [_ [_ [X [Y _]]]]]; split; assumption|].
    destruct (d_modified d); [destruct (create_done _ _ _ _ S) as [_ [_ [_ [X [_ [Y _]]]]]]; split; assumption|]. injection S as <-. split; reflexivity. }
  destruct P as [P O]. unfold run. destruct (o_kind o) as [|c t|c t|c t|c|c|oc| |] eqn:K;
    try (destruct (Built b) as [q|]; [|discriminate]; intros E; injection E as <-; unfold solved; try (destruct (is_linear q c)); cbn; rewrite P, O; (split; [reflexivity|]); (split; [reflexivity|]); exists o; (split; [reflexivity|rewrite K; exact G])).
  - (* Reinit *)
    destruct (has_changed oc (o_local o) (Params b)) as [local changed] eqn:Hc. rewrite P in Hc.
    set (b1 := with_ops sol b (set (Ops b) name (mkOp (o_def o) (OpReinit oc) (o_params o) local))).
    assert (X : forall a', Params a' = Params b1 -> Ops a' = Ops b1 -> Params a' = Params a /\ (forall n, n <> name -> get (Ops a') n = get (Ops a) n) /\
      exists o, get (Ops a) name = Some o /\ get (Ops a') name = Some (match o_kind o with OpReinit b => mkOp (o_def o) (o_kind o) (o_params o) (fst (has_changed b (o_local o) (Params a))) | _ => o end)).
    { intros a2 P2 O2. rewrite P2, O2. unfold b1. cbn. split; [exact P|]. split; [intros n Hn; rewrite get_set; destruct (String.eqb_spec n name); [contradiction|rewrite O; reflexivity]|].
      exists o. split; [exact G|]. rewrite get_set, String.eqb_refl, K, Hc. reflexivity. }
    rewrite <- G. destruct changed.
    + destruct (get (Defs b1) (Current b1)) as [d2|]; [|discriminate]. intros C. destruct (create_reset_done _ _ _ _ C) as [_ [_ [_ [X1 [X2 _]]]]]. apply X; assumption.
    + intros E. injection E as <-. apply X; reflexivity.
  - (* Reload *) unfold then_reset, create. destruct (get (default_params sol b) "Input Mesh"); [|discriminate]. destruct (factory_ok (default_params sol b)); [|discriminate]. intros E. injection E as <-.
    unfold reset. cbn. rewrite P, O. split; [reflexivity|]. split; [reflexivity|]. exists o. split; [reflexivity|rewrite K; exact G].
  - (* Write *) intros E. injection E as <-. rewrite P, O. split; [reflexivity|]. split; [reflexivity|]. exists o. split; [reflexivity|rewrite K; exact G].
Qed.
Lemma history_watch name evs : forall a a' rs last, watch a name last -> never_empty name evs (Params a) -> History a evs = (a', rs) -> Forall (eq Done) rs ->
  watch a' name (seen name evs (Params a) last).
Proof.
  induction evs as [|e evs IH]; intros a a' rs last W N H F; cbn [history] in H; [injection H as <- <-; exact W|].
  destruct (Step a e) as [a1 r] eqn:E. destruct r; [|destruct (History a1 evs); injection H as <- <-; inversion F as [|? ? Q]; discriminate Q|injection H as <- <-; inversion F as [|? ? Q]; discriminate Q].
  destruct (History a1 evs) as [a2 rs2] eqn:H2. injection H as <- <-. inversion F as [|? ? _ F2]; subst.
  destruct e as [n|n pname value|z|v].
  - cbn [never_empty seen] in *. destruct N as [Nn N]. destruct (compute_ops a n a1 E) as [P [O1 [o [G G']]]].
    rewrite <- P in N |- *. refine (IH a1 a2 rs2 _ _ N H2 F2).
    destruct (String.eqb_spec n name) as [->|Hn].
    + intros x Gx' K. rewrite G' in Gx'. injection Gx' as <-. destruct (o_kind o) as [| | | | | |oc| |] eqn:Ko; try (rewrite Ko in K; discriminate).
      cbn [o_kind] in K. injection K as ->. cbn [o_local]. rewrite P. apply changed_local; [exact Ko|apply Nn; reflexivity].
    + intros x. rewrite O1 by congruence. apply W.
  - cbn [never_empty seen] in *. assert (P : Params a1 = Params a /\ watch a1 name last).
    { cbn [step] in E. unfold update in E. destruct (get (Ops a) n) as [o|] eqn:G; [|discriminate]. destruct (get (o_params o) pname) as [[target old]|]; [|discriminate].
      assert (W1 : forall x, get (set (Ops a) n (mkOp (o_def o) (o_kind o) (set (o_params o) pname (target, value)) (o_local o))) name = Some x -> o_kind x = OpReinit true -> o_local x = match last with None => [] | Some v => v end).
      { intros x. rewrite get_set. destruct (String.eqb_spec name n) as [->|]; [intros Q; injection Q as <-; cbn; apply W; exact G|apply W]. }
      destruct (String.eqb target ""); [injection E as <-; split; [reflexivity|exact W1]|]. cbn in E. destruct (get (Defs a) (o_def o)) as [d|]; [|discriminate].
      destruct (parse_inline (d_params d) target value); try discriminate. injection E as <-. split; [reflexivity|exact W1]. }
    destruct P as [P W1]. rewrite <- P in N |- *. apply (IH a1 a2 rs2); assumption.
  - cbn [never_empty seen] in *. cbn [step] in E. destruct (Nat.eqb (List.length z) (List.length (Control a))); [|discriminate]. injection E as <-. match type of H2 with history _ _ _ _ _ _ _ _ _ ?x _ = _ => exact (IH x a2 rs2 last W N H2 F2) end.
  - cbn [never_empty seen] in *. injection E as <-. match type of H2 with history _ _ _ _ _ _ _ _ _ ?x _ = _ => exact (IH x a2 rs2 last W N H2 F2) end.
Qed.

(** A conditional reinitialise operation whose definition is in place: it resets the problem to its initial state on its first call and then exactly when the parameters differ from those at its last call,
    as long as the parameters are never empty when it is called. *)
Theorem C59_conditional_partial : forall os file dn evs a rs name o d a',
  (forall n o, get os n = Some o -> o_local o = []) ->
  History (Start os file dn) evs = (a, rs) -> Forall (eq Done) rs -> never_empty name evs [] ->
  get (Ops a) name = Some o -> o_kind o = OpReinit true -> Current a = o_def o -> get (Defs a) (o_def o) = Some d -> d_modified d = false -> Params a <> [] ->
  Step a (Compute name) = (a', Done) ->
  (seen name evs [] None <> Some (Params a) -> Built a' = Some (d_params d) /\ Gsol a' = initial (d_params d)) /\
  (seen name evs [] None = Some (Params a) -> Built a' = Built a /\ Gsol a' = Gsol a /\ Control a' = Control a).
Proof.
  intros os file dn evs a rs name o d a' L H F N G K C Gd M Ne E.
  assert (W0 : watch (Start os file dn) name None) by (intros x Gx' _; apply (L name x Gx')).
  pose proof (history_watch name evs _ a rs None W0 N H F o G K) as W. change (Params (Start os file dn)) with (@nil R) in W.
  assert (NE : forall v, seen name evs [] None = Some v -> v <> []).
  { assert (X : forall evs now last, never_empty name evs now -> (forall v, last = Some v -> v <> []) -> forall v, seen name evs now last = Some v -> v <> []).
    { clear. induction evs as [|e evs IH]; intros now last N H v; cbn [seen]; [apply H|]. destruct e; cbn [never_empty] in N.
      - destruct N as [N1 N2]. apply IH; [exact N2|]. destruct (String.eqb_spec name0 name); [intros w Q; injection Q as <-; apply N1; assumption|exact H].
      - apply IH; assumption. - apply IH; assumption. - apply IH; assumption. }
    apply (X evs [] None N). intros v Q. discriminate. }
  cbn [step] in E. unfold compute in E. rewrite G, Gd, C, String.eqb_refl, M in E. cbn [negb] in E. unfold run in E. rewrite K in E. unfold has_changed in E. split.
  - intros S. destruct (o_local o) as [|x l] eqn:Lo.
    + cbn in E. rewrite C, Gd in E. destruct (create_reset_done _ _ _ _ E) as [_ [B [_ [_ [_ Gs]]]]]. split; assumption.
    + destruct (list_eq_dec Req_EM_T (x :: l) (Params a)) as [Q|Q].
      * exfalso. apply S. rewrite <- Q. destruct (seen name evs [] None); [congruence|discriminate].
      * cbn in E. rewrite C, Gd in E. destruct (create_reset_done _ _ _ _ E) as [_ [B [_ [_ [_ Gs]]]]]. split; assumption.
  - intros S. rewrite S in W. pose proof (NE _ S) as Nv. destruct (o_local o) as [|x l]; [congruence|].
    destruct (list_eq_dec Req_EM_T (x :: l) (Params a)) as [Q|Q]; [|congruence]. injection E as <-. repeat split.
Qed.
(** An unconditional one always does. *)
Theorem C59_unconditional : forall a name o d a', get (Ops a) name = Some o -> o_kind o = OpReinit false -> Current a = o_def o -> get (Defs a) (o_def o) = Some d -> d_modified d = false ->
  Step a (Compute name) = (a', Done) -> Built a' = Some (d_params d) /\ Gsol a' = initial (d_params d).
Proof.
  intros a name o d a' G K C Gd M E. cbn [step] in E. unfold compute in E. rewrite G, Gd, C, String.eqb_refl, M in E. cbn [negb] in E. unfold run in E. rewrite K in E. unfold has_changed in E.
  cbn in E. rewrite C, Gd in E. destruct (create_reset_done _ _ _ _ E) as [_ [B [_ [_ [_ Gs]]]]]. split; assumption.
Qed.

(** ** Results stay until recomputed *)
Lemma create_keeps a n d : Vals (fst (Create a n d)) = Vals a /\ Gz (fst (Create a n d)) = Gz a /\ Gx (fst (Create a n d)) = Gx a.
Proof. unfold create_def, create. destruct (get (d_params d) "Input Mesh"); [destruct (factory_ok (d_params d))|]; repeat split. Qed.
Lemma reset_keeps r : Vals (fst (then_reset sol initial nverts r)) = Vals (fst r) /\ Gz (fst (then_reset sol initial nverts r)) = Gz (fst r) /\ Gx (fst (then_reset sol initial nverts r)) = Gx (fst r).
Proof. unfold then_reset, reset. destruct r as [a []]; cbn; try (repeat split; fail). destruct (Built a); repeat split. Qed.
(** The criterion an operation stores results for. *)
Definition about (o : op) : option string := match o_kind o with OpCriterion c _ | OpCriterionX c _ | OpValue c _ | OpGradient c | OpGradientX c => Some c | _ => None end.
(** Whatever an event is and however it ends, the stored value and gradients of a criterion change only if it runs an operation on that criterion. *)
Theorem C87_kept_partial : forall a e c, (forall n o, e = Compute n -> get (Ops a) n = Some o -> about o <> Some c) ->
  get (Vals (fst (Step a e))) c = get (Vals a) c /\ get (Gz (fst (Step a e))) c = get (Gz a) c /\ get (Gx (fst (Step a e))) c = get (Gx a) c.
Proof.
  intros a e c H. destruct e as [name|name pname value|z|v]; cbn [step].
  - unfold compute. destruct (get (Ops a) name) as [o|] eqn:G; [|repeat split]. specialize (H name o eq_refl G). destruct (get (Defs a) (o_def o)) as [d|]; [|repeat split].
    match goal with |- context [match ?X with _ => _ end] => set (r := X) end.
    assert (R : Vals (fst r) = Vals a /\ Gz (fst r) = Gz a /\ Gx (fst r) = Gx a).
    { unfold r. destruct (negb (String.eqb (o_def o) (Current a))).
      - destruct (reset_keeps (Create a (o_def o) d)) as [-> [-> ->]]. apply create_keeps.
      - destruct (d_modified d); [apply create_keeps|repeat split]. }
    destruct r as [b []]; cbn [fst] in R; destruct R as [<- [<- <-]]; try (repeat split; fail).
    unfold run. unfold about in H. destruct (o_kind o) as [|k t|k t|k t|k|k|oc| |] eqn:K;
      try (destruct (Built b) as [q|]; [|repeat split]; unfold solved; try (destruct (is_linear q k)); cbn; rewrite ?get_set;
           try (destruct (String.eqb_spec c k) as [->|]; [exfalso; apply H; reflexivity|]); repeat split; fail).
    + destruct (has_changed oc (o_local o) (Params b)) as [local changed]. set (b1 := with_ops sol b _). destruct changed; [|repeat split].
      destruct (get (Defs b1) (Current b1)) as [d2|]; [|repeat split]. destruct (reset_keeps (Create b1 (Current b1) d2)) as [-> [-> ->]]. destruct (create_keeps b1 (Current b1) d2) as [-> [-> ->]]. repeat split.
    + destruct (reset_keeps (create sol factory_ok b (default_name sol b) (default_params sol b))) as [-> [-> ->]]. unfold create.
      destruct (get (default_params sol b) "Input Mesh"); [destruct (factory_ok (default_params sol b))|]; repeat split.
  - unfold update. destruct (get (Ops a) name) as [o|]; [|repeat split]. destruct (get (o_params o) pname) as [[target old]|]; [|repeat split]. destruct (String.eqb target ""); [repeat split|].
    cbn. destruct (get (Defs a) (o_def o)) as [d|]; [|repeat split]. destruct (parse_inline (d_params d) target value); repeat split.
  - destruct (Nat.eqb (List.length z) (List.length (Control a))); repeat split.
  - repeat split.
Qed.
End Generic.

(** ** Where it fails *)
Definition mesh_file (e : R) : plist := [("Input Mesh"%string, Other); ("E"%string, Double e)].
Definition modulus (p : plist) : R := match get p "E" with Some (Double x) => x | _ => 0%R end.
(** A toy problem: the solution is the modulus times the control, the criterion's gradient the solution itself. *)
Definition toy_solve (p : plist) (z : list R) : list R := map (Rmult (modulus p)) z.
Definition toy_history := history (list R) (fun _ => [0%R]) toy_solve (fun _ _ => false) (fun p z s c => nth 0 s 0%R) (fun p z s c => s) (fun p z s c => s) (fun _ => true) (fun _ => 1).
Definition toy_ops : smap op :=
  [("solve"%string, mkOp "main" OpSolution [("modulus"%string, ("E"%string, 1%R))] []); ("value"%string, mkOp "main" (OpValue "J" 0) [] []);
   ("gradient"%string, mkOp "main" (OpGradient "J") [] []); ("reload"%string, mkOp "main" OpReload [] []); ("again"%string, mkOp "main" (OpReinit true) [] [])].
Definition toy_start := start (list R) (fun _ => [0%R]) (fun _ => 1) toy_ops (fun _ => mesh_file 1) "main"%string.

(** After a mesh reload, an operation runs on a problem built from the initial parameters although its definition holds updated ones. *)
Theorem C58_reload_refuted : exists a rs d, toy_history toy_start [Update "solve" "modulus" 5%R; Compute "value"; Compute "reload"; Compute "value"] = (a, rs) /\ Forall (eq Done) rs /\
  get (defs _ a) "main" = Some d /\ modulus (d_params d) = 5%R /\ built _ a = Some (mesh_file 1) /\ get (vals _ a) "J" = Some (1 * 1 - 0)%R.
Proof.
  eexists. eexists. eexists. split; [cbv -[Rmult Rminus IZR]; reflexivity|]. split; [repeat constructor|]. split; [reflexivity|]. split; [reflexivity|]. split; reflexivity.
Qed.
(** A parameter update followed by a gradient operation: the problem is rebuilt, but the gradient is taken at the solution of the problem before the update. *)
Theorem C58_stale_gradient_refuted : exists a rs, toy_history toy_start [Compute "solve"; Update "solve" "modulus" 5%R; Compute "gradient"] = (a, rs) /\ Forall (eq Done) rs /\
  built _ a = Some (mesh_file 5) /\ get (gz _ a) "J" = Some [1 * 1]%R /\ toy_solve (mesh_file 5) (control _ a) = [5 * 1]%R.
Proof. eexists. eexists. split; [cbv -[Rmult Rminus IZR]; reflexivity|]. split; [repeat constructor|]. split; [reflexivity|]. split; reflexivity. Qed.
(** A definition whose mesh entry is missing: the first attempt to use it is refused, the second runs it on the other definition's problem. *)
Definition two_ops : smap op := [("A"%string, mkOp "first" (OpValue "J" 0) [] []); ("B"%string, mkOp "second" (OpValue "J" 0) [] [])].
Theorem C58_after_exception_refuted : exists a rs, toy_history (start (list R) (fun _ => [0%R]) (fun _ => 1) two_ops (fun n => if String.eqb n "first" then mesh_file 1 else [("E"%string, Double 5%R)]) "first"%string)
    [Compute "B"; Compute "B"] = (a, rs) /\ rs = [Threw; Done] /\ built _ a = Some (mesh_file 1) /\ current _ a = "second"%string /\ get (vals _ a) "J" = Some (1 * 1 - 0)%R.
Proof. eexists. eexists. split; [cbv -[Rmult Rminus IZR]; reflexivity|]. split; [reflexivity|]. split; [reflexivity|]. split; reflexivity. Qed.
(** With empty parameters a conditional reinitialise operation resets the problem at every call. *)
Theorem C59_empty_refuted : exists a rs, toy_history toy_start [Compute "again"; Compute "solve"; Compute "again"] = (a, rs) /\ Forall (eq Done) rs /\
  seen "again" [Compute "again"; Compute "solve"] [] None = Some (parameters _ a) /\ gsol _ a = [0%R] /\
  exists b rs', toy_history toy_start [Compute "again"; Compute "solve"] = (b, rs') /\ gsol _ b = [1 * 1]%R.
Proof.
  eexists. eexists. split; [cbv -[Rmult Rminus IZR Req_EM_T]; reflexivity|]. split; [repeat constructor|]. split; [reflexivity|]. split; [reflexivity|].
  eexists. eexists. split; [cbv -[Rmult Rminus IZR Req_EM_T]; reflexivity|]. reflexivity.
Qed.
(** Results are stored by criterion name alone: an operation of another definition on a criterion of the same name replaces them. *)
Theorem C87_shared_refuted : exists a b rs rs', let s := start (list R) (fun _ => [0%R]) (fun _ => 1) two_ops (fun n => if String.eqb n "first" then mesh_file 1 else mesh_file 5) "first"%string in
  toy_history s [Compute "A"] = (a, rs) /\ toy_history s [Compute "A"; Compute "B"] = (b, rs') /\ get (vals _ a) "J" = Some (1 * 1 - 0)%R /\ get (vals _ b) "J" = Some (5 * 1 - 0)%R.
Proof. eexists. eexists. eexists. eexists. split; [cbv -[Rmult Rminus IZR]; reflexivity|]. split; [cbv -[Rmult Rminus IZR]; reflexivity|]. split; reflexivity. Qed.
Example C58_met : exists a rs, toy_history toy_start [Parameters [1%R]; Update "solve" "modulus" 5%R; Compute "value"; Topology [2%R]; Compute "solve"; Compute "gradient"] = (a, rs) /\ Forall (eq Done) rs /\
  built _ a = Some (mesh_file 5) /\ get (gz _ a) "J" = Some [5 * 2]%R.
Proof. eexists. eexists. split; [cbv -[Rmult Rminus IZR]; reflexivity|]. split; [repeat constructor|]. split; reflexivity. Qed.

Print Assumptions C58_problem_partial.
Print Assumptions C58_reported_partial.
Print Assumptions C58_gradient_partial.
Print Assumptions C58_control.
Print Assumptions C58_solution.
Print Assumptions C58_reload_refuted.
Print Assumptions C58_stale_gradient_refuted.
Print Assumptions C58_after_exception_refuted.
Print Assumptions C59_conditional_partial.
Print Assumptions C59_unconditional.
Print Assumptions C59_empty_refuted.
Print Assumptions C87_kept_partial.
Print Assumptions C87_shared_refuted.
