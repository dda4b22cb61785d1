(** C151-C153: values exchanged with the optimiser, sensitivities with respect to parameters and finite differences. *)
From Coq Require Import Reals String List Arith ZArith Bool Lia Lra.
From Verif Require Import Base.Field Base.Sums Base.ListUpd Base.Res Element.ElementSpec Element.ElementProof App.AppModel App.TargetProps App.ValuesModel.
Import ListNotations.
Local Open Scope R_scope.

(** ** Specification *)
Definition finite (l : list R) : list num := map Some l.
(** Nothing but the vector [k] differs. *)
Definition only_changes (s s' : vapp) (k : string) : Prop :=
  (forall k', k' <> k -> get (x_vals s') k' = get (x_vals s) k') /\ x_names s' = x_names s /\ x_crit s' = x_crit s /\ x_gradx s' = x_gradx s /\ x_control s' = x_control s.
(** [df] is the gradient at [X] of a function of nodal coordinates: its derivative along every direction. *)
Definition gradient_at (f : (nat -> R) -> R) (X : nat -> R) (df : list R) : Prop :=
  forall w, derivable_pt_lim (fun t => f (fun i => X i + t * w i)) 0 (rs (List.length df) (fun i => nth i df 0 * w i)).
(** A finite difference run: for each index the perturbed value is imported and the operation called. *)
Definition fd_round (delta : R) (p : nat -> R) (k : nat) (s : vapp) : res vapp := let! s := import_value s "Perturbed Value" [Some (p k)] in run_fd s delta (Some (INR k)).
Definition fd_rounds (delta : R) (p : nat -> R) (ks : list nat) (s : vapp) : res vapp := foldR (fd_round delta p) ks s.

(** ** Lemmas *)
Lemma vector_set s v k x k' : vector (with_vals s (set v k x)) k' = if String.eqb k' k then x else match get v k' with Some y => y | None => [] end.
Proof. unfold vector. cbn [with_vals x_vals]. rewrite get_set. destruct (String.eqb k' k); reflexivity. Qed.
Lemma set_changes s k x : only_changes s (with_vals s (set (x_vals s) k x)) k.
Proof.
  repeat split. intros k' H. cbn [with_vals x_vals]. rewrite get_set. destruct (String.eqb_spec k' k); [contradiction|reflexivity].
Qed.
Lemma resize_same v : resize v (List.length v) = v.
Proof. unfold resize. rewrite firstn_all, Nat.sub_diag. apply app_nil_r. Qed.
Lemma round_nat k : round (INR k) = Z.of_nat k.
Proof.
  unfold round. destruct (Rle_dec 0 (INR k)) as [_|H]; [|exfalso; apply H; apply pos_INR].
  rewrite INR_IZR_INZ. set (z := Z.of_nat k). clearbody z. destruct (base_Int_part (IZR z + / 2)) as [H1 H2].
  set (i := Int_part (IZR z + / 2)) in *. clearbody i.
  assert (A : IZR i < IZR (z + 1)) by (rewrite plus_IZR; lra). assert (B : IZR z < IZR (i + 1)) by (rewrite plus_IZR; lra).
  apply lt_IZR in A. apply lt_IZR in B. lia.
Qed.
Lemma rs_shift n (f : nat -> R) : rs (S n) f = f 0%nat + rs n (fun i => f (S i)).
Proof.
  unfold rs. induction n as [|n IH]; [cbn; lra|]. change (sum (K := R_ring) (S (S n)) f) with (sum (K := R_ring) (S n) f + f (S n)).
  rewrite IH. cbn [sum]. change (@radd R_ring) with Rplus. ring.
Qed.
Lemma pair_up_ok : forall dx df t, (List.length dx <= List.length df)%nat ->
  pair_up df (finite dx) (Some t) = Ok (Some (t + rs (List.length df) (fun i => nth i df 0 * nth i dx 0))).
Proof.
  induction dx as [|y dx IH]; intros df t H; cbn [finite map pair_up].
  - f_equal. f_equal. rewrite (rsum_0 (List.length df)); [ring|]. intros i _. destruct i; cbn; ring.
  - destruct df as [|a df]; [cbn in H; lia|]. cbn [nadd nmul]. change (map Some dx) with (finite dx). rewrite IH by (cbn in H; lia).
    cbn [List.length]. rewrite rs_shift. cbn [nth]. f_equal. f_equal. ring.
Qed.
Lemma pair_up_long : forall dx df t, (List.length df < List.length dx)%nat -> pair_up df dx t = UB.
Proof. induction dx as [|y dx IH]; intros df t H; [cbn in H; lia|]. destruct df as [|a df]; [reflexivity|]. cbn [pair_up]. apply IH. cbn in H. lia. Qed.
Lemma map_entries_ok (s : vapp) (df : list R) (dx : string -> list R) : forall inputs k out,
  (forall n, In n inputs -> vector s n = finite (dx n) /\ (List.length (dx n) <= List.length df)%nat) -> (k + List.length inputs = List.length out)%nat ->
  exists out', map_entries s df inputs k out = Ok out' /\ List.length out' = List.length out /\ (forall j, (j < k)%nat -> nth_error out' j = nth_error out j) /\
    forall j n, nth_error inputs j = Some n -> nth_error out' (k + j) = Some (Some (rs (List.length df) (fun i => nth i df 0 * nth i (dx n) 0))).
Proof.
  induction inputs as [|n ns IH]; intros k out H L; cbn [map_entries].
  - exists out. repeat split. intros [|j] n E; discriminate E.
  - destruct (H n (or_introl eq_refl)) as [E El]. rewrite E, pair_up_ok by exact El. cbn [rbind]. rewrite Rplus_0_l.
    set (t := Some (rs (List.length df) (fun i => nth i df 0 * nth i (dx n) 0))).
    destruct (upd_some out k t) as [out1 E1]; [cbn in L; lia|]. rewrite E1. pose proof (upd_length _ _ _ _ E1) as L1.
    destruct (IH (S k) out1) as (out' & Eo & Lo & Hk & Hj); [intros m Hm; apply H; right; exact Hm|cbn in L; lia|].
    exists out'. split; [exact Eo|]. split; [congruence|]. split.
    + intros j Hlt. rewrite Hk by lia. apply (upd_nth_other _ _ _ _ _ E1). lia.
    + intros [|j] m Em.
      * injection Em as <-. rewrite Nat.add_0_r, Hk by lia. apply (upd_nth_same _ _ _ _ E1).
      * cbn in Em. replace (k + S j)%nat with (S k + j)%nat by lia. apply Hj. exact Em.
Qed.

Lemma list_ext_nth : forall (A : Type) (l m : list A), (forall j, nth_error l j = nth_error m j) -> l = m.
Proof.
  induction l as [|x l IH]; intros [|y m] H; [reflexivity|discriminate (H 0%nat)|discriminate (H 0%nat)|].
  pose proof (H 0%nat) as E. injection E as ->. f_equal. apply IH. intros j. apply (H (S j)).
Qed.

(** ** C151: import and export of values *)
Theorem C151_round_trip : forall s name data s', import_value s name data = Ok s' ->
  only_changes s s' name /\ vector s' name = data /\
  (get (x_names s) name = None -> exists s'', export_value s' name (List.length data) = Ok (s'', data) /\ only_changes s s'' name /\ vector s'' name = data).
Proof.
  intros s name data s' H. unfold import_value in H. destruct (get (x_vals s) name) as [old|] eqn:G; [|discriminate H]. injection H as <-.
  split; [apply set_changes|]. split; [rewrite vector_set, String.eqb_refl; reflexivity|]. intros N. unfold export_value. cbn [with_vals x_names x_vals]. rewrite N.
  rewrite get_set, String.eqb_refl, resize_same. eexists. split; [reflexivity|]. split.
  - repeat split. intros k' Hk. cbn [with_vals x_vals]. rewrite !get_set. destruct (String.eqb_spec k' name); [contradiction|reflexivity].
  - rewrite vector_set, String.eqb_refl. reflexivity.
Qed.
Print Assumptions C151_round_trip.
Theorem C151_undeclared : forall s name data n, get (x_vals s) name = None ->
  import_value s name data = Throw /\ (get (x_names s) name = None -> export_value s name n = Throw).
Proof. intros s name data n H. unfold import_value, export_value. rewrite H. split; [reflexivity|]. intros ->. reflexivity. Qed.
Print Assumptions C151_undeclared.
(** What is exported is what was stored last... *)
Definition exports_stored : Prop := forall s name v n s' out, get (x_vals s) name = Some v -> n = List.length v -> export_value s name n = Ok (s', out) -> out = v.
(** ... unless the name is also the name of a criterion value. *)
Theorem C151_shadow_refuted : ~ exports_stored.
Proof.
  intros H. specialize (H (mkVapp [("mass", [Some 5])] [("mass", "volume")] [("volume", 2)] [] [])%string "mass"%string [Some 5] 1%nat _ _ eq_refl eq_refl eq_refl).
  injection H as H. lra.
Qed.
Print Assumptions C151_shadow_refuted.
(** Exporting changes what is stored: a shorter export cuts it. *)
Theorem C151_export_changes_refuted : ~ (forall s name n m s' out s'' out', export_value s name n = Ok (s', out) -> export_value s' name m = Ok (s'', out') ->
  exists s1 out1, export_value s name m = Ok (s1, out1) /\ out' = out1).
Proof.
  intros H. destruct (H (mkVapp [("Gradient", finite [1; 2])] [] [] [] [])%string "Gradient"%string 1%nat 2%nat _ _ _ _ eq_refl eq_refl) as (s1 & out1 & E & Eo).
  injection E as _ <-. injection Eo as Eo. lra.
Qed.
Print Assumptions C151_export_changes_refuted.
Example C151_nonvacuous : exists s' s'', import_value (create_map (mkVapp [] [] [] [] []) ["width"]%string) "width" (finite [1; 2]) = Ok s' /\ export_value s' "width" 2 = Ok (s'', finite [1; 2]).
Proof. eexists. eexists. split; reflexivity. Qed.

(** ** C152: sensitivities with respect to parameters *)
Theorem C152_sensitivity : forall s c inputs df dx, get (x_gradx s) c = Some df -> ~ In "Criterion Sensitivity"%string inputs ->
  List.length (vector s "Criterion Sensitivity") = List.length inputs ->
  (forall n, In n inputs -> vector s n = finite (dx n) /\ (List.length (dx n) <= List.length df)%nat) ->
  exists s', run_map s c inputs = Ok s' /\ only_changes s s' "Criterion Sensitivity" /\ List.length (vector s' "Criterion Sensitivity") = List.length inputs /\
    forall f X k n, gradient_at f X df -> nth_error inputs k = Some n ->
      exists v, nth_error (vector s' "Criterion Sensitivity") k = Some (Some v) /\ derivable_pt_lim (fun t => f (fun i => X i + t * nth i (dx n) 0)) 0 v.
Proof.
  intros s c inputs df dx G _ L H. unfold run_map. rewrite G.
  destruct (map_entries_ok s df dx inputs 0 (vector s "Criterion Sensitivity") H ltac:(lia)) as (out & E & Lo & _ & Hj). rewrite E. cbn [rbind].
  eexists. split; [reflexivity|]. split; [apply set_changes|]. rewrite vector_set. cbn [String.eqb Ascii.eqb Bool.eqb]. split; [congruence|].
  intros f X k n HG Hn. eexists. split; [apply (Hj k n Hn)|]. apply HG.
Qed.
Print Assumptions C152_sensitivity.
(** The operation as constructed has room for its inputs. *)
Theorem C152_created : forall s inputs, List.length (vector (create_map s inputs) "Criterion Sensitivity") = List.length inputs /\
  (forall n, In n inputs -> n <> "Criterion Sensitivity"%string -> forall data, exists s', import_value (create_map s inputs) n data = Ok s').
Proof.
  intros s inputs. split.
  - unfold create_map. rewrite vector_set. cbn [String.eqb Ascii.eqb Bool.eqb]. apply repeat_length.
  - intros n Hn Hne data. unfold import_value, create_map. cbn [with_vals x_vals]. rewrite get_set. destruct (String.eqb_spec n "Criterion Sensitivity") as [->|_]; [contradiction|].
    assert (P : forall l m, In n l \/ get m n <> None -> get (fold_left (fun m n => set m n []) l m) n <> None (A := list num)).
    { induction l as [|a l IH]; intros m [I|I]; cbn [fold_left]; [destruct I|exact I| |].
      - destruct I as [->|I]; apply IH; [right; rewrite get_set, String.eqb_refl; discriminate|left; exact I].
      - apply IH. right. rewrite get_set. destruct (String.eqb n a); [discriminate|exact I]. }
    destruct (get (fold_left _ inputs (x_vals s)) n) eqn:E; [eexists; reflexivity|]. exfalso. apply (P inputs (x_vals s) (or_introl Hn)). exact E.
Qed.
Print Assumptions C152_created.
(** Coordinates beyond the gradient: undefined behaviour; also when no gradient has been computed. *)
Theorem C152_too_long : forall s c n ns, (List.length (match get (x_gradx s) c with Some g => g | None => [] end) < List.length (vector s n))%nat -> run_map s c (n :: ns) = UB.
Proof. intros s c n ns H. unfold run_map. cbn [map_entries]. rewrite pair_up_long by exact H. reflexivity. Qed.
Print Assumptions C152_too_long.
(** Operations should not disturb each other.  All of them share one result vector: a second one with fewer inputs makes the first write outside it. *)
Theorem C152_shared_refuted : ~ (forall s c ins1 ins2, (forall n, In n ins1 -> In n ins2 -> False) -> ~ In "Criterion Sensitivity"%string ins1 -> ~ In "Criterion Sensitivity"%string ins2 ->
  exists s', run_map (create_map (create_map s ins1) ins2) c ins1 = Ok s').
Proof.
  intros H. destruct (H (mkVapp [] [] [] [] []) "mass" ["width"; "height"] ["depth"])%string as [s' E].
  - cbn. intuition congruence.
  - cbn. intuition congruence.
  - cbn. intuition congruence.
  - discriminate E.
Qed.
Print Assumptions C152_shared_refuted.
Definition two_inputs : vapp := mkVapp [("width", finite [1; 0]); ("height", finite [0; 1; 1]); ("Criterion Sensitivity", finite [0; 0])]%string [] [] [("mass", [2; 3; 5])]%string [].
Example C152_nonvacuous : exists s', run_map two_inputs "mass" ["width"; "height"]%string = Ok s' /\ exists v w, vector s' "Criterion Sensitivity" = [Some v; Some w] /\ v = 2 /\ w = 8.
Proof. eexists. split; [reflexivity|]. eexists. eexists. split; [reflexivity|]. split; ring. Qed.

(** ** C153: finite differences *)
Definition ready (s : vapp) (n : nat) (f0 : R) : Prop :=
  List.length (vector s "Gradient") = n /\ vector s "Initial Value" = [Some f0] /\ get (x_vals s) "Perturbed Value" <> None.
Lemma fd_round_ok delta p s n f0 k : ready s n f0 -> delta <> 0 -> (k < n)%nat ->
  exists s', fd_round delta p k s = Ok s' /\ ready s' n f0 /\ nth_error (vector s' "Gradient") k = Some (Some ((p k - f0) / delta)) /\
    (forall j, j <> k -> nth_error (vector s' "Gradient") j = nth_error (vector s "Gradient") j) /\ x_names s' = x_names s /\ get (x_vals s') "Gradient" <> None.
Proof.
  intros (HG & HI & HP) Hd Hk. unfold fd_round, import_value. destruct (get (x_vals s) "Perturbed Value") as [old|]; [|contradiction]. cbn [rbind].
  unfold run_fd, perturbation. rewrite round_nat. rewrite !vector_set. cbn [String.eqb Ascii.eqb Bool.eqb].
  change (match get (x_vals s) "Initial Value" with Some y => y | None => [] end) with (vector s "Initial Value").
  change (match get (x_vals s) "Gradient" with Some y => y | None => [] end) with (vector s "Gradient"). rewrite HI.
  replace (Z.ltb (Z.of_nat k) 0) with false by (symmetry; apply Z.ltb_ge; lia). rewrite Nat2Z.id. cbn [nsub ndiv]. destruct (Req_EM_T delta 0) as [E|_]; [contradiction|].
  destruct (upd_some (vector s "Gradient") k (Some ((p k - f0) / delta))) as [g Eg]; [lia|]. rewrite Eg. eexists. split; [reflexivity|].
  unfold ready. rewrite !vector_set. cbn [with_vals x_vals x_names String.eqb Ascii.eqb Bool.eqb]. rewrite !get_set. cbn [String.eqb Ascii.eqb Bool.eqb].
  change (match get (x_vals s) "Initial Value" with Some y => y | None => [] end) with (vector s "Initial Value").
  split; [split; [rewrite (upd_length _ _ _ _ Eg); exact HG|split; [exact HI|discriminate]]|].
  split; [apply (upd_nth_same _ _ _ _ Eg)|]. split; [intros j Hj; apply (upd_nth_other _ _ _ _ _ Eg); exact Hj|]. split; [reflexivity|discriminate].
Qed.
(** Whatever the order of the perturbations, and however often each is repeated. *)
Theorem C153_rounds : forall s n f0 delta p ks, ready s n f0 -> delta <> 0 -> (forall k, In k ks -> (k < n)%nat) ->
  exists s', fd_rounds delta p ks s = Ok s' /\ ready s' n f0 /\ x_names s' = x_names s /\
    (forall k, In k ks -> nth_error (vector s' "Gradient") k = Some (Some ((p k - f0) / delta))) /\
    (forall k, ~ In k ks -> nth_error (vector s' "Gradient") k = nth_error (vector s "Gradient") k).
Proof.
  intros s n f0 delta p ks. revert s. induction ks as [|k ks IH]; intros s HR Hd Hk.
  - exists s. split; [reflexivity|]. split; [exact HR|]. split; [reflexivity|]. split; [intros k []|reflexivity].
  - destruct (fd_round_ok delta p s n f0 k HR Hd (Hk k (or_introl eq_refl))) as (s1 & E1 & R1 & V1 & O1 & N1 & _).
    destruct (IH s1 R1 Hd (fun j Hj => Hk j (or_intror Hj))) as (s' & E' & R' & N' & V' & O').
    exists s'. unfold fd_rounds in *. cbn [foldR]. rewrite E1. cbn [rbind]. split; [exact E'|]. split; [exact R'|]. split; [congruence|]. split.
    + intros j [<-|Hj]; [|apply V'; exact Hj]. destruct (in_dec Nat.eq_dec k ks) as [I|I]; [apply V'; exact I|]. rewrite O' by exact I. exact V1.
    + intros j Hj. rewrite O' by (intros I; apply Hj; right; exact I). apply O1. intros ->. apply Hj. left. reflexivity.
Qed.
Print Assumptions C153_rounds.
(** The whole procedure: the exported gradient is the list of difference quotients, each the derivative somewhere between the two points. *)
Theorem C153_gradient : forall s n (f : nat -> R -> R) f' f0 delta ks s0 s1, create_fd s (Some (INR n)) = Ok s0 -> import_value s0 "Initial Value" [Some f0] = Ok s1 ->
  get (x_names s) "Gradient" = None -> 0 < delta -> (forall k, In k ks <-> (k < n)%nat) ->
  (** f k x: the value with parameter k changed by x *)
  (forall k, f k 0 = f0) -> (forall k x, derivable_pt_lim (f k) x (f' k x)) ->
  exists s2 s3 out, fd_rounds delta (fun k => f k delta) ks s1 = Ok s2 /\ export_value s2 "Gradient" n = Ok (s3, out) /\ List.length out = n /\
    forall k, (k < n)%nat -> exists x, 0 < x < delta /\ nth_error out k = Some (Some (f' k x)).
Proof.
  intros s n f f' f0 delta ks s0 s1 E0 E1 N Hd Hks Hf0 D. unfold create_fd in E0. rewrite round_nat in E0.
  replace (Z.ltb (Z.of_nat n) 0) with false in E0 by (symmetry; apply Z.ltb_ge; lia). injection E0 as <-.
  unfold import_value in E1. cbn [with_vals x_vals] in E1. rewrite !get_set in E1. cbn [String.eqb Ascii.eqb Bool.eqb] in E1. injection E1 as <-. rewrite Nat2Z.id.
  set (s1 := with_vals _ _).
  assert (R1 : ready s1 n f0).
  { unfold ready, s1, vector. cbn [with_vals x_vals]. rewrite !get_set. cbn [String.eqb Ascii.eqb Bool.eqb]. split; [apply repeat_length|]. split; [reflexivity|discriminate]. }
  destruct (C153_rounds s1 n f0 delta (fun k => f k delta) ks R1 ltac:(lra) ltac:(intros k Hk; apply Hks; exact Hk)) as (s2 & E2 & (L2 & _ & _) & N2 & V2 & _).
  exists s2. unfold export_value. rewrite N2. cbn [s1 with_vals x_names]. rewrite N.
  destruct n as [|n].
  { assert (ks = []) as -> by (destruct ks as [|k ks]; [reflexivity|]; pose proof (proj1 (Hks k) (or_introl eq_refl)); lia).
    injection E2 as <-. cbn [s1 with_vals x_vals]. rewrite !get_set. cbn [String.eqb Ascii.eqb Bool.eqb]. eexists. eexists. split; [reflexivity|]. split; [reflexivity|]. split; [reflexivity|]. intros k Hk. lia. }
  assert (G : exists g, get (x_vals s2) "Gradient" = Some g /\ vector s2 "Gradient" = g).
  { unfold vector in *. destruct (get (x_vals s2) "Gradient") as [g|]; [exists g; split; reflexivity|]. cbn in L2. discriminate L2. }
  destruct G as (g & Eg & Evg). rewrite Eg. rewrite Evg in L2, V2. eexists. eexists. split; [exact E2|]. split; [reflexivity|].
  rewrite <- L2, resize_same. split; [reflexivity|]. intros k Hk. rewrite L2 in Hk.
  destruct (MVT_cor2 (f k) (f' k) 0 delta Hd (fun x _ => D k x)) as (x & Ex & Hx). exists x. split; [exact Hx|].
  rewrite (V2 k) by (apply Hks; exact Hk). f_equal. f_equal. rewrite <- (Hf0 k), Ex. field. lra.
Qed.
Print Assumptions C153_gradient.
(** Without the parameter "Perturbed Index" the step is zero: the first entry is not a number, whatever the step asked for. *)
Theorem C153_no_index_refuted : ~ (forall s n f0 p delta s', ready s n f0 -> (0 < n)%nat -> delta <> 0 -> vector s "Perturbed Value" = [Some p] -> run_fd s delta None = Ok s' ->
  nth_error (vector s' "Gradient") 0 = Some (Some ((p - f0) / delta))).
Proof.
  intros H.
  pose (s := mkVapp [("Gradient", [Some 0]); ("Initial Value", [Some 1]); ("Perturbed Value", [Some 2])]%string [] [] [] []).
  assert (R0 : ready s 1 1) by (split; [reflexivity|split; [reflexivity|discriminate]]).
  specialize (H s 1%nat 1 2 1 (with_vals s (set (x_vals s) "Gradient" [None])) R0 ltac:(lia) ltac:(lra) eq_refl).
  assert (E : run_fd s 1 None = Ok (with_vals s (set (x_vals s) "Gradient" [None]))).
  { unfold run_fd, perturbation. cbn. destruct (Req_EM_T 0 0) as [_|N]; [reflexivity|]. exfalso. apply N. reflexivity. }
  specialize (H E). cbn in H. discriminate H.
Qed.
Print Assumptions C153_no_index_refuted.
(** Undefined: an index outside the gradient, values that were not imported, no parameter "Vector Length". *)
Theorem C153_undefined : (forall s delta i, (i < 0 \/ Z.of_nat (List.length (vector s "Gradient")) <= i)%Z -> run_fd s delta (Some (IZR i)) = UB) /\
  (forall s delta i, vector s "Perturbed Value" = [] \/ vector s "Initial Value" = [] -> run_fd s delta i = UB) /\ (forall s, create_fd s None = UB).
Proof.
  split; [|split].
  - intros s delta i H. unfold run_fd, perturbation. destruct (vector s "Perturbed Value") as [|p ps]; [reflexivity|]. destruct (vector s "Initial Value") as [|v vs]; [reflexivity|].
    assert (E : round (IZR i) = i).
    { unfold round. destruct (Rle_dec 0 (IZR i)) as [P|P].
      - destruct (base_Int_part (IZR i + / 2)) as [H1 H2]. set (j := Int_part (IZR i + / 2)) in *. clearbody j.
        assert (A : IZR j < IZR (i + 1)) by (rewrite plus_IZR; lra). assert (B : IZR i < IZR (j + 1)) by (rewrite plus_IZR; lra). apply lt_IZR in A. apply lt_IZR in B. lia.
      - destruct (base_Int_part (- IZR i + / 2)) as [H1 H2]. set (j := Int_part (- IZR i + / 2)) in *. clearbody j.
        assert (A : IZR j < IZR (- i + 1)) by (rewrite plus_IZR, opp_IZR; lra). assert (B : IZR (- i) < IZR (j + 1)) by (rewrite plus_IZR, opp_IZR; lra). apply lt_IZR in A. apply lt_IZR in B. lia. }
    rewrite E. destruct (Z.ltb_spec i 0) as [I|I]; [reflexivity|]. destruct (upd (vector s "Gradient") (Z.to_nat i) _) as [g|] eqn:U; [|reflexivity].
    apply upd_bound in U. lia.
  - intros s delta i H. unfold run_fd. destruct (perturbation delta i). destruct H as [-> | ->]; [reflexivity|]. destruct (vector s "Perturbed Value"); reflexivity.
  - reflexivity.
Qed.
Print Assumptions C153_undefined.
(** A second finite difference operation takes the result vector of the first. *)
Theorem C153_shared_refuted : ~ (forall s n m s1 s2 f0 delta p k, create_fd s (Some (INR n)) = Ok s1 -> create_fd s1 (Some (INR m)) = Ok s2 -> (k < n)%nat -> delta <> 0 ->
  forall s3, import_value s2 "Initial Value" [Some f0] = Ok s3 -> exists s4, fd_round delta p k s3 = Ok s4).
Proof.
  intros H.
  assert (C : forall s n, create_fd s (Some (INR n)) = Ok (with_vals s (set (set (set (x_vals s) "Initial Value" []) "Perturbed Value" []) "Gradient" (repeat (Some 0) n)))).
  { intros s n. unfold create_fd. rewrite round_nat. replace (Z.ltb (Z.of_nat n) 0) with false by (symmetry; apply Z.ltb_ge; lia). rewrite Nat2Z.id. reflexivity. }
  destruct (H (mkVapp [] [] [] [] []) 2%nat 1%nat _ _ 0 1 (fun _ => 0) 1%nat (C _ _) (C _ _) ltac:(lia) ltac:(lra) _ eq_refl) as [s4 E].
  unfold fd_round in E. cbn [import_value with_vals x_vals get set String.eqb Ascii.eqb Bool.eqb rbind] in E. change (INR 1) with (IZR 1) in E.
  rewrite (proj1 C153_undefined) in E; [discriminate E|]. right. vm_compute. discriminate.
Qed.
Print Assumptions C153_shared_refuted.
(** A perturbed field: the field of the values with one of them changed by the step; the values themselves are as before. *)
Theorem C153_perturbed_field : forall field s delta vals k v, vector s "MLS Values" = finite vals -> nth_error vals k = Some v ->
  exists s' w, run_perturbed field s delta (Some (INR k)) = Ok s' /\ vector s' "MLS Values" = finite vals /\ (forall k', k' <> "MLS Values"%string -> vector s' k' = vector s k') /\
    x_names s' = x_names s /\ x_crit s' = x_crit s /\ x_gradx s' = x_gradx s /\
    x_control s' = field (finite w) /\ List.length w = List.length vals /\ (forall j, j <> k -> nth_error w j = nth_error vals j) /\ nth_error w k = Some (v + delta).
Proof.
  intros field s delta vals k v Hv Hk.
  assert (U : forall x, exists w, upd vals k x = Some w /\ upd (finite vals) k (Some x) = Some (finite w)).
  { intros x. destruct (upd_some vals k x) as [w Ew]; [apply nth_error_Some; congruence|]. exists w. split; [exact Ew|].
    destruct (upd_some (finite vals) k (Some x)) as [w1 Ew1]; [unfold finite; rewrite map_length; apply nth_error_Some; congruence|]. rewrite Ew1. f_equal.
    apply list_ext_nth. intros j. destruct (Nat.eq_dec j k) as [->|N].
    - rewrite (upd_nth_same _ _ _ _ Ew1). unfold finite. rewrite nth_error_map, (upd_nth_same _ _ _ _ Ew). reflexivity.
    - rewrite (upd_nth_other _ _ _ _ _ Ew1 N). unfold finite. rewrite !nth_error_map. rewrite (upd_nth_other _ _ _ _ _ Ew N). reflexivity. }
  unfold run_perturbed, perturbation. rewrite round_nat, Hv. unfold add_at. replace (Z.ltb (Z.of_nat k) 0) with false by (symmetry; apply Z.ltb_ge; lia). rewrite Nat2Z.id.
  unfold finite at 1. rewrite nth_error_map, Hk. cbn [option_map nadd]. destruct (U (v + delta)) as (w & Ew & Efw). rewrite Efw.
  unfold finite at 1. rewrite nth_error_map, (upd_nth_same _ _ _ _ Ew). cbn [option_map nadd].
  assert (B : upd (finite w) k (Some (v + delta + - delta)) = Some (finite vals)).
  { replace (v + delta + - delta) with v by ring. destruct (upd_some (finite w) k (Some v)) as [w2 E2]; [unfold finite; rewrite map_length, (upd_length _ _ _ _ Ew); apply nth_error_Some; congruence|].
    rewrite E2. f_equal. apply list_ext_nth. intros j. destruct (Nat.eq_dec j k) as [->|N].
    - rewrite (upd_nth_same _ _ _ _ E2). unfold finite. rewrite nth_error_map, Hk. reflexivity.
    - rewrite (upd_nth_other _ _ _ _ _ E2 N). unfold finite. rewrite !nth_error_map, (upd_nth_other _ _ _ _ _ Ew N). reflexivity. }
  rewrite B. eexists. exists w. split; [reflexivity|]. unfold vector. cbn [x_vals x_names x_crit x_gradx x_control]. rewrite get_set, String.eqb_refl.
  split; [reflexivity|]. split; [intros k' Hk'; rewrite get_set; destruct (String.eqb_spec k' "MLS Values"); [contradiction|reflexivity]|].
  repeat split; [apply (upd_length _ _ _ _ Ew)|intros j N; apply (upd_nth_other _ _ _ _ _ Ew N)|apply (upd_nth_same _ _ _ _ Ew)].
Qed.
Print Assumptions C153_perturbed_field.
Theorem C153_perturbed_undefined : forall field s delta k, (List.length (vector s "MLS Values") <= k)%nat -> run_perturbed field s delta (Some (INR k)) = UB.
Proof.
  intros field s delta k H. unfold run_perturbed, perturbation, add_at. rewrite round_nat. replace (Z.ltb (Z.of_nat k) 0) with false by (symmetry; apply Z.ltb_ge; lia).
  rewrite Nat2Z.id. apply nth_error_None in H. rewrite H. reflexivity.
Qed.
Print Assumptions C153_perturbed_undefined.
Example C153_nonvacuous : exists s0 s1, create_fd (mkVapp [] [] [] [] []) (Some (INR 2)) = Ok s0 /\ import_value s0 "Initial Value" [Some 1] = Ok s1 /\ ready s1 2 1 /\
  (forall k, In k [1; 0; 1]%nat <-> (k < 2)%nat).
Proof.
  eexists. eexists. split; [unfold create_fd; rewrite round_nat; reflexivity|]. split; [reflexivity|]. split.
  - split; [reflexivity|split; [reflexivity|discriminate]].
  - intros k. cbn. lia.
Qed.
