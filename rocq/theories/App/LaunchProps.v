(** C156-C158: coupled programs and the Python module. *)
From Coq Require Import Reals String Ascii List Arith ZArith Bool Lia Lra.
From Verif Require Import Base.Res App.AppModel App.ValuesModel App.LaunchModel.
Import ListNotations.
Local Open Scope R_scope.
Local Open Scope string_scope.

(** ** C156: how the coupled programs end *)
Definition succeeded (c : calls) : Prop := c_interface c = true /\ c_comm c = true /\ c_app c = true /\ c_register c true = true /\ c_perform c = true.
(** A program that ends as it should: with zero exactly if everything succeeded, with another code otherwise. *)
Definition honest (program : calls -> ending) : Prop := forall c, (succeeded c -> program c = Exit 0) /\ (~ succeeded c -> exists n, program c = Exit (S n)).
Theorem C156_success : forall c, succeeded c -> analyze_mpmd c = Exit 0 /\ rocket_mpmd c = Exit 0 /\ rocket_main true = Exit 0.
Proof. intros c (A & B & C & D & E). unfold analyze_mpmd, rocket_mpmd. rewrite A, B, C, D, E. repeat split. Qed.
Print Assumptions C156_success.
(** The application of the optimiser: a failure to connect or to register gives exit code one... *)
Theorem C156_analyze_partial : forall c, c_comm c = true -> (c_interface c = false \/ c_register c (c_app c) = false) <-> analyze_mpmd c = Exit 1.
Proof.
  intros c H. unfold analyze_mpmd. rewrite H. cbn. destruct (c_interface c); cbn; [|split; [reflexivity|left; reflexivity]].
  destruct (c_register c (c_app c)); cbn; [|split; [reflexivity|right; reflexivity]]. destruct (c_perform c); cbn; split; try discriminate; intros [|]; discriminate.
Qed.
Print Assumptions C156_analyze_partial.
(** ... but a failure in the middle of the analysis is reported as success. *)
Theorem C156_analyze_refuted : ~ honest analyze_mpmd /\ forall c, c_interface c = true -> c_comm c = true -> c_register c (c_app c) = true -> c_perform c = false -> analyze_mpmd c = Exit 0.
Proof.
  split.
  - intros H. destruct (H (mkCalls true true true (fun _ => true) false)) as [_ F]. destruct F as [n E]; [|discriminate E]. intros (_ & _ & _ & _ & E). discriminate E.
  - intros c A B C D. unfold analyze_mpmd. rewrite A, B, C, D. reflexivity.
Qed.
Print Assumptions C156_analyze_refuted.
(** The rocket application has no exit code for a failure: it goes on with finalised libraries, or dies of the exception. *)
Theorem C156_rocket_refuted : ~ honest rocket_mpmd /\ forall c, ~ succeeded c -> rocket_mpmd c = Wild \/ rocket_mpmd c = Uncaught.
Proof.
  split.
  - intros H. destruct (H (mkCalls true true false (fun a => a) true)) as [_ F]. destruct F as [n E]; [|discriminate E]. intros (_ & _ & E & _). discriminate E.
  - intros c N. unfold rocket_mpmd, succeeded in *. destruct (c_interface c); [|left; reflexivity]. destruct (c_comm c); [|right; reflexivity]. cbn.
    destruct (c_app c); [|left; reflexivity]. cbn. destruct (c_register c true); [|left; reflexivity]. cbn. destruct (c_perform c); [|right; reflexivity]. exfalso. apply N. repeat split.
Qed.
Print Assumptions C156_rocket_refuted.
Theorem C156_main_refuted : rocket_main false = Wild.
Proof. reflexivity. Qed.
Print Assumptions C156_main_refuted.
Example C156_nonvacuous : succeeded (mkCalls true true true (fun a => a) true) /\ ~ succeeded (mkCalls true true true (fun a => a) false).
Proof. split; [repeat split|]. intros (_ & _ & _ & _ & E). discriminate E. Qed.

(** ** C157: life of Python objects *)
(** The objects alive after a history. *)
Definition alive (es : list event) : nat :=
  fold_left (fun n e => match e with Construct true => S n | Construct false => n | Delete => pred n | Call => n end) es 0%nat.
(** No construction fails, and none follows the deletion of the last object. *)
Fixpoint orderly (live : nat) (ended : bool) (es : list event) : Prop :=
  match es with
  | [] => True
  | Construct g :: r => g = true /\ ended = false /\ orderly (S live) false r
  | Delete :: r => match live with O => orderly 0 ended r | S O => orderly 0 true r | S n => orderly n ended r end
  | Call :: r => orderly live ended r
  end.
Definition sound (p : proc) (live : nat) (ended : bool) : Prop :=
  p_live p = live /\ p_count p = Z.of_nat live /\ p_mpi p = p_kokkos p /\
  match live with O => p_mpi p = (if ended then Down else Never) | S _ => p_mpi p = Up /\ ended = false end.
Lemma life_sound : forall es p live ended, sound p live ended -> orderly live ended es -> exists q, life p es = Ok q /\
  let l := fold_left (fun n e => match e with Construct true => S n | Construct false => n | Delete => pred n | Call => n end) es live in exists ended', sound q l ended'.
Proof.
  induction es as [|e es IH]; intros p live ended S O; [exists p; split; [reflexivity|exists ended; exact S]|].
  unfold life in *. cbn [foldR fold_left]. destruct S as (L & C & MK & M). destruct e as [[|]| |]; cbn [orderly] in O.
  - destruct O as (_ & En & O). assert (E : step p (Construct true) = Ok (mkProc (p_count p + 1) Up Up (Datatypes.S live))).
    { unfold step. destruct p as [c m k l]. cbn [p_live p_count p_mpi p_kokkos] in *. subst l m. destruct live as [|n].
      - subst ended. rewrite M. reflexivity.
      - destruct M as [-> _]. reflexivity. }
    rewrite E. cbn [rbind]. apply (IH _ (Datatypes.S live) false); [|exact O]. repeat split. cbn [p_count]. lia.
  - destruct O as (F & _). discriminate F.
  - cbn [pred]. destruct live as [|n].
    + assert (E : step p Delete = Ok p) by (unfold step; rewrite L; reflexivity). rewrite E. cbn [rbind]. apply (IH p 0%nat ended); [repeat split; assumption|exact O].
    + destruct M as [M ->]. unfold step. rewrite L. unfold dealloc. rewrite C. destruct n as [|n].
      * replace (Z.eqb (Z.of_nat 1 - 1) 0) with true by reflexivity. cbn [rbind p_count p_mpi p_kokkos]. apply (IH _ 0%nat true); [|exact O]. repeat split; cbn [p_mpi p_kokkos]; rewrite <- ?MK, M; reflexivity.
      * replace (Z.eqb (Z.of_nat (Datatypes.S (Datatypes.S n)) - 1) 0) with false by (symmetry; apply Z.eqb_neq; lia). cbn [rbind p_count p_mpi p_kokkos]. apply (IH _ (Datatypes.S n) false); [|exact O].
        repeat split; cbn [p_mpi p_kokkos p_count]; [lia|exact MK|exact M].
  - assert (E : step p Call = Ok p) by (unfold step; rewrite L; destruct live; [reflexivity|]; destruct M as [M _]; rewrite <- MK, M; reflexivity).
    rewrite E. cbn [rbind]. apply (IH p live ended); [repeat split; assumption|exact O].
Qed.
Theorem C157_orderly : forall es, orderly 0 false es -> exists q, life fresh es = Ok q /\ p_live q = alive es /\ (p_kokkos q = Up <-> (0 < alive es)%nat) /\ (p_mpi q = Up <-> (0 < alive es)%nat).
Proof.
  intros es O. destruct (life_sound es fresh 0 false) as (q & E & ended & S & _ & MK & M); [repeat split|exact O|]. exists q. split; [exact E|]. split; [exact S|]. rewrite <- MK. unfold alive.
  set (l := fold_left _ es 0%nat) in *. destruct l as [|n]; [destruct ended; rewrite M; split; split; (discriminate || lia)|]. destruct M as [-> _]. split; split; (reflexivity || lia).
Qed.
Print Assumptions C157_orderly.
(** Objects serve their callers in every history: *)
Definition serves (start : proc) : Prop := forall es, exists q, life start es = Ok q.
(** one construction with wrong arguments ends the libraries under a living object, *)
Theorem C157_failed_construction_refuted : ~ serves fresh /\ life fresh [Construct true; Construct false; Call] = UB.
Proof. split; [|reflexivity]. intros H. destruct (H [Construct true; Construct false; Call]) as [q E]. discriminate E. Qed.
Print Assumptions C157_failed_construction_refuted.
(** no object can be constructed after the last was deleted, *)
Theorem C157_again_refuted : forall es, orderly 0 false es -> alive es = 0%nat -> In (Construct true) es -> life fresh (es ++ [Construct true]) = UB.
Proof.
  intros es O A I. destruct (C157_orderly es O) as (q & E & L & K & M). unfold life in *. rewrite foldR_app, E. cbn [rbind foldR].
  destruct (life_sound es fresh 0 false) as (q' & E' & ended & S & C & MK & Mq); [repeat split|exact O|]. unfold life in E'. rewrite E in E'. injection E' as <-. fold (alive es) in *. rewrite A in Mq.
  assert (D : ended = true).
  { destruct ended; [reflexivity|]. exfalso.
    assert (P : forall es p live, In (Construct true) es \/ p_mpi p <> Never -> forall q, foldR (fun e p => step p e) es p = Ok q -> orderly live false es \/ orderly live true es -> p_mpi q <> Never).
    { clear. induction es as [|e es IH]; intros p live H q E O; [injection E as <-; destruct H as [[]|H]; exact H|]. cbn [foldR] in E.
      destruct (step p e) as [p1| |] eqn:E1; cbn [rbind] in E; try discriminate E.
      assert (Q : In (Construct true) es \/ p_mpi p1 <> Never).
      { destruct H as [[->|H]|H]; [right|left; exact H|right].
        - unfold step in E1. destruct (p_mpi p) eqn:Ep; cbn [p_mpi p_kokkos] in E1; [injection E1 as <-; discriminate|rewrite Ep in E1; destruct (p_kokkos p); try discriminate E1; injection E1 as <-; discriminate|rewrite Ep in E1; discriminate E1].
        - destruct e as [[|]| |]; unfold step in E1.
          + destruct (p_mpi p) eqn:Ep; [contradiction|rewrite Ep in E1; destruct (p_kokkos p); try discriminate E1; injection E1 as <-; discriminate|rewrite Ep in E1; discriminate E1].
          + injection E1 as <-. unfold dealloc. destruct (Z.eqb _ _); cbn [p_mpi]; [destruct (p_mpi p); [contradiction|discriminate|discriminate]|exact H].
          + destruct (p_live p); injection E1 as <-; [exact H|]. unfold dealloc. destruct (Z.eqb _ _); cbn [p_mpi]; [destruct (p_mpi p); [contradiction|discriminate|discriminate]|exact H].
          + destruct (p_live p); [injection E1 as <-; exact H|]. destruct (p_kokkos p); try discriminate E1. injection E1 as <-. exact H. }
      assert (O' : exists l, orderly l false es \/ orderly l true es).
      { destruct e as [g| |]; cbn [orderly] in O; [destruct O as [(_ & _ & O)|(_ & _ & O)]; eauto| |eauto]. destruct live as [|[|n]]; eauto. destruct O; eauto. }
      destruct O' as [l O']. apply (IH p1 l Q q E O'). }
    apply (P es fresh 0%nat (or_introl I) q E (or_introl O)). exact Mq. }
  rewrite D in Mq. unfold step. rewrite Mq. rewrite Mq. reflexivity.
Qed.
Print Assumptions C157_again_refuted.
(** and with MPI initialised by another module no object can be constructed at all. *)
Theorem C157_external_refuted : ~ serves with_mpi /\ life with_mpi [Construct true] = UB.
Proof. split; [|reflexivity]. intros H. destruct (H [Construct true]) as [q E]. discriminate E. Qed.
Print Assumptions C157_external_refuted.
Example C157_nonvacuous : orderly 0 false [Construct true; Call; Construct true; Delete; Call; Delete] /\ alive [Construct true; Call; Construct true; Delete; Call; Delete] = 0%nat.
Proof. cbn. repeat split. Qed.

(** ** C158: data from and to Python *)
(** The reply says that the data have been handed over, without error. *)
Definition handed_over (r : reply) (s : sent) : Prop := r_code r = 1%Z /\ r_error r = false /\ r_sent r = Some s.
Definition floats (l : list R) : pyval := PList (map PFloat l).
Lemma from_floats l : from_list (floats l) = Ok (l, false).
Proof.
  unfold from_list, floats. rewrite map_map. cbn [as_double fst]. rewrite map_id. f_equal. f_equal. induction l as [|x l IH]; [reflexivity|]. cbn. exact IH.
Qed.
Lemma known_in s l : In s l <-> known s l = true.
Proof.
  unfold known. rewrite existsb_exists. split; [intros H; exists s; split; [exact H|apply String.eqb_refl]|]. intros (x & H & E). apply String.eqb_eq in E. subst x. exact H.
Qed.
Theorem C158_fields_partial : forall g l,
  (List.length l = g_nodes g -> exists r, py_import g "Topology" "SCALAR_FIELD" (floats l) = Ok r /\ handed_over r (ToTopology l)) /\
  (List.length l = g_solution g -> exists r, py_import g "Solution" "SCALAR_FIELD" (floats l) = Ok r /\ handed_over r (ToSolution l)).
Proof.
  intros g l. split; intros H; unfold py_import; cbn [String.eqb Ascii.eqb Bool.eqb]; rewrite from_floats; cbn [rbind fst snd]; unfold import_field; cbn [String.eqb Ascii.eqb Bool.eqb];
    rewrite H, Nat.eqb_refl; cbn [rbind]; eexists; (split; [reflexivity|]); repeat split.
Qed.
Print Assumptions C158_fields_partial.
Theorem C158_values : forall g name, In name (g_values g) ->
  (forall l, exists r, py_import g name "SCALAR" (floats l) = Ok r /\ handed_over r (ToValue name l)) /\
  (forall x, exists r, py_import g name "SCALAR" (PFloat x) = Ok r /\ handed_over r (ToValue name [x])) /\
  (forall z, exists r, py_import g name "SCALAR" (PInt z) = Ok r /\ handed_over r (ToValue name [IZR z])).
Proof.
  intros g name H. apply known_in in H. unfold py_import. cbn [String.eqb Ascii.eqb Bool.eqb]. repeat split; intros l.
  - change (match floats l with PList _ => from_list (floats l) | _ => Ok ([fst (as_double (floats l))], snd (as_double (floats l))) end) with (from_list (floats l)).
    rewrite from_floats. cbn [rbind fst snd]. rewrite H. eexists. split; [reflexivity|]. repeat split.
  - cbn [rbind fst snd as_double]. rewrite H. eexists. split; [reflexivity|]. repeat split.
  - cbn [rbind fst snd as_double]. rewrite H. eexists. split; [reflexivity|]. repeat split.
Qed.
Print Assumptions C158_values.
(** A string without the character [c]. *)
Fixpoint without (c : ascii) (s : string) : Prop := match s with EmptyString => True | String a s' => a <> c /\ without c s' end.
Lemma app_assoc_s : forall a b c : string, (a ++ b) ++ c = a ++ b ++ c.
Proof. induction a as [|x a IH]; intros b c; cbn; [reflexivity|]. rewrite IH. reflexivity. Qed.
Lemma app_nil_s : forall a : string, a ++ "" = a.
Proof. induction a as [|x a IH]; cbn; [reflexivity|]. rewrite IH. reflexivity. Qed.
Lemma split_plain c : forall s t, without c s -> split_from c (Some t) s = [t ++ s].
Proof.
  induction s as [|a s IH]; intros t H; cbn [split_from]; [rewrite app_nil_s; reflexivity|]. destruct H as [N H]. destruct (Ascii.eqb_spec a c); [contradiction|].
  rewrite IH by exact H. rewrite app_assoc_s. reflexivity.
Qed.
Lemma split_first c : forall s t rest, without c s -> split_from c (Some t) (s ++ String c rest) = (t ++ s) :: split_from c None rest.
Proof.
  induction s as [|a s IH]; intros t rest H; cbn [append split_from].
  - rewrite Ascii.eqb_refl, app_nil_s. reflexivity.
  - destruct H as [N H]. destruct (Ascii.eqb_spec a c); [contradiction|]. rewrite IH by exact H. rewrite app_assoc_s. reflexivity.
Qed.
Lemma split_two c s rest : without c s -> split c (s ++ String c rest) = s :: split_from c None rest.
Proof.
  destruct s as [|a s]; intros H; cbn [append split split_from]; [rewrite Ascii.eqb_refl; reflexivity|]. destruct H as [N H]. destruct (Ascii.eqb_spec a c); [contradiction|].
  rewrite split_first by exact H. reflexivity.
Qed.
Lemma split_some c s : s <> "" -> without c s -> split_from c None s = [s].
Proof. destruct s as [|a s]; intros E H; [contradiction|]. cbn [split_from]. destruct H as [N H]. destruct (Ascii.eqb_spec a c); [contradiction|]. apply split_plain. exact H. Qed.
(** Parameters are named operation:parameter. *)
Theorem C158_parameters : forall g op par x, In op (g_ops g) -> without ":" op -> without ":" par -> par <> "" ->
  exists r, py_import g (op ++ ":" ++ par) "SCALAR_PARAMETER" (PFloat x) = Ok r /\ handed_over r (ToParameter op par x).
Proof.
  intros g op par x Ho Wo Wp Np. unfold py_import. cbn [String.eqb Ascii.eqb Bool.eqb]. change (":" ++ par) with (String ":" par). rewrite split_two by exact Wo. rewrite split_some by assumption.
  apply known_in in Ho. rewrite Ho. eexists. split; [reflexivity|]. repeat split.
Qed.
Print Assumptions C158_parameters.
(** What follows a second colon is dropped without notice, and a name without a colon is undefined behaviour. *)
Theorem C158_parameter_names : (forall g op par rest x, In op (g_ops g) -> without ":" op -> without ":" par ->
    exists r, py_import g (op ++ ":" ++ par ++ ":" ++ rest) "SCALAR_PARAMETER" (PFloat x) = Ok r /\ handed_over r (ToParameter op par x)) /\
  (forall g name data, without ":" name -> py_import g name "SCALAR_PARAMETER" data = UB).
Proof.
  split.
  - intros g op par rest x Ho Wo Wp. unfold py_import. cbn [String.eqb Ascii.eqb Bool.eqb]. change (":" ++ par ++ ":" ++ rest) with (String ":" (par ++ String ":" rest)). rewrite split_two by exact Wo.
    change (split_from ":" None (par ++ String ":" rest)) with (split ":" (par ++ String ":" rest)). rewrite split_two by exact Wp. apply known_in in Ho. rewrite Ho. eexists. split; [reflexivity|]. repeat split.
  - intros g name data W. unfold py_import. cbn [String.eqb Ascii.eqb Bool.eqb]. destruct (string_dec name "") as [->|N]; [reflexivity|]. unfold split. rewrite split_some by assumption. reflexivity.
Qed.
Print Assumptions C158_parameter_names.
(** A reply of one should mean that the data have been handed over.  Element fields, fields with other names and unknown types are dropped. *)
Theorem C158_dropped_refuted : ~ (forall g name type data r, py_import g name type data = Ok r -> r_code r = 1%Z -> r_error r = false -> r_sent r <> None) /\
  (forall g name l, exists r, py_import g name "ELEMENT_FIELD" (floats l) = Ok r /\ r = mkReply 1 false None) /\
  (forall g name l, name <> "Topology" -> name <> "Solution" -> py_import g name "SCALAR_FIELD" (floats l) = Ok (mkReply 1 false None)) /\
  (forall g name type data, ~ In type ["SCALAR_FIELD"; "ELEMENT_FIELD"; "SCALAR_PARAMETER"; "SCALAR"] -> py_import g name type data = Ok (mkReply 1 false None)).
Proof.
  assert (U : forall g name type data, ~ In type ["SCALAR_FIELD"; "ELEMENT_FIELD"; "SCALAR_PARAMETER"; "SCALAR"] -> py_import g name type data = Ok (mkReply 1 false None)).
  { intros g name type data N. unfold py_import. cbn [In] in N. destruct (String.eqb_spec type "SCALAR_FIELD") as [->|_]; [exfalso; apply N; auto|].
    destruct (String.eqb_spec type "ELEMENT_FIELD") as [->|_]; [exfalso; apply N; auto|]. destruct (String.eqb_spec type "SCALAR_PARAMETER") as [->|_]; [exfalso; apply N; auto|].
    destruct (String.eqb_spec type "SCALAR") as [->|_]; [exfalso; apply N; auto|]. reflexivity. }
  split; [|split; [|split; [|exact U]]].
  - intros H. apply (H (mkTarget 0 0 [] []) "Topology" "Field" POther (mkReply 1 false None)); try reflexivity.
  - intros g name l. unfold py_import. cbn [String.eqb Ascii.eqb Bool.eqb]. rewrite from_floats. eexists. split; reflexivity.
  - intros g name l N1 N2. unfold py_import. cbn [String.eqb Ascii.eqb Bool.eqb]. rewrite from_floats. cbn [rbind fst snd]. unfold import_field.
    destruct (String.eqb_spec name "Topology"); [contradiction|]. destruct (String.eqb_spec name "Solution"); [contradiction|]. reflexivity.
Qed.
Print Assumptions C158_dropped_refuted.
(** A list with integers in it is handed over as the right numbers, and yet an error is pending. *)
Definition number (v : pyval) (x : R) : Prop := v = PFloat x \/ exists z, v = PInt z /\ x = IZR z.
Theorem C158_integers_refuted : ~ (forall g vs xs, Forall2 number vs xs -> List.length xs = g_nodes g -> exists r, py_import g "Topology" "SCALAR_FIELD" (PList vs) = Ok r /\ handed_over r (ToTopology xs)) /\
  (forall g vs xs, Forall2 number vs xs -> List.length xs = g_nodes g -> exists r, py_import g "Topology" "SCALAR_FIELD" (PList vs) = Ok r /\ r_code r = 1%Z /\ r_sent r = Some (ToTopology xs) /\
    (r_error r = true <-> exists z, In (PInt z) vs)).
Proof.
  split.
  - intros H. destruct (H (mkTarget 1 0 [] []) [PInt 1] [1] ltac:(constructor; [right; exists 1%Z; split; reflexivity|constructor]) eq_refl) as (r & E & _ & Er & _).
    unfold py_import in E. cbn in E. injection E as <-. discriminate Er.
  - intros g vs xs F L. assert (M : map (fun x => fst (as_double x)) vs = xs).
    { clear L. induction F as [|v x vs xs [->|(z & -> & ->)] F IH]; cbn; [reflexivity|f_equal; exact IH|f_equal; exact IH]. }
    unfold py_import. cbn [String.eqb Ascii.eqb Bool.eqb from_list rbind fst snd]. rewrite M. unfold import_field. cbn [String.eqb Ascii.eqb Bool.eqb]. rewrite L, Nat.eqb_refl. cbn [rbind].
    eexists. split; [reflexivity|]. split; [reflexivity|]. split; [reflexivity|]. cbn [r_error]. rewrite existsb_exists. split.
    + intros (v & I & B). clear -F I B. induction F as [|w x vs xs N F IH]; [destruct I|]. destruct I as [->|I]; [|destruct (IH I) as [z Hz]; exists z; right; exact Hz].
      destruct N as [->|(z & -> & ->)]; [discriminate B|exists z; left; reflexivity].
    + intros [z I]. exists (PInt z). split; [exact I|reflexivity].
Qed.
Print Assumptions C158_integers_refuted.
(** Wrong sizes, unknown names and data that are no list end the process. *)
Theorem C158_fatal : (forall g l, List.length l <> g_nodes g -> py_import g "Topology" "SCALAR_FIELD" (floats l) = Throw) /\
  (forall g name data, ~ In name (g_values g) -> py_import g name "SCALAR" data = Throw) /\
  (forall g name type x, type = "SCALAR_FIELD" \/ type = "ELEMENT_FIELD" -> py_import g name type (PFloat x) = Throw).
Proof.
  split; [|split].
  - intros g l H. unfold py_import. cbn [String.eqb Ascii.eqb Bool.eqb]. rewrite from_floats. cbn [rbind fst snd]. unfold import_field. cbn [String.eqb Ascii.eqb Bool.eqb].
    destruct (Nat.eqb_spec (List.length l) (g_nodes g)); [contradiction|reflexivity].
  - intros g name data H. unfold py_import. cbn [String.eqb Ascii.eqb Bool.eqb]. destruct (known name (g_values g)) eqn:K; [exfalso; apply H, known_in; exact K|]. destruct data; reflexivity.
  - intros g name type x [->| ->]; reflexivity.
Qed.
Print Assumptions C158_fatal.
(** What was imported as a value comes back. *)
Theorem C158_round_trip : forall s name l s', import_value s name (map Some l) = Ok s' -> get (x_names s) name = None ->
  exists s'', py_export_value s' name (Z.of_nat (List.length l)) = Ok (s'', match l with [x] => OutFloat (Some x) | _ => OutList (map Some l) end).
Proof.
  intros s name l s' H N. unfold import_value in H. destruct (get (x_vals s) name) as [old|] eqn:G; [|discriminate H]. injection H as <-.
  unfold py_export_value. replace (Z.ltb (Z.of_nat (List.length l)) 0) with false by (symmetry; apply Z.ltb_ge; lia). rewrite Nat2Z.id. unfold export_value. cbn [with_vals x_names x_vals]. rewrite N.
  assert (GS : get (set (x_vals s) name (map Some l)) name = Some (map Some l)).
  { clear. induction (x_vals s) as [|[k v] m IH]; cbn; [rewrite String.eqb_refl; reflexivity|]. destruct (String.eqb_spec name k) as [->|D]; cbn; [rewrite String.eqb_refl; reflexivity|]. destruct (String.eqb_spec name k); [contradiction|exact IH]. }
  rewrite GS. cbn [rbind fst snd]. assert (RS : resize (map Some l) (List.length l) = map Some l).
  { unfold resize. rewrite map_length, Nat.sub_diag. cbn [repeat]. rewrite app_nil_r. rewrite <- (map_length Some l). apply firstn_all. }
  rewrite RS. destruct l as [|x [|y l]].
  - eexists. reflexivity.
  - eexists. reflexivity.
  - replace (Z.eqb (Z.of_nat (List.length (x :: y :: l))) 1) with false by (symmetry; apply Z.eqb_neq; cbn [List.length]; lia). eexists. reflexivity.
Qed.
Print Assumptions C158_round_trip.
Example C158_nonvacuous : let g := mkTarget 2 6 ["Solve"] ["Parameters"] in
  py_import g "Topology" "SCALAR_FIELD" (floats [1; 0]) = Ok (mkReply 1 false (Some (ToTopology [1; 0]))) /\ without ":" "Solve" /\ without ":" "Young".
Proof. split; [reflexivity|]. cbn. repeat split; discriminate. Qed.
