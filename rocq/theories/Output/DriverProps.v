(** C139: what the stand-alone program does and reports. *)
From Coq Require Import String Ascii List Arith Bool Lia.
From Verif Require Import Base.Res Blocks.BlocksModel Output.OutputModel Output.OutputSpec.
Import ListNotations.
Local Open Scope string_scope.
Local Open Scope nat_scope.

(** ** Specification *)
(** [sub] occurs in [s]. *)
Definition occurs (sub s : string) : Prop := exists a b, s = a ++ sub ++ b.
(** The dimension a request asks for, and whether the program was compiled for it. *)
Definition asked (q : request) : nat := match q_dim q with Some d => d | None => 3 end.
Definition compiled (ds : dims) (d : nat) : Prop := (d = 1 /\ has1 ds = true) \/ (d = 2 /\ has2 ds = true) \/ (d = 3 /\ has3 ds = true).
(** The input the program asks for: a mesh file named with '.exo', and 'Physics' absent or set to 'Plato Driver'. *)
Definition acceptable (q : request) (name : string) : Prop :=
  q_mesh q = Some name /\ occurs ".exo" name /\ (q_physics q = None \/ q_physics q = Some "Plato Driver").

(** ** Proofs *)
Lemma substring_all s : forall b, substring 0 (String.length s) (s ++ b) = s.
Proof. induction s as [|c s IH]; intros b; cbn; [destruct b; reflexivity|]. rewrite IH. reflexivity. Qed.
Lemma substring_after a : forall s b, substring (String.length a) (String.length s) (a ++ s ++ b) = s.
Proof. induction a as [|c a IH]; intros s b; cbn [String.length append substring]; [apply substring_all|apply IH]. Qed.
Lemma substring_prefix sub : forall s, substring 0 (String.length sub) s = sub -> exists b, s = sub ++ b.
Proof.
  induction sub as [|c sub IH]; intros s H; [exists s; reflexivity|]. destruct s as [|c' s]; [discriminate|]. cbn in H. injection H as -> H.
  destruct (IH s H) as [b ->]. exists b. reflexivity.
Qed.
Lemma substring_occurs n : forall sub s, substring n (String.length sub) s = sub -> sub <> "" -> occurs sub s.
Proof.
  induction n as [|n IH]; intros sub s H N.
  - destruct (substring_prefix sub s H) as [b ->]. exists "", b. reflexivity.
  - destruct s as [|c s]; [cbn in H; congruence|]. cbn in H. destruct (IH sub s H N) as [a [b ->]]. exists (String c a), b. reflexivity.
Qed.
Lemma index_occurs sub s : sub <> "" -> (index 0 sub s <> None <-> occurs sub s).
Proof.
  intros N. split.
  - intros H. destruct (index 0 sub s) as [n|] eqn:E; [|congruence]. apply (substring_occurs n); [|exact N]. apply (index_correct1 0 n). exact E.
  - intros [a [b ->]] E. apply (index_correct3 0 (String.length a) sub (a ++ sub ++ b) E N (Nat.le_0_l _)). apply substring_after.
Qed.
Lemma check_ok q name : error_check q = Ok name <-> acceptable q name.
Proof.
  unfold error_check, acceptable. destruct (q_mesh q) as [n|]; [|split; [discriminate|intros [H _]; discriminate]].
  pose proof (index_occurs ".exo" n ltac:(discriminate)) as I. destruct (index 0 ".exo" n) as [k|].
  - assert (O : occurs ".exo" n) by (apply I; discriminate).
    destruct (q_physics q) as [p|]; [destruct (String.eqb_spec p "Plato Driver") as [->|P]|]; cbn [String.eqb Ascii.eqb Bool.eqb].
    + split; [intros E; injection E as ->|intros [E _]; injection E as ->]; auto.
    + split; [discriminate|]. intros [_ [_ [H|H]]]; [discriminate|injection H as ->; congruence].
    + split; [intros E; injection E as ->|intros [E _]; injection E as ->]; auto.
  - split; [discriminate|]. intros [E [O _]]. injection E as ->. exfalso. apply I in O. congruence.
Qed.
Lemma check_throws q : (forall name, ~ acceptable q name) -> error_check q = Throw.
Proof.
  intros H. destruct (error_check q) as [name| |] eqn:E; [|reflexivity|].
  - exfalso. apply (H name). apply check_ok. exact E.
  - unfold error_check in E. destruct (q_mesh q); [|discriminate]. destruct (index _ _ _); [|discriminate]. destruct (String.eqb _ _); discriminate.
Qed.

Section Program.
Context {A : Type} (one : A).
Variable read_mesh : string -> res (mesh A).
Variable solve : created -> nat -> mesh A -> list A -> res (solution A * datamap A).
Variable b : build.
Variable ds : dims.

(** The analysis that was asked for: the mesh is read, the problem created, solved with full material everywhere, and what is written is the
    output of that solution. *)
Definition analysed (d : nat) (q : request) (name : string) (fs : list (frame A)) : Prop :=
  exists m s p x dm m', read_mesh name = Ok m /\ create b (q_phys q) (q_pde q) = Ok (Problem s p) /\
    solve (Problem s p) d m (repeat one (nverts m)) = Ok (x, dm) /\ output d (q_phys q) (q_pde q) x dm m = Ok (m', fs).

Lemma run_dim_ok d q name r : run_dim one read_mesh solve b d q name = Ok r <-> exists fs, r = Written fs /\ analysed d q name fs.
Proof.
  unfold run_dim, analysed. split.
  - intros H. destruct (read_mesh name) as [m| |]; cbn [rbind] in H; try discriminate.
    destruct (create b (q_phys q) (q_pde q)) as [[s p|]| |]; cbn [rbind] in H; try discriminate.
    destruct (solve (Problem s p) d m (repeat one (nverts m))) as [[x dm]| |] eqn:S; cbn [rbind] in H; try discriminate.
    cbn [fst snd] in H. destruct (output d (q_phys q) (q_pde q) x dm m) as [[m' fs]| |] eqn:O; cbn [rbind] in H; try discriminate.
    injection H as <-. exists fs. split; [reflexivity|]. exists m, s, p, x, dm, m'. auto.
  - intros [fs [-> [m [s [p [x [dm [m' [-> [-> [H O]]]]]]]]]]]. cbn [rbind]. rewrite H. cbn [rbind fst snd]. rewrite O. reflexivity.
Qed.
Lemma driver_dim q name d : asked q = d -> compiled ds d -> driver one read_mesh solve b ds q name = run_dim one read_mesh solve b d q name.
Proof. unfold driver, asked. intros -> [[-> H]|[[-> H]|[-> H]]]; cbn; rewrite H; reflexivity. Qed.

(** With a dimension from one to three and no query, the program reports success exactly when the input is acceptable, the program was
    compiled for the dimension and the analysis was carried out and written. *)
Theorem C139_success_partial : forall q r, q_query q = false -> 1 <= asked q <= 3 ->
  (program one read_mesh solve b ds q = Ok (0, r) <->
   exists name fs, acceptable q name /\ compiled ds (asked q) /\ analysed (asked q) q name fs /\ r = Written fs).
Proof.
  intros q r Q D. unfold program, run. rewrite Q. split.
  - intros H. destruct (error_check q) as [name| |] eqn:E; cbn [rbind] in H; try discriminate. apply check_ok in E.
    assert (C : compiled ds (asked q) \/ driver one read_mesh solve b ds q name = Throw).
    { unfold driver, compiled. fold (asked q). assert (X : asked q = 1 \/ asked q = 2 \/ asked q = 3) by lia. destruct X as [-> |[-> | -> ]]; cbn;
        [destruct (has1 ds)|destruct (has2 ds)|destruct (has3 ds)]; auto 6. }
    destruct C as [C|C]; [|rewrite C in H; discriminate]. rewrite (driver_dim q name _ eq_refl C) in H.
    destruct (run_dim one read_mesh solve b (asked q) q name) as [y| |] eqn:Y; try discriminate. injection H as <-.
    apply run_dim_ok in Y. destruct Y as [fs [-> An]]. exists name, fs. auto.
  - intros [name [fs [E [C [An ->]]]]]. apply check_ok in E. rewrite E. cbn [rbind]. rewrite (driver_dim q name _ eq_refl C).
    rewrite (proj2 (run_dim_ok (asked q) q name (Written fs))) by (exists fs; auto). reflexivity.
Qed.
(** Input that is not acceptable, or a dimension the program was not compiled for, ends with the failure code before any mesh is read. *)
Theorem C139_refused : forall q, q_query q = false -> 1 <= asked q <= 3 -> (forall name, ~ acceptable q name) \/ ~ compiled ds (asked q) ->
  program one read_mesh solve b ds q = Ok (1, Nothing).
Proof.
  intros q Q D H. unfold program, run. rewrite Q. destruct H as [H|H].
  - rewrite (check_throws q H). reflexivity.
  - destruct (error_check q) as [name| |] eqn:E; cbn [rbind]; [|reflexivity|].
    + unfold driver, compiled in *. fold (asked q). assert (X : asked q = 1 \/ asked q = 2 \/ asked q = 3) by lia.
      destruct X as [X|[X|X]]; rewrite X in *; cbn; [destruct (has1 ds)|destruct (has2 ds)|destruct (has3 ds)]; try reflexivity; exfalso; apply H; auto.
    + unfold error_check in E. destruct (q_mesh q); [|discriminate]. destruct (index _ _ _); [|discriminate]. destruct (String.eqb _ _); discriminate.
Qed.
(** A query reads no mesh and runs nothing, whatever else the input holds. *)
Theorem C139_query : forall q, q_query q = true -> program one read_mesh solve b ds q = Ok (0, Queried).
Proof. intros q H. unfold program, run. rewrite H. reflexivity. Qed.
(** A dimension other than one to three is not refused: the program reports success and has done nothing. *)
Theorem C139_dimension_refuted : forall q name, q_query q = false -> acceptable q name -> ~ (1 <= asked q <= 3) ->
  program one read_mesh solve b ds q = Ok (0, Nothing).
Proof.
  intros q name Q E D. apply check_ok in E. unfold program, run. rewrite Q, E. cbn [rbind]. unfold driver. fold (asked q).
  destruct (Nat.eqb_spec (asked q) 3); [lia|]. destruct (Nat.eqb_spec (asked q) 2); [lia|]. destruct (Nat.eqb_spec (asked q) 1); [lia|]. reflexivity.
Qed.
(** The physics 'StructuralDynamics' is not refused either: the factory's null pointer is dereferenced. *)
Theorem C139_structural_refuted : forall q name m, q_query q = false -> acceptable q name -> compiled ds (asked q) -> read_mesh name = Ok m -> q_phys q = "StructuralDynamics" ->
  program one read_mesh solve b ds q = UB.
Proof.
  intros q name m Q E C R P. apply check_ok in E. unfold program, run. rewrite Q, E. cbn [rbind]. rewrite (driver_dim q name _ eq_refl C).
  unfold run_dim. rewrite R. cbn [rbind]. rewrite P.
  destruct b as [be bp bh bs]. destruct bs; cbn; reflexivity.
Qed.
End Program.

(** The check of the extension looks for '.exo' anywhere in the name. *)
Theorem C139_extension_refuted : error_check (mkReq false (Some "beam.exo.backup.txt") None None "Thermal" "Elliptic") = Ok "beam.exo.backup.txt".
Proof. reflexivity. Qed.

Example C139_reachable :
  let rm := fun _ : string => Ok (mkMesh 2 1 [] []) in
  let sv := fun (_ : created) (_ : nat) (_ : mesh nat) (c : list nat) => Ok (mkSol [map (fun z => z + 1) c] [] [], mkData (mkDmap [] []) []) in
  let q := mkReq false (Some "rod.exo") None (Some 1) "Thermal" "Elliptic" in
  exists fs, program 1 rm sv (mkBuild true true true true) (mkDims true true true) q = Ok (0, Written fs) /\
  (exists f, fs = [f] /\ tag (f_nodal f) "Temperature" = Some (1, [2; 2])) /\
  acceptable q "rod.exo" /\ compiled (mkDims true true true) (asked q) /\ ~ compiled (mkDims false true true) (asked q).
Proof.
  cbn zeta. eexists. split; [reflexivity|]. split; [eexists; split; reflexivity|]. split; [|split].
  - split; [reflexivity|]. split; [exists "rod", ""; reflexivity|left; reflexivity].
  - left. split; reflexivity.
  - intros [[_ H]|[[H _]|[H _]]]; discriminate.
Qed.

Print Assumptions C139_success_partial.
Print Assumptions C139_refused.
Print Assumptions C139_query.
Print Assumptions C139_dimension_refuted.
Print Assumptions C139_structural_refuted.
Print Assumptions C139_extension_refuted.
