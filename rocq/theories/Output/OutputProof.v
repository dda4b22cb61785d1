(** Facts about copies, tags and the loop over the steps. *)
From Coq Require Import String List Arith Bool Lia.
From Verif Require Import Base.Res Blocks.BlocksModel Output.OutputModel Output.OutputSpec.
Import ListNotations.

Section Facts.
Context {A : Type}.

Lemma tag_add (t : tags A) name n v m : tag (add_tag t name n v) m = if String.eqb m name then Some (n, v) else tag t m.
Proof.
  induction t as [|[k x] t IH]; cbn [add_tag tag].
  - destruct (String.eqb m name); reflexivity.
  - destruct (String.eqb_spec k name) as [->|N]; cbn [tag].
    + destruct (String.eqb m name); reflexivity.
    + rewrite IH. destruct (String.eqb_spec m k) as [->|]; [|reflexivity].
      destruct (String.eqb_spec k name); [contradiction|reflexivity].
Qed.

Lemma mapR_total {B C} (f : B -> res C) (g : B -> C) l : (forall x, In x l -> f x = Ok (g x)) -> mapR f l = Ok (map g l).
Proof. induction l as [|x l IH]; intros H; [reflexivity|]. cbn. rewrite (H x) by (left; reflexivity). cbn. rewrite IH by (intros y Hy; apply H; right; exact Hy). reflexivity. Qed.

Lemma concat_nth {B} (w : nat) (rows : list (list B)) : (forall r, In r rows -> List.length r = w) ->
  List.length (concat rows) = List.length rows * w /\
  forall n i, n < List.length rows -> i < w -> nth_error (concat rows) (n * w + i) = match nth_error rows n with Some r => nth_error r i | None => None end.
Proof.
  induction rows as [|r rows IH]; intros H; [split; [reflexivity|cbn; intros; lia]|].
  assert (Hr : List.length r = w) by (apply H; left; reflexivity).
  destruct IH as [L N]; [intros x Hx; apply H; right; exact Hx|].
  split; [cbn; rewrite app_length, L, Hr; reflexivity|].
  intros n i Hn Hi. destruct n as [|n]; cbn [concat nth_error].
  - rewrite Nat.mul_0_l, Nat.add_0_l. rewrite nth_error_app1 by lia. reflexivity.
  - rewrite nth_error_app2 by (cbn; nia). replace (S n * w + i - List.length r) with (n * w + i) by (cbn; nia). apply N; [cbn in Hn; lia|exact Hi].
Qed.

(** A copy succeeds when the components are within the unknowns of a node. *)
Lemma copy_spec nin nout stride nv (row : list A) : List.length row = nv * nin -> stride + nout <= nin ->
  exists v, copy nin nout stride nv row = Ok v /\ List.length v = nv * nout /\
            forall n i, n < nv -> i < nout -> nth_error v (n * nout + i) = nth_error row (n * nin + stride + i).
Proof.
  intros L B. unfold copy. destruct row as [|a0 row0] eqn:R.
  - cbn in L. assert (C : nv = 0 \/ nin = 0) by nia. destruct C as [-> | ->].
    + cbn. exists []. split; [reflexivity|]. split; [reflexivity|]. intros; lia.
    + assert (nout = 0) as -> by lia. cbn [seq mapR].
      rewrite (mapR_total _ (fun _ => [])) by reflexivity. cbn.
      exists (concat (map (fun _ => []) (seq 0 nv))). split; [reflexivity|]. split; [|intros; lia].
      rewrite Nat.mul_0_r. induction (seq 0 nv) as [|x l IH]; [reflexivity|exact IH].
  - rewrite <- R in *. clear R row0.
    rewrite (mapR_total _ (fun n => map (fun i => nth (n * nin + (stride + i)) row a0) (seq 0 nout))).
    + cbn [rbind]. eexists. split; [reflexivity|].
      destruct (concat_nth nout (map (fun n => map (fun i => nth (n * nin + (stride + i)) row a0) (seq 0 nout)) (seq 0 nv))) as [LC NC].
      { intros r Hr. apply in_map_iff in Hr. destruct Hr as [n [<- _]]. rewrite map_length, seq_length. reflexivity. }
      rewrite map_length, seq_length in LC, NC. split; [exact LC|].
      intros n i Hn Hi. rewrite (NC n i Hn Hi).
      rewrite nth_error_map, (nth_error_nth' (seq 0 nv) 0) by (rewrite seq_length; exact Hn). rewrite seq_nth by exact Hn. cbn [option_map Nat.add].
      rewrite nth_error_map, (nth_error_nth' (seq 0 nout) 0) by (rewrite seq_length; exact Hi). rewrite seq_nth by exact Hi. cbn [option_map Nat.add].
      rewrite <- (nth_error_nth' row a0) by (rewrite L; nia). f_equal. lia.
    + intros n Hn. apply in_seq in Hn. apply mapR_total. intros i Hi. apply in_seq in Hi.
      rewrite (nth_error_nth' row a0) by (rewrite L; nia). reflexivity.
Qed.

Lemma put_spec nin (row : list A) name stride nout m : List.length row = nverts m * nin -> stride + nout <= nin ->
  exists v, put nin row name stride nout m = Ok (add_vtag m name nout v) /\ shows [(name, (nout, v))] name (nverts m) nin row stride nout.
Proof.
  intros L B. destruct (copy_spec nin nout stride (nverts m) row L B) as [v [E [Lv Nv]]]. exists v. unfold put. rewrite E. split; [reflexivity|].
  exists v. cbn. rewrite String.eqb_refl. repeat split; assumption.
Qed.
Lemma shows_tag (t t' : tags A) name nv nd row off w : shows t name nv nd row off w -> tag t' name = tag t name -> shows t' name nv nd row off w.
Proof. intros [v [T R]] E. exists v. rewrite E. split; [exact T|exact R]. Qed.

(** Element tags leave the rest of the mesh alone. *)
Lemma fold_mesh {E} (f : mesh A -> E -> mesh A) l : (forall m e, nverts (f m e) = nverts m /\ nelems (f m e) = nelems m /\ vtags (f m e) = vtags m) ->
  forall m, let m' := fold_left f l m in nverts m' = nverts m /\ nelems m' = nelems m /\ vtags m' = vtags m.
Proof.
  intros H. induction l as [|e l IH]; intros m; cbn; [repeat split|]. destruct (IH (f m e)) as [I1 [I2 I3]]. destruct (H m e) as [H1 [H2 H3]].
  cbn in *. rewrite I1, I2, I3. auto.
Qed.
Lemma element_tags_ok (m : mesh A) dm k : exists m', element_tags m dm k = Ok m' /\ nverts m' = nverts m /\ nelems m' = nelems m /\ vtags m' = vtags m.
Proof.
  unfold element_tags. destruct (Nat.ltb_spec k (List.length (d_saved dm))) as [H|H]; [|exists m; auto].
  unfold add_element_state_tags, get_state. destruct (d_saved dm) as [|s0 l] eqn:S; [cbn in H; lia|]. rewrite <- S in *.
  destruct (nth_error (d_saved dm) k) as [s|] eqn:N; [|apply nth_error_None in N; lia]. cbn [rbind].
  eexists. split; [reflexivity|].
  set (m1 := fold_left _ (d_vectors s) m).
  assert (P1 : nverts m1 = nverts m /\ nelems m1 = nelems m /\ vtags m1 = vtags m).
  { apply fold_mesh. intros m0 e. destruct (Nat.eqb _ _); auto. }
  destruct P1 as [<- [<- <-]]. apply fold_mesh. intros m0 e. destruct (Nat.eqb _ _); auto.
Qed.

(** The loop over the steps writes one frame per row, numbered in order; [P] relates a step to the mesh its tags were put on. *)
Lemma steps_spec (body : nat -> list A -> mesh A -> res (mesh A)) (rows : view A) (nv ne : nat) (P : nat -> list A -> mesh A -> Prop) :
  (forall k row m, nth_error rows k = Some row -> nverts m = nv -> nelems m = ne -> exists m', body k row m = Ok m' /\ nverts m' = nv /\ nelems m' = ne /\ P k row m') ->
  forall m, nverts m = nv -> nelems m = ne ->
  exists m' fs, steps body rows m = Ok (m', fs) /\ List.length fs = List.length rows /\
    forall k row, nth_error rows k = Some row -> exists f mk, nth_error fs k = Some f /\ f = write_frame k k mk /\ P k row mk.
Proof.
  intros H m Hm He. unfold steps.
  assert (G : forall n, n <= List.length rows -> exists m' fs,
    foldR (fun k st => let! row := ub (nth_error rows k) in let! m' := body k row (fst st) in Ok (m', snd st ++ [write_frame k k m'])) (seq 0 n) (m, []) = Ok (m', fs)
    /\ nverts m' = nv /\ nelems m' = ne /\ List.length fs = n /\
    forall k row, k < n -> nth_error rows k = Some row -> exists f mk, nth_error fs k = Some f /\ f = write_frame k k mk /\ P k row mk).
  { induction n as [|n IH]; intros Hn.
    - exists m, []. cbn. repeat split; try assumption. intros; lia.
    - destruct IH as [m1 [fs [E [V [Ne [L F]]]]]]; [lia|].
      rewrite seq_S, foldR_app, E. cbn [rbind foldR Nat.add fst snd].
      destruct (nth_error rows n) as [row|] eqn:R; [|apply nth_error_None in R; lia]. cbn [ub rbind].
      destruct (H n row m1 R V Ne) as [m2 [E2 [V2 [Ne2 P2]]]]. rewrite E2. cbn [rbind].
      exists m2, (fs ++ [write_frame n n m2]). split; [reflexivity|]. split; [exact V2|]. split; [exact Ne2|].
      split; [rewrite app_length, L; cbn; lia|].
      intros k r Hk Rk. destruct (Nat.eq_dec k n) as [->|Nk].
      + exists (write_frame n n m2), m2. rewrite nth_error_app2 by lia. rewrite L, Nat.sub_diag. split; [reflexivity|]. split; [reflexivity|].
        rewrite R in Rk. injection Rk as <-. exact P2.
      + destruct (F k r) as [f [mk [E3 R3]]]; [lia|exact Rk|]. exists f, mk. split; [|exact R3]. rewrite nth_error_app1 by lia. exact E3. }
  destruct (G (List.length rows) (le_n _)) as [m' [fs [E [V [Ne [L F]]]]]].
  exists m', fs. split; [exact E|]. split; [exact L|]. intros k row R. apply F; [|exact R]. apply nth_error_Some. rewrite R. discriminate.
Qed.
End Facts.
