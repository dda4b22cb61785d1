(** C142: meshes and fields from text files. *)
From Coq Require Import List Arith Lia.
From Verif Require Import Base.Res Base.ListUpd Rocket.TextMeshModel.
Import ListNotations.

Lemma upd_app {A} (a : list A) x b v : upd (a ++ x :: b) (length a) v = Some (a ++ v :: b).
Proof. induction a as [|y a IH]; [reflexivity|]. cbn. rewrite IH. reflexivity. Qed.
Lemma repeat_S_end {A} (x : A) n : repeat x (S n) = repeat x n ++ [x].
Proof. induction n as [|n IH]; [reflexivity|]. cbn [repeat] in *. rewrite IH at 1. reflexivity. Qed.
Lemma nth_error_firstn {A} (l : list A) n k : k < n -> nth_error (firstn n l) k = nth_error l k.
Proof. revert l k; induction n as [|n IH]; intros l k H; [lia|]. destruct l as [|x l]; [destruct k; reflexivity|]. destruct k; [reflexivity|]. cbn. apply IH. lia. Qed.
Lemma nth_error_skipn {A} (l : list A) n k : nth_error (skipn n l) k = nth_error l (n + k).
Proof. revert l; induction n as [|n IH]; intros l; [reflexivity|]. destruct l as [|x l]; [destruct k; reflexivity|]. apply IH. Qed.

(** Fields.  A file with at most as many values as asked for is read in order, and zeros follow; a longer one is written outside the vector. *)
Theorem C142_field : forall A (zero : A) len file,
  (length file <= len -> read_data zero len file = Ok (file ++ repeat zero (len - length file))) /\
  (len < length file -> read_data zero len file = UB).
Proof.
  intros A zero len file.
  assert (H : forall file done, foldR (fun v s => let! out := ub (upd (fst s) (snd s) v) in Ok (out, S (snd s))) file
                 (done ++ repeat zero (len - length done), length done) =
               if le_dec (length done + length file) len then Ok (done ++ file ++ repeat zero (len - length done - length file), length done + length file)
               else if le_dec (length done) len then UB else match file with [] => Ok (done, length done) | _ => UB end).
  { clear. induction file as [|v file IH]; intros done.
    - cbn [foldR length app]. rewrite Nat.add_0_r, Nat.sub_0_r. destruct (le_dec (length done) len); [reflexivity|].
      replace (len - length done) with 0 by lia. cbn. rewrite app_nil_r. reflexivity.
    - cbn [foldR fst snd]. destruct (len - length done) as [|k] eqn:E.
      + assert (U : upd (done ++ repeat zero 0) (length done) v = None).
        { cbn. rewrite app_nil_r. clear. induction done as [|x done IH]; [reflexivity|]. cbn. rewrite IH. reflexivity. }
        rewrite U. cbn [ub rbind length]. destruct (le_dec _ _); [lia|]. destruct (le_dec _ _); reflexivity.
      + cbn [repeat]. rewrite upd_app. cbn [ub rbind].
        specialize (IH (done ++ [v])). rewrite app_length in IH. cbn [length] in IH.
        replace (len - (length done + 1)) with k in IH by lia. rewrite <- app_assoc in IH. cbn [app] in IH.
        replace (S (length done)) with (length done + 1) by lia. rewrite IH. cbn [length].
        destruct (le_dec (length done + 1 + length file) len), (le_dec (length done + S (length file)) len); try lia.
        * rewrite <- app_assoc. cbn [app]. replace (len - length done - S (length file)) with (len - (length done + 1) - length file) by lia. replace (length done + S (length file)) with (length done + 1 + length file) by lia. reflexivity.
        * destruct (le_dec (length done + 1) len), (le_dec (length done) len); try lia. reflexivity. }
  specialize (H file []). cbn [app length Nat.add] in H. rewrite Nat.sub_0_r in H. unfold read_data. rewrite H. clear H. split; intros Hl.
  - destruct (le_dec _ _); [|lia]. cbn. reflexivity.
  - destruct (le_dec _ _); [lia|]. destruct (le_dec _ _); [reflexivity|lia].
Qed.
Print Assumptions C142_field.
Example C142_field_reachable : read_data 0 4 [5; 6; 7] = Ok [5; 6; 7; 0] /\ read_data 0 2 [5; 6; 7] = UB.
Proof. split; reflexivity. Qed.
Theorem C142_transform : forall A (input : list A), transform input = Ok (map Some input).
Proof.
  intros A input. unfold transform.
  destruct (foldR_inv (fun i out => let! x := ub (nth_error input i) in ub (upd out i (Some x)))
      (fun l out => out = map Some (firstn (length l) input) ++ repeat None (length input - length l))
      (seq 0 (length input)) (repeat None (length input))) as (out & E & P).
  - cbn. rewrite Nat.sub_0_r. reflexivity.
  - intros l1 x l2 s El ->. assert (Hx : x = length l1 /\ length l1 < length input).
    { assert (length (seq 0 (length input)) = length (l1 ++ x :: l2)) by (rewrite El; reflexivity). rewrite seq_length, app_length in H. cbn in H.
      assert (nth (length l1) (seq 0 (length input)) 0 = x) by (rewrite El; rewrite app_nth2, Nat.sub_diag by lia; reflexivity).
      rewrite seq_nth in H0 by lia. split; [cbn in H0; lia|lia]. }
    destruct Hx as [-> Hl]. destruct (nth_error input (length l1)) as [v|] eqn:Ev; [|apply nth_error_None in Ev; lia]. cbn [ub rbind].
    destruct (length input - length l1) as [|k] eqn:Ek; [lia|]. cbn [repeat].
    assert (L1 : length (map Some (firstn (length l1) input)) = length l1) by (rewrite map_length, firstn_length; lia).
    pose proof (upd_app (map Some (firstn (length l1) input)) None (repeat None k) (Some v)) as U. rewrite L1 in U. rewrite U.
    eexists. split; [reflexivity|]. rewrite app_length. cbn [length]. replace (length input - (length l1 + 1)) with k by lia.
    assert (F : firstn (length l1 + 1) input = firstn (length l1) input ++ [v]).
    { apply list_eq_nth.
      - rewrite app_length, !firstn_length. cbn. lia.
      - intros i Hi. rewrite firstn_length in Hi. rewrite nth_error_firstn by lia. destruct (Nat.eq_dec i (length l1)) as [->|h].
        + rewrite nth_error_app2; rewrite firstn_length; [|lia]. replace (length l1 - Nat.min (length l1) (length input)) with 0 by lia. exact Ev.
        + rewrite nth_error_app1 by (rewrite firstn_length; lia). rewrite nth_error_firstn by lia. reflexivity. }
    rewrite F, map_app, <- app_assoc. reflexivity.
  - rewrite seq_length, firstn_all, Nat.sub_diag in P. cbn in P. rewrite app_nil_r in P. rewrite E, P. reflexivity.
Qed.
Print Assumptions C142_transform.

(** Meshes. *)
Section Rows.
Context {A : Type}.
(** After [n] values: the vectors pushed are the complete groups of [d]; the vector being filled starts with the values of the group not yet complete. *)
Definition group (d : nat) (file : list A) (i : nat) : list (option A) := map Some (firstn d (skipn (i * d) file)).
Definition state_after (d : nat) (file : list A) (s : reading (A := A)) : Prop :=
  r_count s = length file /\ r_index s = length file mod d /\ length (r_vector s) = d /\
  r_rows s = map (group d file) (seq 0 (length file / d)) /\
  (forall j, j < length file mod d -> nth_error (r_vector s) j = option_map Some (nth_error file (length file / d * d + j))).
Lemma group_ext d file v i : i < length file / d -> 0 < d -> group d (file ++ [v]) i = group d file i.
Proof.
  intros Hi Hd. unfold group. f_equal. assert (i * d + d <= length file).
  { pose proof (Nat.div_mod (length file) d ltac:(lia)). nia. }
  rewrite skipn_app, firstn_app. replace (d - length (skipn (i * d) file)) with 0 by (rewrite skipn_length; lia). cbn. apply app_nil_r.
Qed.
Lemma read_loop_state d file : 0 < d -> exists s, read_loop d file = Ok s /\ state_after d file s.
Proof.
  intros Hd. unfold read_loop. apply (foldR_inv (read_value d) (fun l s => state_after d l s)).
  - unfold state_after. cbn. rewrite Nat.mod_small, Nat.div_small by lia. repeat split; try (rewrite repeat_length; reflexivity). intros j Hj. lia.
  - intros l1 v l2 s _ (Ec & Ei & El & Er & Ev). unfold read_value.
    pose proof (Nat.mod_upper_bound (length l1) d ltac:(lia)) as Hm. pose proof (Nat.div_mod (length l1) d ltac:(lia)) as Hdm.
    destruct (upd_some (r_vector s) (r_index s) (Some v) ltac:(lia)) as [vec Evec]. rewrite Evec. cbn [ub rbind]. rewrite Ec, Ei in *.
    pose proof (upd_length _ _ _ _ Evec) as Lvec.
    assert (Hv : forall j, j <= length l1 mod d -> nth_error vec j = option_map Some (nth_error (l1 ++ [v]) (length l1 / d * d + j))).
    { intros j Hj. destruct (Nat.eq_dec j (length l1 mod d)) as [->|h].
      - rewrite (upd_nth_same _ _ _ _ Evec). rewrite nth_error_app2 by nia. replace (length l1 / d * d + length l1 mod d - length l1) with 0 by nia. reflexivity.
      - rewrite (upd_nth_other _ _ _ _ _ Evec) by exact h. rewrite Ev by lia. rewrite nth_error_app1 by nia. reflexivity. }
    assert (Hsplit : (S (length l1) mod d = 0 /\ S (length l1) / d = S (length l1 / d) /\ length l1 mod d = d - 1) \/
                     (S (length l1) mod d = S (length l1 mod d) /\ S (length l1) / d = length l1 / d)).
    { destruct (Nat.eq_dec (S (length l1 mod d)) d) as [e|e].
      - left. assert (Q : S (length l1) = S (length l1 / d) * d) by nia. rewrite Q. split; [apply Nat.mod_mul; lia|]. split; [apply Nat.div_mul; lia|lia].
      - right. assert (Q : S (length l1) = S (length l1 mod d) + length l1 / d * d) by nia. rewrite Q. split.
        + rewrite Nat.mod_add by lia. apply Nat.mod_small. lia.
        + rewrite Nat.div_add by lia. rewrite Nat.div_small by lia. reflexivity. }
    assert (Lapp : length (l1 ++ [v]) = S (length l1)) by (rewrite app_length; cbn; lia).
    destruct Hsplit as [(Q1 & Q2 & Q3)|(Q1 & Q2)].
    + rewrite Q1. cbn [Nat.eqb]. eexists. split; [reflexivity|]. unfold state_after. cbn [r_count r_index r_vector r_rows]. rewrite Lapp, Q1, Q2.
      split; [reflexivity|]. split; [reflexivity|]. split; [lia|]. split; [|intros j Hj; lia].
      rewrite seq_S, map_app, Er. cbn [Nat.add map]. f_equal.
      * apply map_ext_in. intros i Hi. apply in_seq in Hi. symmetry. apply group_ext; lia.
      * f_equal. apply list_eq_nth.
        { unfold group. rewrite map_length, firstn_length, skipn_length, Lapp. nia. }
        intros j Hj. rewrite Lvec, El in Hj. rewrite Hv by lia. unfold group. rewrite nth_error_map, nth_error_firstn by lia. rewrite nth_error_skipn. reflexivity.
    + rewrite Q1. cbn [Nat.eqb]. eexists. split; [reflexivity|]. unfold state_after. cbn [r_count r_index r_vector r_rows]. rewrite Lapp, Q1, Q2.
      split; [reflexivity|]. split; [reflexivity|]. split; [lia|]. split; [|intros j Hj; apply Hv; lia].
      rewrite Er. apply map_ext_in. intros i Hi. apply in_seq in Hi. symmetry. apply group_ext; lia.
Qed.

Lemma inner_copy d (file : list A) i : forall n out, n <= d -> (i + 1) * d <= length file -> length out = length file ->
  exists out', foldR (fun j out => let! row := ub (nth_error (map (group d file) (seq 0 (length file / d))) i) in
                        let! x := ub (nth_error row j) in ub (upd out (i * d + j) x)) (seq 0 n) out = Ok out' /\
    length out' = length file /\
    (forall k, i * d <= k < i * d + n -> nth_error out' k = option_map Some (nth_error file k)) /\
    (forall k, ~ (i * d <= k < i * d + n) -> nth_error out' k = nth_error out k).
Proof.
  induction n as [|n IH]; intros out Hn Hi Hl.
  - exists out. cbn. repeat split; auto. intros k Hk. lia.
  - destruct (IH out ltac:(lia) Hi Hl) as (out1 & E1 & L1 & In1 & Out1). rewrite seq_S, foldR_app, E1. cbn [rbind foldR Nat.add].
    assert (Hid : i < length file / d). { apply Nat.div_le_lower_bound with (q := S i); lia. }
    assert (Er : nth_error (map (group d file) (seq 0 (length file / d))) i = Some (group d file i)).
    { rewrite nth_error_map, (nth_error_some_nth _ i 0) by (rewrite seq_length; exact Hid). rewrite seq_nth by exact Hid. reflexivity. }
    rewrite Er. cbn [ub rbind]. assert (Hk : i * d + n < length file) by nia.
    assert (Ex : nth_error (group d file i) n = option_map Some (nth_error file (i * d + n))).
    { unfold group. rewrite nth_error_map, nth_error_firstn by lia. rewrite nth_error_skipn. reflexivity. }
    rewrite Ex. destruct (nth_error file (i * d + n)) as [v|] eqn:Ev; [|apply nth_error_None in Ev; lia]. cbn [option_map ub rbind].
    destruct (upd_some out1 (i * d + n) (Some v) ltac:(lia)) as [out2 E2]. rewrite E2. cbn [ub rbind]. exists out2. split; [reflexivity|].
    split; [rewrite (upd_length _ _ _ _ E2); exact L1|]. split.
    + intros k Hk'. destruct (Nat.eq_dec k (i * d + n)) as [->|h]; [rewrite (upd_nth_same _ _ _ _ E2), Ev; reflexivity|].
      rewrite (upd_nth_other _ _ _ _ _ E2) by exact h. apply In1. lia.
    + intros k Hk'. rewrite (upd_nth_other _ _ _ _ _ E2) by lia. apply Out1. lia.
Qed.
Lemma rows_read d (file : list A) : 0 < d ->
  read_rows d file = Ok (map Some (firstn (length file / d * d) file) ++ repeat None (length file mod d)).
Proof.
  intros Hd. unfold read_rows. destruct (read_loop_state d file Hd) as (s & -> & Ec & _ & _ & Er & _). cbn [rbind]. unfold copy_rows. rewrite Ec, Er.
  pose proof (Nat.div_mod (length file) d ltac:(lia)) as Hdm. pose proof (Nat.mod_upper_bound (length file) d ltac:(lia)) as Hm.
  assert (H : forall q, q <= length file / d -> exists out,
    foldR (fun i out => foldR (fun j out => let! row := ub (nth_error (map (group d file) (seq 0 (length file / d))) i) in
                        let! x := ub (nth_error row j) in ub (upd out (i * d + j) x)) (seq 0 d) out) (seq 0 q) (repeat None (length file)) = Ok out /\
      length out = length file /\ (forall k, k < q * d -> nth_error out k = option_map Some (nth_error file k)) /\
      (forall k, q * d <= k -> nth_error out k = nth_error (repeat None (length file)) k)).
  { induction q as [|q IH]; intros Hq.
    - eexists. split; [reflexivity|]. split; [apply repeat_length|]. split; [intros k Hk; lia|]. intros; reflexivity.
    - destruct (IH ltac:(lia)) as (out & E & L & I & O). rewrite seq_S, foldR_app, E. cbn [rbind foldR Nat.add].
      destruct (inner_copy d file q d out (le_n d) ltac:(nia) L) as (out' & E' & L' & I' & O'). rewrite E'. cbn [rbind]. exists out'.
      split; [reflexivity|]. split; [exact L'|]. split.
      + intros k Hk. destruct (le_lt_dec (q * d) k) as [h|h]; [apply I'; lia|rewrite O' by lia; apply I; exact h].
      + intros k Hk. rewrite O' by lia. apply O. lia. }
  destruct (H (length file / d) (le_n _)) as (out & -> & L & I & O). f_equal. apply list_eq_nth.
  - rewrite L, app_length, map_length, firstn_length, repeat_length. nia.
  - intros k Hk. destruct (le_lt_dec (length file / d * d) k) as [h|h].
    + rewrite O by exact h. rewrite nth_error_app2; rewrite map_length, firstn_length; [|lia].
      assert (R : forall n j, j < n -> nth_error (repeat (@None A) n) j = Some None).
      { clear. induction n as [|n IHn]; intros j Hj; [lia|]. destruct j; [reflexivity|]. apply IHn. lia. }
      rewrite !R by nia. reflexivity.
    + rewrite I by exact h. rewrite nth_error_app1 by (rewrite map_length, firstn_length; lia). rewrite nth_error_map, nth_error_firstn by exact h. reflexivity.
Qed.
End Rows.

(** A file that holds complete nodes (or complete cells) is read as it is. *)
Theorem C142_mesh_partial : forall A dim (file : list A), 0 < dim ->
  (length file mod dim = 0 -> read_coordinates dim file = Ok (map Some file)) /\
  (length file mod (dim + 1) = 0 -> read_connectivity dim file = Ok (map Some file)).
Proof.
  intros A dim file Hd.
  assert (H : forall d, 0 < d -> length file mod d = 0 -> read_rows d file = Ok (map Some file)).
  { intros d H0 Hm. rewrite rows_read by exact H0. pose proof (Nat.div_mod (length file) d ltac:(lia)). rewrite Hm. cbn. rewrite app_nil_r.
    rewrite firstn_all2 by nia. reflexivity. }
  split; intros Hm; apply H; lia || exact Hm.
Qed.
Print Assumptions C142_mesh_partial.
Example C142_mesh_reachable : read_connectivity 2 [0; 1; 2; 2; 1; 3] = Ok (map Some [0; 1; 2; 2; 1; 3]).
Proof. apply C142_mesh_partial; [lia|reflexivity]. Qed.
(** Refuted otherwise: the values of the incomplete node are replaced by as many values that were never initialised, without an error. *)
Theorem C142_mesh_refuted : forall A dim (file : list A), 0 < dim ->
  read_coordinates dim file = Ok (map Some (firstn (length file / dim * dim) file) ++ repeat None (length file mod dim)) /\
  read_connectivity dim file = Ok (map Some (firstn (length file / (dim + 1) * (dim + 1)) file) ++ repeat None (length file mod (dim + 1))).
Proof. intros A dim file Hd. split; apply rows_read; lia. Qed.
Print Assumptions C142_mesh_refuted.
Example C142_truncated : read_coordinates 3 [1; 2; 3; 4; 5] = Ok [Some 1; Some 2; Some 3; None; None].
Proof. reflexivity. Qed.
