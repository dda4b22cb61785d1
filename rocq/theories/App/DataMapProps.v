(** C61: the output data map. *)
From Coq Require Import Reals String Ascii List Arith ZArith Bool Lia Lra.
From Verif Require Import Base.ListUpd Base.Res Base.Loops App.AppModel App.AppSpec App.TargetProps.
Import ListNotations.

Section Generic.
Context {A : Type} (zero : A) (nelems : nat).

Definition writes (cells : list nat) (v : list A) k := foldR (fun k acc => let! c := ub (nth_error cells k) in let! x := ub (nth_error v k) in ub (upd acc c x)) (seq 0 k).
Lemma writes_spec cells v k : forall data data', writes cells v k data = Ok data' ->
  List.length data' = List.length data /\
  forall c, nth c data' zero = match rev (filter (fun k => Nat.eqb (nth k cells 0) c) (seq 0 k)) with j :: _ => nth j v zero | [] => nth c data zero end.
Proof.
  induction k as [|k IH]; intros data data' E; unfold writes in E.
  - cbn in E. injection E as <-. split; reflexivity.
  - rewrite seq_S, foldR_app in E. cbn [Nat.add] in E.
    destruct (foldR (fun k acc => let! c := ub (nth_error cells k) in let! x := ub (nth_error v k) in ub (upd acc c x)) (seq 0 k) data) as [d1| |] eqn:E1; cbn [rbind] in E; try discriminate.
    destruct (IH data d1 E1) as [L1 N1]. cbn [foldR] in E.
    destruct (nth_error cells k) as [c0|] eqn:C; cbn [ub rbind] in E; [|discriminate]. destruct (nth_error v k) as [x|] eqn:V; cbn [ub rbind] in E; [|discriminate].
    destruct (upd d1 c0 x) as [d2|] eqn:U; cbn [ub rbind] in E; [|discriminate]. injection E as <-.
    split; [rewrite (upd_length d1 c0 x d2 U); exact L1|].
    intros c. rewrite (upd_nth d1 c0 x d2 c zero U). rewrite seq_S, filter_app, rev_app_distr. cbn [Nat.add filter].
    rewrite (nth_error_nth cells k 0 C). rewrite Nat.eqb_sym. destruct (Nat.eqb c0 c); cbn [rev List.app]; [symmetry; apply nth_error_nth; exact V|apply N1].
Qed.
Lemma nth_map_seq0 (G : nat -> A) n c : c < n -> nth c (map G (seq 0 n)) zero = G c.
Proof. intros H. apply nth_error_nth. rewrite nth_error_map, (nth_error_nth' (seq 0 n) 0) by (rewrite seq_length; exact H). rewrite seq_nth by exact H. reflexivity. Qed.
Lemma writes_overwrite cells v data data' : writes cells v (List.length cells) data = Ok data' -> data' = overwrite zero cells v data.
Proof.
  intros E. destruct (writes_spec cells v _ data data' E) as [L N]. unfold overwrite. apply (nth_ext data' _ zero zero).
  - rewrite map_length, seq_length. exact L.
  - intros c Hc. rewrite N. rewrite L in Hc. symmetry. apply nth_map_seq0. exact Hc.
Qed.

(** Handles are valid and names do not share one. *)
Definition inv (m : dmap (A := A)) : Prop := (forall n h, get (table m) n = Some h -> h < List.length (heap m)) /\ (forall n n' h, get (table m) n = Some h -> get (table m) n' = Some h -> n = n').
Lemma put_inv m n v : inv m -> inv (put m n v) /\ (forall n', read (put m n v) (table (put m n v)) n' = assign (read m (table m)) n v n').
Proof.
  intros [V D]. split; [split|].
  - intros n' h. cbn. rewrite get_set, app_length. cbn. destruct (String.eqb n' n); [intros E; injection E as <-; lia|]. intros E. apply V in E. lia.
  - intros n1 n2 h. cbn. rewrite !get_set. destruct (String.eqb_spec n1 n) as [->|N1], (String.eqb_spec n2 n) as [->|N2]; intros E1 E2; try reflexivity.
    + injection E1 as <-. apply V in E2. lia.
    + injection E2 as <-. apply V in E1. lia.
    + apply (D n1 n2 h); assumption.
  - intros n'. unfold read, assign. cbn. rewrite get_set. destruct (String.eqb n' n).
    + rewrite nth_error_app2 by lia. rewrite Nat.sub_diag. reflexivity.
    + destruct (get (table m) n') as [h|] eqn:G; [|reflexivity]. apply nth_error_app1. apply (V n' h G).
Qed.
Lemma put_domain_inv m n cells v m' : inv m -> put_domain zero m n nelems cells v = Ok m' ->
  inv m' /\ saved m' = saved m /\ forall n', read m' (table m') n' = assign (read m (table m)) n (overwrite zero cells v (match read m (table m) n with Some old => old | None => repeat zero nelems end)) n'.
Proof.
  intros I E. unfold put_domain in E.
  set (m1 := match get (table m) n with Some _ => m | None => put m n (repeat zero nelems) end) in E.
  assert (I1 : inv m1 /\ saved m1 = saved m /\ forall n', read m1 (table m1) n' = if String.eqb n' n then Some (match read m (table m) n with Some old => old | None => repeat zero nelems end) else read m (table m) n').
  { unfold m1. destruct (get (table m) n) as [h|] eqn:G.
    - split; [exact I|]. split; [reflexivity|]. intros n'. destruct (String.eqb_spec n' n) as [->|]; [|reflexivity]. unfold read. rewrite G.
      destruct (nth_error (heap m) h) eqn:X; [reflexivity|]. exfalso. apply nth_error_None in X. apply (proj1 I) in G. lia.
    - destruct (put_inv m n (repeat zero nelems) I) as [P Q]. split; [exact P|]. split; [reflexivity|]. intros n'. rewrite Q. unfold assign. destruct (String.eqb n' n); [|reflexivity]. unfold read. rewrite G. reflexivity. }
  destruct I1 as [[V D] [Sv Rd]]. clearbody m1.
  destruct (get (table m1) n) as [h|] eqn:G; cbn [ub rbind] in E; [|discriminate].
  destruct (nth_error (heap m1) h) as [data|] eqn:Hd; cbn [ub rbind] in E; [|discriminate].
  destruct (negb (Nat.eqb (List.length data) nelems)); [discriminate|].
  change (foldR _ (seq 0 (List.length cells)) data) with (writes cells v (List.length cells) data) in E.
  destruct (writes cells v (List.length cells) data) as [data'| |] eqn:W; cbn [rbind] in E; try discriminate.
  destruct (upd (heap m1) h data') as [heap'|] eqn:U; cbn [ub rbind] in E; [|discriminate]. injection E as <-.
  apply writes_overwrite in W. subst data'.
  split; [split; cbn|split; [exact Sv|]].
  - intros n' h' E. rewrite (upd_length _ _ _ _ U). apply (V n' h' E).
  - exact D.
  - intros n'. unfold read at 1, assign. cbn. pose proof (Rd n) as Rn. rewrite String.eqb_refl in Rn. unfold read at 1 in Rn. rewrite G, Hd in Rn. injection Rn as <-.
    destruct (String.eqb_spec n' n) as [->|N].
    + rewrite G. apply (upd_nth_same _ _ _ _ U).
    + pose proof (Rd n') as R'. destruct (String.eqb_spec n' n) as [|_]; [contradiction|]. rewrite <- R'. unfold read. destruct (get (table m1) n') as [h'|] eqn:G'; [|reflexivity].
      apply (upd_nth_other _ _ _ _ h' U). intros ->. apply N. apply (D n' n h G' G).
Qed.

(** Every command keeps the current contents in step with the story. *)
Lemma drun_current l : forall m m' cur sv, inv m -> (forall n, read m (table m) n = cur n) -> drun zero nelems l m = Ok m' ->
  inv m' /\ forall n, read m' (table m') n = fst (story zero nelems l cur sv) n.
Proof.
  induction l as [|c l IH]; intros m m' cur sv I R E; unfold drun in E; cbn [foldR] in E; [injection E as <-; split; [exact I|exact R]|].
  destruct (dstep zero nelems m c) as [m1| |] eqn:S; cbn [rbind] in E; try discriminate.
  destruct c as [n v|n cells v| |]; cbn [dstep] in S.
  - injection S as <-. destruct (put_inv m n v I) as [I1 R1]. apply (IH (put m n v) m' (assign cur n v) sv I1); [|exact E].
    intros n'. rewrite R1. unfold assign. destruct (String.eqb n' n); [reflexivity|apply R].
  - destruct (put_domain_inv m n cells v m1 I S) as [I1 [_ R1]]. apply (IH m1 m' _ sv I1); [|exact E].
    intros n'. rewrite R1. unfold assign. rewrite !R. reflexivity.
  - injection S as <-. apply (IH (save m) m' cur (sv ++ [cur]) I); [exact R|exact E].
  - injection S as <-. apply (IH (clear m) m' cur [] I); [exact R|exact E].
Qed.
Lemma dempty_inv : inv (dempty (A := A)).
Proof. split; intros n h; discriminate. Qed.

Definition saving (c : dcmd (A := A)) : Prop := match c with Save => True | _ => False end.
Definition partial_write (c : dcmd (A := A)) : Prop := match c with PutDomain _ _ _ => True | _ => False end.

Lemma story_app l1 l2 cur sv : story zero nelems (l1 ++ l2) cur sv = story zero nelems l2 (fst (story zero nelems l1 cur sv)) (snd (story zero nelems l1 cur sv)).
Proof. revert cur sv. induction l1 as [|c l1 IH]; intros cur sv; [reflexivity|]. destruct c; cbn [List.app story]; apply IH. Qed.
Lemma no_save l : Forall (fun c => ~ saving c) l -> forall m m' cur, saved m = [] -> inv m -> drun zero nelems l m = Ok m' -> saved m' = [] /\ snd (story zero nelems l cur []) = [].
Proof.
  induction 1 as [|c l Hc H IH]; intros m m' cur S I E; unfold drun in E; cbn [foldR] in E; [injection E as <-; split; [exact S|reflexivity]|].
  destruct (dstep zero nelems m c) as [m1| |] eqn:D; cbn [rbind] in E; try discriminate.
  destruct c as [n v|n cells v| |]; cbn [dstep] in D.
  - injection D as <-. apply (IH (put m n v) m'); [exact S|apply put_inv; exact I|exact E].
  - destruct (put_domain_inv m n cells v m1 I D) as [I1 [S1 _]]. apply (IH m1 m'); [congruence|exact I1|exact E].
  - exfalso. apply Hc. exact Logic.I.
  - injection D as <-. apply (IH (clear m) m'); [reflexivity|exact I|exact E].
Qed.

(** Saved tables point into the heap, and agree with the story's saved contents. *)
Definition kept (m : dmap (A := A)) (sv : list contents) : Prop :=
  List.length (saved m) = List.length sv /\
  forall k t, nth_error (saved m) k = Some t -> (forall n h, get t n = Some h -> h < List.length (heap m)) /\ exists c, nth_error sv k = Some c /\ forall n, read m t n = c n.
Lemma whole_kept l : Forall (fun c => ~ partial_write c) l -> forall m m' cur sv, inv m -> (forall n, read m (table m) n = cur n) -> kept m sv -> drun zero nelems l m = Ok m' ->
  kept m' (snd (story zero nelems l cur sv)).
Proof.
  induction 1 as [|c l Hc H IH]; intros m m' cur sv I R [KL K] E; unfold drun in E; cbn [foldR] in E; [injection E as <-; split; assumption|].
  destruct c as [n v|n cells v| |]; cbn [dstep rbind] in E; cbn [story].
  - destruct (put_inv m n v I) as [I1 R1]. apply (IH (put m n v) m' (assign cur n v) sv I1); [|split; [exact KL|]|exact E].
    + intros n'. rewrite R1. unfold assign. destruct (String.eqb n' n); [reflexivity|apply R].
    + intros k t T. destruct (K k t T) as [B [c [C Rc]]]. split; [intros n' h G; cbn; rewrite app_length; apply B in G; lia|]. exists c. split; [exact C|].
      intros n'. rewrite <- Rc. unfold read. cbn. destruct (get t n') as [h|] eqn:G; [|reflexivity]. apply nth_error_app1. apply (B n' h G).
  - exfalso. apply Hc. exact Logic.I.
  - apply (IH (save m) m' cur (sv ++ [cur]) I R); [|exact E]. split; [cbn; rewrite !app_length, KL; reflexivity|].
    intros k t. cbn [save saved heap]. destruct (Nat.lt_ge_cases k (List.length (saved m))) as [Hk|Hk].
    + rewrite nth_error_app1 by exact Hk. intros T. destruct (K k t T) as [B [c [C Rc]]]. split; [exact B|]. exists c. split; [rewrite nth_error_app1 by lia; exact C|exact Rc].
    + rewrite nth_error_app2 by exact Hk. destruct (k - List.length (saved m)) as [|j] eqn:J; [|destruct j; discriminate]. intros T. injection T as <-.
      split; [apply I|]. exists cur. split; [|exact R]. rewrite nth_error_app2 by lia. replace (k - List.length sv) with 0 by lia. reflexivity.
  - apply (IH (clear m) m' cur [] I R); [|exact E]. split; [reflexivity|]. intros k t T. destruct k; discriminate.
Qed.

(** The current contents are always what the commands put there last, for entries given for the whole mesh and entries assembled from domains alike. *)
Theorem C61_current : forall l m, drun zero nelems l dempty = Ok m ->
  forall name, read m (table m) name = fst (story zero nelems l (fun _ => None) []) name.
Proof. intros l m E. apply (drun_current l dempty m (fun _ => None) [] dempty_inv); [reflexivity|exact E]. Qed.

(** Saved steps stay as they were, provided that after the first save no entry is written domain by domain. *)
Theorem C61_saved_partial : forall l1 l2 m, Forall (fun c => ~ saving c) l1 -> Forall (fun c => ~ partial_write c) l2 -> drun zero nelems (l1 ++ l2) dempty = Ok m ->
  let sv := snd (story zero nelems (l1 ++ l2) (fun _ => None) []) in
  List.length (saved m) = List.length sv /\
  forall k c, nth_error sv k = Some c -> exists t, state_at m (Z.of_nat k) = Ok t /\ forall name, read m t name = c name.
Proof.
  intros l1 l2 m H1 H2 E sv. unfold drun in E. rewrite foldR_app in E.
  destruct (foldR (fun c m => dstep zero nelems m c) l1 dempty) as [m1| |] eqn:E1; cbn [rbind] in E; try discriminate.
  destruct (drun_current l1 dempty m1 (fun _ => None) [] dempty_inv ltac:(reflexivity) E1) as [I1 R1].
  destruct (no_save l1 H1 dempty m1 (fun _ => None) eq_refl dempty_inv E1) as [S1 T1].
  assert (K : kept m sv).
  { unfold sv. rewrite story_app, T1. apply (whole_kept l2 H2 m1 m); [exact I1|exact R1| |exact E]. rewrite <- T1. split; [rewrite S1, T1; reflexivity|]. rewrite S1. intros k t T. destruct k; discriminate. }
  destruct K as [KL K]. split; [exact KL|]. intros k c C.
  assert (Hk : k < List.length (saved m)). { rewrite KL. apply nth_error_Some. rewrite C. discriminate. }
  destruct (nth_error (saved m) k) as [t|] eqn:T; [|apply nth_error_None in T; lia].
  destruct (K k t T) as [_ [c' [C' Rc]]]. exists t. split.
  - unfold state_at. destruct (saved m) as [|t0 s0] eqn:Es; [simpl in Hk; lia|].
    destruct (Z.ltb_spec (Z.of_nat k) 0); [lia|]. destruct (Z.leb_spec (Z.of_nat (List.length (t0 :: s0))) (Z.of_nat k)); [lia|]. cbn [orb]. rewrite Nat2Z.id, T. reflexivity.
  - intros n. rewrite Rc. congruence.
Qed.
(** Asking for a step that was not saved is refused. *)
Theorem C61_index : forall (m : dmap (A := A)) k, saved m <> [] -> (k < 0 \/ Z.of_nat (List.length (saved m)) <= k)%Z -> state_at m k = Throw.
Proof.
  intros m k N H. unfold state_at. destruct (saved m) as [|t s]; [contradiction|].
  destruct (Z.ltb_spec k 0); [reflexivity|]. destruct (Z.leb_spec (Z.of_nat (List.length (t :: s))) k); [reflexivity|lia].
Qed.
End Generic.

(** Writing an entry domain by domain in two steps changes what the first step saved. *)
Theorem C61_saved_refuted : exists l (m : dmap (A := R)) t c, drun 0%R 1 l dempty = Ok m /\
  nth_error (snd (story 0%R 1 l (fun _ => None) [])) 0 = Some c /\ state_at m 0 = Ok t /\ c "stress"%string = Some [1%R] /\ read m t "stress" = Some [2%R].
Proof.
  exists [PutDomain "stress" [0] [1%R]; Save; PutDomain "stress" [0] [2%R]; Save]. eexists. eexists. eexists.
  split; [reflexivity|]. split; [reflexivity|]. split; [reflexivity|]. split; reflexivity.
Qed.
Example C61_met : exists m t, drun 0%R 3 [PutDomain "stress" [0; 2] [1%R; 2%R]; PutDomain "stress" [1] [5%R]; Put "T" [9%R]; Save; Put "T" [8%R]; Save] dempty = Ok m /\
  state_at m 0 = Ok t /\ read m t "stress" = Some [1%R; 5%R; 2%R] /\ read m t "T" = Some [9%R].
Proof. eexists. eexists. split; [reflexivity|]. split; [reflexivity|]. split; reflexivity. Qed.

Print Assumptions C61_current.
Print Assumptions C61_saved_partial.
Print Assumptions C61_index.
Print Assumptions C61_saved_refuted.
