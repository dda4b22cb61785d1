(** Multi-dimensional Kokkos views with checked accesses, and loops that update entries one by one. *)
From Coq Require Import Arith Lia List Bool Permutation.
From Verif Require Import Base.Field Base.Res Base.Loops.
Import ListNotations.

(** A view: its extents and its content.  The memory layout is not modelled; two different views never alias. *)
Record view (A : Type) := mkView { extents : list nat; content : list nat -> A }.
Arguments mkView {A}. Arguments extents {A}. Arguments content {A}.

(** An access is valid when there are as many indices as dimensions and each index is below its extent. *)
Fixpoint in_bounds (dims idx : list nat) : bool :=
  match dims, idx with
  | [], [] => true
  | d :: ds, i :: is => Nat.ltb i d && in_bounds ds is
  | _, _ => false
  end.

Definition idx_eqb (i j : list nat) : bool := if list_eq_dec Nat.eq_dec i j then true else false.

Section View.
Context {A : Type}.
Definition extent (v : view A) (k : nat) : nat := nth k (extents v) 0.
(** View::size(): the product of the extents. *)
Definition vsize (v : view A) : nat := fold_right Nat.mul 1 (extents v).
Definition vget (v : view A) (idx : list nat) : res A :=
  if in_bounds (extents v) idx then Ok (content v idx) else UB.
Definition vset (v : view A) (idx : list nat) (x : A) : res (view A) :=
  if in_bounds (extents v) idx
  then Ok (mkView (extents v) (fun j => if idx_eqb j idx then x else content v j))
  else UB.

(** v(idx) = g(v(idx)) *)
Definition vmodify (v : view A) (idx : list nat) (g : A -> res A) : res (view A) :=
  let! x := vget v idx in let! y := g x in vset v idx y.

Lemma idx_eqb_spec i j : reflect (i = j) (idx_eqb i j).
Proof. unfold idx_eqb. destruct (list_eq_dec Nat.eq_dec i j); constructor; assumption. Qed.

(** A sequential loop that modifies one entry per iteration. *)
Lemma modify_loop {I} (idx : I -> list nat) (g : I -> A -> res A) (h : I -> A -> A) l : forall v,
  (forall i, In i l -> in_bounds (extents v) (idx i) = true) ->
  (forall i x, In i l -> g i x = Ok (h i x)) ->
  exists v', foldR (fun i v => vmodify v (idx i) (g i)) l v = Ok v' /\ extents v' = extents v /\
    forall j, content v' j = fold_left (fun x i => if idx_eqb j (idx i) then h i x else x) l (content v j).
Proof.
  induction l as [|i l IH]; intros v Hb Hg; simpl.
  - exists v. auto.
  - unfold vmodify at 1, vget at 1. rewrite Hb by (left; reflexivity). cbn [rbind].
    rewrite Hg by (left; reflexivity). cbn [rbind]. unfold vset. rewrite Hb by (left; reflexivity). cbn [rbind].
    destruct (IH (mkView (extents v) (fun j => if idx_eqb j (idx i) then h i (content v (idx i)) else content v j)))
      as [v' [E [He Hc]]].
    + intros k Hk. simpl. apply Hb. right. exact Hk.
    + intros k x Hk. apply Hg. right. exact Hk.
    + exists v'. split; [exact E|]. split; [exact He|]. intros j. rewrite Hc. simpl. f_equal.
      destruct (idx_eqb_spec j (idx i)) as [->|]; reflexivity.
Qed.

Lemma fold_skip {I} (idx : I -> list nat) (h : I -> A -> A) j l x :
  (forall i, In i l -> idx i <> j) ->
  fold_left (fun x i => if idx_eqb j (idx i) then h i x else x) l x = x.
Proof.
  induction l as [|i l IH]; intros H; simpl; [reflexivity|].
  destruct (idx_eqb_spec j (idx i)) as [E|_]; [exfalso; apply (H i); [left; reflexivity|auto]|].
  apply IH. intros k Hk. apply H. right. exact Hk.
Qed.

Lemma fold_hit {I} (idx : I -> list nat) (h : I -> A -> A) j l1 l l2 x :
  (forall i, In i l1 -> idx i <> j) -> (forall i, In i l2 -> idx i <> j) -> (forall i, In i l -> idx i = j) ->
  fold_left (fun x i => if idx_eqb j (idx i) then h i x else x) (l1 ++ l ++ l2) x = fold_left (fun x i => h i x) l x.
Proof.
  intros H1 H2 H. rewrite !fold_left_app, (fold_skip _ _ _ l1) by exact H1.
  rewrite (fold_skip _ _ _ l2) by exact H2.
  revert x. induction l as [|i l IH]; intros x; simpl; [reflexivity|].
  destruct (idx_eqb_spec j (idx i)) as [_|E]; [|exfalso; apply E; symmetry; apply H; left; reflexivity].
  apply IH. intros k Hk. apply H. right. exact Hk.
Qed.

(** Only the iterations that address [j] matter, and they come in the order of the loop. *)
Lemma fold_filter {I} (idx : I -> list nat) (h : I -> A -> A) j l : forall x,
  fold_left (fun x i => if idx_eqb j (idx i) then h i x else x) l x =
  fold_left (fun x i => h i x) (filter (fun i => idx_eqb j (idx i)) l) x.
Proof.
  induction l as [|i l IH]; intros x; simpl; [reflexivity|]. rewrite IH. destruct (idx_eqb j (idx i)); reflexivity.
Qed.
End View.

Lemma foldR_flat_map {I J S} (f : J -> S -> res S) (g : I -> list J) l : forall s,
  foldR f (flat_map g l) s = foldR (fun i s => foldR f (g i) s) l s.
Proof.
  induction l as [|i l IH]; intros s; simpl; [reflexivity|]. rewrite foldR_app.
  destruct (foldR f (g i) s); simpl; auto.
Qed.

Lemma filter_flat_map {I J} (p : J -> bool) (g : I -> list J) l :
  filter p (flat_map g l) = flat_map (fun i => filter p (g i)) l.
Proof. induction l as [|i l IH]; simpl; [reflexivity|]. rewrite filter_app, IH. reflexivity. Qed.

(** In a fair schedule each index comes exactly once. *)
Lemma flat_map_single {J} (l : list nat) (c : nat) (g : nat -> list J) :
  NoDup l -> In c l -> (forall i, In i l -> i <> c -> g i = []) -> flat_map g l = g c.
Proof.
  induction l as [|i l IH]; intros Hn Hc Hz; [contradiction|]. inversion Hn as [|? ? Hni Hn']; subst. simpl.
  destruct (Nat.eq_dec i c) as [->|Hne].
  - replace (flat_map g l) with (@nil J); [apply app_nil_r|]. clear IH Hn Hn' Hc.
    induction l as [|k l IH]; simpl; [reflexivity|]. rewrite Hz; [|right; left; reflexivity|intros ->; apply Hni; left; reflexivity].
    simpl. apply IH.
    + intros H. apply Hni. right. exact H.
    + intros i [->|Hi]; [apply Hz; left; reflexivity|apply Hz; right; right; exact Hi].
  - rewrite Hz by (auto; left; reflexivity). simpl. apply IH; [exact Hn'| |].
    + destruct Hc as [->|Hc]; [contradiction|exact Hc].
    + intros k Hk. apply Hz. right. exact Hk.
Qed.

Lemma fair_nodup sched n : fair sched -> NoDup (sched n).
Proof. intros Hf. apply (Permutation_NoDup (Permutation_sym (Hf n))). apply seq_NoDup. Qed.

Lemma fair_single {J} sched n c (g : nat -> list J) :
  fair sched -> c < n -> (forall i, i < n -> i <> c -> g i = []) -> flat_map g (sched n) = g c.
Proof.
  intros Hf Hc Hz. apply flat_map_single; [apply fair_nodup, Hf|apply (fair_in sched n c Hf), Hc|].
  intros i Hi. apply Hz. apply (fair_in sched n i Hf), Hi.
Qed.

Lemma fair_none {J} sched n (g : nat -> list J) :
  fair sched -> (forall i, i < n -> g i = []) -> flat_map g (sched n) = [].
Proof.
  intros Hf Hz. assert (H : forall i, In i (sched n) -> g i = []).
  { intros i Hi. apply Hz, (fair_in sched n i Hf), Hi. }
  clear Hz. induction (sched n) as [|i l IH]; simpl; [reflexivity|].
  rewrite H by (left; reflexivity). simpl. apply IH. intros k Hk. apply H. right. exact Hk.
Qed.
