(** C112-C114: element blocks, local equations over blocks, and assembled shape gradients. *)
From Coq Require Import String Reals List Arith Lia Lra Permutation Bool.
From Verif Require Import Base.Field Base.Sums Base.Res Base.ListUpd Base.Scatter Element.ElementSpec Element.ElementModel Element.ElementProof
  Residual.ResidualModel Residual.ResidualSpec Residual.ResidualProof Blocks.BlocksModel Blocks.BlocksSpec Blocks.BlocksProof.
Import ListNotations.
Local Open Scope R_scope.

(** ** C112: element blocks *)

(** The domains of an accepted description are the ones described, in order. *)
Definition describes (sets : string -> option (list nat)) (e : string * dentry) (d : domain) : Prop :=
  exists block, snd e = DList (Some block) (Some (dom_material d)) /\ sets block = Some (dom_cells d) /\ fst e = dom_name d.
Theorem C112_model_read : forall sets p ds,
  spatial_model sets p = Ok ds <-> exists l, p = Some (Some l) /\ Forall2 (describes sets) l ds.
Proof.
  intros sets p ds. split.
  - destruct p as [[l|]|]; cbn; try discriminate. intros H. exists l. split; [reflexivity|]. revert ds H.
    induction l as [|[n e] l IH]; intros ds H; cbn in H.
    + injection H as <-. constructor.
    + destruct (read_domain sets (n, e)) as [d| |] eqn:Er; try discriminate. cbn [rbind] in H.
      destruct (mapR (read_domain sets) l) as [ds'| |]; try discriminate. cbn in H. injection H as <-. constructor; [|apply IH; reflexivity].
      unfold read_domain in Er. cbn in Er. destruct e as [[bn|] [mn|]|]; try discriminate.
      destruct (sets bn) as [cs|] eqn:Es; [|discriminate]. injection Er as <-. exists bn. cbn. auto.
  - intros (l & -> & H). cbn. induction H as [|[n e] d l ds (bn & H1 & H2 & H3) H IH]; cbn; [reflexivity|].
    cbn in H1, H3. subst. unfold read_domain at 1. cbn. rewrite H2. cbn. rewrite IH. cbn. destruct d. reflexivity.
Qed.
Example C112_read_case :
  spatial_model (fun n => if String.eqb n "left" then Some [0; 2]%nat else if String.eqb n "right" then Some [1%nat] else None)
    (Some (Some [("A", DList (Some "left") (Some "steel")); ("B", DList (Some "right") (Some "rubber"))]%string))
  = Ok [mkDom "A" "steel" [0; 2]%nat; mkDom "B" "rubber" [1%nat]].
Proof. reflexivity. Qed.

(** Blocks that cover the mesh: the residual is the sum over the cells of the mesh, each with its own material, plus the boundary loads
    once. *)
Theorem C112_blocks_partial : forall ncells npc ndof conn ds m r b, ds <> [] ->
  covers ncells (map dom_cells ds) -> materials ds m ->
  exists out, vector_value ncells npc ndof conn ds r b = Ok out /\
    forall g, out g = nodal_sum ncells npc ndof conn (fun c => r (m c) c) g + nodal_sum ncells npc ndof conn b g.
Proof.
  intros ncells npc ndof conn ds m r b Hne Hc Hm. destruct ds as [|d ds']; [congruence|]. eexists. split; [reflexivity|].
  intros g. rewrite add_cells_entry, domains_entry.
  pose proof (domains_sum (B := unit) (d :: ds') m (fun s _ => contribution npc ndof conn (r s) g) tt Hm) as H.
  cbv beta in H. rewrite H, (sum_over_perm _ _ _ Hc), !sum_over_seq. unfold nodal_sum. unfold contribution. lra.
Qed.
Example C112_covers : covers 3 (map dom_cells [mkDom "A" "steel" [0; 2]%nat; mkDom "B" "rubber" [1%nat]]).
Proof. unfold covers. cbn. apply perm_skip, perm_swap. Qed.

(** The order of the domains does not matter. *)
Theorem C112_order : forall ncells npc ndof conn ds ds' r b out out', Permutation ds ds' ->
  vector_value ncells npc ndof conn ds r b = Ok out -> vector_value ncells npc ndof conn ds' r b = Ok out' -> forall g, out g = out' g.
Proof.
  intros ncells npc ndof conn ds ds' r b out out' Hp H H' g.
  rewrite (vector_value_entry _ _ _ _ _ _ _ _ g H), (vector_value_entry _ _ _ _ _ _ _ _ g H'). rewrite (sum_over_perm _ _ _ Hp). reflexivity.
Qed.
Example C112_order_case : Permutation [mkDom "A" "steel" [0; 2]%nat; mkDom "B" "rubber" [1%nat]] [mkDom "B" "rubber" [1%nat]; mkDom "A" "steel" [0; 2]%nat].
Proof. apply perm_swap. Qed.

(** Splitting a body of one material into blocks changes nothing. *)
Theorem C112_same_material : forall ncells npc ndof conn ds mat r b out name, covers ncells (map dom_cells ds) ->
  (forall d, In d ds -> dom_material d = mat) -> vector_value ncells npc ndof conn ds r b = Ok out ->
  exists one, vector_value ncells npc ndof conn [mkDom name mat (seq 0 ncells)] r b = Ok one /\ forall g, out g = one g.
Proof.
  intros ncells npc ndof conn ds mat r b out name Hc Hm H.
  destruct (C112_blocks_partial ncells npc ndof conn ds (fun _ => mat) r b) as (o & E & Ho); [intros ->; discriminate|exact Hc|intros d c Hd _; symmetry; apply Hm, Hd|].
  destruct (C112_blocks_partial ncells npc ndof conn [mkDom name mat (seq 0 ncells)] (fun _ => mat) r b) as (o' & E' & Ho').
  - discriminate.
  - unfold covers. cbn. rewrite app_nil_r. apply Permutation_refl.
  - intros d c [<-|[]] _. reflexivity.
  - rewrite E in H. injection H as <-. exists o'. split; [exact E'|]. intros g. rewrite Ho, Ho'. reflexivity.
Qed.
Example C112_same_material_case : exists out, vector_value 2 1 1 (fun c _ => c) [mkDom "A" "steel" [1%nat]; mkDom "B" "steel" [0%nat]]
    (fun _ c _ => INR c + 1) (fun _ _ => 0) = Ok out /\ out 1%nat = 2 /\ covers 2 [[1]; [0]]%nat.
Proof. eexists. split; [reflexivity|]. split; [cbn; unfold scatter; cbn; lra|apply perm_swap]. Qed.

(** The same for a criterion. *)
Theorem C112_criterion : forall ncells ds m v post, ds <> [] -> covers ncells (map dom_cells ds) -> materials ds m ->
  scalar_value ds v post = Ok (post (rs ncells (fun c => v (m c) c))).
Proof.
  intros ncells ds m v post Hne Hc Hm. destruct ds as [|d ds']; [congruence|]. unfold scalar_value. do 2 f_equal.
  rewrite <- sum_over_seq, <- (sum_over_perm _ _ _ Hc).
  pose proof (domains_sum (B := unit) (d :: ds') m (fun s _ => v s) tt Hm) as H. cbv beta in H. rewrite <- H.
  assert (G : forall l t, fold_left (fun t d => fold_left (fun t c => t + v (dom_material d) c) (dom_cells d) t) l t =
     t + sum_over l (fun d => sum_over (dom_cells d) (v (dom_material d)))).
  { induction l as [|x l IH]; intros t; cbn [fold_left sum_over]; [lra|]. rewrite IH, (sum_over_fold (dom_cells x) (v (dom_material x))). lra. }
  rewrite G. lra.
Qed.
Example C112_criterion_case : scalar_value [mkDom "A" "steel" [1%nat]; mkDom "B" "rubber" [0%nat]] (fun s c => if String.eqb s "steel" then 5 else 7) (fun x => x) = Ok 12.
Proof. cbn. f_equal. lra. Qed.

(** Nothing makes an accepted model cover the mesh: a model without domains is accepted and its residual is undefined; ... *)
Theorem C112_no_domains_refuted : forall sets ncells npc ndof conn r b,
  spatial_model sets (Some (Some [])) = Ok [] /\ vector_value ncells npc ndof conn [] r b = UB.
Proof. intros. split; reflexivity. Qed.
(** ... a block named twice counts its cells twice, and a block that is not named is left out. *)
Theorem C112_overlap_refuted : exists (sets : string -> option (list nat)) p p' ds ds' out out',
  covers 2 [[0]; [1]]%nat /\ sets "left"%string = Some [0%nat] /\ sets "right"%string = Some [1%nat] /\
  spatial_model sets p = Ok ds /\ spatial_model sets p' = Ok ds' /\
  (** one node per cell, each cell contributes 1 to its node *)
  vector_value 2 1 1 (fun c _ => c) ds (fun _ _ _ => 1) (fun _ _ => 0) = Ok out /\ out 0%nat = 2 /\ out 1%nat = 1 /\
  vector_value 2 1 1 (fun c _ => c) ds' (fun _ _ _ => 1) (fun _ _ => 0) = Ok out' /\ out' 0%nat = 1 /\ out' 1%nat = 0.
Proof.
  exists (fun n => if String.eqb n "left" then Some [0%nat] else if String.eqb n "right" then Some [1%nat] else None).
  exists (Some (Some [("A", DList (Some "left") (Some "steel")); ("B", DList (Some "right") (Some "steel")); ("C", DList (Some "left") (Some "steel"))]%string)).
  exists (Some (Some [("A", DList (Some "left") (Some "steel"))]%string)).
  do 4 eexists. split; [apply Permutation_refl|]. split; [reflexivity|]. split; [reflexivity|].
  split; [reflexivity|]. split; [reflexivity|].
  split; [reflexivity|]. split; [cbn; unfold scatter; cbn; lra|]. split; [cbn; unfold scatter; cbn; lra|].
  split; [reflexivity|]. split; cbn; unfold scatter; cbn; lra.
Qed.

(** ** C113: the local equations of plasticity over several blocks *)

Definition good_blocks (n : nat) (ds : list domain) : Prop := covers n (map dom_cells ds) /\ forall d, In d ds -> dom_cells d <> [].
Lemma good_in n ds : good_blocks n ds -> NoDup (concat (map dom_cells ds)) /\ forall c, In c (concat (map dom_cells ds)) <-> (c < n)%nat.
Proof.
  intros [H _]. split.
  - apply (Permutation_NoDup (Permutation_sym H)), seq_NoDup.
  - intros c. split; intros Hc.
    + apply (Permutation_in _ H) in Hc. apply in_seq in Hc. lia.
    + apply (Permutation_in _ (Permutation_sym H)). apply in_seq. lia.
Qed.

(** The residual rows, and the derivatives with respect to current and previous, global and local states: row c is that of cell c. *)
Theorem C113_local_rows : forall (S Q A : Type) n (state : nat -> S) (rest : nat -> Q) (zero : A) h ds m,
  good_blocks n ds -> materials ds m ->
  exists out, local_rows n state rest zero h ds = Ok out /\ List.length out = n /\
    forall c, (c < n)%nat -> nth_error out c = Some (h (m c) (state c) (rest c)).
Proof.
  intros S Q A n state rest zero h ds m Hg Hm. destruct (good_in n ds Hg) as [H1 H2]. destruct Hg as [_ Hne].
  destruct (rows_fold state rest h m ds (repeat zero n) H1) as (o & E & L & H3 & _).
  - intros c Hc. rewrite repeat_length. apply H2, Hc.
  - exact Hne.
  - exact Hm.
  - exists o. split; [exact E|]. split; [rewrite L; apply repeat_length|]. intros c Hc. apply H3, H2, Hc.
Qed.
(** The update of the local states. *)
Theorem C113_update : forall (S Q A : Type) n (state : nat -> S) (rest : nat -> Q) (a0 : A) f ds m local,
  good_blocks n ds -> materials ds m -> List.length local = n ->
  exists out, update_local state rest f ds local = Ok out /\ List.length out = n /\
    forall c, (c < n)%nat -> nth_error out c = Some (f (m c) (state c) (rest c) (nth c local a0)).
Proof.
  intros S Q A n state rest a0 f ds m local Hg Hm Hl. destruct (good_in n ds Hg) as [H1 H2]. destruct Hg as [_ Hne].
  destruct (update_fold state rest f m a0 ds local H1) as (o & E & L & H3 & _).
  - intros c Hc. rewrite Hl. apply H2, Hc.
  - exact Hne.
  - exact Hm.
  - exists o. split; [exact E|]. split; [congruence|]. intros c Hc. apply H3, H2, Hc.
Qed.
Example C113_good : good_blocks 3 [mkDom "A" "steel" [0; 2]%nat; mkDom "B" "rubber" [1%nat]].
Proof. split; [exact C112_covers|]. intros d [<-|[<-|[]]]; discriminate. Qed.

(** The flattened residual, and the derivatives with respect to the configuration and to the control: only for one block that lists the
    cells of the mesh in order. *)
Lemma put_count_all {A} (f : nat -> A) n (out : list A) : List.length out = n -> (0 < n)%nat ->
  exists o, put_count n (map f (seq 0 n)) out = Ok o /\ List.length o = n /\ forall c, (c < n)%nat -> nth_error o c = Some (f c).
Proof.
  intros Hl Hn. unfold put_count. replace (Nat.eqb n 0) with false by (symmetry; apply Nat.eqb_neq; lia).
  destruct (foldR_inv (fun k out => let! x := ub (nth_error (map f (seq 0 n)) k) in ub (upd out k x))
    (fun l o => List.length o = n /\ forall c, In c l -> nth_error o c = Some (f c)) (seq 0 n) out) as (o & E & H1 & H2).
  - split; [exact Hl|]. intros c [].
  - intros l1 x l2 o El [H1 H2].
    assert (Hx : (x < n)%nat) by (assert (In x (seq 0 n)) by (rewrite El; apply in_or_app; right; left; reflexivity); apply in_seq in H; lia).
    rewrite (nth_error_some_nth _ _ (f 0%nat)) by (rewrite map_length, seq_length; exact Hx). cbn [ub rbind].
    rewrite map_nth, seq_nth by exact Hx. destruct (upd_some o x (f (0 + x)%nat)) as [o' Eo]; [lia|]. rewrite Eo. exists o'. split; [reflexivity|].
    split; [rewrite (upd_length _ _ _ _ Eo); exact H1|]. intros c Hc. apply in_app_or in Hc. destruct (Nat.eq_dec c x) as [->|Hne].
    + exact (upd_nth_same _ _ _ _ Eo).
    + rewrite (upd_nth_other _ _ _ _ _ Eo Hne). destruct Hc as [Hc|[Hc|[]]]; [apply H2, Hc|congruence].
  - exists o. split; [exact E|]. split; [exact H1|]. intros c Hc. apply H2, in_seq. lia.
Qed.
Lemma add_count_all {A} (add : A -> A -> A) (f : nat -> A) n (out : list A) a0 : List.length out = n -> (0 < n)%nat ->
  exists o, add_count add n (map f (seq 0 n)) out = Ok o /\ List.length o = n /\
    forall c, (c < n)%nat -> nth_error o c = Some (add (nth c out a0) (f c)).
Proof.
  intros Hl Hn. unfold add_count. replace (Nat.eqb n 0) with false by (symmetry; apply Nat.eqb_neq; lia).
  destruct (foldR_inv (fun k out => let! x := ub (nth_error (map f (seq 0 n)) k) in let! y := ub (nth_error out k) in ub (upd out k (add y x)))
    (fun l o => List.length o = n /\ NoDup l /\ (forall c, In c l -> nth_error o c = Some (add (nth c out a0) (f c))) /\
       (forall c, ~ In c l -> nth_error o c = nth_error out c)) (seq 0 n) out) as (o & E & H1 & _ & H2 & _).
  - split; [exact Hl|]. split; [constructor|]. split; [intros c []|reflexivity].
  - intros l1 x l2 o El (H1 & Hnd & H2 & H3).
    assert (Hx : (x < n)%nat) by (assert (In x (seq 0 n)) by (rewrite El; apply in_or_app; right; left; reflexivity); apply in_seq in H; lia).
    assert (Hx1 : ~ In x l1).
    { pose proof (seq_NoDup n 0) as G. rewrite El in G. apply NoDup_remove_2 in G. intros Hi. apply G, in_or_app. auto. }
    rewrite (nth_error_some_nth _ _ (f 0%nat)) by (rewrite map_length, seq_length; exact Hx). cbn [ub rbind].
    rewrite map_nth, seq_nth by exact Hx. rewrite (H3 x Hx1), (nth_error_some_nth out x a0) by lia. cbn [ub rbind Nat.add].
    destruct (upd_some o x (add (nth x out a0) (f x))) as [o' Eo]; [lia|]. rewrite Eo. exists o'. split; [reflexivity|].
    split; [rewrite (upd_length _ _ _ _ Eo); exact H1|]. split.
    { apply (Permutation_NoDup (Permutation_cons_append l1 x)). constructor; assumption. }
    split; intros c Hc.
    + apply in_app_or in Hc. destruct (Nat.eq_dec c x) as [->|Hne].
      * exact (upd_nth_same _ _ _ _ Eo).
      * rewrite (upd_nth_other _ _ _ _ _ Eo Hne). destruct Hc as [Hc|[Hc|[]]]; [apply H2, Hc|congruence].
    + assert (Hne : c <> x) by (intros ->; apply Hc, in_or_app; right; left; reflexivity).
      rewrite (upd_nth_other _ _ _ _ _ Eo Hne). apply H3. intros Hi. apply Hc, in_or_app. auto.
  - exists o. split; [exact E|]. split; [exact H1|]. intros c Hc. apply H2, in_seq. lia.
Qed.

(** A block without cells is an error: nothing is returned. *)
Lemma foldR_never {A S} (f : A -> S -> res S) l x : In x l -> (forall s r, f x s <> Ok r) -> forall s r, foldR f l s <> Ok r.
Proof.
  intros Hx Hf. induction l as [|y l IH]; [destruct Hx|]. intros s r. cbn [foldR]. destruct Hx as [->|Hx].
  - specialize (Hf s). destruct (f x s) as [q| |]; cbn [rbind]; [exfalso; apply (Hf q); reflexivity|discriminate|discriminate].
  - destruct (f y s) as [q| |]; cbn [rbind]; [apply IH; exact Hx|discriminate|discriminate].
Qed.
Theorem C113_empty_block : forall (S Q A : Type) n (state : nat -> S) (rest : nat -> Q) s0 (zero : A) h (f : string -> S -> Q -> A -> A) ds d local,
  In d ds -> dom_cells d = [] ->
  (forall r, local_rows n state rest zero h ds <> Ok r) /\ (forall r, local_gradient_x n state rest s0 zero h ds <> Ok r) /\
  (forall r, local_value n state rest zero h ds <> Ok r) /\ (forall r, update_local state rest f ds local <> Ok r).
Proof.
  intros S Q A n state rest s0 zero h f ds d local Hd He. split; [|split; [|split]]; intros r; apply (foldR_never _ ds d Hd); intros s q; rewrite He; cbn;
    try discriminate. match goal with |- context [rbind ?x _] => destruct x end; cbn [rbind]; discriminate.
Qed.
Print Assumptions C113_empty_block.
Example C113_empty_case : In (mkDom "B" "rubber" []) [mkDom "A" "steel" [0]%nat; mkDom "B" "rubber" []] /\ dom_cells (mkDom "B" "rubber" []) = [].
Proof. split; [right; left; reflexivity|reflexivity]. Qed.


Theorem C113_one_block_partial : forall (S Q A : Type) n (state : nat -> S) (rest : nat -> Q) s0 (zero : A) add h name mat,
  (0 < n)%nat -> (forall x, add zero x = x) ->
  (exists out, local_value n state rest zero h [mkDom name mat (seq 0 n)] = Ok out /\
     forall c, (c < n)%nat -> nth_error out c = Some (h mat (state c) (rest c))) /\
  (exists out, local_gradient_x n state rest s0 zero h [mkDom name mat (seq 0 n)] = Ok out /\
     forall c, (c < n)%nat -> nth_error out c = Some (h mat (state c) (rest c))) /\
  (exists out, local_gradient_z n state rest zero add h [mkDom name mat (seq 0 n)] = Ok out /\
     forall c, (c < n)%nat -> nth_error out c = Some (h mat (state c) (rest c))).
Proof.
  intros S Q A n state rest s0 zero add h name mat Hn Ha. split; [|split].
  - unfold local_value. cbn [foldR dom_cells dom_material]. rewrite seq_length, evaluate_maps.
    destruct (put_count_all (fun c => h mat (state c) (rest c)) n (repeat zero n)) as (o & E & _ & H); [apply repeat_length|exact Hn|].
    rewrite E. exists o. split; [reflexivity|exact H].
  - unfold local_gradient_x. cbn [foldR dom_cells dom_material]. rewrite seq_length.
    assert (E0 : ws_mesh n s0 state n = Ok (map state (seq 0 n))).
    { unfold ws_mesh. destruct (write_perm (seq 0 n) state (repeat s0 n)) as (o & E & L & H & _).
      - apply seq_NoDup.
      - intros c Hc. apply in_seq in Hc. rewrite repeat_length. lia.
      - assert (Ec : combine (seq 0 n) (map state (seq 0 n)) = map (fun c => (c, state c)) (seq 0 n)).
        { generalize (seq 0 n). intros l. induction l as [|x l IH]; cbn; [reflexivity|]. rewrite IH. reflexivity. }
        rewrite Ec in E. rewrite E. f_equal. apply list_eq_nth.
        + rewrite L, repeat_length, map_length, seq_length. reflexivity.
        + intros i Hi. rewrite L, repeat_length in Hi. rewrite (H i) by (apply in_seq; lia).
          rewrite (nth_error_some_nth _ _ (state 0%nat)) by (rewrite map_length, seq_length; exact Hi).
          rewrite map_nth, seq_nth by exact Hi. reflexivity. }
    rewrite E0. cbn [rbind]. rewrite (evaluate_maps (h mat) state rest).
    destruct (write_perm (seq 0 n) (fun c => h mat (state c) (rest c)) (repeat zero n)) as (o & E & _ & H & _).
    + apply seq_NoDup.
    + intros c Hc. apply in_seq in Hc. rewrite repeat_length. lia.
    + unfold put_domain. destruct (seq 0 n) as [|c0 l] eqn:Es; [destruct n; [lia|discriminate]|].
      rewrite <- Es in *. rewrite E. exists o. split; [reflexivity|]. intros c Hc. apply H, in_seq. lia.
  - unfold local_gradient_z. cbn [foldR dom_cells dom_material]. rewrite evaluate_maps.
    destruct (add_count_all add (fun c => h mat (state c) (rest c)) n (repeat zero n) zero) as (o & E & _ & H); [apply repeat_length|exact Hn|].
    rewrite E. exists o. split; [reflexivity|]. intros c Hc. rewrite (H c Hc). f_equal.
    replace (nth c (repeat zero n) zero) with zero by (symmetry; apply nth_repeat). apply Ha.
Qed.
Example C113_one_block_case : local_gradient_z 2 (fun c => INR c) (fun _ => tt) 0 Rplus (fun _ s _ => s + 1) [mkDom "A" "steel" [0; 1]%nat] = Ok [0 + (0 + 1); 0 + (1 + 1)].
Proof. reflexivity. Qed.

(** With several blocks: the derivative with respect to the configuration accesses memory out of bounds, always. *)
Theorem C113_gradient_x_refuted : forall (S Q A : Type) n (state : nat -> S) (rest : nat -> Q) s0 (zero : A) h d ds,
  (List.length (dom_cells d) < n)%nat -> local_gradient_x n state rest s0 zero h (d :: ds) = UB.
Proof.
  intros S Q A n state rest s0 zero h d ds H. unfold local_gradient_x. cbn [foldR].
  unfold ws_mesh. rewrite write_seq_ub by (rewrite repeat_length; exact H). reflexivity.
Qed.
(** So does the derivative with respect to the control. *)
Theorem C113_gradient_z_refuted : forall (S Q A : Type) n (state : nat -> S) (rest : nat -> Q) (zero : A) add h d ds,
  (List.length (dom_cells d) < n)%nat -> local_gradient_z n state rest zero add h (d :: ds) = UB.
Proof.
  intros S Q A n state rest zero add h d ds H. unfold local_gradient_z. cbn [foldR].
  assert (E : add_count add n (evaluate (h (dom_material d)) (ws_domain state (dom_cells d)) (ws_domain rest (dom_cells d))) (repeat zero n) = UB).
  { rewrite evaluate_maps. set (ws := map _ _). assert (Hw : (List.length ws < n)%nat) by (unfold ws; rewrite map_length; exact H).
    unfold add_count. replace (Nat.eqb n 0) with false by (symmetry; apply Nat.eqb_neq; lia).
    assert (G : forall j k (o : list A), (j = List.length ws - k)%nat -> (k <= List.length ws)%nat -> List.length o = n ->
      foldR (fun k o => let! x := ub (nth_error ws k) in let! y := ub (nth_error o k) in ub (upd o k (add y x))) (seq k (n - k)) o = UB).
    { induction j as [|j IH]; intros k o Hj Hk Ho; replace (n - k)%nat with (Datatypes.S (n - Datatypes.S k)) by lia; cbn [seq foldR].
      - replace (nth_error ws k) with (@None A) by (symmetry; apply nth_error_None; lia). reflexivity.
      - destruct (nth_error ws k) as [x|] eqn:Ex; [|reflexivity]. cbn [ub rbind].
        destruct (nth_error o k) as [y|] eqn:Ey; [|reflexivity]. cbn [ub rbind].
        destruct (upd o k (add y x)) as [o'|] eqn:Eo; [|reflexivity]. cbn [ub rbind].
        apply IH; [lia|lia|]. rewrite (upd_length _ _ _ _ Eo). exact Ho. }
    specialize (G (List.length ws) 0%nat (repeat zero n)). rewrite !Nat.sub_0_r in G. apply G; [reflexivity|lia|apply repeat_length]. }
  rewrite E. reflexivity.
Qed.
(** The flattened residual has the rows of the last block at the positions of the first cells. *)
Theorem C113_value_refuted : exists ds, good_blocks 2 ds /\
  local_value 2 (fun c => INR c) (fun _ => tt) 0 (fun _ s _ => s + 10) ds = Ok [1 + 10; 0] /\
  local_rows 2 (fun c => INR c) (fun _ => tt) 0 (fun _ s _ => s + 10) ds = Ok [0 + 10; 1 + 10].
Proof.
  exists [mkDom "A" "steel" [0%nat]; mkDom "B" "steel" [1%nat]]. split; [|split; reflexivity].
  split; [apply Permutation_refl|]. intros d [<-|[<-|[]]]; discriminate.
Qed.

(** ** C114: the assembled shape gradient is the derivative of the assembled residual *)

Section Gradient.
Variables (ncells npc ndof nx N : nat) (conn : nat -> nat -> nat).
(** Cell residuals and boundary terms as functions of the configuration of the cell, with the derivatives that automatic
    differentiation attaches to them. *)
Variables (r : string -> nat -> (nat -> R) -> nat -> R) (b : nat -> (nat -> R) -> nat -> R).
Variables (J : string -> nat -> nat -> nat -> R) (B : nat -> nat -> nat -> R).
Definition exact_derivatives (X : nat -> R) : Prop :=
  (forall m c e w, derivable_pt_lim (fun t => r m c (moved (cell_part nx (conn c) X) w t) e) 0 (rs (npc * nx) (fun k => J m c e k * w k))) /\
  (forall c e w, derivable_pt_lim (fun t => b c (moved (cell_part nx (conn c) X) w t) e) 0 (rs (npc * nx) (fun k => B c e k * w k))).
Definition corners (ds : list domain) : Prop :=
  (forall d c a, In d ds -> In c (dom_cells d) -> (a < npc)%nat -> (conn c a < N)%nat) /\ (forall c a, (c < ncells)%nat -> (a < npc)%nat -> (conn c a < N)%nat).
Definition residual_at (ds : list domain) (X : nat -> R) : res (nat -> R) :=
  vector_value ncells npc ndof conn ds (fun m c => r m c (cell_part nx (conn c) X)) (fun c => b c (cell_part nx (conn c) X)).

Lemma contribution_derivative (q : nat -> (nat -> R) -> nat -> R) D X W j c :
  (forall e w, derivable_pt_lim (fun t => q c (moved (cell_part nx (conn c) X) w t) e) 0 (rs (npc * nx) (fun k => D c e k * w k))) ->
  derivable_pt_lim (fun t => contribution npc ndof conn (fun c => q c (cell_part nx (conn c) (moved X W t))) j c) 0
    (contribution npc ndof conn (fun c e => rs (npc * nx) (fun k => D c e k * cell_part nx (conn c) W k)) j c).
Proof.
  intros H. unfold contribution. apply dl_rs. intros a Ha. apply dl_rs. intros i Hi. apply dl_if.
  exact (H (a * ndof + i)%nat (cell_part nx (conn c) W)).
Qed.
Lemma domains_action ds (Hx : (0 < nx)%nat) (Hc : corners ds) W j :
  rs (N * nx) (fun i => (0 + sum_over ds (fun d => sum_over (dom_cells d) (jpart npc ndof nx conn (J (dom_material d)) i j))) * W i) =
  sum_over ds (fun d => sum_over (dom_cells d) (contribution npc ndof conn (fun c e => rs (npc * nx) (fun k => J (dom_material d) c e k * cell_part nx (conn c) W k)) j)).
Proof.
  change (rs (N * nx)) with (rsum (N * nx)).
  rewrite (rsum_ext (N * nx) _ (fun i => sum_over ds (fun d => sum_over (dom_cells d) (fun c => jpart npc ndof nx conn (J (dom_material d)) i j c * W i)))).
  2:{ intros i Hi. rewrite Rplus_0_l, sum_over_scal_r. apply sum_over_ext. intros d Hd. rewrite sum_over_scal_r. reflexivity. }
  rewrite (sum_over_swap ds (N * nx) (fun d i => sum_over (dom_cells d) (fun c => jpart npc ndof nx conn (J (dom_material d)) i j c * W i))).
  apply sum_over_ext. intros d Hd.
  rewrite (sum_over_swap (dom_cells d) (N * nx) (fun c i => jpart npc ndof nx conn (J (dom_material d)) i j c * W i)).
  apply sum_over_ext. intros c Hc'. apply (jpart_action npc ndof nx N conn); [exact Hx|]. intros a Ha. exact (proj1 Hc d c a Hd Hc' Ha).
Qed.

(** Static, transient, dynamic and stabilised problems. *)
Theorem C114_shape_gradient : forall ds X F M, (0 < nx)%nat -> corners ds -> exact_derivatives X ->
  (forall Y, residual_at ds Y = Ok (F Y)) -> vector_gradient_x ncells npc ndof conn nx ds J B = Ok M ->
  jacobian_of (N * nx) (N * ndof) F X M.
Proof.
  intros ds X F M Hx Hc [Hr Hb] HF HM W j _. destruct ds as [|d0 ds0]; [discriminate|].
  set (ds := d0 :: ds0) in *.
  assert (HF' : forall Y g, F Y g = sum_over ds (fun d => sum_over (dom_cells d) (contribution npc ndof conn (fun c => r (dom_material d) c (cell_part nx (conn c) Y)) g))
      + sum_over (seq 0 ncells) (contribution npc ndof conn (fun c => b c (cell_part nx (conn c) Y)) g)).
  { intros Y g. specialize (HF Y). unfold residual_at in HF. exact (vector_value_entry _ _ _ _ _ _ _ _ g HF). }
  assert (HM' : forall i, M i j = (0 + sum_over ds (fun d => sum_over (dom_cells d) (jpart npc ndof nx conn (J (dom_material d)) i j))) +
      sum_over (seq 0 ncells) (jpart npc ndof nx conn B i j)).
  { intros i. unfold vector_gradient_x, ds in HM. injection HM as HM. rewrite <- HM. rewrite add_jacobians_entry, jdomains_entry, add_jacobians_entry. unfold ds. cbn [sum_over]. lra. }
  assert (HA : rs (N * nx) (fun i => M i j * W i) =
     sum_over ds (fun d => sum_over (dom_cells d) (contribution npc ndof conn (fun c e => rs (npc * nx) (fun k => J (dom_material d) c e k * cell_part nx (conn c) W k)) j)) +
     sum_over (seq 0 ncells) (contribution npc ndof conn (fun c e => rs (npc * nx) (fun k => B c e k * cell_part nx (conn c) W k)) j)).
  { rewrite <- (domains_action ds Hx Hc W j). change (rs (N * nx)) with (rsum (N * nx)).
    rewrite (rsum_ext (N * nx) _ (fun i => (0 + sum_over ds (fun d => sum_over (dom_cells d) (jpart npc ndof nx conn (J (dom_material d)) i j))) * W i +
      sum_over (seq 0 ncells) (fun c => jpart npc ndof nx conn B i j c * W i))).
    2:{ intros i Hi. rewrite HM', <- sum_over_scal_r. req. ring. }
    rewrite rsum_add. req. f_equal. rewrite (sum_over_swap (seq 0 ncells) (N * nx) (fun c i => jpart npc ndof nx conn B i j c * W i)).
    apply sum_over_ext. intros c Hcc. apply (jpart_action npc ndof nx N conn); [exact Hx|]. intros a Ha. apply (proj2 Hc); [apply in_seq in Hcc; lia|exact Ha]. }
  rewrite HA. apply (dl_ext _ _ _ _ (fun t => eq_sym (HF' (moved X W t) j))). apply dl_plus.
  - apply dl_sum_over. intros d Hd. apply dl_sum_over. intros c Hcc. apply (contribution_derivative (r (dom_material d)) (J (dom_material d))). intros e w. apply Hr.
  - apply dl_sum_over. intros c Hcc. apply (contribution_derivative b B). intros e w. apply Hb.
Qed.

(** Plasticity: only when the boundary loads do not depend on the configuration. *)
Theorem C114_plasticity_partial : forall ds X F, (0 < nx)%nat -> corners ds -> exact_derivatives X ->
  (forall c e k, (c < ncells)%nat -> B c e k = 0) ->
  (forall Y, residual_at ds Y = Ok (F Y)) -> jacobian_of (N * nx) (N * ndof) F X (plastic_gradient_x npc ndof conn nx ds J).
Proof.
  intros ds X F Hx Hc Hd HB HF W j Hj.
  destruct ds as [|d0 ds0]; [discriminate (HF X)|]. set (ds := d0 :: ds0) in *.
  pose proof (C114_shape_gradient ds X F _ Hx Hc Hd HF eq_refl W j Hj) as H.
  assert (E : forall i, add_jacobians npc ndof conn nx (seq 0 ncells) B
      (fold_left (fun out d => add_jacobians npc ndof conn nx (dom_cells d) (J (dom_material d)) out) ds (fun _ _ => 0)) i j =
      plastic_gradient_x npc ndof conn nx ds J i j).
  { intros i. rewrite add_jacobians_entry. unfold plastic_gradient_x. rewrite (sum_over_0 (seq 0 ncells)); [lra|].
    intros c Hcc. apply in_seq in Hcc. unfold jpart. apply rsum_0. intros e He. apply rsum_0. intros k Hk. rewrite HB by lia.
    destruct (_ && _); reflexivity. }
  rewrite (rsum_ext (N * nx) _ (fun i => plastic_gradient_x npc ndof conn nx ds J i j * W i)) in H; [exact H|].
  intros i Hi. fold ds. rewrite E. reflexivity.
Qed.
End Gradient.

(** A load spread over an edge of length x1 - x0: half of it on either end. *)
Definition edge_load (c : nat) (x : nat -> R) (e : nat) : R := (x 1%nat - x 0%nat) / 2.
Definition edge_derivative (c e k : nat) : R := if Nat.eqb k 0 then - (1 / 2) else 1 / 2.
Lemma edge_exact X : exact_derivatives 2 1 (fun _ a => a) (fun _ _ _ _ => 0) edge_load (fun _ _ _ _ => 0) edge_derivative X.
Proof.
  split.
  - intros m c e w. replace (rs (2 * 1) (fun k => 0 * w k)) with 0; [apply (derivable_pt_lim_const 0)|].
    unfold rs. cbn. change (@r0 R_ring) with 0. change (@radd R_ring) with Rplus. ring.
  - intros c e w. unfold edge_load, moved, cell_part. cbn [Nat.div Nat.modulo Nat.divmod fst snd Nat.mul Nat.add Nat.sub].
    set (a := X _). set (a' := X _).
    apply (dl_ext (fun t => (a - a') / 2 + t * ((w 1%nat - w 0%nat) / 2))); [intros t; field|].
    match goal with |- derivable_pt_lim _ _ ?l => replace l with (0 + 1 * ((w 1%nat - w 0%nat) / 2)) end.
    + apply dl_plus; [apply derivable_pt_lim_const|].
      pose proof (derivable_pt_lim_mult id (fct_cte ((w 1%nat - w 0%nat) / 2)) 0 1 0 (derivable_pt_lim_id 0) (derivable_pt_lim_const _ 0)) as H.
      unfold mult_fct, id, fct_cte in H. rewrite Rmult_0_l, Rplus_0_r in H. exact H.
    + unfold rs. cbn. unfold edge_derivative. cbn. change (@r0 R_ring) with 0. change (@radd R_ring) with Rplus. field.
Qed.
Definition edge_domain : list domain := [mkDom "A" "steel" [0%nat]].
Lemma edge_corners : corners 1 2 2 (fun _ a => a) edge_domain.
Proof. split; intros; lia. Qed.

Example C114_shape_gradient_case : exists F M,
  (forall Y, residual_at 1 2 1 1 (fun _ a => a) (fun _ _ _ _ => 0) edge_load edge_domain Y = Ok (F Y)) /\
  vector_gradient_x 1 2 1 (fun _ a => a) 1 edge_domain (fun _ _ _ _ => 0) edge_derivative = Ok M /\ M 1%nat 0%nat = 1 / 2 /\
  jacobian_of (2 * 1) (2 * 1) F (fun k => INR k) M.
Proof.
  eexists. eexists. split; [intros Y; reflexivity|]. split; [reflexivity|]. split.
  - cbn. unfold edge_derivative. cbn. lra.
  - apply (C114_shape_gradient 1 2 1 1 2 (fun _ a => a) (fun _ _ _ _ => 0) edge_load (fun _ _ _ _ => 0) edge_derivative edge_domain);
      [lia|exact edge_corners|apply edge_exact|intros Y; reflexivity|reflexivity].
Qed.

(** The shape gradient of a plasticity residual leaves the boundary loads out: with a load on an edge it is not the derivative. *)
Theorem C114_plasticity_refuted : exists F,
  (forall Y, residual_at 1 2 1 1 (fun _ a => a) (fun _ _ _ _ => 0) edge_load edge_domain Y = Ok (F Y)) /\
  exact_derivatives 2 1 (fun _ a => a) (fun _ _ _ _ => 0) edge_load (fun _ _ _ _ => 0) edge_derivative (fun k => INR k) /\
  ~ jacobian_of (2 * 1) (2 * 1) F (fun k => INR k) (plastic_gradient_x 2 1 (fun _ a => a) 1 edge_domain (fun _ _ _ _ => 0)).
Proof.
  eexists. split; [intros Y; reflexivity|]. split; [apply edge_exact|]. intros H.
  destruct C114_shape_gradient_case as (F & M & HF & HM & HE & HJ).
  assert (F0 : forall Y g, F Y g = (match residual_at 1 2 1 1 (fun _ a => a) (fun _ _ _ _ => 0) edge_load edge_domain Y with Ok f => f g | _ => 0 end)) by (intros; rewrite HF; reflexivity).
  pose (W := fun k : nat => if Nat.eqb k 1 then 1 else 0).
  specialize (H W 0%nat ltac:(lia)). specialize (HJ W 0%nat ltac:(lia)).
  apply (dl_ext _ _ _ _ (fun t => F0 (moved (fun k => INR k) W t) 0%nat)) in HJ.
  pose proof (uniqueness_limite _ _ _ _ HJ H) as E.
  assert (E1 : rs (2 * 1) (fun i => M i 0%nat * W i) = 1 / 2).
  { unfold rs, W. cbn. change (@r0 R_ring) with 0. change (@radd R_ring) with Rplus. rewrite HE. lra. }
  rewrite E1 in E. revert E. unfold rs, W. cbn. change (@r0 R_ring) with 0. change (@radd R_ring) with Rplus. lra.
Qed.

Print Assumptions C112_blocks_partial.
Print Assumptions C112_same_material.
Print Assumptions C113_local_rows.
Print Assumptions C113_update.
Print Assumptions C113_one_block_partial.
Print Assumptions C114_shape_gradient.
Print Assumptions C114_plasticity_refuted.
