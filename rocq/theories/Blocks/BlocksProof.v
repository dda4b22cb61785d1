(** Facts behind the problem and block properties. *)
From Coq Require Import String Reals List Arith Lia Lra Permutation.
From Verif Require Import Base.Field Base.Sums Base.Res Base.ListUpd Base.Scatter Element.ElementSpec Element.ElementProof
  Element.ElementModel Residual.ResidualModel Residual.ResidualSpec Residual.ResidualProof Blocks.BlocksModel Blocks.BlocksSpec.
Import ListNotations.
Local Open Scope R_scope.

Lemma sum_over_app {A} (l l' : list A) f : sum_over (l ++ l') f = sum_over l f + sum_over l' f.
Proof. induction l as [|x l IH]; cbn; [ring|]. rewrite IH. ring. Qed.
Lemma sum_over_perm {A} (l l' : list A) f : Permutation l l' -> sum_over l f = sum_over l' f.
Proof. induction 1; cbn; try lra. Qed.
Lemma sum_over_seq n f : sum_over (seq 0 n) f = rs n f.
Proof.
  induction n as [|n IH]; [reflexivity|]. rewrite seq_S, sum_over_app, IH. cbn. unfold rs. cbn [sum]. change (@radd R_ring) with Rplus.
  unfold rs. lra.
Qed.

Section A.
Variables (ncells npc ndof : nat) (conn : nat -> nat -> nat).
Definition contribution (r : nat -> nat -> R) (g c : nat) : R :=
  rs npc (fun a => rs ndof (fun i => if Nat.eqb g (conn c a * ndof + i) then r c (a * ndof + i)%nat else 0)).

Lemma add_cells_entry cells r out g : add_cells npc ndof conn cells r out g = out g + sum_over cells (contribution r g).
Proof.
  unfold add_cells. revert out. induction cells as [|c l IH]; intros out; cbn [fold_left sum_over]; [ring|].
  rewrite IH, scatter_entry. cbn [c_node]. unfold contribution at 2. unfold pick, rs. lra.
Qed.
Lemma domains_entry (ds : list domain) r out g :
  fold_left (fun out d => add_cells npc ndof conn (dom_cells d) (r (dom_material d)) out) ds out g =
  out g + sum_over ds (fun d => sum_over (dom_cells d) (contribution (r (dom_material d)) g)).
Proof.
  revert out. induction ds as [|d l IH]; intros out; cbn [fold_left sum_over]; [ring|]. rewrite IH, add_cells_entry. lra.
Qed.
Lemma vector_value_entry (ds : list domain) r b out g : vector_value ncells npc ndof conn ds r b = Ok out ->
  out g = sum_over ds (fun d => sum_over (dom_cells d) (contribution (r (dom_material d)) g)) + sum_over (seq 0 ncells) (contribution b g).
Proof.
  intros H. assert (E : Ok out = Ok (add_cells npc ndof conn (seq 0 ncells) b
                    (fold_left (fun out d => add_cells npc ndof conn (dom_cells d) (r (dom_material d)) out) ds (fun _ => 0)))).
  { rewrite <- H. destruct ds; [discriminate|reflexivity]. }
  injection E as ->. rewrite add_cells_entry, domains_entry. lra.
Qed.
Lemma domains_sum {B} (ds : list domain) (m : nat -> string) (f : string -> B -> nat -> R) x :
  materials ds m ->
  sum_over ds (fun d => sum_over (dom_cells d) (f (dom_material d) x)) = sum_over (concat (map dom_cells ds)) (fun c => f (m c) x c).
Proof.
  induction ds as [|d l IH]; intros Hm; cbn [sum_over map concat]; [reflexivity|].
  rewrite sum_over_app, <- IH by (intros d' c H1 H2; apply Hm; [right|]; assumption).
  f_equal. apply sum_over_ext. intros c Hc. rewrite (Hm d c) by (try left; auto). reflexivity.
Qed.
End A.

(** ** Local equations *)
Lemma write_perm {A} (cells : list nat) (f : nat -> A) (out : list A) :
  NoDup cells -> (forall c, In c cells -> (c < List.length out)%nat) ->
  exists out', write_all (combine cells (map f cells)) out = Ok out' /\ List.length out' = List.length out /\
    (forall c, In c cells -> nth_error out' c = Some (f c)) /\
    (forall c, ~ In c cells -> nth_error out' c = nth_error out c).
Proof.
  intros Hn Hb.
  assert (Hin : forall c x, In (c, x) (combine cells (map f cells)) <-> In c cells /\ x = f c).
  { clear Hn Hb. intros c x. induction cells as [|y l IH]; cbn; [tauto|]. rewrite IH. split.
    - intros [E|[H1 H2]]; [injection E as <- <-; auto|auto].
    - intros [[E|H] Hx]; [left; subst; reflexivity|right; auto]. }
  destruct (write_all_spec (combine cells (map f cells)) out) as (v & E & L & H1 & H2).
  - intros p x H. apply Hin in H. apply Hb, H.
  - intros p x y Hx Hy. apply Hin in Hx, Hy. destruct Hx, Hy. congruence.
  - exists v. split; [exact E|]. split; [exact L|]. split.
    + intros c Hc. apply H1, Hin. auto.
    + intros c Hc. apply H2. intros x Hx. apply Hin in Hx. tauto.
Qed.

Lemma combine_maps {A B} (f : nat -> A) (g : nat -> B) l : combine (map f l) (map g l) = map (fun c => (f c, g c)) l.
Proof. induction l as [|x l IH]; cbn; [reflexivity|]. rewrite IH. reflexivity. Qed.
Lemma evaluate_maps {S Q A} (h : S -> Q -> A) st re l : evaluate h (ws_domain st l) (ws_domain re l) = map (fun c => h (st c) (re c)) l.
Proof. unfold evaluate, ws_domain. rewrite combine_maps, map_map. reflexivity. Qed.

Lemma nodup_app_l {A} (l l' : list A) : NoDup (l ++ l') -> NoDup l.
Proof. induction l as [|x l IH]; cbn; intros H; [constructor|]. inversion H as [|? ? H1 H2]; subst. constructor; [intros Hx; apply H1, in_or_app; auto|auto]. Qed.
Lemma nodup_app_r {A} (l l' : list A) : NoDup (l ++ l') -> NoDup l'.
Proof. induction l as [|x l IH]; cbn; intros H; [exact H|]. inversion H; auto. Qed.
Lemma nodup_app_disj {A} (l l' : list A) x : NoDup (l ++ l') -> In x l -> ~ In x l'.
Proof.
  induction l as [|y l IH]; cbn; intros H Hx Hy; [contradiction|]. inversion H as [|? ? H1 H2]; subst.
  destruct Hx as [->|Hx]; [apply H1, in_or_app; auto|apply IH; auto].
Qed.

Section L.
Context {S Q : Type}.
Variables (ncells : nat) (state : nat -> S) (rest : nat -> Q).
Lemma rows_fold {A} (h : string -> S -> Q -> A) (m : nat -> string) (ds : list domain) (out : list A) :
  NoDup (concat (map dom_cells ds)) -> (forall c, In c (concat (map dom_cells ds)) -> (c < List.length out)%nat) ->
  (forall d, In d ds -> dom_cells d <> []) -> materials ds m ->
  exists out', foldR (fun d out => put_domain (dom_cells d)
       (evaluate (h (dom_material d)) (ws_domain state (dom_cells d)) (ws_domain rest (dom_cells d))) out) ds out = Ok out' /\
    List.length out' = List.length out /\
    (forall c, In c (concat (map dom_cells ds)) -> nth_error out' c = Some (h (m c) (state c) (rest c))) /\
    (forall c, ~ In c (concat (map dom_cells ds)) -> nth_error out' c = nth_error out c).
Proof.
  revert out. induction ds as [|d l IH]; intros out Hn Hb He Hm; cbn [foldR map concat] in *.
  - exists out. repeat split; auto. intros c [].
  - rewrite evaluate_maps. unfold put_domain at 1.
    pose proof (He d (or_introl eq_refl)) as Hd.
    destruct (write_perm (dom_cells d) (fun c => h (dom_material d) (state c) (rest c)) out) as (o & E & L & H1 & H2).
    { apply nodup_app_l in Hn. exact Hn. }
    { intros c Hc. apply Hb, in_or_app. auto. }
    destruct (dom_cells d) as [|c0 cs] eqn:Ed; [congruence|]. rewrite E. cbn [rbind].
    destruct (IH o) as (o' & E' & L' & H1' & H2').
    { eapply nodup_app_r; exact Hn. }
    { intros c Hc. rewrite L. apply Hb, in_or_app. auto. }
    { intros d' Hd'. apply He. right. exact Hd'. }
    { intros d' c Hd' Hc. apply Hm; [right|]; assumption. }
    exists o'. split; [exact E'|]. split; [congruence|]. split.
    + intros c Hc. apply in_app_or in Hc. destruct (in_dec Nat.eq_dec c (concat (map dom_cells l))) as [Hi|Hi]; [apply H1', Hi|].
      destruct Hc as [Hc|Hc]; [|contradiction]. rewrite (H2' c Hi), (H1 c Hc).
      rewrite (Hm d c); [reflexivity|left; reflexivity|rewrite Ed; exact Hc].
    + intros c Hc. rewrite H2' by (intros Hx; apply Hc, in_or_app; auto). apply H2. intros Hx; apply Hc, in_or_app; auto.
Qed.
Lemma mapR_all {A B} (f : A -> res B) (g : A -> B) l : (forall x, In x l -> f x = Ok (g x)) -> mapR f l = Ok (map g l).
Proof. induction l as [|x l IH]; intros H; cbn; [reflexivity|]. rewrite H by (left; reflexivity). cbn. rewrite IH by (intros; apply H; right; assumption). reflexivity. Qed.
Lemma update_fold {A} (f : string -> S -> Q -> A -> A) (m : nat -> string) (a0 : A) (ds : list domain) (out : list A) :
  NoDup (concat (map dom_cells ds)) -> (forall c, In c (concat (map dom_cells ds)) -> (c < List.length out)%nat) ->
  (forall d, In d ds -> dom_cells d <> []) -> materials ds m ->
  exists out', update_local state rest f ds out = Ok out' /\
    List.length out' = List.length out /\
    (forall c, In c (concat (map dom_cells ds)) -> nth_error out' c = Some (f (m c) (state c) (rest c) (nth c out a0))) /\
    (forall c, ~ In c (concat (map dom_cells ds)) -> nth_error out' c = nth_error out c).
Proof.
  unfold update_local. revert out. induction ds as [|d l IH]; intros out Hn Hb He Hm; cbn [foldR map concat] in *.
  - exists out. repeat split; auto. intros c [].
  - rewrite (mapR_all _ (fun c => nth c out a0)).
    2:{ intros c Hc. rewrite (nth_error_some_nth _ _ a0) by (apply Hb, in_or_app; auto). reflexivity. }
    cbn [rbind]. unfold ws_domain at 1 2. rewrite combine_maps, (combine_maps (fun c => (state c, rest c))), map_map. cbn [fst snd].
    unfold put_domain at 1.
    pose proof (He d (or_introl eq_refl)) as Hd.
    destruct (write_perm (dom_cells d) (fun c => f (dom_material d) (state c) (rest c) (nth c out a0)) out) as (o & E & L & H1 & H2).
    { apply nodup_app_l in Hn. exact Hn. }
    { intros c Hc. apply Hb, in_or_app. auto. }
    destruct (dom_cells d) as [|c0 cs] eqn:Ed; [congruence|]. rewrite E. cbn [rbind].
    destruct (IH o) as (o' & E' & L' & H1' & H2').
    { eapply nodup_app_r; exact Hn. }
    { intros c Hc. rewrite L. apply Hb, in_or_app. auto. }
    { intros d' Hd'. apply He. right. exact Hd'. }
    { intros d' c Hd' Hc. apply Hm; [right|]; assumption. }
    exists o'. split; [exact E'|]. split; [congruence|]. split.
    + intros c Hc. apply in_app_or in Hc. destruct (in_dec Nat.eq_dec c (concat (map dom_cells l))) as [Hi|Hi].
      * rewrite (H1' c Hi). do 2 f_equal. apply nth_error_nth.
        rewrite H2 by (intros Hx; exact (nodup_app_disj _ _ c Hn Hx Hi)).
        apply nth_error_some_nth, Hb, in_or_app. auto.
      * destruct Hc as [Hc|Hc]; [|contradiction]. rewrite (H2' c Hi), (H1 c Hc).
        rewrite (Hm d c); [reflexivity|left; reflexivity|rewrite Ed; exact Hc].
    + intros c Hc. rewrite H2' by (intros Hx; apply Hc, in_or_app; auto). apply H2. intros Hx; apply Hc, in_or_app; auto.
Qed.
End L.

(** A workset too small for the mesh: out of bounds. *)
Lemma foldR_ub {A S} (f : A -> S -> res S) l s : (forall x s, f x s = UB \/ exists s', f x s = Ok s') -> 
  (exists l1 x l2, l = l1 ++ x :: l2 /\ forall s, f x s = UB) -> foldR f l s = UB.
Proof.
  intros Hf (l1 & x & l2 & -> & Hx). revert s. induction l1 as [|y l1 IH]; intros s; cbn.
  - rewrite Hx. reflexivity.
  - destruct (Hf y s) as [->|[s' ->]]; [reflexivity|]. cbn. apply IH.
Qed.
Lemma upd_none {A} (l : list A) i x : (List.length l <= i)%nat -> upd l i x = None.
Proof. intros H. destruct (upd l i x) eqn:E; [apply upd_bound in E; lia|reflexivity]. Qed.
Lemma write_seq_ub {A} (f : nat -> A) n (v : list A) : (List.length v < n)%nat -> write_all (map (fun c => (c, f c)) (seq 0 n)) v = UB.
Proof.
  intros H.
  assert (G : forall k v, List.length v = (List.length v - k + k)%nat -> (k <= List.length v < n)%nat ->
     write_all (map (fun c => (c, f c)) (seq k (n - k))) v = UB).
  { clear v H. intros k v _ Hk. remember (List.length v - k)%nat as j eqn:Ej. revert k v Hk Ej.
    induction j as [|j IH]; intros k v Hk Ej.
    - replace (n - k)%nat with (Datatypes.S (n - Datatypes.S k)) by lia. cbn. rewrite upd_none by lia. reflexivity.
    - replace (n - k)%nat with (Datatypes.S (n - Datatypes.S k)) by lia. cbn.
      destruct (upd_some v k (f k)) as [v' E]; [lia|]. rewrite E. cbn. pose proof (upd_length _ _ _ _ E) as L.
      apply IH; lia. }
  specialize (G 0%nat v). rewrite !Nat.sub_0_r in G. apply G; lia.
Qed.

(** ** Derivatives of assembled values *)
Lemma dl_ext f g x l : (forall t, f t = g t) -> derivable_pt_lim f x l -> derivable_pt_lim g x l.
Proof.
  intros E H eps He. destruct (H eps He) as [d Hd]. exists d. intros h H1 H2. rewrite <- !E. apply Hd; assumption.
Qed.
Lemma dl_rs n (f : nat -> R -> R) (l : nat -> R) x :
  (forall k, (k < n)%nat -> derivable_pt_lim (f k) x (l k)) -> derivable_pt_lim (fun t => rs n (fun k => f k t)) x (rs n l).
Proof.
  induction n as [|n IH]; intros H.
  - apply (derivable_pt_lim_const 0).
  - unfold rs. cbn [sum]. change (@radd R_ring) with Rplus.
    apply (derivable_pt_lim_plus (fun t => rs n (fun k => f k t)) (f n)); [apply IH; intros; apply H; lia|apply H; lia].
Qed.
Lemma dl_sum_over {A} (l : list A) (f : A -> R -> R) (d : A -> R) x :
  (forall k, In k l -> derivable_pt_lim (f k) x (d k)) -> derivable_pt_lim (fun t => sum_over l (fun k => f k t)) x (sum_over l d).
Proof.
  induction l as [|y l IH]; intros H; cbn [sum_over].
  - apply (derivable_pt_lim_const 0).
  - apply (derivable_pt_lim_plus (f y) (fun t => sum_over l (fun k => f k t))); [apply H; left; reflexivity|apply IH; intros; apply H; right; assumption].
Qed.
Lemma dl_plus f g a b x : derivable_pt_lim f x a -> derivable_pt_lim g x b -> derivable_pt_lim (fun t => f t + g t) x (a + b).
Proof. apply derivable_pt_lim_plus. Qed.
Lemma dl_if (c : bool) f d x : derivable_pt_lim f x d -> derivable_pt_lim (fun t => if c then f t else 0) x (if c then d else 0).
Proof. destruct c; [tauto|]. intros _. apply (derivable_pt_lim_const 0). Qed.

Section J.
Variables (npc ndof nx N : nat) (conn : nat -> nat -> nat).
Definition jpart (J : nat -> nat -> nat -> R) (i j c : nat) : R :=
  rs (npc * ndof) (fun e => rs (npc * nx) (fun k =>
    if (Nat.eqb i (conn c (k / nx) * nx + k mod nx) && Nat.eqb j (conn c (e / ndof) * ndof + e mod ndof))%bool then J c e k else 0)).
Lemma fold_add2 n (step : (nat -> nat -> R) -> nat -> nat -> nat -> R) (f : nat -> nat -> nat -> R) :
  (forall o a i j, step o a i j = o i j + f a i j) -> forall o i j, fold_left step (seq 0 n) o i j = o i j + rs n (fun a => f a i j).
Proof.
  intros H. induction n as [|n IH]; intros o i j.
  - cbn. unfold rs. cbn. change (@r0 R_ring) with 0. lra.
  - rewrite seq_S, fold_left_app. cbn [fold_left]. rewrite H, IH. unfold rs. cbn [sum]. change (@radd R_ring) with Rplus. cbn [Nat.add]. lra.
Qed.
Lemma add_jacobians_entry cells J out i j :
  add_jacobians npc ndof conn nx cells J out i j = out i j + sum_over cells (jpart J i j).
Proof.
  unfold add_jacobians. revert out. induction cells as [|c l IH]; intros out; cbn [fold_left sum_over]; [lra|].
  rewrite IH. rewrite (fold_add2 (npc * ndof) _ (fun e i j => rs (npc * nx) (fun k =>
    if (Nat.eqb i (conn c (k / nx) * nx + k mod nx) && Nat.eqb j (conn c (e / ndof) * ndof + e mod ndof))%bool then J c e k else 0))).
  - unfold jpart. lra.
  - intros o e i' j'. rewrite (fold_add2 (npc * nx) _ (fun k i j =>
      if (Nat.eqb i (conn c (k / nx) * nx + k mod nx) && Nat.eqb j (conn c (e / ndof) * ndof + e mod ndof))%bool then J c e k else 0)); reflexivity.
Qed.
Lemma jdomains_entry (ds : list domain) J out i j :
  fold_left (fun out d => add_jacobians npc ndof conn nx (dom_cells d) (J (dom_material d)) out) ds out i j =
  out i j + sum_over ds (fun d => sum_over (dom_cells d) (jpart (J (dom_material d)) i j)).
Proof.
  revert out. induction ds as [|d l IH]; intros out; cbn [fold_left sum_over]; [lra|]. rewrite IH, add_jacobians_entry. lra.
Qed.
(** The action of a cell's part on a direction. *)
Lemma jpart_action J j c W : (0 < nx)%nat -> (forall a, (a < npc)%nat -> (conn c a < N)%nat) ->
  rs (N * nx) (fun i => jpart J i j c * W i) =
  contribution npc ndof conn (fun c e => rs (npc * nx) (fun k => J c e k * cell_part nx (conn c) W k)) j c.
Proof.
  intros Hx Hc. unfold jpart, contribution.
  transitivity (rs (npc * ndof) (fun e => if Nat.eqb j (conn c (e / ndof) * ndof + e mod ndof) then rs (npc * nx) (fun k => J c e k * cell_part nx (conn c) W k) else 0)).
  - change (rs (N * nx)) with (rsum (N * nx)).
    rewrite (rsum_ext (N * nx) _ (fun i => rsum (npc * ndof) (fun e => rsum (npc * nx) (fun k =>
      (if (Nat.eqb i (conn c (k / nx) * nx + k mod nx) && Nat.eqb j (conn c (e / ndof) * ndof + e mod ndof))%bool then J c e k else 0) * W i)))).
    2:{ intros i Hi. unfold rs. change (sum (K := R_ring)) with rsum. rewrite rsum_scal_r. apply rsum_ext. intros e He. rewrite rsum_scal_r. reflexivity. }
    rewrite rsum_swap. apply rsum_ext. intros e He. rewrite rsum_swap.
    destruct (Nat.eqb j (conn c (e / ndof) * ndof + e mod ndof)).
    + apply rsum_ext. intros k Hk. unfold cell_part.
      rewrite (rsum_single (N * nx) (conn c (k / nx) * nx + k mod nx)%nat).
      * rewrite Nat.eqb_refl. reflexivity.
      * assert (k / nx < npc)%nat by (apply Nat.div_lt_upper_bound; lia). specialize (Hc _ H).
        pose proof (Nat.mod_upper_bound k nx). nia.
      * intros i Hi Hne. apply Nat.eqb_neq in Hne. rewrite Hne. cbn [andb]. req. ring.
    + apply rsum_0. intros k Hk. apply rsum_0. intros i Hi. rewrite Bool.andb_false_r. req. ring.
  - destruct ndof as [|nd] eqn:En.
    + rewrite Nat.mul_0_r. unfold rs. cbn. symmetry. apply rsum_0. reflexivity.
    + rewrite <- En. unfold rs. rewrite (sum_block (K := R_ring) npc ndof). apply rsum_ext. intros a Ha. apply rsum_ext. intros i Hi.
      assert (Hm : ((a * ndof + i) mod ndof = i)%nat) by (rewrite (Nat.add_comm (a * ndof) i), Nat.mod_add by lia; apply Nat.mod_small; exact Hi).
      assert (Hd : ((a * ndof + i) / ndof = a)%nat) by (rewrite Nat.div_add_l by lia; rewrite (Nat.div_small i) by lia; lia).
      rewrite Hm, Hd. reflexivity.
Qed.
End J.
