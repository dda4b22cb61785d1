(** Lemmas about the loops of path-dependent criteria. *)
From Coq Require Import String Reals List Arith Bool Permutation Lia Lra FunctionalExtensionality.
From Verif Require Import Base.Field Base.Sums Base.Res Element.ElementModel Element.ElementSpec Element.ElementProof Residual.ResidualSpec Residual.ResidualProof
  Blocks.BlocksModel Blocks.BlocksSpec Blocks.BlocksProof Criteria.PathModel Criteria.PathSpec.
Import ListNotations.
Local Open Scope R_scope.

Section Ind.
Variable P : pcrit -> Prop.
Hypothesis HB : forall b, P (Basic b).
Hypothesis HW : forall parts, List.Forall (fun x => P (snd x)) parts -> P (Weighted parts).
Fixpoint pcrit_all (f : pcrit) : P f :=
  match f with
  | Basic b => HB b
  | Weighted parts => HW parts ((fix go (l : list (string * R * pcrit)) : List.Forall (fun x => P (snd x)) l :=
      match l with [] => List.Forall_nil _ | x :: l => List.Forall_cons x (pcrit_all (snd x)) (go l) end) parts)
  end.
End Ind.

Lemma meaning_weighted n m parts a t : meaning n m (Weighted parts) a t = sum_over parts (fun x => snd (fst x) * meaning n m (snd x) a t).
Proof. cbn [meaning]. induction parts as [|[[s w] p] l IH]; cbn [sum_over fst snd]; [reflexivity|]. rewrite <- IH. reflexivity. Qed.
Lemma every_weighted P parts : every P (Weighted parts) <-> parts <> [] /\ List.Forall (fun x => every P (snd x)) parts.
Proof.
  cbn [every]. split; intros [H1 H2]; (split; [exact H1|]); clear H1.
  - induction parts as [|[[s w] p] l IH]; constructor; [exact (proj1 H2)|apply IH; exact (proj2 H2)].
  - induction parts as [|[[s w] p] l IH]; [exact I|]. inversion H2; subst. split; [assumption|apply IH; assumption].
Qed.
Lemma fold_sum {A} (l : list A) (f : A -> R) s : fold_left (fun s x => s + f x) l s = s + sum_over l f.
Proof. revert s; induction l as [|x l IH]; intros s; cbn; [ring|]. rewrite IH. ring. Qed.
Lemma fold_left_ext' {A B} (f g : A -> B -> A) l a : (forall a b, f a b = g a b) -> fold_left f l a = fold_left g l a.
Proof. intros H. revert a; induction l as [|x l IH]; intros a; cbn; [reflexivity|]. rewrite H. apply IH. Qed.
(** Sum over the cells of all domains. *)
Lemma domain_cells n ds m (f : string -> nat -> R) : covers n (map dom_cells ds) -> domain_of ds m ->
  sum_over ds (fun dm => sum_over (dom_cells dm) (f (dom_name dm))) = rs n (fun c => f (m c) c).
Proof.
  intros HC HM. rewrite <- sum_over_seq. rewrite <- (sum_over_perm _ _ _ HC). clear HC. induction ds as [|d0 l IH]; cbn [map concat sum_over]; [reflexivity|].
  rewrite sum_over_app. f_equal.
  - apply sum_over_ext. intros c Hc. rewrite (HM d0 c (or_introl eq_refl) Hc). reflexivity.
  - apply IH. intros d1 c Hd Hc. apply (HM d1 c); [right; exact Hd|exact Hc].
Qed.

Section P.
Variables (n npc d nd nl : nat) (conn : nat -> nat -> nat).
Notation cells_of A := (fun c => cell_args d nd nl conn A c).
Lemma basic_value_ok ds m b A t : ds <> [] -> covers n (map dom_cells ds) -> domain_of ds m ->
  basic_value d nd nl conn ds b A t = Ok (meaning n m (Basic b) (cells_of A) t, [(b_name b, meaning n m (Basic b) (cells_of A) t)]).
Proof.
  intros Hne HC HM. cbn [meaning].
  assert (E : fold_left (fun s dm => s + fold_left (fun s c => s + b_value b (dom_name dm) (cell_args d nd nl conn A c) t) (dom_cells dm) 0) ds 0 =
    rs n (fun c => b_value b (m c) (cells_of A c) t)).
  { rewrite (fold_left_ext' _ (fun s dm => s + sum_over (dom_cells dm) (fun c => b_value b (dom_name dm) (cell_args d nd nl conn A c) t))).
    2: { intros s dm. rewrite fold_sum. ring. }
    rewrite fold_sum, Rplus_0_l. apply (domain_cells n ds m (fun s c => b_value b s (cells_of A c) t) HC HM). }
  unfold basic_value. destruct ds as [|d0 l]; [contradiction|]. rewrite E. reflexivity.
Qed.
Definition go_value ds A t := fix go (s : R) (w : writes) (l : list (string * R * pcrit)) : res (R * writes) :=
      match l with
      | [] => Ok (s, w)
      | (n, a, p) :: l => let! x := value d nd nl conn ds p A t in go (s + a * fst x) (w ++ snd x ++ [(n, a * fst x)])%list l
      end.
Lemma value_weighted ds parts A t : parts <> [] -> value d nd nl conn ds (Weighted parts) A t = go_value ds A t 0 [] parts.
Proof. intros H. destruct parts as [|x l]; [contradiction|]. reflexivity. Qed.
Lemma value_ok ds m A t : ds <> [] -> covers n (map dom_cells ds) -> domain_of ds m -> forall f, every (fun _ => True) f ->
  exists w, value d nd nl conn ds f A t = Ok (meaning n m f (cells_of A) t, w).
Proof.
  intros Hne HC HM f. pattern f. apply pcrit_all; clear f.
  - intros b _. eexists. apply basic_value_ok; assumption.
  - intros parts IH HE. apply every_weighted in HE. destruct HE as [Hp HE]. rewrite value_weighted by exact Hp. rewrite meaning_weighted.
    clear Hp. assert (G : forall s w, exists w', go_value ds A t s w parts = Ok (s + sum_over parts (fun x => snd (fst x) * meaning n m (snd x) (cells_of A) t), w')).
    { induction parts as [|[[nm a] p] l IHl]; intros s w; cbn [go_value sum_over fst snd].
      - exists w. rewrite Rplus_0_r. reflexivity.
      - inversion IH as [|? ? IHp IHr]; subst. inversion HE as [|? ? HEp HEr]; subst. destruct (IHp HEp) as [w1 E1]. cbn [snd] in E1. rewrite E1. cbn [rbind fst snd].
        destruct (IHl IHr HEr (s + a * meaning n m p (cells_of A) t) (w ++ w1 ++ [(nm, a * meaning n m p (cells_of A) t)])%list) as [w2 E2]. exists w2. rewrite E2. f_equal. f_equal. ring. }
    destruct (G 0 []) as [w' E]. exists w'. rewrite E. f_equal. f_equal. ring.
Qed.

(** Rows of the partial derivatives. *)
Fixpoint drows (m : nat -> string) (v : var) (f : pcrit) (a : nat -> args) (t : R) (c k : nat) {struct f} : R :=
  match f with
  | Basic b => b_mult b * b_der b v (m c) (a c) t k
  | Weighted parts => (fix go (l : list (string * R * pcrit)) : R := match l with [] => 0 | (_, w, p) :: l => w * drows m v p a t c k + go l end) parts
  end.
Lemma drows_weighted m v parts a t c k : drows m v (Weighted parts) a t c k = sum_over parts (fun x => snd (fst x) * drows m v (snd x) a t c k).
Proof. cbn [drows]. induction parts as [|[[s w] p] l IH]; cbn [sum_over fst snd]; [reflexivity|]. rewrite <- IH. reflexivity. Qed.
Lemma columns_width v : v <> VX -> columns npc d nd nl v = width npc d nd nl v.
Proof. destruct v; try reflexivity. intros H. contradiction. Qed.
Definition write_rows (W : nat) (cells : list nat) (r out : nat -> nat -> R) : nat -> nat -> R :=
  fold_left (fun out c => fun c' k => if (Nat.eqb c' c && Nat.ltb k W)%bool then r c k else out c' k) cells out.
Lemma write_rows_in W cells r : forall out c k, (k < W)%nat -> In c cells -> write_rows W cells r out c k = r c k.
Proof.
  unfold write_rows. induction cells as [|x l IH] using rev_ind; intros out c k Hk Hin; [contradiction|]. rewrite fold_left_app. cbn [fold_left].
  rewrite (proj2 (Nat.ltb_lt k W) Hk), andb_true_r. destruct (Nat.eqb_spec c x) as [->|N]; [reflexivity|]. apply IH; [exact Hk|].
  apply in_app_or in Hin. destruct Hin as [H|[H|[]]]; [exact H|congruence].
Qed.
Lemma write_rows_out W cells r : forall out c k, ~ In c cells -> write_rows W cells r out c k = out c k.
Proof.
  unfold write_rows. induction cells as [|x l IH] using rev_ind; intros out c k Hin; [reflexivity|]. rewrite fold_left_app. cbn [fold_left].
  destruct (Nat.eqb_spec c x) as [->|N]; [exfalso; apply Hin, in_or_app; right; left; reflexivity|]. cbn [andb]. apply IH. intros H. apply Hin, in_or_app. left; exact H.
Qed.
Lemma basic_gradient_ok ds m v b A t : v <> VX -> covers n (map dom_cells ds) -> domain_of ds m ->
  exists g, basic_gradient npc d nd nl conn ds v b A t = Ok g /\ forall c k, (c < n)%nat -> (k < width npc d nd nl v)%nat -> g c k = drows m v (Basic b) (cells_of A) t c k.
Proof.
  intros Hv HC HM. unfold basic_gradient. set (W := width npc d nd nl v).
  assert (G : forall l out, (forall dm, In dm l -> In dm ds) -> exists g,
     foldR (fun dm out => copy_rows npc d nd nl v (dom_cells dm) (fun c => b_der b v (dom_name dm) (cell_args d nd nl conn A c) t) out) l out = Ok g /\
     forall c k, (k < W)%nat -> (In c (concat (map dom_cells l)) -> g c k = b_der b v (m c) (cells_of A c) t k) /\ (~ In c (concat (map dom_cells l)) -> g c k = out c k)).
  { induction l as [|d0 l IH]; intros out Hl.
    - exists out. split; [reflexivity|]. intros c k Hk. cbn. split; [tauto|reflexivity].
    - cbn [foldR map concat]. unfold copy_rows at 1. rewrite (columns_width v Hv), Nat.eqb_refl. cbn [rbind]. fold W.
      change (fold_left _ (dom_cells d0) out) with (write_rows W (dom_cells d0) (fun c => b_der b v (dom_name d0) (cell_args d nd nl conn A c) t) out).
      destruct (IH (write_rows W (dom_cells d0) (fun c => b_der b v (dom_name d0) (cell_args d nd nl conn A c) t) out) (fun dm H => Hl dm (or_intror H))) as (g & E & Hg).
      exists g. split; [exact E|]. intros c k Hk. destruct (Hg c k Hk) as [H1 H2].
      destruct (in_dec Nat.eq_dec c (concat (map dom_cells l))) as [Hi|Hi].
      + split; [intros _; exact (H1 Hi)|]. intros Hn. exfalso. apply Hn, in_or_app. right; exact Hi.
      + rewrite (H2 Hi). split.
        * intros Hin. apply in_app_or in Hin. destruct Hin as [Hin|Hin]; [|contradiction]. rewrite write_rows_in by assumption.
          rewrite (HM d0 c (Hl d0 (or_introl eq_refl)) Hin). reflexivity.
        * intros Hn. apply write_rows_out. intros Hin. apply Hn, in_or_app. left; exact Hin. }
  destruct (G ds (fun _ _ => 0) (fun _ H => H)) as (g & E & Hg). rewrite E. cbn [rbind]. eexists. split; [reflexivity|].
  intros c k Hc Hk. cbn [drows]. f_equal. apply (proj1 (Hg c k Hk)). apply (Permutation_in _ (Permutation_sym HC)). apply in_seq. lia.
Qed.
Definition go_gradient ds v A t := fix go (s : nat -> nat -> R) (l : list (string * R * pcrit)) : res (nat -> nat -> R) :=
      match l with
      | [] => Ok s
      | (n, a, p) :: l => let! g := gradient npc d nd nl conn ds v p A t in go (fun c k => a * g c k + 1 * s c k) l
      end.
Lemma gradient_ok ds m v A t : v <> VX -> covers n (map dom_cells ds) -> domain_of ds m -> forall f,
  exists g, gradient npc d nd nl conn ds v f A t = Ok g /\ forall c k, (c < n)%nat -> (k < width npc d nd nl v)%nat -> g c k = drows m v f (cells_of A) t c k.
Proof.
  intros Hv HC HM f. pattern f. apply pcrit_all; clear f.
  - intros b. apply basic_gradient_ok; assumption.
  - intros parts IH. change (gradient npc d nd nl conn ds v (Weighted parts) A t) with (go_gradient ds v A t (fun _ _ => 0) parts).
    assert (G : forall s, exists g, go_gradient ds v A t s parts = Ok g /\ forall c k, (c < n)%nat -> (k < width npc d nd nl v)%nat ->
      g c k = s c k + sum_over parts (fun x => snd (fst x) * drows m v (snd x) (cells_of A) t c k)).
    { induction parts as [|[[nm a] p] l IHl]; intros s; cbn [go_gradient sum_over fst snd].
      - exists s. split; [reflexivity|]. intros. ring.
      - inversion IH as [|? ? (g1 & E1 & H1) IHr]; subst. cbn [snd] in E1, H1. rewrite E1. cbn [rbind].
        destruct (IHl IHr (fun c k => a * g1 c k + 1 * s c k)) as (g2 & E2 & H2). exists g2. split; [exact E2|]. intros c k Hc Hk. rewrite H2, H1 by assumption. ring. }
    destruct (G (fun _ _ => 0)) as (g & E & Hg). exists g. split; [exact E|]. intros c k Hc Hk. rewrite Hg by assumption. rewrite drows_weighted. ring.
Qed.
(** The rows are the derivative of the meaning. *)
Lemma dl_scal (f : R -> R) x l a : derivable_pt_lim f x l -> derivable_pt_lim (fun s => a * f s) x (a * l).
Proof. intros H. apply (derivable_pt_lim_scal f a x l H). Qed.
Lemma move_cell v A W s c : cell_args d nd nl conn (move v A W s) c = move v (cell_args d nd nl conn A c) (fun k => W (index d nd nl conn v c k)) s.
Proof. apply functional_extensionality. intros v'. apply functional_extensionality. intros k. unfold cell_args, move. destruct v, v'; reflexivity. Qed.
Lemma meaning_derivative m v A W t : forall f, every (differentiated (width npc d nd nl)) f ->
  derivable_pt_lim (fun s => meaning n m f (cells_of (move v A W s)) t) 0
    (rs n (fun c => rs (width npc d nd nl v) (fun k => drows m v f (cells_of A) t c k * W (index d nd nl conn v c k)))).
Proof.
  intros f. pattern f. apply pcrit_all; clear f.
  - intros b HD. cbn [every] in HD. cbn [meaning drows].
    replace (rs n _) with (b_mult b * rs n (fun c => rs (width npc d nd nl v) (fun k => b_der b v (m c) (cells_of A c) t k * W (index d nd nl conn v c k)))).
    + apply dl_scal. apply (dl_rs n (fun c s => b_value b (m c) (cell_args d nd nl conn (move v A W s) c) t)). intros c Hc.
      apply (dl_ext (fun s => b_value b (m c) (move v (cells_of A c) (fun k => W (index d nd nl conn v c k)) s) t)); [intros s; rewrite move_cell; reflexivity|].
      apply (HD v (m c) (cells_of A c) t (fun k => W (index d nd nl conn v c k))).
    + unfold rs. rewrite <- rsum_scal_l. apply rsum_ext. intros c Hc. rewrite <- rsum_scal_l. apply rsum_ext. intros k Hk. req. ring.
  - intros parts IH HE. apply every_weighted in HE. destruct HE as [_ HE].
    replace (rs n _) with (sum_over parts (fun x => snd (fst x) * rs n (fun c => rs (width npc d nd nl v) (fun k => drows m v (snd x) (cells_of A) t c k * W (index d nd nl conn v c k))))).
    + apply (dl_ext (fun s => sum_over parts (fun x => snd (fst x) * meaning n m (snd x) (cells_of (move v A W s)) t))); [intros s; rewrite meaning_weighted; reflexivity|].
      apply (dl_sum_over parts (fun x s => snd (fst x) * meaning n m (snd x) (cells_of (move v A W s)) t)). intros x Hx. apply dl_scal.
      rewrite List.Forall_forall in IH, HE. apply (IH x Hx). apply (HE x Hx).
    + clear IH HE. induction parts as [|x l IHl]; cbn [sum_over].
      * symmetry. apply rsum_0. intros c Hc. apply rsum_0. intros k Hk. rewrite drows_weighted. cbn. req. ring.
      * rewrite IHl. unfold rs. change (fun a b : rcar R_ring => _) with Rplus. req. rewrite <- rsum_scal_l. req. rewrite <- rsum_add. apply rsum_ext. intros c Hc. rewrite <- rsum_scal_l. req. rewrite <- rsum_add. apply rsum_ext. intros k Hk.
        rewrite !drows_weighted. cbn [sum_over]. req. ring.
Qed.
(** Adding the rows to the nodes. *)
Lemma fold_add k0 (f : nat -> nat -> R) : forall out i, fold_left (fun (out : nat -> R) k => fun i => out i + f k i) (seq 0 k0) out i = out i + rs k0 (fun k => f k i).
Proof.
  induction k0 as [|k0 IH]; intros out i; [cbn; unfold rs; cbn; req; ring|]. rewrite seq_S, fold_left_app. cbn [fold_left Nat.add]. rewrite IH. unfold rs. cbn [sum]. change (@radd R_ring) with Rplus. ring.
Qed.
Lemma add_rows_entry v g out i : add_rows n npc d nd nl conn v g out i =
  out i + rs n (fun c => rs (width npc d nd nl v) (fun k => if Nat.eqb i (index d nd nl conn v c k) then g c k else 0)).
Proof.
  unfold add_rows. rewrite (fold_left_ext' _ (fun (out : nat -> R) c => fun i => out i + rs (width npc d nd nl v) (fun k => if Nat.eqb i (index d nd nl conn v c k) then g c k else 0))).
  - apply (fold_add n (fun c i => rs (width npc d nd nl v) (fun k => if Nat.eqb i (index d nd nl conn v c k) then g c k else 0))).
  - intros o c. apply functional_extensionality. intros j. apply (fold_add (width npc d nd nl v) (fun k i => if Nat.eqb i (index d nd nl conn v c k) then g c k else 0)).
Qed.
Lemma rs_swap a b (f : nat -> nat -> R) : rs a (fun i => rs b (f i)) = rs b (fun j => rs a (fun i => f i j)).
Proof.
  unfold rs. induction a as [|a IH]; cbn [sum].
  - symmetry. apply rsum_0. reflexivity.
  - rewrite IH. req. rewrite <- rsum_add. reflexivity.
Qed.
Lemma pick_one N j (x : R) (W : nat -> R) : (j < N)%nat -> rs N (fun i => (if Nat.eqb i j then x else 0) * W i) = x * W j.
Proof.
  intros H. unfold rs. etransitivity; [apply (rsum_single N j); [exact H|]|].
  - intros i Hi Hne. destruct (Nat.eqb_spec i j); [congruence|]. req. ring.
  - cbv beta. rewrite Nat.eqb_refl. reflexivity.
Qed.
Lemma add_rows_action v g out W N : (forall c k, (c < n)%nat -> (k < width npc d nd nl v)%nat -> (index d nd nl conn v c k < N)%nat) ->
  rs N (fun i => add_rows n npc d nd nl conn v g out i * W i) =
  rs N (fun i => out i * W i) + rs n (fun c => rs (width npc d nd nl v) (fun k => g c k * W (index d nd nl conn v c k))).
Proof.
  intros HI. transitivity (rs N (fun i => out i * W i) + rs N (fun i => rs n (fun c => rs (width npc d nd nl v) (fun k => (if Nat.eqb i (index d nd nl conn v c k) then g c k else 0) * W i)))).
  - unfold rs. req. rewrite <- rsum_add. apply rsum_ext. intros i Hi. rewrite add_rows_entry. unfold rs. req. rewrite Rmult_plus_distr_r. f_equal.
    rewrite (Rmult_comm (rsum n _)). rewrite <- rsum_scal_l. apply rsum_ext. intros c Hc. rewrite <- rsum_scal_l. apply rsum_ext. intros k Hk. req. ring.
  - f_equal. rewrite rs_swap. unfold rs at 1 4. apply rsum_ext. intros c Hc. rewrite rs_swap. unfold rs at 1 3. apply rsum_ext. intros k Hk. apply pick_one. apply HI; assumption.
Qed.
End P.
