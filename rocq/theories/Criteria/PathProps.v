(** C135 and C136: criteria of a load path. *)
From Coq Require Import String Reals List Arith Bool Permutation Lia Lra FunctionalExtensionality.
From Verif Require Import Base.Field Base.Sums Base.Res Element.ElementModel Element.ElementSpec Element.ElementProof Residual.ResidualSpec Residual.ResidualProof
  Blocks.BlocksModel Blocks.BlocksSpec Blocks.BlocksProof Criteria.PathModel Criteria.PathSpec Criteria.PathProof.
Import ListNotations.
Local Open Scope R_scope.

Section C135.
Variables (n npc d nd nl : nat) (conn : nat -> nat -> nat).
Notation cells_of A := (fun c => cell_args d nd nl conn A c).

(** ** C135 *)
Theorem C135_value : forall ds m f A t, ds <> [] -> covers n (map dom_cells ds) -> domain_of ds m -> every (fun _ => True) f ->
  exists w, value d nd nl conn ds f A t = Ok (meaning n m f (cells_of A) t, w).
Proof. intros ds m f A t H1 H2 H3 H4. apply (value_ok n d nd nl conn ds m A t H1 H2 H3 f H4). Qed.

Lemma every_weaken (P Q : basic -> Prop) : (forall b, P b -> Q b) -> forall f, every P f -> every Q f.
Proof.
  intros HPQ f. pattern f. apply pcrit_all; clear f.
  - intros b. apply HPQ.
  - intros parts IH H. apply every_weighted in H. apply every_weighted. destruct H as [H1 H2]. split; [exact H1|]. rewrite List.Forall_forall in *. intros x Hx. apply IH; [exact Hx|apply H2; exact Hx].
Qed.
(** Every partial derivative except the one with respect to the configuration. *)
Theorem C135_gradient_partial : forall ds m v f A t W, v <> VX -> ds <> [] -> covers n (map dom_cells ds) -> domain_of ds m -> every (differentiated (numbers npc d nd nl)) f ->
  exists g F, gradient npc d nd nl conn ds v f A t = Ok g /\ (forall s, exists w, value d nd nl conn ds f (move v A W s) t = Ok (F s, w)) /\
    derivable_pt_lim F 0 (rs n (fun c => rs (numbers npc d nd nl v) (fun k => g c k * W (index d nd nl conn v c k)))).
Proof.
  change (numbers npc d nd nl) with (width npc d nd nl).
  intros ds m v f A t W Hv Hne HC HM HD. destruct (gradient_ok n npc d nd nl conn ds m v A t Hv HC HM f) as (g & Eg & Hg). exists g.
  exists (fun s => meaning n m f (cells_of (move v A W s)) t). split; [exact Eg|]. split.
  - intros s. apply C135_value; try assumption. apply (every_weaken _ _ (fun _ _ => I) f HD).
  - replace (rs n _) with (rs n (fun c => rs (width npc d nd nl v) (fun k => drows m v f (cells_of A) t c k * W (index d nd nl conn v c k)))).
    + apply meaning_derivative. exact HD.
    + unfold rs. apply rsum_ext. intros c Hc. apply rsum_ext. intros k Hk. rewrite Hg by assumption. reflexivity.
Qed.
Lemma history_value_ok ds m f N G L Z X : ds <> [] -> covers n (map dom_cells ds) -> domain_of ds m -> every (fun _ => True) f ->
  history_value d nd nl conn ds f N G L Z X = Ok (rs N (fun k => meaning n m f (cells_of (step_args G L Z X k)) (INR k))).
Proof.
  intros H1 H2 H3 H4. unfold history_value. induction N as [|N IH]; [reflexivity|]. rewrite seq_S, foldR_app, IH. cbn [rbind Nat.add foldR].
  destruct (C135_value ds m f (step_args G L Z X N) (INR N) H1 H2 H3 H4) as [w E]. rewrite E. cbn [rbind fst]. reflexivity.
Qed.
(** The gradient of a whole load path with respect to the design, states fixed; nn nodes. *)
Theorem C135_design_gradient : forall ds m f N G L Z X W nn out, ds <> [] -> covers n (map dom_cells ds) -> domain_of ds m -> every (differentiated (numbers npc d nd nl)) f ->
  (forall c a, (c < n)%nat -> (a < npc)%nat -> (conn c a < nn)%nat) ->
  exists g F, history_gradient n npc d nd nl conn ds VZ f N G L Z X out = Ok g /\
    (forall s, history_value d nd nl conn ds f N G L (fun i => Z i + s * W i) X = Ok (F s)) /\
    derivable_pt_lim F 0 (rs nn (fun i => (g i - out i) * W i)).
Proof.
  change (numbers npc d nd nl) with (width npc d nd nl).
  intros ds m f N G L Z X W nn out Hne HC HM HD Hn.
  assert (HE : every (fun _ => True) f) by (apply (every_weaken _ _ (fun _ _ => I) f HD)).
  assert (HG : exists g, history_gradient n npc d nd nl conn ds VZ f N G L Z X out = Ok g /\
     rs nn (fun i => g i * W i) = rs nn (fun i => out i * W i) +
       rs N (fun k => rs n (fun c => rs npc (fun a => drows m VZ f (cells_of (step_args G L Z X k)) (INR k) c a * W (conn c a))))).
  { unfold history_gradient. induction N as [|N IH].
    - exists out. split; [reflexivity|]. symmetry. apply Rplus_0_r.
    - destruct IH as (g & Eg & Hg). rewrite seq_S, foldR_app, Eg. cbn [rbind Nat.add foldR].
      destruct (gradient_ok n npc d nd nl conn ds m VZ (step_args G L Z X N) (INR N) ltac:(discriminate) HC HM f) as (r & Er & Hr). rewrite Er. cbn [rbind].
      eexists. split; [reflexivity|]. rewrite (add_rows_action n npc d nd nl conn VZ r g W nn).
      2: { intros c a Hc Ha. apply Hn; assumption. }
      rewrite Hg. cbn [width index]. rewrite Rplus_assoc. f_equal. unfold rs. cbn [sum]. change (@radd R_ring) with Rplus. f_equal. apply rsum_ext. intros c Hc. apply rsum_ext. intros a Ha. rewrite Hr by assumption. reflexivity. }
  destruct HG as (g & Eg & Hg). exists g. exists (fun s => rs N (fun k => meaning n m f (cells_of (step_args G L (fun i => Z i + s * W i) X k)) (INR k))).
  split; [exact Eg|]. split; [intros s; apply history_value_ok; assumption|].
  replace (rs nn _) with (rs N (fun k => rs n (fun c => rs npc (fun a => drows m VZ f (cells_of (step_args G L Z X k)) (INR k) c a * W (conn c a))))).
  - apply (dl_rs N (fun k s => meaning n m f (cells_of (step_args G L (fun i => Z i + s * W i) X k)) (INR k))). intros k Hk.
    apply (dl_ext (fun s => meaning n m f (cells_of (move VZ (step_args G L Z X k) W s)) (INR k))).
    + intros s. f_equal. apply functional_extensionality. intros c. f_equal. apply functional_extensionality. intros v. unfold move, step_args. destruct v; reflexivity.
    + exact (meaning_derivative n npc d nd nl conn m VZ (step_args G L Z X k) W (INR k) f HD).
  - assert (HS : rs nn (fun i => (g i - out i) * W i) = rs nn (fun i => g i * W i) - rs nn (fun i => out i * W i)).
    { unfold rs. rewrite <- rsum_sub. apply rsum_ext. intros i Hi. req. ring. }
    rewrite HS, Hg. ring.
Qed.
(** The gradient with respect to the configuration is refused, whatever the criterion. *)
Lemma basic_shape ds b A t : ds <> [] -> (1 <= d)%nat -> npc = S d -> basic_gradient npc d nd nl conn ds VX b A t = Throw.
Proof.
  intros Hne Hd ->. unfold basic_gradient. destruct ds as [|d0 l]; [contradiction|]. cbn [foldR]. unfold copy_rows at 1. cbn [columns width].
  destruct (Nat.eqb_spec d (S d * d)); [nia|]. reflexivity.
Qed.
Theorem C135_shape_refuted : forall ds f A t, ds <> [] -> (1 <= d)%nat -> npc = S d -> every (fun _ => True) f -> gradient npc d nd nl conn ds VX f A t = Throw.
Proof.
  intros ds f A t Hne Hd Hn. pattern f. apply pcrit_all; clear f.
  - intros b _. apply basic_shape; assumption.
  - intros parts IH HE. apply every_weighted in HE. destruct HE as [Hp HE]. destruct parts as [|[[nm a] p] l]; [contradiction|].
    inversion IH as [|? ? IHp _]; subst. inversion HE as [|? ? HEp _]; subst. cbn [gradient]. cbn [snd] in IHp, HEp. rewrite (IHp HEp). reflexivity.
Qed.
Theorem C135_shape_history_refuted : forall ds f N G L Z X out, ds <> [] -> (1 <= d)%nat -> npc = S d -> (0 < N)%nat -> every (fun _ => True) f ->
  history_gradient n npc d nd nl conn ds VX f N G L Z X out = Throw.
Proof.
  intros ds f N G L Z X out Hne Hd Hn HN HE. destruct N as [|N]; [lia|]. unfold history_gradient. cbn [seq foldR]. rewrite C135_shape_refuted by assumption. reflexivity.
Qed.
(** What the data map holds after a weighted sum of basic criteria, each under its own name, was evaluated. *)
Lemma last_write_app w w' name : last_write (w ++ w') name = match last_write w' name with Some x => Some x | None => last_write w name end.
Proof. induction w as [|[k x] w IH]; cbn [last_write List.app]; [destruct (last_write w' name); reflexivity|]. rewrite IH. destruct (last_write w' name); reflexivity. Qed.
Theorem C135_recorded : forall ds m (l : list (R * basic)) A t, ds <> [] -> covers n (map dom_cells ds) -> domain_of ds m -> l <> [] -> NoDup (map (fun x => b_name (snd x)) l) ->
  exists x w, value d nd nl conn ds (Weighted (map (fun x => (b_name (snd x), fst x, Basic (snd x))) l)) A t = Ok (x, w) /\
    forall a b, In (a, b) l -> last_write w (b_name b) = Some (a * meaning n m (Basic b) (cells_of A) t).
Proof.
  intros ds m l A t Hne HC HM Hl HN. rewrite value_weighted by (destruct l; [contradiction|discriminate]). clear Hl.
  assert (G : forall l s w, NoDup (map (fun x => b_name (snd x)) l) -> exists x w', go_value d nd nl conn ds A t s w (map (fun x => (b_name (snd x), fst x, Basic (snd x))) l) = Ok (x, w') /\
    (forall a b, In (a, b) l -> last_write w' (b_name b) = Some (a * meaning n m (Basic b) (cells_of A) t)) /\
    (forall name, ~ In name (map (fun x => b_name (snd x)) l) -> last_write w' name = last_write w name)).
  { clear l HN. induction l as [|[a b] l IH]; intros s w HN; cbn [map go_value fst snd].
    - exists s, w. split; [reflexivity|]. split; [intros ? ? []|reflexivity].
    - cbn [map snd] in HN. inversion HN as [|? ? H1 H2]; subst. cbn [value].
      rewrite (basic_value_ok n d nd nl conn ds m b A t Hne HC HM). cbn [rbind fst snd]. set (y := meaning n m (Basic b) (cells_of A) t).
      destruct (IH (s + a * y) (w ++ [(b_name b, y)] ++ [(b_name b, a * y)])%list H2) as (x & w' & E & HI & HO). exists x, w'. split; [exact E|]. split.
      + intros a' b' [[= <- <-]|Hin]; [|apply HI; exact Hin]. rewrite HO by exact H1. rewrite last_write_app. cbn [last_write List.app]. rewrite String.eqb_refl. reflexivity.
      + intros name Hn. cbn [map snd In] in Hn. rewrite HO by tauto. rewrite last_write_app. cbn [last_write List.app]. destruct (String.eqb_spec (b_name b) name) as [E'|_]; [exfalso; apply Hn; left; exact E'|]. reflexivity. }
  destruct (G l 0 [] HN) as (x & w & E & HI & _). exists x, w. split; [exact E|exact HI].
Qed.
(** The value of a load path: the sum over the steps of what the criterion makes of the state of the step, the state one step before (zero before the
    first step), and the index of the step. *)
Theorem C135_history : forall ds m f N G L Z X, ds <> [] -> covers n (map dom_cells ds) -> domain_of ds m -> every (fun _ => True) f ->
  exists seen : nat -> nat -> args,
    history_value d nd nl conn ds f N G L Z X = Ok (rs N (fun k => meaning n m f (seen k) (INR k))) /\
    (forall c, sees npc d nd nl conn (G 0%nat) (fun _ => 0) (L 0%nat) (fun _ => 0) Z X c (seen 0%nat c)) /\
    (forall k c, sees npc d nd nl conn (G (S k)) (G k) (L (S k)) (L k) Z X c (seen (S k) c)).
Proof.
  intros ds m f N G L Z X H1 H2 H3 H4. exists (fun k => cells_of (step_args G L Z X k)). split; [apply history_value_ok; assumption|].
  assert (Q : forall b i w, (i < w)%nat -> ((b * w + i) / w = b /\ (b * w + i) mod w = i)%nat).
  { intros b i w Hi. rewrite Nat.add_comm. split; [rewrite Nat.div_add by lia; rewrite Nat.div_small by exact Hi; reflexivity|].
    rewrite Nat.mod_add by lia. apply Nat.mod_small. exact Hi. }
  split; [intros c|intros k c]; split; try (intros i Hi; reflexivity); intros b i Hb Hi; unfold cell_args, index, at_node; destruct (Q b i _ Hi) as [-> ->]; reflexivity.
Qed.
(** A sum of nothing is refused. *)
Theorem C135_empty : forall ds A t, value d nd nl conn ds (Weighted []) A t = Throw.
Proof. reflexivity. Qed.
End C135.
Print Assumptions C135_history.
Print Assumptions C135_empty.
Print Assumptions C135_value.
Print Assumptions C135_gradient_partial.
Print Assumptions C135_design_gradient.
Print Assumptions C135_shape_refuted.
Print Assumptions C135_shape_history_refuted.
Print Assumptions C135_recorded.

(** A chain of two segments in two domains; control times displacement squared, and the change of the local state. *)
Definition chain_domains : list domain := [mkDom "left" "steel" [0%nat]; mkDom "right" "foam" [1%nat]].
Definition chain_conn (c a : nat) : nat := (c + a)%nat.
Definition energy : basic := mkBasic "energy" 3 (fun _ a _ => a VZ 0%nat * (a VU 1%nat * a VU 1%nat))
  (fun v _ a _ k => match v, k with VZ, 0%nat => a VU 1%nat * a VU 1%nat | VU, 1%nat => 2 * a VZ 0%nat * a VU 1%nat | _, _ => 0 end).
Definition hardening : basic := mkBasic "hardening" 1 (fun dom a t => (if String.eqb dom "foam" then t else 1) * (a VC 0%nat - a VCp 0%nat))
  (fun v dom _ t k => match v, k with VC, 0%nat => if String.eqb dom "foam" then t else 1 | VCp, 0%nat => - (if String.eqb dom "foam" then t else 1) | _, _ => 0 end).
Lemma dl_affine a b : derivable_pt_lim (fun s => a + b * s) 0 b.
Proof.
  assert (H : derivable_pt_lim (fun s => a + b * s) 0 (0 + b * 1)).
  { apply (derivable_pt_lim_plus (fun _ => a) (fun s => b * s)); [apply derivable_pt_lim_const|]. apply (derivable_pt_lim_scal id b 0 1). apply derivable_pt_lim_id. }
  rewrite Rplus_0_l, Rmult_1_r in H. exact H.
Qed.
Lemma dl_square a b : derivable_pt_lim (fun s => (a + s * b) * (a + s * b)) 0 (2 * a * b).
Proof.
  assert (H : derivable_pt_lim (fun s => a + s * b) 0 b) by (apply (dl_ext (fun s => a + b * s)); [intros; ring|apply dl_affine]).
  replace (2 * a * b) with (b * (a + 0 * b) + (a + 0 * b) * b) by ring. apply (derivable_pt_lim_mult (fun s => a + s * b) (fun s => a + s * b)); exact H.
Qed.
Lemma dl_constant c l : l = 0 -> derivable_pt_lim (fun _ => c) 0 l.
Proof. intros ->. apply derivable_pt_lim_const. Qed.
Lemma dl_value f l l' : l = l' -> derivable_pt_lim f 0 l -> derivable_pt_lim f 0 l'.
Proof. intros ->. tauto. Qed.
Lemma energy_differentiated : differentiated (numbers 2 1 1 1) energy.
Proof.
  intros v dom a t w. unfold energy, move. destruct v; cbn [b_value b_der var_eqb numbers]; unfold rs; rsums; cbn.
  - apply (dl_ext (fun s => a VZ 0%nat * ((a VU 1%nat + s * w 1%nat) * (a VU 1%nat + s * w 1%nat)))); [intros; reflexivity|].
    apply (dl_value _ (a VZ 0%nat * (2 * a VU 1%nat * w 1%nat))); [req; ring|]. apply dl_scal. apply dl_square.
  - apply dl_constant. req. ring.
  - apply dl_constant. req. ring.
  - apply dl_constant. req. ring.
  - apply (dl_ext (fun s => a VZ 0%nat * (a VU 1%nat * a VU 1%nat) + (w 0%nat * (a VU 1%nat * a VU 1%nat)) * s)); [intros; ring|].
    apply (dl_value _ (w 0%nat * (a VU 1%nat * a VU 1%nat))); [req; ring|]. apply dl_affine.
  - apply dl_constant. req. ring.
Qed.
Lemma hardening_differentiated : differentiated (numbers 2 1 1 1) hardening.
Proof.
  intros v dom a t w. unfold hardening, move. set (q := if String.eqb dom "foam" then t else 1). destruct v; cbn [b_value b_der var_eqb numbers]; unfold rs; rsums; cbn; fold q;
    try (apply dl_constant; req; ring).
  - apply (dl_ext (fun s => q * (a VC 0%nat - a VCp 0%nat) + (q * w 0%nat) * s)); [intros; ring|apply (dl_value _ (q * w 0%nat)); [req; ring|apply dl_affine]].
  - apply (dl_ext (fun s => q * (a VC 0%nat - a VCp 0%nat) + (- q * w 0%nat) * s)); [intros; ring|apply (dl_value _ (- q * w 0%nat)); [req; ring|apply dl_affine]].
Qed.
Example C135_reachable : let f := Weighted [("energy"%string, 2, Basic energy); ("both"%string, -1, Weighted [("hardening"%string, 5, Basic hardening)])] in
  chain_domains <> [] /\ covers 2 (map dom_cells chain_domains) /\ (exists m, domain_of chain_domains m) /\ every (differentiated (numbers 2 1 1 1)) f /\
  (forall c a, (c < 2)%nat -> (a < 2)%nat -> (chain_conn c a < 3)%nat) /\ NoDup (map (fun x => b_name (snd x)) [(2, energy); (5, hardening)]).
Proof.
  intros f. split; [discriminate|]. split; [apply Permutation_refl|]. split.
  - exists (fun c => match c with 0%nat => "left" | _ => "right" end%string). intros dm c [<-|[<-|[]]] [<-|[]]; reflexivity.
  - split; [|split; [unfold chain_conn; lia|]].
    + cbn. split; [discriminate|]. split; [apply energy_differentiated|]. split; [|exact I]. split; [discriminate|]. split; [apply hardening_differentiated|exact I].
    + repeat constructor; cbn; intuition discriminate.
Qed.
(** A block named by two domains is counted twice in the value and once in the gradient. *)
Theorem C135_overlap_refuted : exists ds A g F, gradient 2 1 1 1 chain_conn ds VZ (Basic energy) A 0 = Ok g /\
  (forall s, exists w, value 1 1 1 chain_conn ds (Basic energy) (move VZ A (fun _ => 1) s) 0 = Ok (F s, w)) /\
  derivable_pt_lim F 0 (2 * rs 1 (fun c => rs 2 (fun k => g c k * 1))) /\ rs 1 (fun c => rs 2 (fun k => g c k * 1)) <> 0.
Proof.
  exists [mkDom "one" "steel" [0%nat]; mkDom "two" "steel" [0%nat]], (fun _ _ => 1). eexists. exists (fun s => 6 * (1 + s)).
  split; [reflexivity|]. split; [|split].
  - intros s. eexists. cbn. f_equal. f_equal. unfold move. cbn. ring.
  - apply (dl_ext (fun s => 6 + 6 * s)); [intros; ring|]. apply (dl_value _ 6); [unfold rs; rsums; cbn; unfold cell_args; req; ring|apply dl_affine].
  - unfold rs. rsums. cbn. unfold cell_args. lra.
Qed.
Print Assumptions C135_overlap_refuted.

(** ** C136: construction from the names in the input *)
Section C136.
Variables (make : string -> string -> res ((string -> args -> R -> R) * (var -> string -> args -> R -> nat -> R))) (p : string -> option centry).
(** The criterion that the input describes under a name. *)
Inductive described : string -> pcrit -> Prop :=
| D_basic name e k q : p name = Some e -> e_type e = Some "Scalar Function"%string -> k = match e_kind e with Some k => k | None => "UNDEFINED"%string end -> make k name = Ok q ->
    described name (Basic (mkBasic name (match e_mult e with Some a => a | None => 1 end) (fst q) (snd q)))
| D_sum name e ns ws parts : p name = Some e -> e_type e = Some "Weighted Sum"%string -> e_functions e = Some ns -> e_weights e = Some ws -> List.length ns = List.length ws ->
    map fst parts = combine ns ws -> described_all parts -> described name (Weighted parts)
with described_all : list (string * R * pcrit) -> Prop :=
| D_nil : described_all []
| D_cons n w f l : described n f -> described_all l -> described_all ((n, w, f) :: l).
(** x is a part of the weighted sum named name. *)
Definition part_of (x name : string) : Prop := exists e ns, p name = Some e /\ e_type e = Some "Weighted Sum"%string /\ e_functions e = Some ns /\ In x ns.
Definition go_parts fuel := fix go (l : list (string * R)) : option (res (list (string * R * pcrit))) :=
  match l with
  | [] => Some (Ok [])
  | (n, w) :: l => obind (construct make p fuel n) (fun f => obind (go l) (fun r => Some (Ok ((n, w, f) :: r))))
  end.
Lemma construct_S fuel name : construct make p (S fuel) name =
    let e := or (p name) no_entry in
    let type := or (e_type e) "UNDEFINED"%string in
    if String.eqb type "Scalar Function" then
      Some (let! q := make (or (e_kind e) "UNDEFINED"%string) name in Ok (Basic (mkBasic name (or (e_mult e) 1) (fst q) (snd q))))
    else if String.eqb type "Weighted Sum" then
      match e_functions e, e_weights e with
      | Some ns, Some ws => if Nat.eqb (List.length ns) (List.length ws) then obind (go_parts fuel (combine ns ws)) (fun parts => Some (Ok (Weighted parts))) else Some Throw
      | _, _ => Some Throw
      end
    else Some Throw.
Proof. reflexivity. Qed.
(** What is built is what the input describes. *)
Theorem C136_described : forall fuel name f, construct make p fuel name = Some (Ok f) -> described name f.
Proof.
  induction fuel as [|fuel IH]; intros name f; [discriminate|]. rewrite construct_S. cbv zeta. destruct (p name) as [e|] eqn:Ep; cbn [or]; [|discriminate].
  destruct (e_type e) as [ty|] eqn:Et; cbn [or]; [|discriminate].
  destruct (String.eqb_spec ty "Scalar Function") as [->|_].
  - destruct (make _ name) as [q| |] eqn:Em; cbn [rbind]; try discriminate. intros [= <-]. apply (D_basic name e (or (e_kind e) "UNDEFINED"%string) q); [exact Ep|exact Et|destruct (e_kind e); reflexivity|exact Em].
  - destruct (String.eqb_spec ty "Weighted Sum") as [->|_]; [|discriminate]. destruct (e_functions e) as [ns|] eqn:En; [|discriminate]. destruct (e_weights e) as [ws|] eqn:Ew; [|discriminate].
    destruct (Nat.eqb_spec (List.length ns) (List.length ws)) as [El|_]; [|discriminate].
    assert (G : forall l parts, go_parts fuel l = Some (Ok parts) -> map fst parts = l /\ described_all parts).
    { induction l as [|[x w] l IHl]; intros parts; cbn [go_parts]; [intros [= <-]; split; [reflexivity|constructor]|].
      destruct (construct make p fuel x) as [[g| |]|] eqn:E1; cbn [obind]; try discriminate. fold (go_parts fuel l). destruct (go_parts fuel l) as [[r| |]|] eqn:E2; cbn [obind]; try discriminate.
      intros [= <-]. destruct (IHl r eq_refl) as [H1 H2]. split; [cbn; rewrite H1; reflexivity|]. constructor; [apply IH; exact E1|exact H2]. }
    destruct (go_parts fuel (combine ns ws)) as [[parts| |]|] eqn:E; cbn [obind]; try discriminate. intros [= <-]. destruct (G _ _ E) as [H1 H2].
    apply (D_sum name e ns ws parts Ep Et En Ew El H1 H2).
Qed.
(** Without a criterion that contains itself construction ends. *)
Theorem C136_ends : (forall f, Acc part_of f) -> forall name, exists fuel r, forall k, (fuel <= k)%nat -> construct make p k name = Some r.
Proof.
  intros HA name. induction (HA name) as [name _ IH].
  assert (HF : forall l, (forall x w, In (x, w) l -> exists fuel r, forall k, (fuel <= k)%nat -> construct make p k x = Some r) ->
     exists fuel r, forall k, (fuel <= k)%nat -> go_parts k l = Some r).
  { induction l as [|[x w] l IHl]; intros H; [exists 0%nat, (Ok []); reflexivity|].
    destruct (H x w (or_introl eq_refl)) as (f1 & r1 & H1). destruct (IHl (fun y v Hy => H y v (or_intror Hy))) as (f2 & r2 & H2).
    exists (Nat.max f1 f2). cbn [go_parts]. destruct r1 as [g| |].
    - destruct r2 as [r| |]; [exists (Ok ((x, w, g) :: r))|exists Throw|exists UB]; intros k Hk; rewrite H1 by lia; cbn [obind]; fold (go_parts k l); rewrite H2 by lia; reflexivity.
    - exists Throw. intros k Hk. rewrite H1 by lia. reflexivity.
    - exists UB. intros k Hk. rewrite H1 by lia. reflexivity. }
  assert (HS : forall (P : nat -> option (res pcrit)), (exists fuel r, forall k, (fuel <= k)%nat -> P k = Some r) -> (forall k, construct make p (S k) name = P k) ->
     exists fuel r, forall k, (fuel <= k)%nat -> construct make p k name = Some r).
  { intros P (f0 & r & H) E. exists (S f0), r. intros [|k] Hk; [lia|]. rewrite E. apply H. lia. }
  refine (HS _ _ (fun k => construct_S k name)). cbv zeta. destruct (p name) as [e|] eqn:Ep; cbn [or].
  2: { exists 0%nat, Throw. reflexivity. }
  destruct (e_type e) as [ty|] eqn:Et; cbn [or]; [|exists 0%nat, Throw; reflexivity].
  destruct (String.eqb ty "Scalar Function"); [exists 0%nat; eexists; reflexivity|]. destruct (String.eqb_spec ty "Weighted Sum") as [->|_]; [|exists 0%nat, Throw; reflexivity].
  destruct (e_functions e) as [ns|] eqn:En; [|exists 0%nat, Throw; reflexivity]. destruct (e_weights e) as [ws|]; [|exists 0%nat, Throw; reflexivity].
  destruct (Nat.eqb (List.length ns) (List.length ws)); [|exists 0%nat, Throw; reflexivity].
  destruct (HF (combine ns ws)) as (f0 & r & H).
  - intros x w Hx. apply IH. exists e, ns. split; [exact Ep|]. split; [exact Et|]. split; [exact En|]. apply in_combine_l in Hx. exact Hx.
  - exists f0. destruct r as [parts| |]; eexists; intros k Hk; rewrite H by exact Hk; reflexivity.
Qed.
(** A description is built when nothing in it contains itself. *)
Scheme described_mut := Induction for described Sort Prop with described_all_mut := Induction for described_all Sort Prop.
Theorem C136_built : forall name f, described name f -> exists fuel, forall k, (fuel <= k)%nat -> construct make p k name = Some (Ok f).
Proof.
  apply (described_mut (fun name f _ => exists fuel, forall k, (fuel <= k)%nat -> construct make p k name = Some (Ok f))
    (fun parts _ => exists fuel, forall k, (fuel <= k)%nat -> go_parts k (map fst parts) = Some (Ok parts))).
  - intros name e k q Ep Et -> Em. exists 1%nat. intros [|j] Hj; [lia|]. rewrite construct_S. cbv zeta. rewrite Ep. cbn [or]. rewrite Et. cbn [or]. rewrite String.eqb_refl.
    unfold or. rewrite Em. reflexivity.
  - intros name e ns ws parts Ep Et En Ew El Hm _ (f0 & H). exists (S f0). intros [|j] Hj; [lia|]. rewrite construct_S. cbv zeta. rewrite Ep. cbn [or]. rewrite Et. cbn [or].
    change (String.eqb "Weighted Sum" "Scalar Function") with false. cbv iota. rewrite String.eqb_refl, En, Ew, El, Nat.eqb_refl, <- Hm, H by lia. reflexivity.
  - exists 0%nat. reflexivity.
  - intros n w f l _ (f1 & H1) _ (f2 & H2). exists (Nat.max f1 f2). intros k Hk. cbn [map fst go_parts]. rewrite H1 by lia. cbn [obind]. fold (go_parts k (map fst l)). rewrite H2 by lia. reflexivity.
Qed.
(** A chain of weighted sums, each the first part of the one before, that never ends is never built: the constructor recurses without end. *)
Theorem C136_endless_refuted : forall (chain : nat -> string),
  (forall i, exists e ns ws, p (chain i) = Some e /\ e_type e = Some "Weighted Sum"%string /\ e_functions e = Some (chain (S i) :: ns) /\ e_weights e = Some ws /\ List.length ws = S (List.length ns)) ->
  forall fuel i, construct make p fuel (chain i) = None.
Proof.
  intros chain H. induction fuel as [|fuel IH]; intros i; [reflexivity|]. rewrite construct_S. cbv zeta. destruct (H i) as (e & ns & ws & Ep & Et & En & Ew & El). rewrite Ep. cbn [or]. rewrite Et. cbn [or].
  change (String.eqb "Weighted Sum" "Scalar Function") with false. cbv iota. rewrite String.eqb_refl, En, Ew. cbn [List.length]. rewrite El, Nat.eqb_refl.
  destruct ws as [|w ws]; [discriminate|]. cbn [combine go_parts]. rewrite IH. reflexivity.
Qed.
(** Refused: no such list, no or another type, entries of a weighted sum missing or of different number. *)
Theorem C136_refused : forall fuel name, 
  (p name = None \/ exists e, p name = Some e /\
    (e_type e <> Some "Scalar Function"%string /\ e_type e <> Some "Weighted Sum"%string \/
     e_type e = Some "Weighted Sum"%string /\ (e_functions e = None \/ e_weights e = None \/ exists ns ws, e_functions e = Some ns /\ e_weights e = Some ws /\ List.length ns <> List.length ws))) ->
  construct make p (S fuel) name = Some Throw.
Proof.
  intros fuel name H. rewrite construct_S. cbv zeta. destruct H as [->|(e & -> & H)]; [reflexivity|]. cbn [or]. destruct H as [[H1 H2]|[H1 H2]].
  - destruct (e_type e) as [ty|]; cbn [or]; [|reflexivity]. destruct (String.eqb_spec ty "Scalar Function"); [subst; contradiction|]. destruct (String.eqb_spec ty "Weighted Sum"); [subst; contradiction|]. reflexivity.
  - rewrite H1. cbn [or]. change (String.eqb "Weighted Sum" "Scalar Function") with false. cbv iota. rewrite String.eqb_refl. destruct H2 as [->|[->|(ns & ws & -> & -> & H)]]; [reflexivity|destruct (e_functions e); reflexivity|].
    destruct (Nat.eqb_spec (List.length ns) (List.length ws)); [contradiction|reflexivity].
Qed.
End C136.
Print Assumptions C136_described.
Print Assumptions C136_ends.
Print Assumptions C136_built.
Print Assumptions C136_endless_refuted.
Print Assumptions C136_refused.
Definition sample (name : string) : option centry :=
  if String.eqb name "total" then Some (mkEntry (Some "Weighted Sum"%string) None None (Some ["work"; "work"]%string) (Some [1; 2]))
  else if String.eqb name "work" then Some (mkEntry (Some "Scalar Function"%string) (Some "Plastic Work"%string) None None None)
  else if String.eqb name "self" then Some (mkEntry (Some "Weighted Sum"%string) None None (Some ["self"; "work"]%string) (Some [1; 1])) else None.
Example C136_reachable : (forall make q, make "Plastic Work"%string "work"%string = Ok q -> exists f, described make sample "total" f) /\
  (forall make fuel, construct make sample fuel "self" = None).
Proof.
  split.
  - intros make q Eq. set (f := Basic (mkBasic "work" 1 (fst q) (snd q))). exists (Weighted [("work"%string, 1, f); ("work"%string, 2, f)]).
    assert (Hf : described make sample "work" f) by (apply (D_basic make sample "work" (mkEntry (Some "Scalar Function"%string) (Some "Plastic Work"%string) None None None) "Plastic Work" q); [reflexivity|reflexivity|reflexivity|exact Eq]).
    apply (D_sum make sample "total" (mkEntry (Some "Weighted Sum"%string) None None (Some ["work"; "work"]%string) (Some [1; 2])) ["work"; "work"]%string [1; 2]); try reflexivity.
    repeat constructor; exact Hf.
  - intros make fuel. refine (C136_endless_refuted make sample (fun _ => "self"%string) _ fuel 0%nat). intros i.
    exists (mkEntry (Some "Weighted Sum"%string) None None (Some ["self"; "work"]%string) (Some [1; 1])), ["work"%string], [1; 1]. repeat split; reflexivity.
Qed.
