(** C56, C57, C78, C79, C81: surface loads, surface pressure, body loads and the parsing of natural boundary conditions. *)
From Coq Require Import Reals String List Arith Bool Lia Lra Permutation.
From Verif Require Import Base.Field Base.Sums Base.ListUpd Base.Res Base.Scatter Base.Loops Assembly.GraphSpec Assembly.AssemblyModel Element.ElementProof
  Loads.LoadsModel Loads.LoadsSpec Loads.LoadsProof.
Import ListNotations.
Local Open Scope R_scope.

(** ** C56 *)
Section C56.
Variables (d numdofs dpn off ncells nn : nat) (m : mesh) (X : nat -> nat -> R) (config : nat -> nat -> nat -> R) (flux : nat -> R) (scale : R) (faces : list nat) (adj : nat -> list nat).
Hypothesis Hd : (1 <= d <= 3)%nat.
Hypothesis Hdofs : (off + numdofs <= dpn)%nat.
Hypothesis Hdpn : (0 < dpn)%nat.
Hypothesis Hmesh : wf_mesh (d + 1) ncells nn (c2v m).
Hypothesis Hcfg : is_config d ncells m X config.
Hypothesis Hfaces : forall f, In f faces -> face_of d ncells m f (adj f).
Let zero : list R := repeat 0 (ncells * ((d + 1) * dpn)).
(** What a delivered load means for the assembled vector. *)
Definition exact_resultant (loads : list R) : Prop :=
  forall v0 out', length v0 = (nn * dpn)%nat ->
    assemble_vector (K := R_ring) (d + 1) dpn (c2v m) (seq 0 ncells) (fun k a => nth (k * ((d + 1) * dpn) + a) loads 0) v0 out' ->
    exists v', out' = Ok v' /\ length v' = length v0 /\
      (forall k, (k < numdofs)%nat -> nodal_sum nn dpn (off + k) v' = nodal_sum nn dpn (off + k) v0 + scale * flux k * rlsum (map (fun f => INR (length (adj f)) * face_area d m X f) faces)) /\
      (forall e, (e < dpn)%nat -> (e < off)%nat \/ (off + numdofs <= e)%nat -> nodal_sum nn dpn e v' = nodal_sum nn dpn e v0).
Lemma rlsum_const {A} (x : R) (l : list A) : rlsum (map (fun _ => x) l) = INR (length l) * x.
Proof. induction l as [|a l IH]; [cbn; ring|]. cbn [map lsum length]. rewrite S_INR. etransitivity; [apply (f_equal2 Rplus); [reflexivity|exact IH]|]. req. ring. Qed.
Lemma to_resultant loads : delivered d numdofs dpn off ncells m nn adj faces (fun f _ k => scale * face_area d m X f * flux k) loads -> exact_resultant loads.
Proof.
  intros H v0 out' L HA. destruct (H v0 out' L HA) as (v' & E & L' & HS). exists v'. split; [exact E|]. split; [exact L'|]. split.
  - intros k Hk. unfold nodal_sum. etransitivity; [exact (HS (off + k)%nat ltac:(lia))|]. unfold in_dofs. rewrite (proj2 (Nat.leb_le _ _)), (proj2 (Nat.ltb_lt _ _)) by lia. cbn [andb]. apply (f_equal2 Rplus); [reflexivity|].
    replace (off + k - off)%nat with k by lia. clear. induction faces as [|f fs IH]; [cbn; ring|]. cbn [map lsum].
    etransitivity; [apply (f_equal2 Rplus); [apply rlsum_const|exact IH]|]. change (@radd R_ring) with Rplus. req. ring.
  - intros e He Hr. unfold nodal_sum. etransitivity; [exact (HS e He)|]. unfold in_dofs. destruct (Nat.leb_spec off e); cbn [andb]; [destruct (Nat.ltb_spec e (off + numdofs)); [lia|]|]; apply Rplus_0_r.
Qed.
Lemma items_ok : exists wss, mapR (load_item d numdofs dpn off ncells m config flux scale) faces = Ok wss /\
  Forall2 (fun f ws => adds_ok d numdofs dpn off ncells (adj f) (fun _ k => scale * face_area d m X f * flux k) ws) faces wss.
Proof. apply mapR_ex. intros f Hf. apply load_item_ok; try assumption; [apply Hmesh|apply Hfaces; exact Hf]. Qed.
Lemma bounds wss G : Forall2 (fun f ws => adds_ok d numdofs dpn off ncells (adj f) (G f) ws) faces wss -> forall ws p x, In ws wss -> In (p, x) ws -> (p < length zero)%nat.
Proof.
  intros F ws p x Hw Hin. destruct (In_nth _ _ [] Hw) as (i & Hi & Ei). destruct (Forall2_nth_P _ _ _ F) as [FL FN].
  destruct (FN i 0%nat [] ltac:(lia)) as [H1 _]. rewrite Ei in H1. destruct (H1 p x Hin) as (c & j & e & _ & Hc & Hj & He & ->). unfold zero. rewrite repeat_length. nia.
Qed.
Lemma apart wss G : unshared adj faces -> Forall2 (fun f ws => adds_ok d numdofs dpn off ncells (adj f) (G f) ws) faces wss -> forall i j p x y, i <> j -> In (p, x) (nth i wss []) -> In (p, y) (nth j wss []) -> False.
Proof.
  intros HU F i j p x y Hne Hi Hj. destruct (Forall2_nth_P _ _ _ F) as [FL FN].
  assert (Li : (i < length wss)%nat) by (destruct (Nat.lt_ge_cases i (length wss)); [assumption|rewrite nth_overflow in Hi by assumption; contradiction]).
  assert (Lj : (j < length wss)%nat) by (destruct (Nat.lt_ge_cases j (length wss)); [assumption|rewrite nth_overflow in Hj by assumption; contradiction]).
  destruct (FN i 0%nat [] ltac:(lia)) as [H1 _]. destruct (FN j 0%nat [] ltac:(lia)) as [H2 _].
  destruct (H1 p x Hi) as (c & a & e & Hc & _ & Ha & He & Ep). destruct (H2 p y Hj) as (c' & a' & e' & Hc' & _ & Ha' & He' & Ep').
  assert (c = c') by nia. subst c'. apply (HU i j c); try lia; assumption.
Qed.
Lemma serial_sum : exists loads, serial_load d numdofs dpn off ncells m config flux scale faces zero = Ok loads /\ exact_resultant loads.
Proof.
  destruct items_ok as (wss & E & F). unfold serial_load. rewrite E. cbn [rbind].
  destruct (add_all_spec (K := R_ring) (concat wss) zero) as (loads & El & _ & HN).
  { intros p x Hin. apply in_concat in Hin. destruct Hin as (ws & Hw & Hin). apply (bounds wss _ F ws p x Hw Hin). }
  exists loads. split; [exact El|]. apply to_resultant. eapply deliver; try eassumption; apply Hmesh.
Qed.
Lemma parallel_sum out : unshared adj faces -> surface_load d numdofs dpn off ncells m config flux scale faces zero out ->
  exists loads, out = Ok loads /\ exact_resultant loads /\ serial_load d numdofs dpn off ncells m config flux scale faces zero = Ok loads.
Proof.
  intros HU H. destruct items_ok as (wss & E & F). unfold surface_load in H. rewrite E in H.
  destruct (race_disjoint (K := R_ring) wss zero out (bounds wss _ F) (apart wss _ HU F) H) as (loads & -> & L & HN). exists loads. split; [reflexivity|]. split.
  - apply to_resultant. eapply deliver; try eassumption; apply Hmesh.
  - unfold serial_load. rewrite E. cbn [rbind]. destruct (add_all_spec (K := R_ring) (concat wss) zero) as (l2 & El & L2 & HN2).
    { intros p x Hin. apply in_concat in Hin. destruct Hin as (ws & Hw & Hin). apply (bounds wss _ F ws p x Hw Hin). }
    rewrite El. f_equal. apply list_eq_nth; [congruence|]. intros i Hi. rewrite (nth_error_some_nth l2 i 0) by exact Hi. rewrite (nth_error_some_nth loads i 0) by (rewrite L, <- L2; exact Hi). f_equal.
    etransitivity; [apply HN2|]. symmetry. apply HN.
Qed.
End C56.

(** C56.  Run by one thread, or by any schedule when no cell has two listed faces, the load adds to every loaded component exactly scale times flux times the area of the faces, each counted
    once per adjacent cell (so once for exterior faces), and nothing to other components. *)
Theorem C56_serial : forall d numdofs dpn off ncells nn m X config flux scale faces adj,
  (1 <= d <= 3)%nat -> (off + numdofs <= dpn)%nat -> (0 < dpn)%nat -> wf_mesh (d + 1) ncells nn (c2v m) -> is_config d ncells m X config ->
  (forall f, In f faces -> face_of d ncells m f (adj f)) ->
  exists loads, serial_load d numdofs dpn off ncells m config flux scale faces (repeat 0 (ncells * ((d + 1) * dpn))) = Ok loads /\
    forall v0 out', length v0 = (nn * dpn)%nat ->
      assemble_vector (K := R_ring) (d + 1) dpn (c2v m) (seq 0 ncells) (fun k a => nth (k * ((d + 1) * dpn) + a) loads 0) v0 out' ->
      exists v', out' = Ok v' /\ length v' = length v0 /\
        (forall k, (k < numdofs)%nat -> nodal_sum nn dpn (off + k) v' = nodal_sum nn dpn (off + k) v0 + scale * flux k * rlsum (map (fun f => INR (length (adj f)) * face_area d m X f) faces)) /\
        (forall e, (e < dpn)%nat -> (e < off)%nat \/ (off + numdofs <= e)%nat -> nodal_sum nn dpn e v' = nodal_sum nn dpn e v0).
Proof. intros. eapply serial_sum; eassumption. Qed.
Print Assumptions C56_serial.
Theorem C56_exterior : forall d numdofs dpn off ncells nn m X config flux scale faces (owner : nat -> nat) out,
  (1 <= d <= 3)%nat -> (off + numdofs <= dpn)%nat -> (0 < dpn)%nat -> wf_mesh (d + 1) ncells nn (c2v m) -> is_config d ncells m X config ->
  (forall f, In f faces -> face_of d ncells m f [owner f]) ->
  (forall i j, (i < length faces)%nat -> (j < length faces)%nat -> i <> j -> owner (nth i faces 0%nat) <> owner (nth j faces 0%nat)) ->
  surface_load d numdofs dpn off ncells m config flux scale faces (repeat 0 (ncells * ((d + 1) * dpn))) out ->
  exists loads, out = Ok loads /\
    forall v0 out', length v0 = (nn * dpn)%nat ->
      assemble_vector (K := R_ring) (d + 1) dpn (c2v m) (seq 0 ncells) (fun k a => nth (k * ((d + 1) * dpn) + a) loads 0) v0 out' ->
      exists v', out' = Ok v' /\ length v' = length v0 /\
        (forall k, (k < numdofs)%nat -> nodal_sum nn dpn (off + k) v' = nodal_sum nn dpn (off + k) v0 + scale * flux k * rlsum (map (face_area d m X) faces)) /\
        (forall e, (e < dpn)%nat -> (e < off)%nat \/ (off + numdofs <= e)%nat -> nodal_sum nn dpn e v' = nodal_sum nn dpn e v0).
Proof.
  intros d numdofs dpn off ncells nn m X config flux scale faces owner out Hd Hdofs Hdpn Hm Hc Hf Ho H.
  destruct (parallel_sum d numdofs dpn off ncells nn m X config flux scale faces (fun f => [owner f]) Hd Hdofs Hdpn Hm Hc Hf out) as (loads & E & HR & _).
  - intros i j c Hi Hj Hne [<-|[]] [h|[]]. apply (Ho i j Hi Hj Hne). symmetry. exact h.
  - exact H.
  - exists loads. split; [exact E|]. intros v0 out' L HA. destruct (HR v0 out' L HA) as (v' & E' & L' & H1 & H2). exists v'. split; [exact E'|]. split; [exact L'|]. split; [|exact H2].
    intros k Hk. rewrite (H1 k Hk). apply (f_equal2 Rplus); [reflexivity|]. apply (f_equal2 Rmult); [reflexivity|]. f_equal. apply map_ext. intros f. cbn [length INR]. ring.
Qed.
Print Assumptions C56_exterior.

(** ** C57.  A triangle with two loaded sides: two schedules, two results. *)
Definition tri : mesh := mkMesh [0; 1; 2]%nat [0; 1; 1; 2]%nat [0; 1; 2]%nat [0; 0]%nat [0; 1; 2]%nat.
Definition triX (v c : nat) : R := match v, c with 1%nat, 0%nat => 1 | 2%nat, _ => 1 | _, _ => 0 end.
Definition triC (cell j c : nat) : R := triX j c.
Lemma tri_items : mapR (load_item 2 1 1 0 1 tri triC (fun _ => 1) 1) [0; 1]%nat = Ok [[(0%nat, 1 / 2); (1%nat, 1 / 2)]; [(1%nat, 1 / 2); (2%nat, 1 / 2)]].
Proof.
  cbn. unfold surf_jacobian, triC, cub_weight. cbn.
  repeat match goal with |- context [sqrt ?a] => replace (sqrt a) with 1 by (symmetry; replace a with 1 by ring; apply sqrt_1) end.
  repeat (f_equal; try lra).
Qed.
Theorem C57_race_refuted : ~ (forall d numdofs dpn off ncells m config flux scale faces mem out1 out2,
  surface_load d numdofs dpn off ncells m config flux scale faces mem out1 -> surface_load d numdofs dpn off ncells m config flux scale faces mem out2 -> out1 = out2).
Proof.
  intros H. specialize (H 2%nat 1%nat 1%nat 0%nat 1%nat tri triC (fun _ => 1) 1 [0; 1]%nat [0; 0; 0] (Ok [0 + 1 / 2; 0 + 1 / 2 + 1 / 2; 0 + 1 / 2]) (Ok [0 + 1 / 2; 0 + 1 / 2; 0 + 1 / 2])).
  unfold surface_load in H. rewrite tri_items in H. cbn [race_outcome] in H.
  assert (A : @eq (res (list R)) (Ok [0 + 1 / 2; 0 + 1 / 2 + 1 / 2; 0 + 1 / 2]) (Ok [0 + 1 / 2; 0 + 1 / 2; 0 + 1 / 2])).
  { apply H.
    - exists [0; 0; 0; 0; 1; 1; 1; 1]%nat. cbn. split; [intros t [<-|[<-|[]]]; reflexivity|reflexivity].
    - exists [0; 0; 0; 1; 0; 1; 1; 1]%nat. cbn. split; [intros t [<-|[<-|[]]]; reflexivity|reflexivity]. }
  injection A as A. lra.
Qed.
Print Assumptions C57_race_refuted.
(** What holds: when no cell has two listed faces, every schedule gives the serial result. *)
Theorem C57_unshared_partial : forall d numdofs dpn off ncells nn m X config flux scale faces adj out,
  (1 <= d <= 3)%nat -> (off + numdofs <= dpn)%nat -> (0 < dpn)%nat -> wf_mesh (d + 1) ncells nn (c2v m) -> is_config d ncells m X config ->
  (forall f, In f faces -> face_of d ncells m f (adj f)) -> unshared adj faces ->
  surface_load d numdofs dpn off ncells m config flux scale faces (repeat 0 (ncells * ((d + 1) * dpn))) out ->
  out = serial_load d numdofs dpn off ncells m config flux scale faces (repeat 0 (ncells * ((d + 1) * dpn))).
Proof. intros d numdofs dpn off ncells nn m X config flux scale faces adj out Hd Hdofs Hdpn Hm Hc Hf HU H. edestruct (parallel_sum d numdofs dpn off ncells nn) as (loads & E & _ & S); try eassumption. rewrite S. exact E. Qed.
Print Assumptions C57_unshared_partial.

(** Two triangles, one loaded side each: the hypotheses of C56_exterior hold. *)
Definition two : mesh := mkMesh [0; 1; 2; 1; 3; 2]%nat [0; 1; 1; 2; 3; 2]%nat [0; 1; 3; 4]%nat [0; 0; 1; 1]%nat [0; 1; 3; 2; 4; 1]%nat.
Definition twoX (v c : nat) : R := match v, c with 1%nat, 0%nat => 1 | 2%nat, 1%nat => 1 | 3%nat, _ => 1 | _, _ => 0 end.
Definition twoC (cell j c : nat) : R := twoX (cell_vertex 2 two cell j) c.
Example C56_applies : wf_mesh 3 2 4 (c2v two) /\ is_config 2 2 two twoX twoC /\ face_of 2 2 two 0 [0%nat] /\ face_of 2 2 two 2 [1%nat] /\ face_of 2 2 two 1 [0; 1]%nat /\
  (forall flux scale, exists out, surface_load 2 2 2 0 2 two twoC flux scale [0; 2]%nat (repeat 0 12) out /\ exists l, out = Ok l) /\ face_area 2 two twoX 0 = 1.
Proof.
  split; [|split; [|split; [|split; [|split; [|split]]]]].
  - split; [reflexivity|]. intros v Hv. cbn in Hv. lia.
  - intros cell j c _ _ _. reflexivity.
  - split; [cbn; lia|]. split; [exists 0%nat, 1%nat; repeat split; cbn; lia|]. intros c [<-|[]]. split; [lia|]. intros i Hi. destruct i as [|[|]]; [exists 0%nat|exists 1%nat|lia]; split; try lia; reflexivity.
  - split; [cbn; lia|]. split; [exists 3%nat, 4%nat; repeat split; cbn; lia|]. intros c [<-|[]]. split; [lia|]. intros i Hi. destruct i as [|[|]]; [exists 1%nat|exists 2%nat|lia]; split; try lia; reflexivity.
  - split; [cbn; lia|]. split; [exists 1%nat, 3%nat; repeat split; cbn; lia|]. intros c [<-|[<-|[]]]; (split; [lia|]); intros i Hi; destruct i as [|[|]]; try lia; [exists 1%nat|exists 2%nat|exists 0%nat|exists 2%nat]; split; try lia; reflexivity.
  - intros flux scale. unfold surface_load.
    destruct (mapR (load_item 2 2 2 0 2 two twoC flux scale) [0; 2]%nat) as [wss| |] eqn:E; [|exfalso; cbn in E; discriminate|exfalso; cbn in E; discriminate].
    exists (add_all (K := R_ring) (concat wss) (repeat 0 12)). assert (HB : forall ws p x, In ws wss -> In (p, x) ws -> (p < length (repeat 0%R 12))%nat).
    { cbn in E. injection E as <-. intros ws p x Hw Hin. rewrite repeat_length. cbn in Hw. destruct Hw as [<-|[<-|[]]]; cbn in Hin; repeat (destruct Hin as [Hin|Hin]; [injection Hin as <- _; lia|]); contradiction. }
    split; [exact (race_serial (K := R_ring) wss (repeat 0 12) HB)|]. destruct (add_all_spec (K := R_ring) (concat wss) (repeat 0 12)) as (l & El & _); [|exists l; exact El].
    intros p x Hin. apply in_concat in Hin. destruct Hin as (ws & Hw & Hin). apply (HB ws p x Hw Hin).
  - unfold face_area, simplex_area, inner, edge, face_corner. cbn. replace (0 + (1 - 0) * (1 - 0) + (0 - 0) * (0 - 0)) with 1 by ring. apply sqrt_1.
Qed.

(** ** C79: uniform pressure *)
Theorem C79_pressure_partial : forall d numdofs dpn off ncells nn m X config flux scale normal (lfo : nat -> nat -> nat) faces (owner : nat -> nat) out,
  (1 <= d <= 3)%nat -> (off + numdofs <= dpn)%nat -> (0 < dpn)%nat -> wf_mesh (d + 1) ncells nn (c2v m) -> is_config d ncells m X config ->
  (numdofs <= d)%nat -> length (c2f m) = (ncells * (d + 1))%nat -> (forall c l, length (normal c l) = d) ->
  (forall f, In f faces -> face_of d ncells m f [owner f] /\ face_position d m (owner f) f (lfo (owner f) f)) ->
  (forall i j, (i < length faces)%nat -> (j < length faces)%nat -> i <> j -> owner (nth i faces 0%nat) <> owner (nth j faces 0%nat)) ->
  surface_pressure d numdofs dpn off ncells m config flux scale normal faces (repeat 0 (ncells * ((d + 1) * dpn))) out ->
  exists loads, out = Ok loads /\
    forall v0 out', length v0 = (nn * dpn)%nat ->
      assemble_vector (K := R_ring) (d + 1) dpn (c2v m) (seq 0 ncells) (fun k a => nth (k * ((d + 1) * dpn) + a) loads 0) v0 out' ->
      exists v', out' = Ok v' /\ length v' = length v0 /\
        (forall k, (k < numdofs)%nat -> nodal_sum nn dpn (off + k) v' = nodal_sum nn dpn (off + k) v0 +
           rlsum (map (fun f => scale * flux k * face_area d m X f * nth k (normal (owner f) (lfo (owner f) f)) 0) faces)) /\
        (forall e, (e < dpn)%nat -> (e < off)%nat \/ (off + numdofs <= e)%nat -> nodal_sum nn dpn e v' = nodal_sum nn dpn e v0).
Proof.
  intros d numdofs dpn off ncells nn m X config flux scale normal lfo faces owner out Hd Hdofs Hdpn Hm Hc Hnd Hcf Hnl Hf Ho H.
  set (adj := fun f => [owner f]). set (G := fun f c k => scale * face_area d m X f * nth k (normal c (lfo c f)) 0 * flux k).
  destruct (mapR_ex (pressure_item d numdofs dpn off ncells m config flux scale normal) (fun f ws => adds_ok d numdofs dpn off ncells (adj f) (G f) ws) faces) as (wss & E & F).
  { intros f Hin. destruct (Hf f Hin) as [H1 H2]. apply (pressure_item_ok d numdofs dpn off ncells m X config flux scale Hd Hdofs (m_len _ _ _ _ Hm) Hc normal lfo f [owner f] Hnd Hcf Hnl H1). intros c [<-|[]]. exact H2. }
  assert (HU : unshared adj faces). { intros i j c Hi Hj Hne [<-|[]] [h|[]]. apply (Ho i j Hi Hj Hne). symmetry. exact h. }
  unfold surface_pressure in H. rewrite E in H.
  assert (HB : forall ws p x, In ws wss -> In (p, x) ws -> (p < length (repeat 0%R (ncells * ((d + 1) * dpn))))%nat) by (eapply bounds; eassumption).
  assert (HA' : forall i j p x y, i <> j -> In (p, x) (nth i wss []) -> In (p, y) (nth j wss []) -> False) by (eapply apart; eassumption).
  destruct (race_disjoint (K := R_ring) wss (repeat 0 (ncells * ((d + 1) * dpn))) out HB HA' H) as (loads & -> & L & HN).
  exists loads. split; [reflexivity|].
  assert (D : delivered d numdofs dpn off ncells m nn adj faces G loads) by (eapply deliver; try eassumption; apply Hm).
  intros v0 out' L0 HA. destruct (D v0 out' L0 HA) as (v' & E' & L' & HS). exists v'. split; [exact E'|]. split; [exact L'|]. split.
  - intros k Hk. unfold nodal_sum. etransitivity; [exact (HS (off + k)%nat ltac:(lia))|]. unfold in_dofs. rewrite (proj2 (Nat.leb_le _ _)), (proj2 (Nat.ltb_lt _ _)) by lia. cbn [andb]. apply (f_equal2 Rplus); [reflexivity|].
    replace (off + k - off)%nat with k by lia. unfold adj, G. f_equal. apply map_ext. intros f. cbn [map lsum]. change (@radd R_ring) with Rplus. change (@r0 R_ring) with 0%R. req. ring.
  - intros e He Hr. unfold nodal_sum. etransitivity; [exact (HS e He)|]. unfold in_dofs. destruct (Nat.leb_spec off e); cbn [andb]; [destruct (Nat.ltb_spec e (off + numdofs)); [lia|]|]; apply Rplus_0_r.
Qed.
Print Assumptions C79_pressure_partial.
(** With more components than space dimensions, as the plasticity residual instantiates it (InfinitesimalStrainPlasticityResidual.hpp: NaturalBCs with the pressure degree of freedom
    counted), the loop reads the normal out of bounds. *)
Theorem C79_extra_component_refuted : ~ (forall d numdofs dpn off ncells nn m X config flux scale normal (lfo : nat -> nat -> nat) faces (owner : nat -> nat) out,
  (1 <= d <= 3)%nat -> (off + numdofs <= dpn)%nat -> (0 < dpn)%nat -> wf_mesh (d + 1) ncells nn (c2v m) -> is_config d ncells m X config ->
  length (c2f m) = (ncells * (d + 1))%nat -> (forall c l, length (normal c l) = d) ->
  (forall f, In f faces -> face_of d ncells m f [owner f] /\ face_position d m (owner f) f (lfo (owner f) f)) ->
  surface_pressure d numdofs dpn off ncells m config flux scale normal faces (repeat 0 (ncells * ((d + 1) * dpn))) out -> out <> UB).
Proof.
  intros H. apply (H 2 3 3 0 2 4 two twoX twoC (fun _ => 1%R) 1%R (fun _ _ => [0; - (1)]%R) (fun _ _ => 0) [0] (fun _ => 0) UB)%nat; try lia; try reflexivity.
  - apply C56_applies.
  - intros cell j c _ _ _. reflexivity.
  - intros f [<-|[]]. split; [apply C56_applies|]. split; [lia|]. split; [reflexivity|]. intros j Hj. lia.
Qed.
Print Assumptions C79_extra_component_refuted.
Example C79_applies : length (c2f two) = 6%nat /\ face_position 2 two 0 0 0 /\ face_position 2 two 1 2 0.
Proof. split; [reflexivity|]. split; (split; [lia|]; split; [reflexivity|]; intros j Hj; lia). Qed.

(** ** C78: body loads *)
Section Body.
Variables (d dpn dof numpts : nat) (cells : list nat) (xi : nat -> nat -> R) (wq : nat -> R) (detJ : nat -> R)
  (node : nat -> nat -> nat -> R) (f : (nat -> R) -> R) (control : nat -> nat -> R) (scale : R).
Hypothesis Hdof : (dof < dpn)%nat.
Let W := ((d + 1) * dpn)%nat.
Definition body_add (k : nat) (qn : nat * nat) : nat * R :=
  ((k * ((d + 1) * dpn) + (snd qn * dpn + dof))%nat,
   scale * wq (fst qn) * Rabs (detJ (nth k cells 0%nat)) * f (map_point d xi node (nth k cells 0%nat) (fst qn)) * basis_value d (xi (fst qn)) (snd qn) * cell_density d control k).
Lemma body_item_eq k : (k < length cells)%nat -> body_item d dpn dof numpts cells xi wq detJ node f control scale k = Ok (map (body_add k) (list_prod (seq 0 numpts) (seq 0 (d + 1)))).
Proof.
  intros Hk. unfold body_item. rewrite (nth_error_some_nth _ k 0%nat) by exact Hk. cbn [ub rbind]. apply mapR_ok. intros [q n] Hin. apply in_prod_iff in Hin. destruct Hin as [_ Hn]. apply in_seq in Hn.
  cbn [fst snd]. unfold entry. rewrite (proj2 (Nat.ltb_lt _ _) Hk), (proj2 (Nat.ltb_lt (n * dpn + dof) ((d + 1) * dpn))) by nia. reflexivity.
Qed.
Lemma body_value mem out : length mem = (length cells * W)%nat -> body_load d dpn dof numpts cells xi wq detJ node f control scale mem out ->
  exists loads, out = Ok loads /\ length loads = length mem /\
    forall k n e, (k < length cells)%nat -> (n < d + 1)%nat -> (e < dpn)%nat ->
      nth (k * W + n * dpn + e) loads 0 = nth (k * W + n * dpn + e) mem 0 +
        (if Nat.eqb e dof then rsum numpts (fun q => scale * wq q * Rabs (detJ (nth k cells 0%nat)) * f (map_point d xi node (nth k cells 0%nat) q) * basis_value d (xi q) n * cell_density d control k) else 0).
Proof.
  intros HL H. unfold body_load in H. rewrite (mapR_ok _ (fun k => map (body_add k) (list_prod (seq 0 numpts) (seq 0 (d + 1))))) in H by (intros k Hk; apply in_seq in Hk; apply body_item_eq; lia).
  set (wss := map (fun k => map (body_add k) (list_prod (seq 0 numpts) (seq 0 (d + 1)))) (seq 0 (length cells))) in *.
  assert (HP : forall k p x, In (p, x) (map (body_add k) (list_prod (seq 0 numpts) (seq 0 (d + 1)))) -> exists n, (n < d + 1)%nat /\ p = (k * W + (n * dpn + dof))%nat).
  { intros k p x Hin. apply in_map_iff in Hin. destruct Hin as ([q n] & E & Hin). apply in_prod_iff in Hin. destruct Hin as [_ Hn]. apply in_seq in Hn. injection E as <- _. exists n. split; [lia|reflexivity]. }
  assert (HN : forall i, nth i wss [] = if Nat.ltb i (length cells) then map (body_add i) (list_prod (seq 0 numpts) (seq 0 (d + 1))) else []).
  { intros i. destruct (Nat.ltb_spec i (length cells)); [|apply nth_overflow; unfold wss; rewrite map_length, seq_length; assumption].
    unfold wss. rewrite (nth_indep _ [] (map (body_add 0) (list_prod (seq 0 numpts) (seq 0 (d + 1))))) by (rewrite map_length, seq_length; assumption).
    rewrite (map_nth (fun k => map (body_add k) (list_prod (seq 0 numpts) (seq 0 (d + 1))))), seq_nth by assumption. reflexivity. }
  destruct (race_disjoint (K := R_ring) wss mem out) as (loads & E & L & HV).
  - intros ws p x Hw Hin. unfold wss in Hw. apply in_map_iff in Hw. destruct Hw as (k & <- & Hk). apply in_seq in Hk. destruct (HP k p x Hin) as (n & Hn & ->). refine (Nat.lt_le_trans _ _ _ _ (Nat.eq_le_incl _ _ (eq_sym HL))). unfold W. nia.
  - intros i j p x y Hne Hi Hj. rewrite HN in Hi, Hj. destruct (Nat.ltb_spec i (length cells)) as [li|]; [|contradiction]. destruct (Nat.ltb_spec j (length cells)) as [lj|]; [|contradiction].
    destruct (HP i p x Hi) as (n & Hn & Ep). destruct (HP j p y Hj) as (n' & Hn' & Ep'). apply Hne. unfold W in *. nia.
  - exact H.
  - exists loads. split; [exact E|]. split; [exact L|]. intros k n e Hk Hn He. etransitivity; [exact (HV (k * W + n * dpn + e)%nat)|]. apply (f_equal2 Rplus); [reflexivity|].
    unfold wss. rewrite <- flat_map_concat_map. etransitivity; [apply (amount_flat_map (K := R_ring))|]. etransitivity; [apply (lsum_map_seq (K := R_ring))|].
    rewrite (sum_single (K := R_ring) (length cells) k _ Hk).
    + unfold amount. rewrite map_map. cbn [fst snd body_add].
      transitivity (rlsum (map (fun qn : nat * nat => if Nat.eqb (snd qn) n then (if Nat.eqb e dof then snd (body_add k qn) else 0) else 0) (list_prod (seq 0 numpts) (seq 0 (d + 1))))).
      { apply (lsum_map_ext (K := R_ring)). intros [q j] Hin. apply in_prod_iff in Hin. destruct Hin as [_ Hj]. apply in_seq in Hj. cbn [fst snd].
        assert (X : Nat.eqb (k * ((d + 1) * dpn) + (j * dpn + dof)) (k * W + n * dpn + e) = (Nat.eqb j n && Nat.eqb e dof)%bool).
        { unfold W. destruct (Nat.eqb_spec j n); destruct (Nat.eqb_spec e dof); cbn [andb]; [apply Nat.eqb_eq; nia|apply Nat.eqb_neq; nia|apply Nat.eqb_neq; nia|apply Nat.eqb_neq; nia]. }
        rewrite X. destruct (Nat.eqb j n), (Nat.eqb e dof); reflexivity. }
      assert (L2 : forall (g : nat * nat -> R) l, @eq R (rlsum (map (fun qn : nat * nat => if Nat.eqb (snd qn) n then g qn else 0) (list_prod l (seq 0 (d + 1))))) (rlsum (map (fun q => g (q, n)) l))).
      { intros g l. induction l as [|q l IH]; [reflexivity|]. cbn [list_prod map lsum]. rewrite map_app. etransitivity; [apply (lsum_app (K := R_ring))|]. rewrite map_map. cbn [snd]. apply (f_equal2 Rplus); [|exact IH].
        etransitivity; [apply (lsum_map_seq (K := R_ring))|]. rewrite (sum_single (K := R_ring) (d + 1) n _ Hn); [rewrite Nat.eqb_refl; reflexivity|]. intros j _ Hj. destruct (Nat.eqb_spec j n); [contradiction|reflexivity]. }
      etransitivity; [apply (L2 (fun qn => if Nat.eqb e dof then snd (body_add k qn) else 0))|]. etransitivity; [apply (lsum_map_seq (K := R_ring))|].
      destruct (Nat.eqb e dof); [reflexivity|]. apply (sum_0 (K := R_ring)). intros; reflexivity.
    + intros j Hj Hne. unfold amount. rewrite map_map. apply (lsum_map_0 (K := R_ring)). intros [q i] Hin. apply in_prod_iff in Hin. destruct Hin as [_ Hi]. apply in_seq in Hi. cbn [fst snd body_add].
      destruct (Nat.eqb_spec (j * ((d + 1) * dpn) + (i * dpn + dof)) (k * W + n * dpn + e)) as [X|]; [|reflexivity]. exfalso. apply Hne. unfold W in X. nia.
Qed.
End Body.

(** The centroid of a cell and the mean of a cell's nodal densities. *)
Definition centroid (d : nat) (node : nat -> nat -> nat -> R) (cell c : nat) : R := rsum (d + 1) (fun n => node cell n c) / INR (d + 1).
Definition mean_density (d : nat) (control : nat -> nat -> R) (k : nat) : R := rsum (d + 1) (fun n => control k n) / INR (d + 1).
Theorem C78_body : forall d dpn dof cells detJ node (f : (nat -> R) -> R) control scale mem out pt w,
  (1 <= d <= 3)%nat -> (dof < dpn)%nat -> cubature d 1 = Ok [(pt, w)] -> length mem = (length cells * ((d + 1) * dpn))%nat ->
  body_load d dpn dof 1 cells (fun _ n => nth n pt 0) (fun _ => w) detJ node f control scale mem out ->
  exists loads, out = Ok loads /\ length loads = length mem /\
    forall k n e, (k < length cells)%nat -> (n < d + 1)%nat -> (e < dpn)%nat ->
      nth (k * ((d + 1) * dpn) + n * dpn + e) loads 0 = nth (k * ((d + 1) * dpn) + n * dpn + e) mem 0 +
        (if Nat.eqb e dof then scale * mean_density d control k * (Rabs (detJ (nth k cells 0%nat)) / INR (fact d)) * f (centroid d node (nth k cells 0%nat)) / INR (d + 1) else 0).
Proof.
  intros d dpn dof cells detJ node f control scale mem out pt w Hd Hdof HC HL H.
  destruct (body_value _ _ _ _ _ _ _ _ _ _ _ _ Hdof mem out HL H) as (loads & E & L & HV). exists loads. split; [exact E|]. split; [exact L|].
  intros k n e Hk Hn He. etransitivity; [exact (HV k n e Hk Hn He)|]. apply (f_equal2 Rplus); [reflexivity|]. destruct (Nat.eqb e dof); [|reflexivity].
  assert (X : forall q, map_point d (fun _ n => nth n pt 0) node (nth k cells 0%nat) q = centroid d node (nth k cells 0%nat)).
  { intros q. apply FunctionalExtensionality.functional_extensionality. intros c. unfold map_point, centroid. destruct d as [|[|[|[|]]]]; try lia; cbn in HC; injection HC as <- _; cbn; field. }
  rewrite (sum_ext (K := R_ring) 1 _ (fun _ => scale * w * Rabs (detJ (nth k cells 0%nat)) * f (centroid d node (nth k cells 0%nat)) * (1 / INR (d + 1)) * cell_density d control k)).
  - cbn [sum]. unfold cell_density, mean_density. set (D := Rabs _). set (V := f _). destruct d as [|[|[|[|]]]]; try lia; cbn in HC; injection HC as _ <-; cbn; field.
  - intros q Hq. rewrite X. f_equal. f_equal. unfold basis_value. destruct d as [|[|[|[|]]]]; try lia; cbn in HC; injection HC as <- _; destruct n as [|[|[|[|]]]]; try lia; cbn; field.
Qed.
Print Assumptions C78_body.
(** Any cubature: the nodes of a cell together receive the quadrature sum of the force. *)
Theorem C78_total : forall d dpn dof numpts cells xi wq detJ node (f : (nat -> R) -> R) control scale mem out,
  (dof < dpn)%nat -> length mem = (length cells * ((d + 1) * dpn))%nat ->
  body_load d dpn dof numpts cells xi wq detJ node f control scale mem out ->
  exists loads, out = Ok loads /\ length loads = length mem /\
    forall k, (k < length cells)%nat ->
      rsum (d + 1) (fun n => nth (k * ((d + 1) * dpn) + n * dpn + dof) loads 0) = rsum (d + 1) (fun n => nth (k * ((d + 1) * dpn) + n * dpn + dof) mem 0) +
        scale * mean_density d control k * rsum numpts (fun q => wq q * Rabs (detJ (nth k cells 0%nat)) *
          f (fun c => rsum d (fun n => xi q n * node (nth k cells 0%nat) n c) + (1 - rsum d (fun n => xi q n)) * node (nth k cells 0%nat) d c)).
Proof.
  intros d dpn dof numpts cells xi wq detJ node f control scale mem out Hdof HL H.
  destruct (body_value _ _ _ _ _ _ _ _ _ _ _ _ Hdof mem out HL H) as (loads & E & L & HV). exists loads. split; [exact E|]. split; [exact L|].
  intros k Hk. etransitivity; [apply (sum_ext (K := R_ring)); intros n Hn; exact (HV k n dof Hk Hn Hdof)|]. rewrite Nat.eqb_refl.
  etransitivity; [apply (sum_add (K := R_ring))|]. apply (f_equal2 Rplus); [reflexivity|].
  etransitivity; [apply (sum_swap (K := R_ring))|]. etransitivity; [|apply (sum_scal_l (K := R_ring))]. apply (sum_ext (K := R_ring)). intros q Hq.
  set (F := f (map_point d xi node (nth k cells 0%nat) q)).
  change (f (fun c : nat => _)) with F. set (D := Rabs _).
  transitivity (rsum (d + 1) (fun n => (scale * wq q * D * F * cell_density d control k) * basis_value d (xi q) n)).
  { apply (sum_ext (K := R_ring)). intros n Hn. req. ring. }
  etransitivity; [apply (sum_scal_l (K := R_ring))|].
  assert (PU : @eq R (rsum (d + 1) (basis_value d (xi q))) 1).
  { rewrite Nat.add_1_r. cbn [sum]. unfold basis_value at 2. rewrite Nat.ltb_irrefl. rewrite (sum_ext (K := R_ring) d _ (xi q)) by (intros n Hn; unfold basis_value; rewrite (proj2 (Nat.ltb_lt n d) Hn); reflexivity).
    generalize (rsum d (xi q)). intros V. change (@radd R_ring) with Rplus. ring. }
  rewrite PU. unfold mean_density. fold (cell_density d control k). change (@rmul R_ring) with Rmult. req. ring.
Qed.
Print Assumptions C78_total.
Example C78_applies : exists pt w, cubature 3 1 = Ok [(pt, w)] /\ pt = [1 / 4; 1 / 4; 1 / 4] /\ w = 1 / 6.
Proof. eexists _, _. split; [reflexivity|]. split; reflexivity. Qed.

(** ** C81: parsing of natural boundary conditions *)
(** The flux the documentation promises for an accepted condition: [k]-th component. *)
Definition promised (type : string) (s : sublist) (k : nat) : R :=
  if String.eqb type "Uniform" then
    match s_values s, s_value s with Some vs, _ => nth k vs 0 | None, Some v => if Nat.eqb k (match s_index s with Some i => i | None => 0%nat end) then v else 0 | _, _ => 0 end
  else if String.eqb type "Uniform Pressure" then match s_value s with Some v => v | None => 0 end
  else match s_value s, s_component s with
       | Some v, Some c => let dir := if (String.eqb c "x" || String.eqb c "X")%bool then 0%nat else if (String.eqb c "y" || String.eqb c "Y")%bool then 1%nat else 2%nat in if Nat.eqb k dir then v else 0
       | _, _ => 0
       end.
Lemma copy_ok numdofs (v : list R) : (numdofs <= length v)%nat -> mapR (fun i => ub (nth_error v i)) (seq 0 numdofs) = Ok (map (fun i => nth i v 0) (seq 0 numdofs)).
Proof. intros H. apply mapR_ok. intros i Hi. apply in_seq in Hi. rewrite (nth_error_some_nth v i 0) by lia. reflexivity. Qed.
Lemma copy_inv numdofs (v w : list R) : mapR (fun i => ub (nth_error v i)) (seq 0 numdofs) = Ok w -> length w = numdofs /\ forall k, (k < numdofs)%nat -> nth k w 0 = nth k v 0.
Proof.
  intros H. destruct (Nat.le_gt_cases numdofs (length v)) as [L|L].
  - rewrite copy_ok in H by exact L. injection H as <-. rewrite map_length, seq_length. split; [reflexivity|]. intros k Hk.
    rewrite (nth_indep _ 0 (nth 0 v 0)) by (rewrite map_length, seq_length; exact Hk). rewrite (map_nth (fun i => nth i v 0)), seq_nth by exact Hk. reflexivity.
  - exfalso. assert (A : forall a n, (a <= length v < a + n)%nat -> mapR (fun i => ub (nth_error v i)) (seq a n) = UB).
    { intros a n. revert a. induction n as [|n IH]; intros a Ha; [lia|]. cbn [seq mapR]. destruct (Nat.eq_dec a (length v)) as [->|Hne].
      - rewrite (proj2 (nth_error_None v (length v))) by lia. reflexivity.
      - rewrite (nth_error_some_nth v a 0) by lia. cbn [ub rbind]. rewrite IH by lia. reflexivity. }
    rewrite A in H by lia. discriminate.
Qed.
Lemma set_at_inv n i x w : set_at (repeat 0 n) i x = Ok w -> (i < n)%nat /\ length w = n /\ forall k, (k < n)%nat -> nth k w 0 = if Nat.eqb k i then x else 0.
Proof.
  unfold set_at. intros H. destruct (upd (repeat 0 n) i x) as [w'|] eqn:E; [|discriminate]. injection H as ->.
  pose proof (upd_length _ _ _ _ E) as L. pose proof (upd_bound _ _ _ _ E) as B. rewrite repeat_length in *. split; [exact B|]. split; [exact L|].
  intros k Hk. rewrite (upd_nth _ _ _ _ k 0 E). destruct (Nat.eqb k i); [reflexivity|]. apply nth_repeat.
Qed.
(** Accepted conditions have the promised flux. *)
Theorem C81_accepted : forall numdofs dpn type s flux, parse_bc numdofs dpn type s = Ok flux ->
  length flux = numdofs /\ (forall k, (k < numdofs)%nat -> nth k flux 0 = promised type s k) /\
  (type = "Uniform"%string \/ type = "Uniform Pressure"%string \/ type = "Uniform Component"%string).
Proof.
  intros numdofs dpn type s flux H. unfold parse_bc, bc_type_of in H.
  assert (T : type = "Uniform"%string \/ type = "Uniform Pressure"%string \/ type = "Uniform Component"%string).
  { destruct (String.eqb_spec type "Uniform"); [tauto|]. destruct (String.eqb_spec type "Uniform Pressure"); [tauto|]. destruct (String.eqb_spec type "Uniform Component"); [tauto|discriminate]. }
  destruct T as [T|[T|T]]; subst type; cbn [String.eqb Ascii.eqb Bool.eqb] in H; unfold flux_vector in H.
  - destruct (s_values s) as [vs|] eqn:Ev; destruct (s_value s) as [v|] eqn:Ew; cbn [rbind] in H; try discriminate.
    + destruct (copy_inv _ _ _ H) as [L N]. split; [exact L|]. split; [|tauto]. intros k Hk. rewrite (N k Hk). unfold promised. rewrite Ev. reflexivity.
    + destruct (set_at (repeat 0 numdofs) _ v) as [w| |] eqn:E; cbn [rbind] in H; try discriminate. destruct (set_at_inv _ _ _ _ E) as (B & L & N). destruct (copy_inv _ _ _ H) as [L' N']. split; [exact L'|]. split; [|tauto].
      intros k Hk. rewrite (N' k Hk), (N k Hk). unfold promised. rewrite Ev, Ew. reflexivity.
  - destruct (s_value s) as [v|] eqn:Ew; cbn [rbind] in H; try discriminate. destruct (copy_inv _ _ _ H) as [L N]. split; [exact L|]. split; [|tauto]. intros k Hk. rewrite (N k Hk). unfold promised. cbn. rewrite Ew. apply nth_error_nth. apply nth_error_repeat. exact Hk.
  - destruct (s_value s) as [v|] eqn:Ew; cbn [rbind] in H; try discriminate. destruct (s_component s) as [c|] eqn:Ec; cbn [rbind] in H; try discriminate. unfold is_dir in H.
    split; [|split; [|tauto]].
    + destruct (_ || _)%bool; [|destruct (_ && _)%bool; [|destruct (_ && _)%bool; [|discriminate]]]; match type of H with (let! v := ?o in _) = _ => destruct o; cbn [rbind] in H; try discriminate end; apply (copy_inv _ _ _ H).
    + intros k Hk. unfold promised. cbn [String.eqb Ascii.eqb Bool.eqb]. cbn. rewrite Ew, Ec.
      destruct (String.eqb c "x" || String.eqb c "X")%bool; [|destruct (String.eqb c "y" || String.eqb c "Y")%bool eqn:Y; cbn [andb] in H; [destruct (Nat.ltb 1 dpn)|]].
      * destruct (set_at (repeat 0 numdofs) 0 v) as [w| |] eqn:E; cbn [rbind] in H; try discriminate. destruct (set_at_inv _ _ _ _ E) as (B & L & N). destruct (copy_inv _ _ _ H) as [L' N']. rewrite (N' k Hk), (N k Hk). reflexivity.
      * destruct (set_at (repeat 0 numdofs) 1 v) as [w| |] eqn:E; cbn [rbind] in H; try discriminate. destruct (set_at_inv _ _ _ _ E) as (B & L & N). destruct (copy_inv _ _ _ H) as [L' N']. rewrite (N' k Hk), (N k Hk). reflexivity.
      * exfalso. apply orb_true_iff in Y. destruct Y as [Y|Y]; apply String.eqb_eq in Y; subst c; cbn in H; discriminate.
      * destruct (String.eqb c "z" || String.eqb c "Z")%bool; cbn [andb] in H; [destruct (Nat.ltb 2 dpn)|]; [|discriminate|discriminate].
        destruct (set_at (repeat 0 numdofs) 2 v) as [w| |] eqn:E; cbn [rbind] in H; try discriminate. destruct (set_at_inv _ _ _ _ E) as (B & L & N). destruct (copy_inv _ _ _ H) as [L' N']. rewrite (N' k Hk), (N k Hk). reflexivity.
Qed.
Print Assumptions C81_accepted.
(** Safe inputs: the field has all the node's components, an index within them, and enough values.  Then the answer is a flux or an exception, an exception exactly when the type or the
    component is not one of those offered, the value is missing, or both Value and Values are given. *)
Theorem C81_safe_partial : forall numdofs dpn type s, (dpn <= numdofs)%nat -> (1 <= numdofs)%nat -> (forall i, s_index s = Some i -> (i < numdofs)%nat) -> (forall vs, s_values s = Some vs -> (numdofs <= length vs)%nat) ->
  parse_bc numdofs dpn type s <> UB.
Proof.
  intros numdofs dpn type s Hd H1 Hi Hv. unfold parse_bc. destruct (bc_type_of type) as [ty|]; [|discriminate].
  assert (S : forall i (v : R), (i < numdofs)%nat -> exists w, set_at (repeat 0 numdofs) i v = Ok w /\ length w = numdofs).
  { intros i v Hin. unfold set_at. destruct (upd_some (repeat 0 numdofs) i v) as [w E]; [rewrite repeat_length; exact Hin|]. rewrite E. exists w. split; [reflexivity|]. rewrite (upd_length _ _ _ _ E). apply repeat_length. }
  assert (C : forall w : list R, (numdofs <= length w)%nat -> mapR (fun i => ub (nth_error w i)) (seq 0 numdofs) <> UB) by (intros w Hw; rewrite copy_ok by exact Hw; discriminate).
  assert (SC : forall i (v : R), (i < numdofs)%nat -> (let! w := set_at (repeat 0 numdofs) i v in mapR (fun i => ub (nth_error w i)) (seq 0 numdofs)) <> UB).
  { intros i v Hin. destruct (S i v Hin) as (w & E & L). rewrite E. cbn [rbind]. apply C. lia. }
  destruct ty; unfold flux_vector.
  - destruct (s_values s) as [vs|]; destruct (s_value s) as [v|]; cbn [rbind]; try discriminate.
    + apply C. apply Hv. reflexivity.
    + apply SC. destruct (s_index s) as [i|]; [apply Hi; reflexivity|lia].
  - destruct (s_value s) as [v|]; cbn [rbind]; [|discriminate]. apply C. rewrite repeat_length. lia.
  - destruct (s_value s) as [v|]; [|discriminate]. destruct (s_component s) as [c|]; [|discriminate].
    destruct (is_dir c "x" "X"); [apply SC; lia|]. destruct (is_dir c "y" "Y"); cbn [andb]; [destruct (Nat.ltb_spec 1 dpn); [apply SC; lia|]|];
    (destruct (is_dir c "z" "Z"); cbn [andb]; [destruct (Nat.ltb_spec 2 dpn); [apply SC; lia|]|]; discriminate).
Qed.
Print Assumptions C81_safe_partial.
(** A thermal flux in thermomechanics has one component of four: a component "y" passes the check and is written out of bounds. *)
Theorem C81_wild_write_refuted : ~ (forall numdofs dpn type s, (1 <= numdofs <= dpn)%nat -> parse_bc numdofs dpn type s <> UB).
Proof. intros H. apply (H 1%nat 4%nat "Uniform Component"%string (mkSub (Some 1) None None (Some "y"%string))); [lia|]. reflexivity. Qed.
Print Assumptions C81_wild_write_refuted.
Example C81_applies : parse_bc 3 3 "Uniform Component" (mkSub (Some 7) None None (Some "z"%string)) = Ok [0; 0; 7] /\ parse_bc 2 2 "Uniform" (mkSub None (Some [1; 2]) None None) = Ok [1; 2].
Proof. split; reflexivity. Qed.
