(** C54, C55, C74-C76: level sets. *)
From Coq Require Import Reals List Arith Bool Lia Lra Permutation.
From Coquelicot Require Import Coquelicot.
From Verif Require Import Base.Field Base.Sums Base.ListUpd Base.Res Base.Scatter Base.Loops Element.ElementModel Element.ElementSpec Element.ElementProof LevelSet.LevelSetModel LevelSet.LevelSetSpec LevelSet.LevelSetProof.
Import ListNotations.
Local Open Scope R_scope.

(** C54.  The smoothed step is monotone, between 0 and 1, 0 below and 1 above the band, and its derivative is the smoothed delta everywhere. *)
Theorem C54_step : forall eps, 0 < eps ->
  (forall s t, s <= t -> heaviside s eps <= heaviside t eps) /\
  (forall s, 0 <= heaviside s eps <= 1) /\
  (forall s, s <= - eps -> heaviside s eps = 0) /\ (forall s, eps <= s -> heaviside s eps = 1) /\
  (forall s, derivable_pt_lim (fun t => heaviside t eps) s (smooth_delta s eps)).
Proof.
  intros eps He. split; [intros s t; apply heaviside_mono; exact He|]. split; [intros s; apply heaviside_range; exact He|].
  destruct (ramp_ends eps He) as (R0 & R1 & _ & _). split; [|split].
  - intros s Hs. unfold heaviside. destruct (Rlt_dec s (- eps)); [reflexivity|]. destruct (Rlt_dec eps s); [lra|]. replace s with (- eps) by lra. exact R0.
  - intros s Hs. unfold heaviside. destruct (Rlt_dec s (- eps)); [lra|]. destruct (Rlt_dec eps s); [reflexivity|]. replace s with eps by lra. exact R1.
  - intros s. apply heaviside_derive. exact He.
Qed.
Print Assumptions C54_step.
Example C54_applies : 0 < 2 /\ heaviside 0 2 = 1 / 2 /\ smooth_delta 0 2 = 1 / 2.
Proof.
  split; [lra|]. unfold heaviside, smooth_delta. destruct (Rlt_dec 0 (Ropp 2)); [lra|]. destruct (Rlt_dec 2 0); [lra|].
  replace (PI * 0 / 2) with 0 by (unfold Rdiv; ring). rewrite sin_0, cos_0. split; [field; apply PI_neq0|field].
Qed.

(** C74.  For every mesh, field and band: the volume above a level lies between zero and the volume of the mesh, does not
    grow with the level, its derivative with respect to the level is minus the area, and none of this depends on the order of the reduction. *)
Lemma lsum_bounds (l : list nat) (v g : nat -> R) : (forall e, 0 <= v e) -> (forall e, 0 <= g e <= 1) ->
  0 <= lsum (K := R_ring) (map (fun e => v e * g e) l) <= lsum (K := R_ring) (map v l).
Proof.
  intros Hv Hg. induction l as [|e l IH]; [cbn; lra|]. cbn [map lsum]. specialize (Hv e). specialize (Hg e).
  change (0 <= v e * g e + lsum (K := R_ring) (map (fun e => v e * g e) l) <= v e + lsum (K := R_ring) (map v l)). nra.
Qed.
Lemma lsum_le (l : list nat) (f g : nat -> R) : (forall e, f e <= g e) -> lsum (K := R_ring) (map f l) <= lsum (K := R_ring) (map g l).
Proof. intros H. induction l as [|e l IH]; [cbn; lra|]. cbn [map lsum]. specialize (H e). change (f e + lsum (K := R_ring) (map f l) <= g e + lsum (K := R_ring) (map g l)). lra. Qed.
Theorem C74_volume : forall sched m f eps, fair sched -> 0 < eps ->
  (forall level, 0 <= level_set_volume sched m f eps level <= rs (lm_nelems m) (fun e => compute_volume (lm_dim m) (cell_x m e))) /\
  (forall l1 l2, l1 <= l2 -> level_set_volume sched m f eps l2 <= level_set_volume sched m f eps l1) /\
  (forall level, derivable_pt_lim (level_set_volume sched m f eps) level (- level_set_area sched m f eps level)) /\
  (forall level s, use_elem f = true -> (forall e, (e < lm_nelems m)%nat -> elem_speed f e = s) -> volume_rate sched m f eps level = s * level_set_area sched m f eps level) /\
  (forall sched' level, fair sched' -> level_set_volume sched' m f eps level = level_set_volume sched m f eps level /\ level_set_area sched' m f eps level = level_set_area sched m f eps level).
Proof.
  intros sched m f eps Hf He.
  assert (Hperm : forall sc (g : nat -> R), fair sc -> lsum (K := R_ring) (map g (sc (lm_nelems m))) = rs (lm_nelems m) g).
  { intros sc g Hs. exact (lsum_fair (K := R_ring) sc (lm_nelems m) g Hs). }
  split; [|split; [|split; [|split]]].
  - intros level. rewrite <- (Hperm sched _ Hf). apply lsum_bounds; [intros e; apply compute_volume_nonneg|intros e; apply heaviside_range; exact He].
  - intros l1 l2 Hl. apply lsum_le. intros e. apply Rmult_le_compat_l; [apply compute_volume_nonneg|]. apply heaviside_mono; [exact He|lra].
  - intros level. apply is_derive_Reals. apply integral_derive. exact He.
  - intros level s Hu Hs. unfold volume_rate, level_set_area, level_set_integral. rewrite !(Hperm sched _ Hf). unfold rs.
    transitivity (rsum (lm_nelems m) (fun e => s * (compute_volume (lm_dim m) (cell_x m e) * smooth_delta (avg_ls m f e - level) eps))); [|apply rsum_scal_l].
    apply rsum_ext. intros e Hin. unfold avg_speed. rewrite Hu, (Hs e Hin). req. ring.
  - intros sched' level Hf'. split; unfold level_set_volume, level_set_area, level_set_integral; rewrite (Hperm sched' _ Hf'), (Hperm sched _ Hf); reflexivity.
Qed.
Print Assumptions C74_volume.

(** C55, one element.  What an element adds to its corners, in terms of its Hamiltonian h = speed * |gradient|: positive
    weights only, each corner receives its weight times h, the weights share out exactly the cell's volume; nothing is added if h = 0. *)
Theorem C55_element : forall d x phi speed b0 b,
  (1 <= d <= 3)%nat -> cell_det d x <> 0 -> (forall a, (a <= d)%nat -> phi a = ElementSpec.affine d b0 b x a) ->
  let h := speed * euclid d b in
  let adds := elem_adds d x phi speed in
  (forall a r w, In (a, (r, w)) adds -> (a <= d)%nat /\ 0 < w /\ r = w * h) /\
  (h = 0 -> adds = []) /\
  (h <> 0 -> lsum (K := R_ring) (map (fun p => snd (snd p)) adds) = cell_volume d x).
Proof.
  intros d x phi speed b0 b Hd Hdet Hphi. pose proof (elem_adds_spec d x phi speed Hd Hdet) as H. cbv zeta in *.
  rewrite (normal_affine d x b0 b phi Hd Hdet) in H by (intros a Ha; apply Hphi; lia). destruct H as (H1 & H2 & H3). split; [|split; assumption].
  intros a r w Hin. destruct (H1 a r w Hin) as (Ha & Hw & Hr). split; [lia|]. split; assumption.
Qed.
Print Assumptions C55_element.

Lemma all_elem_adds_in m f p : In p (all_elem_adds m f) -> exists e a r w, (e < lm_nelems m)%nat /\ In (a, (r, w)) (elem_adds (lm_dim m) (cell_x m e) (cell_phi m f e) (ham_speed m f e)) /\ p = (lm_node m e a, (r, w)).
Proof.
  unfold all_elem_adds. intros H. apply in_flat_map in H. destruct H as (e & He & H). apply in_seq in He. apply in_map_iff in H. destruct H as ([a [r w]] & <- & H). exists e, a, r, w. repeat split; [lia|exact H].
Qed.
(** C55, the whole step: for every mesh, field, speeds and order of the atomic additions, a node keeps its value or moves by dt times a mean of
    the Hamiltonians of the elements around it; so it moves by exactly dt * h if they all have Hamiltonian h. *)
Theorem C55_motion : forall o m f dt, ls_mesh_ok m -> perm_adds o -> 0 <= dt ->
  exists f', evolve o m f dt = Ok f' /\ length (now f') = lm_nverts m /\
    forall i lo hi, (i < lm_nverts m)%nat ->
      (forall e a, (e < lm_nelems m)%nat -> (a <= lm_dim m)%nat -> lm_node m e a = i ->
         exists b, has_gradient m f e b /\ lo <= ham_speed m f e * euclid (lm_dim m) b <= hi) ->
      ls_at f' i = ls_at f i \/ dt * lo <= ls_at f i - ls_at f' i <= dt * hi.
Proof.
  intros o m f dt [Hd Hn Hdet] Ho Hdt.
  assert (Hb : forall p, In p (all_elem_adds m f) -> (fst p < lm_nverts m)%nat).
  { intros p Hp. destruct (all_elem_adds_in m f p Hp) as (e & a & r & w & He & Hin & ->). cbn [fst]. apply Hn; [exact He|].
    destruct (elem_adds_spec (lm_dim m) (cell_x m e) (cell_phi m f e) (ham_speed m f e) Hd (Hdet e He)) as (H1 & _). destruct (H1 a r w Hin) as (Ha & _). lia. }
  destruct (assemble_spec o (lm_nverts m) (all_elem_adds m f) Ho Hb) as (rhs & nrm & E & _).
  unfold evolve. rewrite E. cbn [rbind fst snd]. eexists. split; [reflexivity|]. split; [rewrite now_store, map_length, seq_length; reflexivity|].
  intros i lo hi Hi Hel.
  destruct (hamiltonian_mean o (lm_nverts m) (all_elem_adds m f) i lo hi Ho Hb) as (rhs' & nrm' & E' & HH).
  { intros r w Hin. destruct (all_elem_adds_in m f _ Hin) as (e & a & r' & w' & He & Hin' & Ep). injection Ep as Ei <- <-.
    destruct (elem_adds_spec (lm_dim m) (cell_x m e) (cell_phi m f e) (ham_speed m f e) Hd (Hdet e He)) as (H1 & _). destruct (H1 a r w Hin') as (Ha & Hw & ->).
    destruct (Hel e a He ltac:(lia) (eq_sym Ei)) as (b & (b0 & Hb0) & Hlh). rewrite (normal_affine (lm_dim m) (cell_x m e) b0 b (cell_phi m f e) Hd (Hdet e He)) by (intros k Hk; apply Hb0; lia).
    split; [exact Hw|]. nra. }
  rewrite E in E'. injection E' as <- <-.
  assert (Eat : forall g, ls_at (store_next f (map g (seq 0 (lm_nverts m)))) i = g i).
  { intros g. unfold ls_at. rewrite now_store. rewrite (nth_indep _ 0 (g 0%nat)) by (rewrite map_length, seq_length; exact Hi). rewrite map_nth, seq_nth by exact Hi. reflexivity. }
  rewrite Eat. destruct HH as [(_ & _ & ->)|(_ & HH)]; [left; ring|right]. split; nra.
Qed.
Print Assumptions C55_motion.
(** A constant field never moves. *)
Theorem C55_constant : forall o m f dt c, ls_mesh_ok m -> perm_adds o ->
  (forall i, (i < lm_nverts m)%nat -> ls_at f i = c) ->
  exists f', evolve o m f dt = Ok f' /\ forall i, (i < lm_nverts m)%nat -> ls_at f' i = c.
Proof.
  intros o m f dt c [Hd Hn Hdet] Ho Hc.
  assert (Hnil : all_elem_adds m f = []).
  { unfold all_elem_adds. apply flat_map_nil. intros e He. apply in_seq in He.
    assert (E : elem_adds (lm_dim m) (cell_x m e) (cell_phi m f e) (ham_speed m f e) = []); [|rewrite E; reflexivity].
    destruct (elem_adds_spec (lm_dim m) (cell_x m e) (cell_phi m f e) (ham_speed m f e) Hd (Hdet e ltac:(lia))) as (_ & H2 & _). apply H2.
    rewrite (normal_affine (lm_dim m) (cell_x m e) c (fun _ => 0) (cell_phi m f e) Hd (Hdet e ltac:(lia))).
    - unfold euclid, rs. rewrite rsum_0 by (intros; req; ring). rewrite sqrt_0. ring.
    - intros a Ha. unfold cell_phi, ElementSpec.affine, rs. rewrite rsum_0 by (intros; req; ring). rewrite Hc by (apply Hn; lia). req. ring. }
  assert (Hp : o [] = []) by (apply Permutation_nil; apply Permutation_sym; apply Ho).
  unfold evolve, assemble. rewrite Hnil, Hp. cbn [map add_all foldR rbind fst snd]. eexists. split; [reflexivity|]. intros i Hi.
  unfold ls_at at 1. rewrite now_store. match goal with |- nth i (map ?g _) 0 = c => rewrite (nth_indep _ 0 (g 0%nat)) by (rewrite map_length, seq_length; exact Hi); rewrite (map_nth g), seq_nth by exact Hi; cbv beta end.
  unfold hamiltonian. rewrite !Nat.add_0_l. rewrite (Hc i Hi). replace (nth i (repeat 0 (lm_nverts m)) 0) with 0 by (symmetry; apply nth_repeat). destruct (Rlt_dec 0 0); [lra|]. ring.
Qed.
Print Assumptions C55_constant.

(** One triangle (0,0) (1,0) (0,1) with values 0, 1, 0: gradient (1,0). *)
Definition tri : ls_mesh := mkLM 2 3 1 (fun _ a => a) (fun v k => match v, k with 1%nat, 0%nat => 1 | 2%nat, 1%nat => 1 | _, _ => 0 end).
Definition tri_f : fields := mkF [0; 1; 0] [] 0 true (fun _ => 3) (fun _ => 0).
Example C55_applies : ls_mesh_ok tri /\ perm_adds (@rev _) /\ has_gradient tri tri_f 0 (fun k => match k with O => 1 | _ => 0 end) /\
  ham_speed tri tri_f 0 * euclid 2 (fun k => match k with O => 1 | _ => 0 end) = 3.
Proof.
  split; [split|split; [|split]].
  - cbn. lia.
  - intros e a He Ha. cbn in *. lia.
  - intros e He. cbn. unfold det2, cell_x. cbn. lra.
  - intros l. apply Permutation_sym, Permutation_rev.
  - exists 0. intros a Ha. cbn in Ha. unfold ElementSpec.affine, rs. cbn. assert (a = 0 \/ a = 1 \/ a = 2)%nat as [->|[->| ->]] by lia; cbn; ring.
  - unfold ham_speed, euclid, rs. cbn. replace (0 + 1 * 1 + 0 * 0) with 1 by ring. rewrite sqrt_1. ring.
Qed.

(** C75.  A reinitialisation step (and an arrival-time step) leaves a field that already satisfies its equation
    (factor * |gradient| = 1 in the elements around a node; factor 1, or the speed) unchanged at the node, unless no element is upwind of it;
    then it moves by dt times its smoothed sign. *)
Lemma all_nodal_adds_in m f eps ar p : In p (all_nodal_adds m f eps ar) -> exists e a r w, (e < lm_nelems m)%nat /\ In (a, (r, w)) (nodal_adds (lm_dim m) (cell_x m e) (cell_phi m f e) (nodal_speed m f eps ar e)) /\ p = (lm_node m e a, (r, w)).
Proof.
  unfold all_nodal_adds. intros H. apply in_flat_map in H. destruct H as (e & He & H). apply in_seq in He. apply in_map_iff in H. destruct H as ([a [r w]] & <- & H). exists e, a, r, w. repeat split; [lia|exact H].
Qed.
Theorem C75_fixed_point : forall o m f eps dt arrival, ls_mesh_ok m -> perm_adds o ->
  exists f', eikonal o m f eps dt arrival = Ok f' /\
    forall i, (i < lm_nverts m)%nat ->
      (forall e a, (e < lm_nelems m)%nat -> (a <= lm_dim m)%nat -> lm_node m e a = i ->
         exists b, has_gradient m f e b /\
           (if arrival then (if use_elem f then elem_speed f e else node_speed f i) else 1) * euclid (lm_dim m) b = 1) ->
      ls_at f' i = ls_at f i \/
      (forall r w, ~ In (i, (r, w)) (all_nodal_adds m f eps arrival)) /\ ls_at f' i = ls_at f i + dt * (ls_at f i / sqrt (ls_at f i * ls_at f i + eps * eps)).
Proof.
  intros o m f eps dt ar [Hd Hn Hdet] Ho.
  assert (Hb : forall p, In p (all_nodal_adds m f eps ar) -> (fst p < lm_nverts m)%nat).
  { intros p Hp. destruct (all_nodal_adds_in m f eps ar p Hp) as (e & a & r & w & He & Hin & ->). cbn [fst]. apply Hn; [exact He|].
    destruct (nodal_adds_spec (lm_dim m) (cell_x m e) (cell_phi m f e) (nodal_speed m f eps ar e) Hd (Hdet e He) a r w Hin) as (Ha & _). lia. }
  destruct (assemble_spec o (lm_nverts m) (all_nodal_adds m f eps ar) Ho Hb) as (rhs & nrm & E & _).
  unfold eikonal. rewrite E. cbn [rbind fst snd]. eexists. split; [reflexivity|]. intros i Hi Hel.
  set (sg := smooth_sign (ls_at f i) eps).
  destruct (hamiltonian_mean o (lm_nverts m) (all_nodal_adds m f eps ar) i sg sg Ho Hb) as (rhs' & nrm' & E' & HH).
  { intros r w Hin. destruct (all_nodal_adds_in m f eps ar _ Hin) as (e & a & r' & w' & He & Hin' & Ep). injection Ep as Ei <- <-.
    destruct (nodal_adds_spec (lm_dim m) (cell_x m e) (cell_phi m f e) (nodal_speed m f eps ar e) Hd (Hdet e He) a r w Hin') as (Ha & Hw & ->).
    destruct (Hel e a He ltac:(lia) (eq_sym Ei)) as (b & (b0 & Hb0) & H1). rewrite (normal_affine (lm_dim m) (cell_x m e) b0 b (cell_phi m f e) Hd (Hdet e He)) by (intros k Hk; apply Hb0; lia).
    assert (Hs : nodal_speed m f eps ar e a * euclid (lm_dim m) b = sg).
    { unfold nodal_speed. rewrite <- Ei. fold sg. destruct ar; [rewrite Rmult_assoc, H1; ring|]. rewrite Rmult_1_l in H1. rewrite H1. ring. }
    rewrite Hs. split; [exact Hw|]. lra. }
  rewrite E in E'. injection E' as <- <-.
  assert (Eat : forall g, ls_at (store_next f (map g (seq 0 (lm_nverts m)))) i = g i).
  { intros g. unfold ls_at. rewrite now_store. rewrite (nth_indep _ 0 (g 0%nat)) by (rewrite map_length, seq_length; exact Hi). rewrite map_nth, seq_nth by exact Hi. reflexivity. }
  rewrite Eat. fold sg. destruct HH as [(Hno & _ & ->)|(_ & HH)]; [right; split; [exact Hno|unfold sg, smooth_sign; ring]|left]. replace (hamiltonian rhs nrm i) with sg by lra. ring.
Qed.
Print Assumptions C75_fixed_point.
Example C75_applies : ls_mesh_ok tri /\ 1 * euclid 2 (fun k => match k with O => 1 | _ => 0 end) = 1.
Proof. split; [exact (proj1 C55_applies)|]. unfold euclid, rs. cbn. replace (0 + 1 * 1 + 0 * 0) with 1 by ring. rewrite sqrt_1. ring. Qed.

(** C76.  Normalising the speeds returns their maximum and, if it is positive, scales them to maximum one, keeping signs and proportions. *)
Lemma fold_max_spec l : forall a, let m := fold_left (fun m v => if Rlt_dec m v then v else m) l a in (m = a \/ In m l) /\ a <= m /\ forall v, In v l -> v <= m.
Proof.
  induction l as [|b l IH]; intros a; cbn [fold_left]; [split; [left; reflexivity|split; [lra|intros v []]]|]. cbv zeta.
  destruct (IH (if Rlt_dec a b then b else a)) as (H1 & H2 & H3). destruct (Rlt_dec a b) as [h|h]; (split; [destruct H1 as [H1|H1]; [|right; right; exact H1]|split; [lra|intros v [<-|Hv]; [lra|apply H3; exact Hv]]]).
  - right. left. symmetry. exact H1.
  - left. exact H1.
Qed.
Theorem C76_normalised_partial : forall l, l <> [] -> exists m l', normalize l = Some (m, l') /\ In m l /\ (forall v, In v l -> v <= m) /\
  (0 < m -> In 1 l' /\ (forall v, In v l' -> v <= 1) /\ l = map (fun v => v * m) l').
Proof.
  intros [|a l] H; [contradiction|]. cbn [normalize max_of]. destruct (fold_max_spec l a) as (H1 & H2 & H3). set (m := fold_left _ l a) in *.
  exists m, (map (fun v => v * (1 / m)) (a :: l)). split; [reflexivity|].
  assert (Hin : In m (a :: l)) by (destruct H1 as [H1|H1]; [left; symmetry; exact H1|right; exact H1]).
  assert (Hmax : forall v, In v (a :: l) -> v <= m) by (intros v [<-|Hv]; [exact H2|apply H3; exact Hv]).
  split; [exact Hin|]. split; [exact Hmax|]. intros Hm. split; [|split].
  - apply in_map_iff. exists m. split; [field; lra|exact Hin].
  - intros v Hv. apply in_map_iff in Hv. destruct Hv as (u & <- & Hu). specialize (Hmax u Hu). apply Rmult_le_reg_r with m; [exact Hm|]. replace (u * (1 / m) * m) with u by (field; lra). lra.
  - rewrite map_map. symmetry. transitivity (map (fun v => v) (a :: l)); [|apply map_id]. apply map_ext. intros v. field. lra.
Qed.
Print Assumptions C76_normalised_partial.
(** Violated without a positive speed: the speeds -1, -2 become 1, 2, so that a receding front advances. *)
Theorem C76_sign_refuted : exists l m l', normalize l = Some (m, l') /\ (forall v, In v l -> v < 0) /\ (forall v, In v l' -> 0 < v) /\ l <> [].
Proof.
  exists [-1; -2], (-1), [-1 * (1 / -1); -2 * (1 / -1)]. split.
  - cbn. destruct (Rlt_dec (-1) (-2)); [lra|reflexivity].
  - split; [intros v [<-|[<-|[]]]; lra|]. split; [intros v [<-|[<-|[]]]; lra|discriminate].
Qed.
Print Assumptions C76_sign_refuted.
