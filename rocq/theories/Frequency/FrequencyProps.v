(** C145-C147: the frequency domain residual, its adjoint and the dynamic compliance. *)
From Coq Require Import Reals List Arith Bool Lia Lra.
From Verif Require Import Base.Field Base.Sums Base.Res Element.ElementModel Element.ElementSpec Element.ElementProof Element.ElementProps
  Penalty.PenaltyModel Residual.ResidualModel Residual.ResidualSpec Residual.ResidualProof Residual.ResidualProps Residual.ResidualEnergyProps Residual.CouplingProof
  Dynamics.DynModel Dynamics.DynSpec Dynamics.DynProof Dynamics.DynProps Frequency.FrequencyModel Frequency.FrequencySpec Frequency.FrequencyProof.
Import ListNotations.
Local Open Scope R_scope.

(** ** C145: the residual is the force amplitude of a vibration *)
Theorem C145_undamped_partial : forall d pen proj w s X U Z cells, (1 <= d <= 3)%nat -> undamped cells ->
  is_motion d (fun r => pen (proj r)) w s X U Z cells (forward_residual d pen proj w X U Z cells).
Proof. intros d pen proj w s X U Z cells Hd Hu. apply undamped_motion; auto. Qed.
Print Assumptions C145_undamped_partial.

(** Its virtual work: elastic minus omega^2 times inertial, real and imaginary parts apart. *)
Theorem C145_work_partial : forall d nn pen proj w X U Z cells W, (1 <= d <= 3)%nat -> mesh_ok d nn X cells -> undamped cells ->
  work (nn * (2 * d)) (forward_residual d pen proj w X U Z cells) W =
  sum_over cells (fun cl => sum_over [0%nat; 1%nat] (fun c =>
    weight_of d (fun r => pen (proj r)) X Z cl *
    (stiff d (h_stiff (c_mat cl)) (strain_of d X (part d c U) cl) (strain_of d X (part d c W) cl)
     - w * w * h_rho (c_mat cl) * rs d (fun i => mean_of d (part d c U) cl i * mean_of d (part d c W) cl i)))).
Proof.
  intros d nn pen proj w X U Z cells W Hd Hm Hu.
  rewrite (motion_work d nn (fun r => pen (proj r)) w 0 X U Z cells) by (exact Hd || apply C145_undamped_partial; assumption).
  rewrite !motion_energy by assumption. rewrite <- sum_over_add. apply sum_over_ext. intros cl _. cbn [sum_over]. unfold mass_of. ring.
Qed.
Print Assumptions C145_work_partial.

(** With damping, the first corner of each cell feels the damping forces of that cell and the other corners feel none. *)
Theorem C145_first_corner : forall d pen proj w s X U Z cells n c i, (1 <= d <= 3)%nat -> distinct_corners d cells -> (c < 2)%nat -> (i < d)%nat ->
  forward_residual d pen proj w X U Z cells (n * (2 * d) + (c * d + i))%nat =
  motion d (fun r => pen (proj r)) w s X U Z (without_damping cells) c (n * d + i)%nat
  + sum_over cells (fun cl => if Nat.eqb n (c_node cl 0%nat) then damping_force d (fun r => pen (proj r)) X U Z cl c (n * d + i)%nat else 0).
Proof.
  intros d pen proj w s X U Z cells n c i Hd Hdist Hc Hi.
  assert (Hu : undamped (without_damping cells)).
  { intros cl H. unfold without_damping in H. apply in_map_iff in H. destruct H as (x & <- & _). split; reflexivity. }
  rewrite <- (C145_undamped_partial d pen proj w s X U Z (without_damping cells) Hd Hu n c i Hc Hi).
  pose proof (slot_lt d c i Hc Hi) as Q.
  unfold forward_residual, frequency_residual. rewrite !assemble_row by exact Q. unfold without_damping. rewrite sum_over_map, <- sum_over_add.
  apply sum_over_ext. intros cl Hcl. cbn [c_node c_mat].
  set (plain := mkHarmonic (h_stiff (c_mat cl)) (h_rho (c_mat cl)) 0 0).
  assert (Hd' : forall a b, (a < S d)%nat -> (b < S d)%nat -> c_node cl a = c_node cl b -> a = b) by (intros a b Ha Hb; apply (Hdist cl Hcl); lia).
  set (x := gather_coords X cl). set (u := gather (2 * d) U cl). set (z := gather_control Z cl).
  change (gather_coords X {| c_node := c_node cl; c_mat := plain |}) with x. change (gather (2 * d) U {| c_node := c_node cl; c_mat := plain |}) with u.
  change (gather_control Z {| c_node := c_node cl; c_mat := plain |}) with z.
  assert (E : forall a, (a < S d)%nat -> frequency_cell complex_damping d pen proj w (c_mat cl) x u z (a * (2 * d) + (c * d + i))%nat =
     frequency_cell complex_damping d pen proj w plain x u z (a * (2 * d) + (c * d + i))%nat + cell_penalty d pen proj z * damping_part d (c_mat cl) x u c a i).
  { intros a Ha. rewrite !(proj1 (frequency_cell_at _ _ _ _ _ _ _ _ a c i Hd Ha Hc Hi)).
    change (elastic_part d plain x u c a i) with (elastic_part d (c_mat cl) x u c a i). change (inertia_part d plain x u c a i) with (inertia_part d (c_mat cl) x u c a i).
    replace (damping_part d plain x u c a i) with 0 by (unfold damping_part; destruct a; [destruct c; cbn [plain h_ra h_rb]; ring|reflexivity]). ring. }
  rewrite (rsum_ext (S d) _ (fun a => (if Nat.eqb n (c_node cl a) then frequency_cell complex_damping d pen proj w plain x u z (a * (2 * d) + (c * d + i))%nat else 0)
      + (if Nat.eqb n (c_node cl a) then cell_penalty d pen proj z * damping_part d (c_mat cl) x u c a i else 0))).
  2: { intros a Ha. rewrite E by exact Ha. destruct (Nat.eqb n (c_node cl a)); req; ring. }
  rewrite rsum_add. f_equal.
  rewrite (rsum_single (S d) 0); [|lia|].
  2: { intros a Ha Hne. destruct a as [|a]; [lia|]. cbn [damping_part]. destruct (Nat.eqb n _); req; ring. }
  destruct (Nat.eqb_spec n (c_node cl 0%nat)) as [->|_]; [|reflexivity].
  unfold damping_force, elastodynamic, cells_in_time. rewrite assemble_row by exact Hi. cbn [map sum_over c_node c_mat].
  rewrite (rsum_single (S d) 0); [|lia|].
  2: { intros a Ha Hne. destruct (Nat.eqb_spec (c_node cl 0%nat) (c_node cl a)) as [E0|]; [|reflexivity]. exfalso. apply Hne. symmetry. apply Hd'; (lia || exact E0). }
  rewrite Nat.eqb_refl.
  assert (H0 : (0 < S d)%nat) by lia.
  rewrite (dyn_cell_at _ _ _ _ _ _ _ _ 0 i Hd H0 Hi).
  rewrite (elastic_0 d _ _ (gather d (fun _ => 0) _)) by (exact Hd || reflexivity).
  rewrite (inertia_0 d _ _ (gather d (fun _ => 0) _)) by (lia || reflexivity).
  change (gather_coords X _) with x. change (gather_control Z _) with z. unfold cell_penalty.
  assert (Pt : forall c', (c' < 2)%nat -> forall j, part d c' u j = gather d (part d c' U) cl j) by (intros; unfold u; apply part_gather; lia).
  assert (EV : forall k c', (c' < 2)%nat -> elastic_force d (h_stiff (c_mat cl)) x (gather d (fun j => k * part d c' U j) cl) 0 i = k * elastic_part d (c_mat cl) x u c' 0 i).
  { intros k c' Hc'. unfold elastic_part. rewrite <- elastic_scale by exact Hd. apply elastic_ext; [exact Hd|]. intros j _. rewrite Pt by exact Hc'. reflexivity. }
  assert (IV : forall k c', (c' < 2)%nat -> inertia_force d (h_rho (c_mat cl)) x (gather d (fun j => k * part d c' U j) cl) 0 i = k * inertia_part d (c_mat cl) x u c' 0 i).
  { intros k c' Hc'. unfold inertia_part. rewrite <- inertia_scale. apply inertia_ext; [lia|exact Hi|]. intros j _. rewrite Pt by exact Hc'. reflexivity. }
  assert (c = 0 \/ c = 1)%nat as [-> | ->] by lia; cbn [velocity damping_part].
  - specialize (EV 1 1%nat ltac:(lia)). specialize (IV 1 1%nat ltac:(lia)).
    match type of EV with ?a = _ => match goal with |- context [elastic_force d (h_stiff (c_mat cl)) x ?g 0 i] => change (elastic_force d (h_stiff (c_mat cl)) x g 0 i) with a end end.
    match type of IV with ?a = _ => match goal with |- context [inertia_force d (h_rho (c_mat cl)) x ?g 0 i] => change (inertia_force d (h_rho (c_mat cl)) x g 0 i) with a end end.
    rewrite EV, IV. req. ring.
  - specialize (EV (-(1)) 0%nat ltac:(lia)). specialize (IV (-(1)) 0%nat ltac:(lia)).
    match type of EV with ?a = _ => match goal with |- context [elastic_force d (h_stiff (c_mat cl)) x ?g 0 i] => change (elastic_force d (h_stiff (c_mat cl)) x g 0 i) with a end end.
    match type of IV with ?a = _ => match goal with |- context [inertia_force d (h_rho (c_mat cl)) x ?g 0 i] => change (inertia_force d (h_rho (c_mat cl)) x g 0 i) with a end end.
    rewrite EV, IV. req. ring.
Qed.
Print Assumptions C145_first_corner.

(** Without damping a vibration takes no power from the load: the work of the residual on the velocity is zero. *)
Lemma turned_part d U c : (1 <= d)%nat -> (c < 2)%nat -> forall k, part d c (turned d U) k = match c with O => part d 1 U k | _ => - part d 0 U k end.
Proof.
  intros Hd Hc k. pose proof (Nat.mod_upper_bound k d ltac:(lia)) as Hk. unfold part, turned.
  pose proof (slot_lt d c (k mod d) Hc Hk) as Q.
  replace ((k / d * (2 * d) + (c * d + k mod d)) mod (2 * d))%nat with (c * d + k mod d)%nat.
  2: { rewrite (Nat.add_comm (k / d * (2 * d))), Nat.mod_add by lia. symmetry. apply Nat.mod_small. exact Q. }
  assert (c = 0 \/ c = 1)%nat as [-> | ->] by lia.
  - destruct (Nat.ltb_spec (0 * d + k mod d) d); [|lia]. f_equal. lia.
  - destruct (Nat.ltb_spec (1 * d + k mod d) d); [lia|]. do 2 f_equal. lia.
Qed.
Lemma strain_of_point {M} d X U V (cl : cell M) v : (1 <= d <= 3)%nat -> (forall k, U k = V k) -> strain_of d X U cl v = strain_of d X V cl v.
Proof. intros Hd H. unfold strain_of. apply strain_ext; [exact Hd|lia|]. intros. unfold gather. apply H. Qed.
Lemma mean_point {M} d U V (cl : cell M) i : (forall k, U k = V k) -> mean_of d U cl i = mean_of d V cl i.
Proof. intros H. unfold mean_of, rs. f_equal. apply rsum_ext. intros. apply H. Qed.
Theorem C145_lossless_partial : forall d nn pen proj w X U Z cells, (1 <= d <= 3)%nat -> mesh_ok d nn X cells -> undamped cells -> symmetric_stiffness d cells ->
  work (nn * (2 * d)) (forward_residual d pen proj w X U Z cells) (turned d U) = 0.
Proof.
  intros d nn pen proj w X U Z cells Hd Hm Hu Hs. rewrite (C145_work_partial d nn) by assumption. apply sum_over_0. intros cl Hcl. cbn [sum_over].
  assert (P0 : forall k, part d 0 (turned d U) k = part d 1 U k) by (intros; apply (turned_part d U 0); lia).
  assert (P1 : forall k, part d 1 (turned d U) k = -1 * part d 0 U k) by (intros; rewrite (turned_part d U 1) by lia; ring).
  rewrite (stiff_ext d _ (strain_of d X (part d 0 U) cl) (strain_of d X (part d 0 (turned d U)) cl) (strain_of d X (part d 0 U) cl) (strain_of d X (part d 1 U) cl))
    by (intros; try apply strain_of_point; auto).
  rewrite (stiff_ext d _ (strain_of d X (part d 1 U) cl) (strain_of d X (part d 1 (turned d U)) cl) (strain_of d X (part d 1 U) cl) (fun v => strain_of d X (fun _ => 0) cl v + -1 * strain_of d X (part d 0 U) cl v)).
  2: reflexivity.
  2: { intros v Hv. rewrite <- strain_of_lin by assumption. apply strain_of_point; [exact Hd|]. intros k. rewrite P1. ring. }
  rewrite stiff_lin_r.
  assert (Z0 : stiff d (h_stiff (c_mat cl)) (strain_of d X (part d 1 U) cl) (strain_of d X (fun _ => 0) cl) = 0).
  { unfold stiff, rs. apply rsum_0. intros v Hv.
    pose proof (strain_of_lin d X (fun _ => 0) (fun _ => 0) 1 cl v Hd Hv) as L. cbn beta in L. rewrite (strain_of_point d X (fun _ => 0 + 1 * 0) (fun _ => 0) cl v Hd) in L by (intros; ring).
    replace (strain_of d X (fun _ => 0) cl v) with 0 by lra. req. ring. }
  unfold rs. rewrite Z0. rewrite (stiff_sym d _ (strain_of d X (part d 1 U) cl) (strain_of d X (part d 0 U) cl) (Hs cl Hcl)).
  rewrite (rsum_ext d (fun i => mean_of d (part d 0 U) cl i * mean_of d (part d 0 (turned d U)) cl i) (fun i => mean_of d (part d 0 U) cl i * mean_of d (part d 1 U) cl i)) by (intros; rewrite (mean_point d _ _ cl _ P0); reflexivity).
  rewrite (rsum_ext d (fun i => mean_of d (part d 1 U) cl i * mean_of d (part d 1 (turned d U)) cl i) (fun i => -1 * (mean_of d (part d 0 U) cl i * mean_of d (part d 1 U) cl i))).
  - rewrite rsum_scal_l. unfold rs. ring.
  - intros i _. rewrite (mean_point d _ _ cl i P1). replace (mean_of d (fun k => -1 * part d 0 U k) cl i) with (-1 * mean_of d (part d 0 U) cl i); [req; ring|].
    unfold mean_of, rs. rewrite rsum_scal_l. unfold Rdiv. ring.
Qed.
Print Assumptions C145_lossless_partial.

(** *** One bar of length one: what the residual is. *)
Definition string (k rho ra rb : R) : harmonic := mkHarmonic (fun _ _ => k) rho ra rb.
Lemma string_force k rho ra rb w U Z n c : (n < 2)%nat -> (c < 2)%nat ->
  forward_residual 1 (fun _ => 1) (fun r => r) w bar_X U Z (bar (string k rho ra rb)) (n * 2 + c)%nat =
  (match n with O => -1 | _ => 1 end) * k * (U (2 + c)%nat - U c) - w * w * rho / 4 * (U c + U (2 + c)%nat)
  + match n with O => match c with O => ra * rho / 4 * (U 1%nat + U 3%nat) - rb * k * (U 3%nat - U 1%nat)
                                 | _ => - (ra * rho / 4 * (U 0%nat + U 2%nat) - rb * k * (U 2%nat - U 0%nat)) end
            | _ => 0 end.
Proof.
  intros Hn Hc. unfold forward_residual, frequency_residual. change 2%nat with (2 * 1)%nat at 2. rewrite assemble_row by lia. unfold bar. cbn [sum_over].
  rsums.
  assert (D : forall a, (a < 2)%nat -> frequency_cell complex_damping 1 (fun _ => 1) (fun r => r) w (string k rho ra rb) (gather_coords bar_X (mkCell (fun a => a) (string k rho ra rb)))
      (gather (2 * 1) U (mkCell (fun a => a) (string k rho ra rb))) (gather_control Z (mkCell (fun a => a) (string k rho ra rb))) (a * (2 * 1) + c)%nat =
      (match a with O => -1 | _ => 1 end) * k * (U (2 + c)%nat - U c) - w * w * rho / 4 * (U c + U (2 + c)%nat)
  + match a with O => match c with O => ra * rho / 4 * (U 1%nat + U 3%nat) - rb * k * (U 3%nat - U 1%nat)
                                 | _ => - (ra * rho / 4 * (U 0%nat + U 2%nat) - rb * k * (U 2%nat - U 0%nat)) end
            | _ => 0 end).
  { assert (CV : cell_measure 1 (fun a _ => match a with 1%nat => 1 | _ => 0 end) = 1).
    { pose proof (mesh_cell _ _ _ _ _ (bar_ok (string k rho ra rb)) (or_introl eq_refl)) as [_ V].
      pose proof (proj1 (measure_simplex 1 _ ltac:(lia) V)) as E. etransitivity; [exact E|]. unfold simplex_measure. cbn. replace (1 - 0) with 1 by ring. rewrite Rabs_R1. field. }
    intros a Ha. replace (a * (2 * 1) + c)%nat with (a * (2 * 1) + (c * 1 + 0))%nat by lia.
    rewrite (proj1 (frequency_cell_at 1 (fun _ => 1) (fun r => r) w (string k rho ra rb) _ _ _ a c 0 ltac:(lia) Ha Hc ltac:(lia))).
    assert (a = 0 \/ a = 1)%nat as [-> | ->] by lia; assert (c = 0 \/ c = 1)%nat as [-> | ->] by lia;
      unfold cell_penalty, damping_part, elastic_part, inertia_part, elastic_force, inertia_force, interpolate, strain, cell_gradient, gradient1, det1, gather_coords, gather, part, bar_X, string; cbn; rsums; cbn; rewrite ?CV; field. }
  destruct n as [|[|n]]; [| |lia]; cbn [c_node Nat.eqb c_mat].
  - rewrite D by lia. req. ring.
  - rewrite D by lia. req. ring.
Qed.
(** Damping is not that of the equation of motion, whatever the factor between displacement and velocity. *)
Definition shaken (k : nat) : R := match k with 1%nat | 3%nat => 1 | _ => 0 end.
Theorem C145_damping_refuted : ~ (forall d nn pen proj w X Z cells, (1 <= d <= 3)%nat -> mesh_ok d nn X cells -> distinct_corners d cells ->
  exists s, forall U, is_motion d (fun r => pen (proj r)) w s X U Z cells (forward_residual d pen proj w X U Z cells)).
Proof.
  intros H. specialize (H 1%nat 2%nat (fun _ => 1) (fun r => r) 0 bar_X (fun _ => 1) (bar (string 1 4 1 0)) ltac:(lia) (bar_ok _)).
  destruct H as [s H]. { intros c [<-|[]] a b _ _ E. exact E. }
  pose proof (H shaken 0%nat 0%nat 0%nat ltac:(lia) ltac:(lia)) as H0. pose proof (H shaken 1%nat 0%nat 0%nat ltac:(lia) ltac:(lia)) as H1.
  apply (eq_trans (eq_sym (string_force 1 4 1 0 0 shaken (fun _ => 1) 0 0 ltac:(lia) ltac:(lia)))) in H0.
  apply (eq_trans (eq_sym (string_force 1 4 1 0 0 shaken (fun _ => 1) 1 0 ltac:(lia) ltac:(lia)))) in H1.
  cbn [shaken Nat.add] in H0, H1.
  assert (M : forall n, (n < 2)%nat -> motion 1 (fun _ => 1) 0 s bar_X shaken (fun _ => 1) (bar (string 1 4 1 0)) 0 (n * 1 + 0)%nat = 2 * s).
  { intros n Hn. unfold motion. rewrite <- (work_unit (2 * 1) _ (n * 1 + 0)) by lia. rewrite (dyn_work 1 2) by (lia || apply mesh_in_time; apply bar_ok).
    unfold cells_in_time, bar. cbn [map sum_over c_node c_mat].
    unfold inertia_work, stress_power, mass_of, weight_of. 
    assert (V : simplex_measure 1 (fun a i => bar_X (c_node (mkCell (fun a => a) (in_time (string 1 4 1 0))) a) i) = 1) by (unfold simplex_measure; cbn; replace (1 - 0) with 1 by ring; rewrite Rabs_R1; field).
    rewrite V. unfold stiff, mean_of, rs. cbn [num_voigt]. rsums.
    assert (S : forall U, strain_of 1 bar_X U (mkCell (fun a => a) (in_time (string 1 4 1 0))) 0%nat = U 1%nat - U 0%nat)
      by (intros; unfold strain_of, strain, cell_gradient, gradient1, det1, gather_coords, gather, bar_X; cbn; rsums; cbn; field).
    rewrite !S. cbn -[unit_at]. unfold part, shaken. cbn -[unit_at]. destruct n as [|[|n]]; [| |lia]; unfold unit_at; cbn; field. }
  rewrite (M 0%nat) in H0 by lia. rewrite (M 1%nat) in H1 by lia. lra.
Qed.
Print Assumptions C145_damping_refuted.

(** The order in which a cell lists its corners changes the residual. *)
Theorem C145_numbering_refuted : ~ (forall d nn pen proj w X U Z node p m n c i, (1 <= d <= 3)%nat -> mesh_ok d nn X [mkCell node m] -> distinct_corners d [mkCell node m] ->
  (forall a, (a <= d)%nat -> (p a <= d)%nat) -> (forall a b, (a <= d)%nat -> (b <= d)%nat -> p a = p b -> a = b) -> (n < nn)%nat -> (c < 2)%nat -> (i < d)%nat ->
  forward_residual d pen proj w X U Z [mkCell node m] (n * (2 * d) + (c * d + i))%nat = forward_residual d pen proj w X U Z [mkCell (fun a => node (p a)) m] (n * (2 * d) + (c * d + i))%nat).
Proof.
  intros H. specialize (H 1%nat 2%nat (fun _ => 1) (fun r => r) 0 bar_X shaken (fun _ => 1) (fun a => a) (fun a => match a with O => 1%nat | _ => 0%nat end) (string 1 4 1 0) 0%nat 0%nat 0%nat ltac:(lia) (bar_ok _)).
  assert (H' := H ltac:(intros c [<-|[]] a b _ _ E'; exact E') ltac:(intros [|[|a]] Ha; lia) ltac:(intros [|[|a]] [|[|b]] Ha Hb; lia) ltac:(lia) ltac:(lia) ltac:(lia)). clear H.
  apply (eq_trans (eq_sym (string_force 1 4 1 0 0 shaken (fun _ => 1) 0 0 ltac:(lia) ltac:(lia)))) in H'. cbn [shaken Nat.add] in H'.
  assert (E : forward_residual 1 (fun _ => 1) (fun r => r) 0 bar_X shaken (fun _ => 1) [mkCell (fun a => match a with O => 1%nat | _ => 0%nat end) (string 1 4 1 0)] (0 * (2 * 1) + (0 * 1 + 0))%nat = 0).
  { unfold forward_residual, frequency_residual. rewrite assemble_row by lia. cbn [sum_over]. rsums. cbn [c_node Nat.eqb c_mat].
    rewrite (proj1 (frequency_cell_at 1 (fun _ => 1) (fun r => r) 0 (string 1 4 1 0) _ _ _ 1 0 0 ltac:(lia) ltac:(lia) ltac:(lia) ltac:(lia))).
    unfold cell_penalty, damping_part, elastic_part, inertia_part, elastic_force, inertia_force, interpolate, strain, cell_gradient, gradient1, det1, gather_coords, gather, part, bar_X, string, shaken; cbn; rsums; cbn. field. }
  assert (E' := eq_trans H' E). cbn in E'. lra.
Qed.
Print Assumptions C145_numbering_refuted.

(** Damping with positive coefficients takes power from some vibrations and feeds others: no sign convention makes it dissipative. *)
Definition lossy (cells : list (cell harmonic)) : Prop := forall c, In c cells -> 0 <= h_rho (c_mat c) /\ 0 <= h_ra (c_mat c) /\ 0 <= h_rb (c_mat c).
Theorem C145_dissipation_refuted : ~ (forall d nn pen proj w X Z cells, (1 <= d <= 3)%nat -> mesh_ok d nn X cells -> lossy cells -> symmetric_stiffness d cells ->
  exists s, s <> 0 /\ forall U, 0 <= s * work (nn * (2 * d)) (forward_residual d pen proj w X U Z cells) (turned d U)).
Proof.
  intros H. specialize (H 1%nat 2%nat (fun _ => 1) (fun r => r) 0 bar_X (fun _ => 1) (bar (string 1 4 1 0)) ltac:(lia) (bar_ok _)).
  destruct H as (s & Hs & H).
  - intros c [<-|[]]. cbn. lra.
  - intros c [<-|[]] i j _ _. reflexivity.
  - pose proof (H shaken) as H1. pose proof (H (fun k => match k with 1%nat => 1 | 3%nat => -2 | _ => 0 end)) as H2.
    unfold work, rs in H1, H2. change (2 * (2 * 1))%nat with 4%nat in H1, H2.
    assert (R4 : forall f, rsum 4 f = f 0%nat + f 1%nat + f 2%nat + f 3%nat) by (intros; rsums; req; ring). rewrite R4 in H1, H2.
    change 0%nat with (0 * 2 + 0)%nat in H1, H2 at 2.
    pose proof (fun U => string_force 1 4 1 0 0 U (fun _ => 1) 0 0 ltac:(lia) ltac:(lia)) as F0. pose proof (fun U => string_force 1 4 1 0 0 U (fun _ => 1) 0 1 ltac:(lia) ltac:(lia)) as F1.
    pose proof (fun U => string_force 1 4 1 0 0 U (fun _ => 1) 1 0 ltac:(lia) ltac:(lia)) as F2. pose proof (fun U => string_force 1 4 1 0 0 U (fun _ => 1) 1 1 ltac:(lia) ltac:(lia)) as F3.
    cbn [Nat.mul Nat.add] in F0, F1, F2, F3, H1, H2. rewrite F0, F1, F2, F3 in H1, H2. unfold turned, shaken in H1, H2. cbn in H1, H2. lra.
Qed.
Print Assumptions C145_dissipation_refuted.

(** ** C146: the adjoint residual *)
(** It is the residual with the damping reversed. *)
Theorem C146_reversed : forall d pen proj w X U Z cells n c i, (1 <= d <= 3)%nat -> (c < 2)%nat -> (i < d)%nat ->
  adjoint_residual d pen proj w X U Z cells (n * (2 * d) + (c * d + i))%nat = forward_residual d pen proj w X U Z (reversed_damping cells) (n * (2 * d) + (c * d + i))%nat.
Proof.
  intros d pen proj w X U Z cells n c i Hd Hc Hi. unfold adjoint_residual, forward_residual, frequency_residual, reversed_damping.
  rewrite (assemble_rows (S d) (2 * d) (2 * d) (fun c => mkCell (c_node c) (mkHarmonic (h_stiff (c_mat c)) (h_rho (c_mat c)) (- h_ra (c_mat c)) (- h_rb (c_mat c)))) _
    (fun c => frequency_cell complex_damping d pen proj w (c_mat c) (gather_coords X c) (gather (2 * d) U c) (gather_control Z c)) cells n (c * d + i) (c * d + i) 1).
  - ring.
  - apply slot_lt; assumption.
  - apply slot_lt; assumption.
  - reflexivity.
  - intros cl a _ Ha. cbn [c_mat]. rewrite (proj2 (frequency_cell_at _ _ _ _ _ _ _ _ a c i Hd Ha Hc Hi)), (proj1 (frequency_cell_at _ _ _ _ _ _ _ _ a c i Hd Ha Hc Hi)).
    set (m' := mkHarmonic _ _ _ _). set (cl' := mkCell (c_node cl) m').
    change (gather_control Z cl') with (gather_control Z cl). change (gather_coords X cl') with (gather_coords X cl). change (gather (2 * d) U cl') with (gather (2 * d) U cl).
    change (elastic_part d m') with (elastic_part d (c_mat cl)). change (inertia_part d m') with (inertia_part d (c_mat cl)).
    assert (D : damping_part d m' (gather_coords X cl) (gather (2 * d) U cl) c a i = - damping_part d (c_mat cl) (gather_coords X cl) (gather (2 * d) U cl) c a i).
    { unfold damping_part. change (elastic_part d m') with (elastic_part d (c_mat cl)). change (inertia_part d m') with (inertia_part d (c_mat cl)).
      destruct a; [destruct c|]; cbn [m' h_ra h_rb]; ring. }
    rewrite D. ring.
Qed.
Print Assumptions C146_reversed.

Theorem C146_transpose_partial : forall d nn pen proj w X Z cells, (1 <= d <= 3)%nat -> mesh_ok d nn X cells -> undamped cells -> symmetric_stiffness d cells ->
  transposes (nn * (2 * d)) (fun U => forward_residual d pen proj w X U Z cells) (fun W => adjoint_residual d pen proj w X W Z cells).
Proof.
  intros d nn pen proj w X Z cells Hd Hm Hu Hs U W. rewrite (C145_work_partial d nn) by assumption.
  rewrite (motion_work d nn (fun r => pen (proj r)) w 0 X W Z cells (adjoint_residual d pen proj w X W Z cells)) by (exact Hd || apply undamped_motion; auto).
  rewrite !motion_energy by assumption. rewrite <- sum_over_add. apply sum_over_ext. intros cl Hcl. cbn [sum_over]. unfold mass_of.
  assert (Sy : forall c, stiff d (h_stiff (c_mat cl)) (strain_of d X (part d c U) cl) (strain_of d X (part d c W) cl) = stiff d (h_stiff (c_mat cl)) (strain_of d X (part d c W) cl) (strain_of d X (part d c U) cl)) by (intros; apply stiff_sym; apply Hs; exact Hcl).
  assert (My : forall c, rs d (fun i => mean_of d (part d c U) cl i * mean_of d (part d c W) cl i) = rs d (fun i => mean_of d (part d c W) cl i * mean_of d (part d c U) cl i)) by (intros; unfold rs; apply rsum_ext; intros; req; ring).
  rewrite !Sy, !My. ring.
Qed.
Print Assumptions C146_transpose_partial.
(** With damping it is not the transpose. *)
Theorem C146_transpose_refuted : ~ (forall d nn pen proj w X Z cells, (1 <= d <= 3)%nat -> mesh_ok d nn X cells -> distinct_corners d cells -> symmetric_stiffness d cells ->
  transposes (nn * (2 * d)) (fun U => forward_residual d pen proj w X U Z cells) (fun W => adjoint_residual d pen proj w X W Z cells)).
Proof.
  intros H. specialize (H 1%nat 2%nat (fun _ => 1) (fun r => r) 0 bar_X (fun _ => 1) (bar (string 1 4 1 0)) ltac:(lia) (bar_ok _)).
  specialize (H ltac:(intros c [<-|[]] a b _ _ E; exact E) ltac:(intros c [<-|[]] i j _ _; reflexivity) (unit_at 3) (unit_at 0)).
  change (2 * (2 * 1))%nat with 4%nat in H. rewrite !work_unit in H by lia.
  pose proof (string_force 1 4 1 0 0 (unit_at 3) (fun _ => 1) 0 0 ltac:(lia) ltac:(lia)) as F. cbn [Nat.mul Nat.add] in F. rewrite F in H.
  pose proof (C146_reversed 1 (fun _ => 1) (fun r => r) 0 bar_X (unit_at 0) (fun _ => 1) (bar (string 1 4 1 0)) 1 1 0 ltac:(lia) ltac:(lia) ltac:(lia)) as A.
  change (1 * (2 * 1) + (1 * 1 + 0))%nat with 3%nat in A. rewrite A in H.
  pose proof (string_force 1 4 (-(1)) (-0) 0 (unit_at 0) (fun _ => 1) 1 1 ltac:(lia) ltac:(lia)) as G. cbn [Nat.mul Nat.add] in G.
  change (reversed_damping (bar (string 1 4 1 0))) with (bar (string 1 4 (-(1)) (-0))) in H. rewrite G in H. unfold unit_at in H. cbn in H. lra.
Qed.
Print Assumptions C146_transpose_refuted.

(** Hypotheses of the theorems above, met by two triangles. *)
Definition sheet : harmonic := mkHarmonic (fun i j => if Nat.eqb i j then 3 else if Nat.ltb (i + j) 2 then 1 else 0) 2 0 0.
Example C146_nonvacuous : mesh_ok 2 4 square_X (square sheet) /\ undamped (square sheet) /\ symmetric_stiffness 2 (square sheet) /\ distinct_corners 2 (square sheet).
Proof.
  split; [apply square_ok|]. split; [|split].
  - intros c [<-|[<-|[]]]; split; reflexivity.
  - intros c [<-|[<-|[]]] i j Hi Hj; cbn in Hi, Hj; destruct i as [|[|[|i]]], j as [|[|[|j]]]; try lia; reflexivity.
  - intros c [<-|[<-|[]]] [|[|[|a]]] [|[|[|b]]] Ha Hb E; cbn in E; lia.
Qed.
(** A bar swinging in the real part only, not at rest. *)
Example C145_nonvacuous : forward_residual 1 (fun _ => 1) (fun r => r) 2 bar_X (unit_at 2) (fun _ => 1) (bar (string 3 4 0 0)) 2%nat = -1.
Proof. pose proof (string_force 3 4 0 0 2 (unit_at 2) (fun _ => 1) 1 0 ltac:(lia) ltac:(lia)) as F. cbn [Nat.mul Nat.add] in F. rewrite F. unfold unit_at. cbn. field. Qed.

(** ** C147: dynamic compliance *)
Lemma inertial_energy_sum d w rho vol q : complex_inertial_energy d w rho vol q = - (w * w * rho * vol * rsum d (fun i => q i * q i + q (d + i)%nat * q (d + i)%nat)).
Proof.
  unfold complex_inertial_energy.
  assert (H : forall n, fold_left (fun t i => t - w * w * rho * vol * (q i * q i + q (d + i)%nat * q (d + i)%nat)) (seq 0 n) 0 = - (w * w * rho * vol * rsum n (fun i => q i * q i + q (d + i)%nat * q (d + i)%nat))).
  { induction n as [|n IH]; [cbn; ring|]. rewrite seq_S, fold_left_app. cbn [fold_left Nat.add]. rewrite IH. assert (RS : forall f, rsum (S n) f = rsum n f + f n) by reflexivity. rewrite RS. ring. }
  exact (H d).
Qed.
Theorem C147_energies : forall d nn pen proj w X U Z cells, (1 <= d <= 3)%nat -> mesh_ok d nn X cells ->
  dynamic_compliance d pen proj w X U Z cells =
  vibration_strain_energy d (fun r => pen (proj r)) X Z cells U - vibration_kinetic_energy d (fun r => pen (proj r)) w X Z cells U.
Proof.
  intros d nn pen proj w X U Z cells Hd Hm. unfold dynamic_compliance. rewrite total_sum.
  unfold vibration_strain_energy, vibration_kinetic_energy, strain_energy, kinetic_energy, cells_in_time. rewrite !sum_over_map.
  assert (S4 : forall f0 f1 f2 f3 : cell harmonic -> R, sum_over cells f0 + sum_over cells f1 - (sum_over cells f2 + sum_over cells f3) = sum_over cells (fun c => f0 c + f1 c + -1 * (f2 c + f3 c))).
  { intros. rewrite sum_over_add, sum_over_add, sum_over_scal, sum_over_add. ring. }
  rewrite S4. clear S4.
  apply sum_over_ext. intros cl Hcl. destruct (mesh_cell _ _ _ _ _ Hm Hcl) as [Hn Hv].
  set (cl' := mkCell (c_node cl) (in_time (c_mat cl))).
  unfold compliance_cell. cbv zeta. rewrite inertial_energy_sum.
  assert (E : forall c v, complex_strain d (gather (2 * d) U cl) (cell_gradient d (gather_coords X cl)) c v = match c with O => strain_of d X (part d 0 U) cl v | _ => complex_strain d (gather (2 * d) U cl) (cell_gradient d (gather_coords X cl)) c v end /\ (c < 2 -> complex_strain d (gather (2 * d) U cl) (cell_gradient d (gather_coords X cl)) c v = strain_of d X (part d c U) cl v)%nat).
  { assert (E' : forall c v, (c < 2)%nat -> complex_strain d (gather (2 * d) U cl) (cell_gradient d (gather_coords X cl)) c v = strain_of d X (part d c U) cl v).
    { intros c v Hc. rewrite complex_strain_part by exact Hd. unfold strain_of. apply strain_ext; [exact Hd|lia|]. intros j _. apply part_gather; lia. }
    intros c v. split; [|apply E']. destruct c; [apply E'; lia|reflexivity]. }
  assert (EE : forall c, (c < 2)%nat -> rsum (num_voigt d) (fun i => complex_stress (num_voigt d) (h_stiff (c_mat cl)) (complex_strain d (gather (2 * d) U cl) (cell_gradient d (gather_coords X cl))) c i
        * cell_penalty d pen proj (gather_control Z cl) * complex_strain d (gather (2 * d) U cl) (cell_gradient d (gather_coords X cl)) c i)
      = cell_penalty d pen proj (gather_control Z cl) * stiff d (h_stiff (c_mat cl)) (strain_of d X (part d c U) cl) (strain_of d X (part d c U) cl)).
  { intros c Hc. unfold stiff, rs. rewrite <- rsum_scal_l. apply rsum_ext. intros i Hi. rewrite (proj2 (E c i) Hc). unfold complex_stress.
    rewrite (rsum_ext (num_voigt d) (fun j => complex_strain d (gather (2 * d) U cl) (cell_gradient d (gather_coords X cl)) c j * h_stiff (c_mat cl) i j) (fun j => strain_of d X (part d c U) cl j * h_stiff (c_mat cl) i j))
      by (intros j _; rewrite (proj2 (E c j) Hc); reflexivity). req. ring. }
  unfold complex_elastic_energy. rewrite (rsum_ext 2 _ (fun c => cell_penalty d pen proj (gather_control Z cl) * stiff d (h_stiff (c_mat cl)) (strain_of d X (part d c U) cl) (strain_of d X (part d c U) cl))) by (intros c Hc; apply EE; exact Hc).
  assert (Q : forall c i, (c < 2)%nat -> (i < d)%nat -> state_values d (gather (2 * d) U cl) (c * d + i)%nat = mean_of d (part d c U) cl i).
  { intros c i Hc Hi. rewrite state_part by exact Hi. rewrite <- mean_interpolate by assumption. unfold interpolate. apply rsum_ext. intros a Ha. rewrite part_gather by lia. reflexivity. }
  rewrite (rsum_ext d (fun i => state_values d (gather (2 * d) U cl) i * _ + _) (fun i => mean_of d (part d 0 U) cl i * mean_of d (part d 0 U) cl i + mean_of d (part d 1 U) cl i * mean_of d (part d 1 U) cl i)).
  2: { intros i Hi. pose proof (Q 0%nat i ltac:(lia) Hi) as Q0. pose proof (Q 1%nat i ltac:(lia) Hi) as Q1. rewrite Nat.mul_0_l, Nat.add_0_l in Q0. rewrite Nat.mul_1_l in Q1. rewrite Q0, Q1. reflexivity. }
  rewrite rsum_add.
  assert (R2 : forall f, rsum 2 f = f 0%nat + f 1%nat) by (intros; rsums; req; ring). rewrite R2.
  change (weight_of d (fun r => pen (proj r)) X Z cl') with (weight_of d (fun r => pen (proj r)) X Z cl).
  change (mass_of d (fun r => pen (proj r)) y_rho X Z cl') with (weight_of d (fun r => pen (proj r)) X Z cl * h_rho (c_mat cl)).
  rewrite <- (weight_eq d (fun r => pen (proj r)) X Z cl Hd Hv). fold (cell_penalty d pen proj (gather_control Z cl)).
  assert (St : forall c, stiff d (e_stiff (y_law (c_mat cl'))) (fun j => strain_of d X (part d c U) cl' j - e_ref (y_law (c_mat cl')) j) (fun j => strain_of d X (part d c U) cl' j - e_ref (y_law (c_mat cl')) j)
     = stiff d (h_stiff (c_mat cl)) (strain_of d X (part d c U) cl) (strain_of d X (part d c U) cl)).
  { intros c. cbn [cl' c_mat in_time y_law e_stiff e_ref]. apply stiff_ext; intros v Hv'; change (strain_of d X (part d c U) cl v) with (strain_of d X (part d c U) cl' v); ring. }
  rewrite !St.
  assert (Ki : forall c, rs d (fun i => mean_of d (fun k => w * part d c U k) cl' i * mean_of d (fun k => w * part d c U k) cl' i) = w * w * rsum d (fun i => mean_of d (part d c U) cl i * mean_of d (part d c U) cl i)).
  { intros c. unfold rs. rewrite <- rsum_scal_l. apply rsum_ext. intros i _. replace (mean_of d (fun k => w * part d c U k) cl' i) with (w * mean_of d (part d c U) cl i); [req; ring|].
    unfold mean_of, rs. cbn [cl' c_node]. rewrite rsum_scal_l. unfold Rdiv. ring. }
  rewrite !Ki. field.
Qed.
Print Assumptions C147_energies.

(** It is half the work of the undamped residual on the displacement itself. *)
Theorem C147_work : forall d nn pen proj w X U Z cells, (1 <= d <= 3)%nat -> mesh_ok d nn X cells ->
  dynamic_compliance d pen proj w X U Z cells = 1 / 2 * work (nn * (2 * d)) (forward_residual d pen proj w X U Z (without_damping cells)) U.
Proof.
  intros d nn pen proj w X U Z cells Hd Hm.
  assert (Hu : undamped (without_damping cells)).
  { intros cl H. unfold without_damping in H. apply in_map_iff in H. destruct H as (x & <- & _). split; reflexivity. }
  assert (Hm' : mesh_ok d nn X (without_damping cells)) by (unfold mesh_ok, without_damping in *; rewrite map_map; exact Hm).
  rewrite (C145_work_partial d nn) by assumption. rewrite (C147_energies d nn) by assumption.
  unfold vibration_strain_energy, vibration_kinetic_energy, strain_energy, kinetic_energy, cells_in_time, without_damping. rewrite !sum_over_map.
  assert (S4 : forall f0 f1 f2 f3 : cell harmonic -> R, sum_over cells f0 + sum_over cells f1 - (sum_over cells f2 + sum_over cells f3) = sum_over cells (fun c => f0 c + f1 c + -1 * (f2 c + f3 c))).
  { intros. rewrite sum_over_add, sum_over_add, sum_over_scal, sum_over_add. ring. }
  rewrite S4. clear S4. rewrite <- sum_over_scal. apply sum_over_ext. intros cl Hcl. cbn [sum_over c_mat in_time y_law e_stiff e_ref h_stiff h_rho].
  set (cl' := mkCell (c_node cl) (in_time (c_mat cl))). set (cl'' := mkCell (c_node cl) (mkHarmonic (h_stiff (c_mat cl)) (h_rho (c_mat cl)) 0 0)).
  change (weight_of d (fun r => pen (proj r)) X Z cl'') with (weight_of d (fun r => pen (proj r)) X Z cl).
  change (weight_of d (fun r => pen (proj r)) X Z cl') with (weight_of d (fun r => pen (proj r)) X Z cl).
  change (mass_of d (fun r => pen (proj r)) y_rho X Z cl') with (weight_of d (fun r => pen (proj r)) X Z cl * h_rho (c_mat cl)).
  assert (St : forall c, stiff d (h_stiff (c_mat cl)) (fun j => strain_of d X (part d c U) cl' j - 0) (fun j => strain_of d X (part d c U) cl' j - 0)
     = stiff d (h_stiff (c_mat cl)) (strain_of d X (part d c U) cl'') (strain_of d X (part d c U) cl'')).
  { intros c. apply stiff_ext; intros v Hv'; change (strain_of d X (part d c U) cl'' v) with (strain_of d X (part d c U) cl' v); ring. }
  rewrite !St.
  assert (Ki : forall c, rs d (fun i => mean_of d (fun k => w * part d c U k) cl' i * mean_of d (fun k => w * part d c U k) cl' i) = w * w * rs d (fun i => mean_of d (part d c U) cl'' i * mean_of d (part d c U) cl'' i)).
  { intros c. unfold rs. rewrite <- rsum_scal_l. apply rsum_ext. intros i _. replace (mean_of d (fun k => w * part d c U k) cl' i) with (w * mean_of d (part d c U) cl'' i); [req; ring|].
    unfold mean_of, rs. cbn [cl' cl'' c_node]. rewrite rsum_scal_l. unfold Rdiv. ring. }
  rewrite !Ki. field.
Qed.
Print Assumptions C147_work.

(** The objective of the problem takes no frequency: its value is the strain energy of all states, whatever the frequencies are. *)
Theorem C147_objective_partial : forall d nn pen proj X Z cells states, (1 <= d <= 3)%nat -> mesh_ok d nn X cells ->
  objective_value (fun w U => dynamic_compliance d pen proj w X U Z cells) states = sum_over states (fun U => vibration_strain_energy d (fun r => pen (proj r)) X Z cells U).
Proof.
  intros d nn pen proj X Z cells states Hd Hm. unfold objective_value, scalar_value. rewrite sum_over_fold, Rplus_0_l. apply sum_over_ext. intros U _.
  rewrite (C147_energies d nn) by assumption. unfold vibration_kinetic_energy, kinetic_energy.
  assert (K0 : forall c, sum_over (cells_in_time cells) (fun cl => 1 / 2 * mass_of d (fun r => pen (proj r)) y_rho X Z cl * rs d (fun i => mean_of d (fun k => 0 * part d c U k) cl i * mean_of d (fun k => 0 * part d c U k) cl i)) = 0).
  { intros c. apply sum_over_0. intros cl _. replace (rs d _) with 0; [ring|]. symmetry. unfold rs. apply rsum_0. intros i _.
    replace (mean_of d (fun k => 0 * part d c U k) cl i) with 0; [req; ring|]. unfold mean_of, rs. rewrite rsum_0 by (intros; req; ring). unfold Rdiv. req. ring. }
  rewrite !K0. ring.
Qed.
Print Assumptions C147_objective_partial.
Theorem C147_objective_refuted : ~ (forall d nn pen proj X Z cells (ws : list R) (states : list (nat -> R)), (1 <= d <= 3)%nat -> mesh_ok d nn X cells -> length ws = length states ->
  objective_value (fun w U => dynamic_compliance d pen proj w X U Z cells) states = sum_over (combine ws states) (fun p => dynamic_compliance d pen proj (fst p) X (snd p) Z cells)).
Proof.
  intros H. specialize (H 1%nat 2%nat (fun _ => 1) (fun r => r) bar_X (fun _ => 1) (bar (string 3 4 0 0)) [2] [unit_at 2] ltac:(lia) (bar_ok _) eq_refl).
  unfold objective_value, scalar_value in H. cbn [fold_left combine sum_over fst snd] in H.
  rewrite !(C147_work 1 2) in H by (lia || apply bar_ok). change (without_damping (bar (string 3 4 0 0))) with (bar (string 3 4 0 0)) in H.
  assert (E : forall w, work (2 * (2 * 1)) (forward_residual 1 (fun _ => 1) (fun r => r) w bar_X (unit_at 2) (fun _ => 1) (bar (string 3 4 0 0))) (unit_at 2) = 3 - w * w).
  { intros w. rewrite work_unit by lia. pose proof (string_force 3 4 0 0 w (unit_at 2) (fun _ => 1) 1 0 ltac:(lia) ltac:(lia)) as F. cbn [Nat.mul Nat.add] in F. rewrite F. unfold unit_at. cbn. field. }
  rewrite !E in H. lra.
Qed.
Print Assumptions C147_objective_refuted.
