(** C185: transient temperatures depend on sizes, conductivities, capacities and time steps only through the Fourier number. *)
From Coq Require Import Reals List Arith Bool Lia Lra Permutation.
From Verif Require Import Base.Field Base.Sums Base.Res BC.ConstraintsSpec BC.ConstraintsMain Problem.DenseBC Problem.SmallSolver Problem.EllipticModel Problem.EllipticSpec Problem.EllipticProof Problem.EllipticProps
  Problem.ParabolicModel Problem.ParabolicSpec Problem.ParabolicProof Problem.ParabolicProps
  Element.ElementModel Element.ElementSpec Element.ElementProof Element.ElementProps Penalty.PenaltyModel Residual.Kernel
  Residual.ResidualModel Residual.ResidualSpec Residual.ResidualProof Residual.ResidualProps Residual.ResidualEnergyProps Residual.FrameSpec Residual.FrameProof Residual.FrameProps
  Residual.SupportSpec Residual.SupportProof Residual.SupportProps Residual.PotentialProps Residual.SolveSpec Residual.SolveProof Residual.SolveProps Residual.Gauss Residual.CurveProof Residual.ThermoSolveProps
  Residual.UnitProps Residual.TransientHeatProps Residual.FollowProps Residual.HeatFollowProps.
Import ListNotations.
Local Open Scope R_scope.

(** Conductivities k times larger, heat capacities per volume g times larger. *)
Definition similar_conductor (d : nat) (k g : R) (m m' : thermal) : Prop :=
  (forall i j, (i < d)%nat -> (j < d)%nat -> t_cond_const m' i j = k * t_cond_const m i j) /\ t_rho_const m' * t_cp_const m' = g * (t_rho_const m * t_cp_const m).
(** The same number of steps, each tau times longer. *)
Definition slower {Y Y'} (tau : R) (p : pproblem R_field Y) (p' : pproblem R_field Y') : Prop := pq_alpha p' = pq_alpha p /\ pq_dt p' = (tau * pq_dt p)%R /\ pq_steps p' = pq_steps p.

Section Forms.
Variables (d nn : nat) (pen : R -> R) (s k g : R) (X X' : nat -> nat -> R) (Z : nat -> R) (cells cells' : list (cell thermal)).
Hypotheses (Hd : (1 <= d <= 3)%nat) (Hs : 0 < s) (Hm : mesh_ok d nn X cells) (HX : scaled_places d nn s X X') (HC : moved_cells (similar_conductor d k g) cells cells').
Lemma h_coords c : In c cells -> forall a i, (a <= d)%nat -> (i < d)%nat -> gather_coords X' c a i = s * gather_coords X c a i.
Proof. intros Hc a i Ha Hi. destruct (mesh_cell _ _ _ _ _ Hm Hc) as [Hn _]. apply HX; [apply Hn; exact Ha|exact Hi]. Qed.
Lemma h_measure c : In c cells -> cell_measure d (gather_coords X' c) = s ^ d * cell_measure d (gather_coords X c).
Proof. intros Hc. unfold cell_measure. rewrite (volume_scaled d s (gather_coords X c) _ Hd Hs (h_coords c Hc)). ring. Qed.
Lemma h_gradient W c l : In c cells -> (l < d)%nat -> scalar_gradient d 1 0 (gather 1 W c) (cell_gradient d (gather_coords X' c)) l = scalar_gradient d 1 0 (gather 1 W c) (cell_gradient d (gather_coords X c)) l / s.
Proof.
  intros Hc Hl. destruct (mesh_cell _ _ _ _ _ Hm Hc) as [_ Hv]. unfold scalar_gradient, Rdiv. rewrite rsum_scal_r. apply rsum_ext. intros a Ha.
  rewrite (gradient_scaled d s (gather_coords X c) (gather_coords X' c) Hd Hs (h_coords c Hc) (det_measure _ _ Hd Hv)) by (try exact Hl; lia). req. field. lra.
Qed.
Lemma conducts_scaled T W : conducts d pen X' Z cells' T W = k * s ^ d / (s * s) * conducts d pen X Z cells T W.
Proof.
  unfold conducts. apply (scaled_cells _ _ _ _ _ _ HC). intros c c' Hc [EN [HK _]]. destruct c' as [nd m']. cbn [c_node] in EN. subst nd. cbn [c_mat] in HK |- *.
  change (gather_coords X' (mkCell (c_node c) m')) with (gather_coords X' c). change (gather 1 T (mkCell (c_node c) m')) with (gather 1 T c).
  change (gather 1 W (mkCell (c_node c) m')) with (gather 1 W c). change (gather_control Z (mkCell (c_node c) m')) with (gather_control Z c). rewrite (h_measure c Hc).
  match goal with |- _ * rsum d ?f = _ * (_ * rsum d ?h) => rewrite (rsum_ext d f (fun i => k / (s * s) * h i)) end.
  - rewrite rsum_scal_l. field. lra.
  - intros i Hi. rewrite (h_gradient W c i Hc Hi).
    match goal with |- rsum d ?f * _ = _ * (rsum d ?h * _) => rewrite (rsum_ext d f (fun j => k / s * h j)) end.
    + rewrite rsum_scal_l. req. field. lra.
    + intros j Hj. rewrite (h_gradient T c j Hc Hj), HK by assumption. req. field. lra.
Qed.
Lemma stores_scaled V W : stores d pen X' Z cells' V W = g * s ^ d * stores d pen X Z cells V W.
Proof.
  unfold stores. apply (scaled_cells _ _ _ _ _ _ HC). intros c c' Hc [EN [_ HG]]. destruct c' as [nd m']. cbn [c_node] in EN. subst nd. cbn [c_mat] in HG |- *.
  change (gather_coords X' (mkCell (c_node c) m')) with (gather_coords X' c). change (gather 1 V (mkCell (c_node c) m')) with (gather 1 V c).
  change (gather 1 W (mkCell (c_node c) m')) with (gather 1 W c). change (gather_control Z (mkCell (c_node c) m')) with (gather_control Z c). rewrite (h_measure c Hc), HG. ring.
Qed.
Lemma equation_scaled tau T V T' V' n : heat_body d nn pen X Z cells -> heat_body d nn pen X' Z cells' -> 0 < tau -> g * (s * s) = k * tau -> (n < nn)%nat ->
  (forall j, (j < nn)%nat -> T' j = T j) -> (forall j, (j < nn)%nat -> V' j = V j / tau) ->
  heat_equation d pen X' T' V' Z cells' n = k * s ^ d / (s * s) * heat_equation d pen X T V Z cells n.
Proof.
  intros B B' Ht HF Hn HT HV. rewrite (val_entry d nn pen X' Z cells' B') by exact Hn. rewrite (val_entry d nn pen X Z cells B) by exact Hn.
  rewrite (proj1 (forms_agree d nn pen X' Z cells' B' T' T _ HT)).
  rewrite (proj2 (forms_agree d nn pen X' Z cells' B' V' (along zero V (/ tau)) _ ltac:(intros j Hj; rewrite (HV j Hj); unfold along; field; lra))).
  rewrite conducts_scaled, stores_scaled, stores_lin, (stores_zero d nn pen X Z cells B). assert (HG : g = k * tau / (s * s)) by (rewrite <- HF; field; lra). rewrite HG. field. lra.
Qed.
End Forms.
Lemma step_back (t t' u v dt tau a v0 v1 : R) : 0 < tau -> u = t' + (tau * dt) * ((1 - a) * v0 + a * v1) -> t' = t -> v0 = v / tau -> u = t + dt * ((1 - a) * v + a * (tau * v1)).
Proof. intros Ht -> -> ->. field. lra. Qed.
Lemma tau_cancel (v tau w : R) : 0 < tau -> tau * v = w -> v = w / tau.
Proof. intros Ht <-. field. lra. Qed.
Theorem C185 : forall (Y Y' : Type) (p : pproblem R_field Y) (y : Y) (p' : pproblem R_field Y') (y' : Y') h h' d nn pen s k g tau X X' Z cells cells' F F',
  heat_body d nn pen X Z cells -> heat_body d nn pen X' Z cells' -> 0 < s -> 0 < k -> 0 < tau -> g * (s * s) = k * tau ->
  scaled_places d nn s X X' -> moved_cells (similar_conductor d k g) cells cells' ->
  poses_heat p y nn (fun T V => heat_equation d pen X T V Z cells) F -> poses_heat p' y' nn (fun T V => heat_equation d pen X' T V Z cells') F' ->
  fresh_storage h -> fresh_storage h' -> slower tau p p' -> temperatures_same nn p p' ->
  (forall n, (n < nn)%nat -> F' n = k * s ^ d / (s * s) * F n /\ fst (h' 0%nat) n = fst (h 0%nat) n) ->
  forall j, (j < pq_steps p)%nat -> forall n, (n < nn)%nat ->
  fst (psolution p' y' h' j) n = fst (psolution p y h j) n /\ snd (psolution p' y' h' j) n = (snd (psolution p y h j) n / tau)%R.
Proof.
  intros Y Y' p y p' y' h h' d nn pen s k g tau X X' Z cells cells' F F' B B' Hs Hk Ht HFo HX HC P P' Hf Hf' (Ea & Et & Es) (Hin & W & HW & HW') H0.
  pose proof (ht_dim _ _ _ _ _ _ B) as Hd. pose proof (ht_mesh _ _ _ _ _ _ B) as Hm.
  induction j as [|j IH]; intros Hj n Hn.
  { rewrite !psolution_init. split; [apply (H0 n Hn)|]. rewrite (proj1 Hf), (proj1 Hf'). apply tau_cancel; [exact Ht|real_goal; apply Rmult_0_r]. }
  specialize (IH ltac:(lia)).
  pose proof (proj2 (C168_steps Y p y h d nn pen X Z cells F B P Hf (S j) ltac:(lia))) as Un.
  pose proof (proj1 (C168_steps Y' p' y' h' d nn pen X' Z cells' F' B' P' Hf' (S j) ltac:(lia))) as (S1 & S2 & S3).
  replace (S j - 1)%nat with j in * by lia. rewrite Ea, Et in S1.
  set (cur' := psolution p' y' h' (S j)) in *. set (prev' := psolution p' y' h' j) in *. set (prev := psolution p y h j) in *.
  assert (St : heat_step nn (fun T V => heat_equation d pen X T V Z cells) F (pq_dofs p) (pq_vals p) (pq_alpha p) (pq_dt p) prev (fst cur', fun i => tau * snd cur' i)).
  { split; [|split]; cbn [fst snd].
    - intros i Hi. destruct (IH i Hi) as [I1 I2]. exact (step_back _ _ _ _ _ tau _ _ _ Ht (S1 i Hi) I1 I2).
    - intros i w I. pose proof (in_combine_l _ _ _ _ I) as Il. destruct (ph_conditions _ _ _ _ _ P) as (_ & _ & Lt). destruct (ph_conditions _ _ _ _ _ P') as (L' & _ & _).
      rewrite <- (HW i w I). exact (takes_listed _ _ _ _ i L' S2 HW' (proj1 (Hin i (Lt i Il)) Il)).
    - intros i Hi Hni. assert (Hni' : ~ In i (pq_dofs p')) by (intros C; apply Hni; apply (Hin i Hi); exact C).
      pose proof (equation_scaled d nn pen s k g X X' Z cells cells' Hd Hs Hm HX HC tau (fst cur') (fun i => tau * snd cur' i) (fst cur') (snd cur') i B B' Ht HFo Hi
        ltac:(reflexivity) ltac:(intros l Hl; exact (tau_cancel _ _ _ Ht eq_refl))) as EQ.
      pose proof (eq_trans (eq_sym EQ) (eq_trans (S3 i Hi Hni') (proj1 (H0 i Hi)))) as E. clear EQ.
      apply (Rmult_eq_reg_l (k * s ^ d / (s * s))); [exact E|]. pose proof (pow_lt s d Hs). apply Rgt_not_eq. apply Rdiv_lt_0_compat; apply Rmult_lt_0_compat; assumption. }
  destruct (Un _ St n Hn) as [E1 E2]. cbn [fst snd] in E1, E2. split; [exact E1|exact (tau_cancel _ _ _ Ht E2)].
Qed.
Print Assumptions C185.
(** A bar twice as long, with supplies half as large, in steps four times as long. *)
Definition slow_heat (tau : R) (X : nat -> nat -> R) (held : nat) (v : R) (F : nat -> R) : pproblem R_field Datatypes.unit :=
  let p := bar_heat X held v F in
  mkPProblem (K := R_field) (Z := Datatypes.unit) 2 3 1 (fun _ => false) (fun _ => false) [held] [v] (gauss 2) (1 / 2)%R (tau * 1)%R (pq_pde p).
Definition long_X (n i : nat) : R := 2 * bar_X n i.
Example C185_case : heat_body 1 2 (fun x => x) bar_X (fun _ => 1) (bar rod_law) /\ heat_body 1 2 (fun x => x) long_X (fun _ => 1) (bar rod_law) /\ 1 * (2 * 2) = 1 * 4 /\
  scaled_places 1 2 2 bar_X long_X /\ moved_cells (similar_conductor 1 1 1) (bar rod_law) (bar rod_law) /\
  poses_heat (bar_heat bar_X 1 5 rod_supply) tt 2 (fun T V => heat_equation 1 (fun x => x) bar_X T V (fun _ => 1) (bar rod_law)) rod_supply /\
  poses_heat (slow_heat 4 long_X 1 5 (fun k => 1 * 2 ^ 1 / (2 * 2) * rod_supply k)) tt 2 (fun T V => heat_equation 1 (fun x => x) long_X T V (fun _ => 1) (bar rod_law)) (fun k => 1 * 2 ^ 1 / (2 * 2) * rod_supply k) /\
  slower 4 (bar_heat bar_X 1 5 rod_supply) (slow_heat 4 long_X 1 5 (fun k => 1 * 2 ^ 1 / (2 * 2) * rod_supply k)) /\
  temperatures_same 2 (bar_heat bar_X 1 5 rod_supply) (slow_heat 4 long_X 1 5 (fun k => 1 * 2 ^ 1 / (2 * 2) * rod_supply k)).
Proof.
  assert (HX : scaled_places 1 2 2 bar_X long_X) by (intros n i _ _; reflexivity).
  assert (HC : moved_cells (similar_conductor 1 1 1) (bar rod_law) (bar rod_law)) by (repeat constructor; intros; cbn; ring).
  assert (B' : heat_body 1 2 (fun x => x) long_X (fun _ => 1) (bar rod_law)).
  { destruct rod_body as [H1 H2 H3 H4]. split; [exact H1| |exact H3|exact H4]. apply (mesh_scaled 1 2 2 bar_X long_X (bar rod_law)); [lia|lra|exact H2|exact HX|reflexivity]. }
  split; [exact rod_body|]. split; [exact B'|]. split; [ring|]. split; [exact HX|]. split; [exact HC|]. split; [apply bar_heat_poses; [exact rod_body|lia]|]. split.
  - destruct (bar_heat_poses long_X 1 5 (fun k => 1 * 2 ^ 1 / (2 * 2) * rod_supply k) B' ltac:(lia)) as [A1 A2 A3 A4 A5 A6 A7 A8 A9 A10].
    split; try assumption. cbn. lra.
  - split; [split; [reflexivity|split; reflexivity]|]. split; [intros n _; reflexivity|]. exists (fun _ => 5). split; intros k v [E|[]]; congruence.
Qed.

(** ** The same without time: temperatures in a unit q times smaller, for the solution of stationary conduction. *)
Lemma static_scaled d nn pen X Z cells q T T' : (1 <= d <= 3)%nat -> mesh_ok d nn X cells -> (forall c, In c cells -> t_nonlinear (c_mat c) = false /\ symmetric d (t_cond_const (c_mat c))) ->
  scaled_values nn q T T' -> scaled_values nn q (thermostatic d pen X T Z cells) (thermostatic d pen X T' Z cells).
Proof.
  intros Hd Hm Hs HT k Hk. rewrite <- (PotentialProps.work_unit nn (thermostatic d pen X T' Z cells) k Hk), <- (PotentialProps.work_unit nn (thermostatic d pen X T Z cells) k Hk).
  rewrite (C99_thermal d nn pen X T' (PotentialProps.unit k) Z cells Hd Hm Hs), (C99_thermal d nn pen X T (PotentialProps.unit k) Z cells Hd Hm Hs).
  unfold work, rs. rewrite <- rsum_scal_l. apply rsum_ext. intros j Hj. rewrite (HT j Hj). req. ring.
Qed.
Theorem C172_heat_units : forall (Y Y' : Type) (p : problem R_ring Y) (y : Y) (p' : problem R_ring Y') (y' : Y') d nn pen s k q X X' Z cells cells' F F',
  (1 <= d <= 3)%nat -> 0 < s -> 0 < k -> 0 < q -> mesh_ok d nn X cells -> (forall n, (n < nn)%nat -> anchored d (map c_node cells) (listed (bc_dofs p)) n) ->
  (forall c, In c cells -> t_nonlinear (c_mat c) = false /\ symmetric d (t_cond_const (c_mat c)) /\ positive_form d (t_cond_const (c_mat c)) /\ solid d pen Z c) ->
  scaled_places d nn s X X' -> moved_cells (more_conducting d k) cells cells' -> conditions_scaled nn q p p' -> scaled_values nn (q * (k * s ^ d / (s * s))) F F' ->
  poses p y nn (fun T => thermostatic d pen X T Z cells) F -> poses p' y' nn (fun T => thermostatic d pen X' T Z cells') F' ->
  solves_body p' y' nn (fun T => thermostatic d pen X' T Z cells') F' /\ scaled_values nn q (solution p y) (solution p' y').
Proof.
  intros Y Y' p y p' y' d nn pen s k q X X' Z cells cells' F F' Hd Hs Hk Hq Hm Hanc Hc HX HC (Hin & V & V' & HV & HV' & RV) RF P P'.
  pose proof (mesh_scaled d nn s X X' cells cells' Hd Hs Hm HX (moved_nodes _ _ _ HC)) as Hm'.
  assert (Hc1 : forall c, In c cells -> t_nonlinear (c_mat c) = false /\ symmetric d (t_cond_const (c_mat c))) by (intros c I; destruct (Hc c I) as (H1 & H2 & _); split; assumption).
  refine (solution_follows nn _ _ (fun T => thermostatic d pen X T Z cells) (fun T => thermostatic d pen X' T Z cells') _ p p' y y' F F' V V' P P' _
      (scaling_corresponds nn q (q * (k * s ^ d / (s * s))) _ _ _ _ Hin) (C165_heat Y p y d nn pen X Z cells F Hd Hm Hanc Hc P) _ HV HV' RV RF).
  - intros U U' HU j Hj. assert (Hc' : forall c', In c' cells' -> t_nonlinear (c_mat c') = false /\ symmetric d (t_cond_const (c_mat c'))).
    { intros c' I'. destruct (moved_in _ cells cells' c' HC I') as (c & I & T1 & T2). destruct (Hc1 c I) as (H1 & H2). split; [congruence|]. intros i l Hi Hl.
      rewrite (proj1 (T2 i l 0 Hi Hl)), (proj1 (T2 l i 0 Hl Hi)), (H2 i l Hi Hl). reflexivity. }
    rewrite (static_scaled d nn pen X' Z cells' q U U' Hd Hm' Hc' HU j Hj). rewrite (proj1 (C161_heat d nn pen s k X X' U Z cells cells' Hd Hs Hm HX HC) j Hj). ring.
  - apply symmetric_reciprocal. intros T S'. apply (C99_thermal d nn); [exact Hd|exact Hm'|]. intros c' I'.
    destruct (moved_in _ cells cells' c' HC I') as (c & I & T1 & T2). destruct (Hc1 c I) as (H1 & H2). split; [congruence|]. intros i l Hi Hl.
    rewrite (proj1 (T2 i l 0 Hi Hl)), (proj1 (T2 l i 0 Hl Hi)), (H2 i l Hi Hl). reflexivity.
  - lra.
  - apply Rgt_not_eq. apply Rmult_lt_0_compat; [exact Hq|]. apply Rdiv_lt_0_compat; [|apply Rmult_lt_0_compat; exact Hs]. apply Rmult_lt_0_compat; [exact Hk|apply pow_lt; exact Hs].
  - intros T W Hq' n Hn. apply (C162_heat d nn pen X T W Z cells (listed (bc_dofs p))); try assumption; [|apply Hanc; exact Hn]. intros c I. destruct (Hc c I) as (H1 & _ & H2). split; assumption.
Qed.
Print Assumptions C172_heat_units.
(** The bar kept at 5 and the one twice as long kept at 15. *)
Definition bar_static_on (X : nat -> nat -> R) (held : nat) (v : R) (F : nat -> R) : problem R_ring Datatypes.unit :=
  mkProblem (K := R_ring) (Z := Datatypes.unit) 2 1 (fun _ => false) (fun _ => false) [held] [v] false (solver2 (K := R_field))
    (mkPde (K := R_ring) (Z := Datatypes.unit) (fun T _ k => thermostatic 1 (fun x => x) X T (fun _ => 1) (bar rod_law) k - F k)
      (fun _ _ => tangent_matrix (fun T => thermostatic 1 (fun x => x) X T (fun _ => 1) (bar rod_law)))
      (fun _ _ => tangent_matrix (fun T => thermostatic 1 (fun x => x) X T (fun _ => 1) (bar rod_law))) (fun _ _ _ _ => 0) (fun _ _ _ _ => 0)).
Lemma bar_static_on_poses X held v F : heat_body 1 2 (fun x => x) X (fun _ => 1) (bar rod_law) -> (held < 2)%nat ->
  poses (bar_static_on X held v F) tt 2 (fun T => thermostatic 1 (fun x => x) X T (fun _ => 1) (bar rod_law)) F.
Proof.
  intros B Hh. pose proof (val_entry 1 2 (fun x => x) X (fun _ => 1) (bar rod_law) B) as E. split; try reflexivity.
  - intros T i j Hi Hj. cbn [the_pde bar_static_on p_value p_gradient_u]. unfold tangent_matrix.
    apply (affine_derivative _ (thermostatic 1 (fun x => x) X T (fun _ => 1) (bar rod_law) i - F i)). intros t. rewrite <- !(heat_static 1 2 _ _ _ _ _ _ B Hi). rewrite !E by assumption.
    rewrite (proj1 (forms_agree 1 2 _ _ _ _ B (moved T j t) (along T (PotentialProps.unit j) t) _ ltac:(intros k Hk; unfold moved, along, PotentialProps.unit; destruct (Nat.eqb k j); ring))).
    rewrite conducts_lin, (conducts_zero 1 2) by apply B. ring.
  - apply (solver2_ok (K := R_field)).
  - split; [reflexivity|]. split; [repeat constructor; intros []|]. intros k [<-|[]]. exact Hh.
  - cbn. lia.
  - left. reflexivity.
Qed.
Example C172_heat_units_case : mesh_ok 1 2 bar_X (bar rod_law) /\ (forall n, (n < 2)%nat -> anchored 1 (map c_node (bar rod_law)) (listed [1%nat]) n) /\
  moved_cells (more_conducting 1 1) (bar rod_law) (bar rod_law) /\ scaled_places 1 2 2 bar_X long_X /\
  conditions_scaled 2 3 (bar_static_on bar_X 1 5 rod_supply) (bar_static_on long_X 1 15 (fun k => 3 * (1 * 2 ^ 1 / (2 * 2)) * rod_supply k)) /\
  poses (bar_static_on bar_X 1 5 rod_supply) tt 2 (fun T => thermostatic 1 (fun x => x) bar_X T (fun _ => 1) (bar rod_law)) rod_supply /\
  poses (bar_static_on long_X 1 15 (fun k => 3 * (1 * 2 ^ 1 / (2 * 2)) * rod_supply k)) tt 2 (fun T => thermostatic 1 (fun x => x) long_X T (fun _ => 1) (bar rod_law)) (fun k => 3 * (1 * 2 ^ 1 / (2 * 2)) * rod_supply k).
Proof.
  destruct C185_case as (B & B' & _ & HX & _). split; [apply (ht_mesh _ _ _ _ _ _ B)|]. split.
  { assert (A1 : anchored 1 (map c_node (bar rod_law)) (listed [1%nat]) 1) by (apply anchored_here; reflexivity).
    intros [|[|n]] Hn; [|exact A1|lia]. apply (anchored_next 1 _ _ (fun a => a) 1%nat 0%nat); [left; reflexivity|lia|lia|exact A1]. }
  split; [repeat constructor; intros; cbn; ring|]. split; [exact HX|]. split.
  { split; [intros k _; reflexivity|]. exists (fun _ => 5), (fun _ => 15). split; [intros k v [E|[]]; congruence|]. split; [intros k v [E|[]]; congruence|]. intros k _; ring. }
  split; apply bar_static_on_poses; try assumption; lia.
Qed.
