(** C177, C178: motions add up, and a body in equilibrium stays at rest. *)
From Coq Require Import Reals List Arith Bool Lia Lra.
From Verif Require Import Base.Field Base.Sums Base.Res BC.ConstraintsSpec BC.ConstraintsMain Element.ElementModel Element.ElementSpec Element.ElementProof Element.ElementProps
  Penalty.PenaltyModel Residual.Kernel Residual.ResidualModel Residual.ResidualSpec Residual.ResidualProof Residual.ResidualProps Residual.ResidualEnergyProps
  Residual.SupportSpec Residual.SupportProof Residual.SupportProps Residual.PotentialProps Residual.SolveSpec Residual.SolveProof Residual.Gauss Residual.SolveProps
  Residual.FrameSpec Residual.FrameProof Residual.FollowProps Problem.DenseBC Problem.SmallSolver Problem.EllipticModel Problem.EllipticSpec Problem.EllipticProof Problem.EllipticProps
  Problem.HyperbolicModel Problem.HyperbolicSpec Problem.HyperbolicProof Problem.HyperbolicProps
  Dynamics.DynModel Dynamics.DynSpec Dynamics.DynProof Dynamics.DynProps Dynamics.DynEnergyProps Dynamics.DynStepProps Dynamics.DynFollowProps.
Import ListNotations.
Local Open Scope R_scope.

(** ** Specification *)
(** F is a times F1 plus b times F2. *)
Definition combines (n : nat) (a b : R) (F1 F2 F : nat -> R) : Prop := forall k, (k < n)%nat -> F k = a * F1 k + b * F2 k.
(** The same entries prescribed, with combined values. *)
Definition held_combined (n : nat) (a b : R) (bc1 bc2 bc : list nat * list R) : Prop :=
  (forall k, (k < n)%nat -> (In k (fst bc) <-> In k (fst bc1)) /\ (In k (fst bc) <-> In k (fst bc2))) /\
  exists V1 V2 V, takes (fst bc1) (snd bc1) V1 /\ takes (fst bc2) (snd bc2) V2 /\ takes (fst bc) (snd bc) V /\ combines n a b V1 V2 V.
(** The same Newmark parameters, step length and number of steps. *)
Definition same_steps {Y Y'} (p : hproblem R_field Y) (p' : hproblem R_field Y') : Prop :=
  hq_gamma p' = hq_gamma p /\ hq_beta p' = hq_beta p /\ hq_dt p' = hq_dt p /\ hq_steps p' = hq_steps p.

(** ** C177 *)
Lemma resting_zero d pen X Z cells i : (forall c v, In c cells -> e_ref (y_law (c_mat c)) v = 0) -> resting_force d pen X Z cells i = 0.
Proof.
  intros H. unfold resting_force. apply sum_over_0. intros c Hc. unfold stress_power, stiff, rs.
  rewrite rsum_0; [req; ring|]. intros v Hv. rewrite rsum_0; [req; ring|]. intros j Hj. rewrite (H c j Hc). req. ring.
Qed.
Lemma dyn_combined d nn pen X Z cells a b U1 V1 A1 U2 V2 A2 k : (1 <= d <= 3)%nat -> mesh_ok d nn X cells -> (forall c v, In c cells -> e_ref (y_law (c_mat c)) v = 0) -> (k < nn * d)%nat ->
  elastodynamic d pen X (fun j => a * U1 j + b * U2 j) (fun j => a * V1 j + b * V2 j) (fun j => a * A1 j + b * A2 j) Z cells k =
  a * elastodynamic d pen X U1 V1 A1 Z cells k + b * elastodynamic d pen X U2 V2 A2 Z cells k.
Proof.
  intros Hd Hm Hr Hk. rewrite !(dyn_linear d nn pen X Z cells Hd Hm) by exact Hk. rewrite resting_zero by exact Hr.
  assert (L : forall (M : nat -> R) (P Q : nat -> R), rsum (nn * d) (fun j => M j * (a * P j + b * Q j)) = a * rsum (nn * d) (fun j => M j * P j) + b * rsum (nn * d) (fun j => M j * Q j)).
  { intros M P Q. rewrite <- !rsum_scal_l, <- rsum_add. apply rsum_ext. intros. req. ring. }
  rewrite !L. real_goal. ring.
Qed.
Theorem C177_superposition : forall (Y1 Y2 Y : Type) (p1 : hproblem R_field Y1) (p2 : hproblem R_field Y2) (p : hproblem R_field Y) y1 y2 y s1 s2 s d nn pen X Z cells F1 F2 F a b,
  moving_body d nn pen X Z cells -> (forall c v, In c cells -> e_ref (y_law (c_mat c)) v = 0) -> (forall t, steady d nn X cells (listed (fst (hq_bcs p t)))) ->
  (forall t, steady d nn X cells (listed (fst (hq_bcs p1 t)))) -> (forall t, steady d nn X cells (listed (fst (hq_bcs p2 t)))) ->
  poses_motion p1 y1 (nn * d) (fun U V A => elastodynamic d pen X U V A Z cells) F1 -> poses_motion p2 y2 (nn * d) (fun U V A => elastodynamic d pen X U V A Z cells) F2 ->
  poses_motion p y (nn * d) (fun U V A => elastodynamic d pen X U V A Z cells) F -> same_steps p p1 -> same_steps p p2 ->
  (forall t, combines (nn * d) a b (F1 t) (F2 t) (F t)) -> (forall t, held_combined (nn * d) a b (hq_bcs p1 t) (hq_bcs p2 t) (hq_bcs p t)) ->
  combines (nn * d) a b (hq_init_u p1) (hq_init_u p2) (hq_init_u p) -> combines (nn * d) a b (hq_init_v p1) (hq_init_v p2) (hq_init_v p) -> combines (nn * d) a b (hq_init_a p1) (hq_init_a p2) (hq_init_a p) ->
  forall k, (k < hq_steps p)%nat ->
  combines (nn * d) a b (hu (hsolution p1 y1 s1 k)) (hu (hsolution p2 y2 s2 k)) (hu (hsolution p y s k)) /\
  combines (nn * d) a b (hv (hsolution p1 y1 s1 k)) (hv (hsolution p2 y2 s2 k)) (hv (hsolution p y s k)) /\
  combines (nn * d) a b (ha (hsolution p1 y1 s1 k)) (ha (hsolution p2 y2 s2 k)) (ha (hsolution p y s k)).
Proof.
  intros Y1 Y2 Y p1 p2 p y1 y2 y s1 s2 s d nn pen X Z cells F1 F2 F a b B Hr HS HS1 HS2 P1 P2 P (G1 & B1 & T1 & N1) (G2 & B2 & T2 & N2) HF HB I1 I2 I3 k.
  pose proof (mo_dim _ _ _ _ _ _ B) as Hd. pose proof (mo_mesh _ _ _ _ _ _ B) as Hm.
  induction k as [|k IH]; intros Hk; [rewrite !hsolution_init; repeat split; assumption|]. specialize (IH ltac:(lia)). destruct IH as (R1 & R2 & R3).
  pose proof (proj1 (C170_steps Y1 p1 y1 s1 d nn pen X Z cells F1 B P1 HS1 (S k) ltac:(lia))) as E1. pose proof (proj1 (C170_steps Y2 p2 y2 s2 d nn pen X Z cells F2 B P2 HS2 (S k) ltac:(lia))) as E2.
  pose proof (proj2 (C170_steps Y p y s d nn pen X Z cells F B P HS (S k) ltac:(lia))) as Un. cbv zeta in E1, E2, Un. replace (S k - 1)%nat with k in * by lia.
  rewrite G1, B1, T1 in E1. rewrite G2, B2, T2 in E2. set (t := times (K := R_field) (S k) (hq_dt p)) in *.
  set (c1 := hsolution p1 y1 s1 (S k)) in *. set (c2 := hsolution p2 y2 s2 (S k)) in *. set (q1 := hsolution p1 y1 s1 k) in *. set (q2 := hsolution p2 y2 s2 k) in *. set (q := hsolution p y s k) in *.
  destruct E1 as (W1 & D1 & M1). destruct E2 as (W2 & D2 & M2). destruct (HB t) as (Hh & V1 & V2 & V & TV1 & TV2 & TV & CV).
  destruct (pm_conditions _ _ _ _ _ P1 t) as (L1 & _ & _). destruct (pm_conditions _ _ _ _ _ P2 t) as (L2 & _ & _). destruct (pm_conditions _ _ _ _ _ P t) as (L & _ & Lt).
  assert (St : motion_step (nn * d) (fun U V A => elastodynamic d pen X U V A Z cells) (F t) (hq_bcs p t) (hq_gamma p) (hq_beta p) (hq_dt p) q
    (mkH (K := R_field) (fun j => a * hu c1 j + b * hu c2 j) (fun j => a * hv c1 j + b * hv c2 j) (fun j => a * ha c1 j + b * ha c2 j))).
  { split; [|split].
    - rewrite newmark_real in W1, W2 |- *. intros i Hi. cbn [hu hv ha]. destruct (W1 i Hi) as [X1 X2]. destruct (W2 i Hi) as [X3 X4]. rewrite (R1 i Hi), (R2 i Hi), (R3 i Hi), X1, X2, X3, X4. split; field.
    - intros j w I. cbn [hu]. pose proof (in_combine_l _ _ _ _ I) as Hin. pose proof (Lt j Hin) as Hj. destruct (Hh j Hj) as [H1 H2].
      rewrite (takes_listed _ _ (hu c1) V1 j L1 D1 TV1 (proj1 H1 Hin)), (takes_listed _ _ (hu c2) V2 j L2 D2 TV2 (proj1 H2 Hin)), <- (CV j Hj). exact (TV j w I).
    - intros j Hj Hn. cbn [hu hv ha]. destruct (Hh j Hj) as [H1 H2]. rewrite (dyn_combined d nn) by assumption. rewrite (HF t j Hj).
      rewrite (M1 j Hj) by (intros I; apply Hn; apply H1; exact I). rewrite (M2 j Hj) by (intros I; apply Hn; apply H2; exact I). reflexivity. }
  pose proof (Un _ St) as E. cbn [hu hv ha] in E. split; [|split]; intros j Hj; symmetry; apply (E j Hj).
Qed.
Print Assumptions C177_superposition.

(** ** C178 *)
Lemma rest_step (u u0 v a h g b : R) : u = u0 -> v = 0 -> a = 0 -> u0 = u + h * v + h * h / (1 + 1) * ((1 - (1 + 1) * b) * a + (1 + 1) * b * 0) /\ 0 = v + h * ((1 - g) * a + g * 0).
Proof. intros -> -> ->. split; field. Qed.
(** A body put at rest in a configuration that balances its constant load and takes its constant prescribed displacements stays there. *)
Theorem C178_rest : forall (Y : Type) (p : hproblem R_field Y) (y : Y) stored d nn pen X Z cells L bc, moving_body d nn pen X Z cells -> steady d nn X cells (listed (fst bc)) ->
  poses_motion p y (nn * d) (fun U V A => elastodynamic d pen X U V A Z cells) (fun _ => L) -> (forall t, hq_bcs p t = bc) ->
  takes (fst bc) (snd bc) (hq_init_u p) -> (forall k, (k < nn * d)%nat -> ~ In k (fst bc) -> elastostatic d pen None X (hq_init_u p) Z (stiffness_cells cells) k = L k) ->
  (forall k, (k < nn * d)%nat -> hq_init_v p k = 0 /\ hq_init_a p k = 0) ->
  forall k, (k < hq_steps p)%nat -> forall i, (i < nn * d)%nat -> hu (hsolution p y stored k) i = hq_init_u p i /\ hv (hsolution p y stored k) i = 0 /\ ha (hsolution p y stored k) i = 0.
Proof.
  intros Y p y stored d nn pen X Z cells L bc B HS P Hbc HT HE H0 k. pose proof (mo_dim _ _ _ _ _ _ B) as Hd. pose proof (mo_mesh _ _ _ _ _ _ B) as Hm.
  induction k as [|k IH]; intros Hk; [intros i Hi; rewrite hsolution_init; cbn [hu hv ha]; split; [reflexivity|apply H0; exact Hi]|]. specialize (IH ltac:(lia)).
  pose proof (proj2 (C170_steps Y p y stored d nn pen X Z cells (fun _ => L) B P ltac:(intros t; rewrite Hbc; exact HS) (S k) ltac:(lia))) as Un. cbv zeta in Un. replace (S k - 1)%nat with k in Un by lia.
  assert (St : motion_step (nn * d) (fun U V A => elastodynamic d pen X U V A Z cells) L bc (hq_gamma p) (hq_beta p) (hq_dt p) (hsolution p y stored k) (mkH (K := R_field) (hq_init_u p) (fun _ => 0) (fun _ => 0))).
  { split; [|split].
    - rewrite newmark_real. intros i Hi. cbn [hu hv ha]. destruct (IH i Hi) as (X1 & X2 & X3). exact (rest_step _ _ _ _ _ _ _ X1 X2 X3).
    - exact HT.
    - intros j Hj Hn. cbn [hu hv ha]. rewrite <- (HE j Hj Hn). destruct (entry_split nn d j Hj) as (n & i & Hn' & Hi & ->). apply (C174_static d nn); assumption. }
  rewrite Hbc in Un. pose proof (Un _ St) as E. cbn [hu hv ha] in E. intros i Hi. destruct (E i Hi) as (E1 & E2 & E3). rewrite <- E1, <- E2, <- E3. repeat split; reflexivity.
Qed.
Print Assumptions C178_rest.
(** So does a body started at rest from what the static solve returns for the same load, supports and prescribed values. *)
Theorem C178_static_solution : forall (Y Y' : Type) (p : hproblem R_field Y) (y : Y) (ps : problem R_ring Y') (y' : Y') stored d nn pen X Z cells L bc, moving_body d nn pen X Z cells ->
  restrains d nn d X (listed (fst bc)) -> poses_motion p y (nn * d) (fun U V A => elastodynamic d pen X U V A Z cells) (fun _ => L) -> (forall t, hq_bcs p t = bc) ->
  poses ps y' (nn * d) (fun U => elastostatic d pen None X U Z (stiffness_cells cells)) L -> bc_dofs ps = fst bc -> bc_vals ps = snd bc ->
  (forall k, (k < nn * d)%nat -> hq_init_u p k = solution ps y' k /\ hq_init_v p k = 0 /\ hq_init_a p k = 0) ->
  forall k, (k < hq_steps p)%nat -> forall i, (i < nn * d)%nat -> hu (hsolution p y stored k) i = solution ps y' i /\ hv (hsolution p y stored k) i = 0 /\ ha (hsolution p y stored k) i = 0.
Proof.
  intros Y Y' p y ps y' stored d nn pen X Z cells L bc B HR P Hbc PS ED EV H0 k Hk i Hi. pose proof (mo_dim _ _ _ _ _ _ B) as Hd. pose proof (mo_mesh _ _ _ _ _ _ B) as Hm.
  assert (M1 : mesh_ok d nn X (stiffness_cells cells)) by (apply mapped_mesh; [reflexivity|exact Hm]).
  assert (EN : map c_node (stiffness_cells cells) = map c_node cells) by (unfold stiffness_cells; rewrite map_map; reflexivity).
  destruct (C165_elastic Y' ps y' d nn pen None X Z (stiffness_cells cells) L Hd M1) as [[T1 T2] _].
  - rewrite EN. apply B.
  - rewrite ED. exact HR.
  - intros c Hc. unfold stiffness_cells in Hc. apply in_map_iff in Hc. destruct Hc as (c0 & <- & I). destruct (mo_cells _ _ _ _ _ _ B c0 I) as (H1 & H2 & _ & _ & _ & H3). split; [exact H1|]. split; [exact H2|exact H3].
  - exact PS.
  - rewrite ED, EV in *. destruct (H0 i Hi) as (E & _). rewrite <- E.
    assert (EX : forall j, (j < nn * d)%nat -> elastostatic d pen None X (hq_init_u p) Z (stiffness_cells cells) j = elastostatic d pen None X (solution ps y') Z (stiffness_cells cells) j).
    { intros j Hj. destruct (entry_split nn d j Hj) as (n & l & Hn & Hl & ->). rewrite !(static_entry d nn) by assumption. unfold rs. apply sum_over_ext. intros c Hc. destruct (mesh_cell _ _ _ _ _ M1 Hc) as [Hk' _].
      f_equal. apply rsum_ext. intros v Hv. f_equal. apply rsum_ext. intros w Hw. rewrite (strain_of_ext d nn X (hq_init_u p) (solution ps y') c w) by (try assumption; intros; apply H0; assumption). reflexivity. }
    destruct (pm_conditions _ _ _ _ _ P 0) as (_ & _ & Lt). rewrite Hbc in Lt.
    apply (C178_rest Y p y stored d nn pen X Z cells L bc B (C170_supported _ _ _ _ _ _ HR) P Hbc); [| |intros j Hj; split; apply H0; exact Hj|exact Hk|exact Hi].
    + intros j v I. rewrite (proj1 (H0 j (Lt j (in_combine_l _ _ _ _ I)))). apply T1. exact I.
    + intros j Hj Hn. rewrite (EX j Hj). apply T2; assumption.
Qed.
Print Assumptions C178_static_solution.

(** ** Examples *)
(** Two motions of the square held at three entries, one under a growing load, one let go with a velocity; twice the first minus three times the second. *)
Example C177_case :
  let bc := ([0; 1; 3]%nat, [0; 0; 0]) in let val := fun U V A => elastodynamic 2 (fun z => z) square_X U V A (fun _ => 1) (square steel) in
  let F := fun t k => 2 * gust t k in let v0 := fun k => -3 * roll k in
  let p1 := body_problem 2 4 square_X (square steel) gust bc zero zero in let p2 := body_problem 2 4 square_X (square steel) (fun _ => zero) bc zero roll in
  let p := body_problem 2 4 square_X (square steel) F bc zero v0 in
  (forall c v, In c (square steel) -> e_ref (y_law (c_mat c)) v = 0) /\ poses_motion p1 tt (4 * 2) val gust /\ poses_motion p2 tt (4 * 2) val (fun _ => zero) /\ poses_motion p tt (4 * 2) val F /\
  same_steps p p1 /\ same_steps p p2 /\ (forall t, combines (4 * 2) 2 (-3) (gust t) zero (F t)) /\ (forall t, held_combined (4 * 2) 2 (-3) (hq_bcs p1 t) (hq_bcs p2 t) (hq_bcs p t)) /\
  combines (4 * 2) 2 (-3) zero roll v0 /\ F 1 7%nat = 2 /\ v0 1%nat = -3.
Proof.
  cbv zeta. assert (HC : conditions (4 * 2) (fst ([0; 1; 3]%nat, [0; 0; 0])) (snd ([0; 1; 3]%nat, [0; 0; 0]))) by (split; [reflexivity|]; split; [repeat constructor; cbn; lia|]; intros k [<-|[<-|[<-|[]]]]; lia).
  split; [intros c v [<-|[<-|[]]]; reflexivity|]. split; [apply body_poses; [lia|apply square_ok|exact HC]|]. split; [apply body_poses; [lia|apply square_ok|exact HC]|]. split; [apply body_poses; [lia|apply square_ok|exact HC]|].
  split; [repeat split|]. split; [repeat split|]. split; [intros t k _; cbn; real_goal; ring|]. split.
  - intros t. split; [intros k _; cbn; tauto|]. exists (fun _ => 0), (fun _ => 0), (fun _ => 0).
    assert (T : takes [0; 1; 3]%nat [0; 0; 0] (fun _ => 0)) by (intros k v I; repeat (destruct I as [I|I]; [injection I as _ E; exact E|]); contradiction).
    split; [exact T|]. split; [exact T|]. split; [exact T|]. intros k _. ring.
  - split; [intros k _; cbn; real_goal; ring|]. unfold gust, roll. cbn. split; ring.
Qed.
(** A bar with one end moved by 1 and the other pulled: the static solve returns 1 and 3/2, and the bar started there stays. *)
Definition live_rod : dynamic := mkDyn rod 5 (1 / 10) (1 / 5).
Example C178_case : let bc := ([0%nat], [1]) in let ps := bar_case bar_X rod 2 0 1 pull in
  let p := body_problem 1 2 bar_X (bar live_rod) (fun _ => pull) bc (solution ps tt) zero in
  moving_body 1 2 (fun z => z) bar_X (fun _ => 1) (bar live_rod) /\ restrains 1 2 1 bar_X (listed [0%nat]) /\
  poses_motion p tt (2 * 1) (fun U V A => elastodynamic 1 (fun z => z) bar_X U V A (fun _ => 1) (bar live_rod)) (fun _ => pull) /\
  poses ps tt (2 * 1) (fun U => elastostatic 1 (fun z => z) None bar_X U (fun _ => 1) (stiffness_cells (bar live_rod))) pull /\
  bc_dofs ps = [0%nat] /\ bc_vals ps = [1] /\ solution ps tt 1%nat = 3 / 2.
Proof.
  cbv zeta. destruct rod_supported as (H1 & H2 & H3 & H4).
  split. { split; [lia|apply bar_ok|exact H2|]. intros c [<-|[]]. destruct (H4 (mkCell (fun a => a) rod) (or_introl eq_refl)) as (S1 & S2 & S3). split; [exact S1|]. split; [exact S2|]. unfold live_rod. cbn [c_mat y_rho y_ra y_rb]. split; [lra|]. split; [lra|]. split; [lra|exact S3]. }
  split; [exact H3|]. split; [apply body_poses; [lia|apply bar_ok|]; split; [reflexivity|]; split; [repeat constructor; intros []|intros k [<-|[]]; cbn; lia]|].
  split; [apply bar_poses; [lia|exact rod_forces]|]. split; [reflexivity|]. split; [reflexivity|].
  unfold solution, newton. cbn [newton_steps bar_case the_pde p_value p_gradient_u lin_solve bc_dofs bc_vals].
  unfold solver2, bc_matrix, constrained_matrix, bc_rhs, prescribed, constrained. cbn -[elastostatic]. rewrite !rod_forces by lia. cbn. unfold pull. cbn. field.
Qed.
