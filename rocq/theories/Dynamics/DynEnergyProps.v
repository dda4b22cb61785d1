(** C121: energy of a moving body, in continuous time, over one computed step and over a run; the energy criterion; the mass matrix. *)
From Coq Require Import Reals List Arith Bool Lia Lra.
From Verif Require Import Base.Field Base.Sums Base.Res Element.ElementModel Element.ElementSpec Element.ElementProof Element.ElementProps
  Penalty.PenaltyModel Residual.ResidualModel Residual.ResidualSpec Residual.ResidualProof Residual.ResidualProps Residual.ResidualEnergyProps
  Problem.DenseBC Problem.SmallSolver Problem.EllipticProof Problem.HyperbolicModel Problem.HyperbolicSpec Problem.HyperbolicProps
  Dynamics.DynModel Dynamics.DynSpec Dynamics.DynProof Dynamics.DynProps.
Import ListNotations.
Local Open Scope R_scope.
Definition symmetric_laws (d : nat) (cells : list (cell dynamic)) : Prop := forall c, In c cells -> ResidualSpec.symmetric (num_voigt d) (e_stiff (y_law (c_mat c))).
(** Damping coefficients, density and penalty not negative; a stiffness without negative energies. *)
Definition passive (d : nat) (pen : R -> R) (cells : list (cell dynamic)) : Prop := (forall z, 0 <= pen z) /\
  forall c, In c cells -> 0 <= y_ra (c_mat c) /\ 0 <= y_rb (c_mat c) /\ 0 <= y_rho (c_mat c) /\ nonnegative_form (num_voigt d) (e_stiff (y_law (c_mat c))).

Lemma squares_nonneg n f : 0 <= rsum n (fun i => f i * f i).
Proof. induction n as [|n IH]; [apply Rle_refl|]. change (0 <= rsum n (fun i => f i * f i) + f n * f n). pose proof (Rle_0_sqr (f n)) as Q. unfold Rsqr in Q. lra. Qed.
Lemma weight_nonneg {M} d nn pen X Z (cells : list (cell M)) c : (1 <= d <= 3)%nat -> mesh_ok d nn X cells -> In c cells -> (forall z, 0 <= pen z) -> 0 <= weight_of d pen X Z c.
Proof.
  intros Hd Hm Hc Hp. unfold weight_of. apply Rmult_le_pos; [|apply Hp]. destruct (mesh_cell _ _ _ _ _ Hm Hc) as [_ Hv].
  apply Rlt_le. apply (proj2 (proj2 (proj2 (C31_gradients d (gather_coords X c) Hd Hv)))).
Qed.
Lemma sum_over_sub {A} (l : list A) f g : sum_over l (fun x => f x - g x) = sum_over l f - sum_over l g.
Proof. induction l as [|x l IH]; cbn [sum_over]; [ring|]. rewrite IH. ring. Qed.
Theorem C121_dissipation : forall d nn pen X Z cells V, (1 <= d <= 3)%nat -> mesh_ok d nn X cells -> passive d pen cells ->
  0 <= dissipation d pen X Z cells V /\ 0 <= kinetic_energy d pen X Z cells V /\ (forall U, 0 <= strain_energy d pen X Z cells U).
Proof.
  intros d nn pen X Z cells V Hd Hm [Hp Hc].
  assert (W : forall c, In c cells -> 0 <= weight_of d pen X Z c) by (intros; apply (weight_nonneg d nn pen X Z cells); assumption).
  assert (Q : forall c : cell dynamic, 0 <= rs d (fun i => mean_of d V c i * mean_of d V c i)) by (intros; apply squares_nonneg).
  split; [|split; [|intros U]]; apply sum_over_nonneg; intros c Hin; destruct (Hc c Hin) as (Ha & Hb & Hr & Hf); specialize (W c Hin); specialize (Q c);
    unfold mass_of; repeat first [assumption | apply Rplus_le_le_0_compat | apply Rmult_le_pos | lra]; try apply stiff_nonneg; assumption.
Qed.
Print Assumptions C121_dissipation.

(** ** Continuous time *)
Lemma der_rsum n (f : nat -> R -> R) (f' : nat -> R) t : (forall a, (a < n)%nat -> derivable_pt_lim (f a) t (f' a)) ->
  derivable_pt_lim (fun s => rsum n (fun a => f a s)) t (rsum n f').
Proof.
  induction n as [|n IH]; intros H; [apply derivable_pt_lim_const|].
  change (derivable_pt_lim (fun s => rsum n (fun a => f a s) + f n s) t (rsum n f' + f' n)).
  apply (derivable_pt_lim_plus (fun s => rsum n (fun a => f a s)) (f n)); [apply IH; intros; apply H; lia|apply H; lia].
Qed.
Lemma der_sum_over {A} (l : list A) (f : A -> R -> R) (f' : A -> R) t : (forall a, In a l -> derivable_pt_lim (f a) t (f' a)) ->
  derivable_pt_lim (fun s => sum_over l (fun a => f a s)) t (sum_over l f').
Proof.
  induction l as [|x l IH]; intros H; cbn [sum_over]; [apply derivable_pt_lim_const|].
  apply (derivable_pt_lim_plus (f x) (fun s => sum_over l (fun a => f a s))); [apply H; left; reflexivity|apply IH; intros; apply H; right; assumption].
Qed.
Lemma der_scal k f t l : derivable_pt_lim f t l -> derivable_pt_lim (fun s => k * f s) t (k * l).
Proof. apply derivable_pt_lim_scal. Qed.
Lemma der_eq f t l l' : derivable_pt_lim f t l -> l = l' -> derivable_pt_lim f t l'. Proof. intros H <-. exact H. Qed.
Lemma der_ext f g t l : (forall s, f s = g s) -> derivable_pt_lim f t l -> derivable_pt_lim g t l.
Proof. intros E H eps He. destruct (H eps He) as [dl Hd]. exists dl. intros h Hh Hs. rewrite <- !E. apply Hd; assumption. Qed.
Lemma der_mul f g t f' g' : derivable_pt_lim f t f' -> derivable_pt_lim g t g' -> derivable_pt_lim (fun s => f s * g s) t (f' * g t + f t * g').
Proof. apply derivable_pt_lim_mult. Qed.
Definition follows (n : nat) (U : R -> nat -> R) (t : R) (V : nat -> R) : Prop := forall k, (k < n)%nat -> derivable_pt_lim (fun s => U s k) t (V k).

Lemma der_mean {M} d nn U t V (c : cell M) i : (forall a, (a <= d)%nat -> (c_node c a < nn)%nat) -> (i < d)%nat -> follows (nn * d) U t V ->
  derivable_pt_lim (fun s => mean_of d (U s) c i) t (mean_of d V c i).
Proof.
  intros Hc Hi H. unfold mean_of, rs, Rdiv.
  apply der_ext with (f := fun s => / INR (S d) * rsum (S d) (fun a => U s (c_node c a * d + i)%nat)); [intros; ring|].
  apply der_eq with (l := / INR (S d) * rsum (S d) (fun a => V (c_node c a * d + i)%nat)); [|ring].
  apply der_scal. apply (der_rsum (S d) (fun a s => U s (c_node c a * d + i)%nat)). intros a Ha. apply H. specialize (Hc a ltac:(lia)). nia.
Qed.
Lemma der_strain {M} d nn X U t V (c : cell M) v : (1 <= d <= 3)%nat -> (v < num_voigt d)%nat -> (forall a, (a <= d)%nat -> (c_node c a < nn)%nat) -> follows (nn * d) U t V ->
  derivable_pt_lim (fun s => strain_of d X (U s) c v) t (strain_of d X V c v).
Proof.
  intros Hd Hv Hc H.
  set (L := fun k => strain_of d X (unit_at k) c v).
  assert (E : forall W, strain_of d X W c v = rsum (nn * d) (fun k => L k * W k)).
  { intros W. rewrite (lin_expand (nn * d) (fun w => strain_of d X w c v) W).
    - apply rsum_ext. intros. unfold L. req. ring.
    - intros. apply strain_of_lin; assumption.
    - intros. apply (strain_of_ext d nn); assumption. }
  apply der_ext with (f := fun s => rsum (nn * d) (fun k => L k * U s k)); [intros; symmetry; apply E|]. rewrite E.
  apply (der_rsum (nn * d) (fun k s => L k * U s k)). intros k Hk. apply der_scal. apply H. exact Hk.
Qed.
Lemma der_stiff d C e e' f f' t : (forall v, (v < num_voigt d)%nat -> derivable_pt_lim (fun s => e s v) t (e' v)) ->
  (forall v, (v < num_voigt d)%nat -> derivable_pt_lim (fun s => f s v) t (f' v)) ->
  derivable_pt_lim (fun s => stiff d C (e s) (f s)) t (stiff d C e' (f t) + stiff d C (e t) f').
Proof.
  intros He Hf. unfold stiff, rs. rewrite <- rsum_add. apply (der_rsum (num_voigt d) (fun i s => rsum (num_voigt d) (fun j => e s j * C i j) * f s i)).
  intros i Hi. apply (der_mul (fun s => rsum (num_voigt d) (fun j => e s j * C i j))); [|apply Hf; exact Hi].
  apply (der_rsum (num_voigt d) (fun j s => e s j * C i j)). intros j Hj.
  apply der_ext with (f := fun s => C i j * e s j); [intros; ring|]. apply der_eq with (l := C i j * e' j); [|ring]. apply der_scal. apply He. exact Hj.
Qed.
(** Power balance: the energy of a body that moves along any trajectory changes at the power of the residual forces minus the dissipation. *)
Theorem C121_power : forall d nn pen X Z cells (U V : R -> nat -> R) A t, (1 <= d <= 3)%nat -> mesh_ok d nn X cells -> symmetric_laws d cells ->
  follows (nn * d) U t (V t) -> follows (nn * d) V t A ->
  derivable_pt_lim (fun s => total_energy d pen X Z cells (U s) (V s)) t
    (work (nn * d) (elastodynamic d pen X (U t) (V t) A Z cells) (V t) - dissipation d pen X Z cells (V t)).
Proof.
  intros d nn pen X Z cells U V A t Hd Hm Hs HU HV. unfold total_energy, kinetic_energy, strain_energy, dissipation.
  rewrite (dyn_work d nn) by assumption.
  apply der_ext with (f := fun s => sum_over cells (fun c => 1 / 2 * mass_of d pen y_rho X Z c * rs d (fun i => mean_of d (V s) c i * mean_of d (V s) c i) +
     1 / 2 * weight_of d pen X Z c * stiff d (e_stiff (y_law (c_mat c))) (fun j => strain_of d X (U s) c j - e_ref (y_law (c_mat c)) j) (fun j => strain_of d X (U s) c j - e_ref (y_law (c_mat c)) j))).
  { intros s. rewrite sum_over_add. reflexivity. }
  eapply der_eq.
  - apply (der_sum_over cells (fun c s => _ + _) (fun c => 1 / 2 * mass_of d pen y_rho X Z c * (2 * rs d (fun i => mean_of d A c i * mean_of d (V t) c i)) +
      1 / 2 * weight_of d pen X Z c * (2 * stiff d (e_stiff (y_law (c_mat c))) (fun j => strain_of d X (U t) c j - e_ref (y_law (c_mat c)) j) (strain_of d X (V t) c)))).
    intros c Hc. destruct (mesh_cell _ _ _ _ _ Hm Hc) as [Hn Hv].
    apply (derivable_pt_lim_plus (fun s => 1 / 2 * mass_of d pen y_rho X Z c * rs d (fun i => mean_of d (V s) c i * mean_of d (V s) c i))).
    + apply der_scal. unfold rs. rewrite <- rsum_scal_l. apply (der_rsum d (fun i s => mean_of d (V s) c i * mean_of d (V s) c i)). intros i Hi.
      apply der_eq with (l := mean_of d A c i * mean_of d (V t) c i + mean_of d (V t) c i * mean_of d A c i); [|req; ring].
      apply der_mul; apply (der_mean d nn); assumption.
    + apply der_scal.
      assert (De : forall v, (v < num_voigt d)%nat -> derivable_pt_lim (fun s => strain_of d X (U s) c v - e_ref (y_law (c_mat c)) v) t (strain_of d X (V t) c v)).
      { intros v Hv'. apply der_eq with (l := strain_of d X (V t) c v - 0); [|ring].
        apply (derivable_pt_lim_minus (fun s => strain_of d X (U s) c v) (fun _ => e_ref (y_law (c_mat c)) v)); [apply (der_strain d nn); assumption|apply derivable_pt_lim_const]. }
      eapply der_eq; [apply (der_stiff d (e_stiff (y_law (c_mat c))) (fun s j => strain_of d X (U s) c j - e_ref (y_law (c_mat c)) j) (strain_of d X (V t) c) (fun s j => strain_of d X (U s) c j - e_ref (y_law (c_mat c)) j) (strain_of d X (V t) c)); exact De|].
      cbv beta. rewrite (stiff_sym d _ (strain_of d X (V t) c)) by (apply Hs; exact Hc). ring.
  - rewrite <- sum_over_sub.
    apply sum_over_ext. intros c _. unfold inertia_work, stress_power. field.
Qed.
Print Assumptions C121_power.

(** ** One computed step *)
(** Average acceleration (gamma = 1/2, beta = 1/4), any step size: the energy changes by the work of the mean residual force on the increment, minus the
    dissipation at the mean velocity. *)
Definition mid (a b : nat -> R) : nat -> R := fun k => (a k + b k) / 2.
Lemma newmark_real n dt (p s : hstate R_field) : newmark (K := R_field) n (1 / 2)%R (1 / 4)%R dt p s -> forall k, (k < n)%nat ->
  ((hu s k : R) = hu p k + dt * hv p k + dt * dt / (1 + 1) * ((1 - (1 + 1) * (1 / 4)) * ha p k + (1 + 1) * (1 / 4) * ha s k))%R /\
  ((hv s k : R) = hv p k + dt * ((1 - 1 / 2) * ha p k + 1 / 2 * ha s k))%R.
Proof. intros H k Hk. exact (H k Hk). Qed.
Theorem C121_step : forall d nn pen X Z cells dt (p s : hstate R_field), (1 <= d <= 3)%nat -> mesh_ok d nn X cells -> symmetric_laws d cells ->
  newmark (K := R_field) (nn * d) (1 / 2)%R (1 / 4)%R dt p s ->
  total_energy d pen X Z cells (hu s) (hv s) - total_energy d pen X Z cells (hu p) (hv p) =
  work (nn * d) (mid (elastodynamic d pen X (hu p) (hv p) (ha p) Z cells) (elastodynamic d pen X (hu s) (hv s) (ha s) Z cells)) (fun k => hu s k - hu p k)
  - dt * dissipation d pen X Z cells (mid (hv p) (hv s)).
Proof.
  intros d nn pen X Z cells dt p s Hd Hm Hsym HN.
  assert (DU : forall k, (k < nn * d)%nat -> hu s k - hu p k = dt / 2 * (hv p k + hv s k)).
  { intros k Hk. destruct (newmark_real _ dt p s HN k Hk) as [EU EV]. rewrite EU, EV. field. }
  assert (DV : forall k, (k < nn * d)%nat -> hv s k - hv p k = dt / 2 * (ha p k + ha s k)).
  { intros k Hk. destruct (newmark_real _ dt p s HN k Hk) as [_ EV]. rewrite EV. field. }
  assert (WM : forall F G W, work (nn * d) (mid F G) W = 1 / 2 * (work (nn * d) F W + work (nn * d) G W)).
  { intros F G W. unfold work, mid, rs. rewrite <- rsum_add, <- rsum_scal_l. apply rsum_ext. intros. req. field. }
  rewrite WM, !(dyn_work d nn) by assumption. unfold total_energy, kinetic_energy, strain_energy, dissipation.
  rewrite <- !sum_over_add, <- !sum_over_scal, <- !sum_over_sub.
  apply sum_over_ext. intros c Hc. destruct (mesh_cell _ _ _ _ _ Hm Hc) as [Hn Hv]. cbv beta.
  set (Mc := mass_of d pen y_rho X Z c). unfold inertia_work, stress_power. fold Mc. set (Wc := weight_of d pen X Z c). set (C := e_stiff (y_law (c_mat c))). set (ref := e_ref (y_law (c_mat c))).
  assert (Hsc : ResidualSpec.symmetric (num_voigt d) C) by (apply Hsym; exact Hc).
  (* means *)
  assert (MU : forall i, (i < d)%nat -> mean_of d (fun k => hu s k - hu p k) c i = dt / 2 * (mean_of d (hv p) c i + mean_of d (hv s) c i)).
  { intros i Hi. rewrite (mean_ext d nn _ (fun k => 0 + dt / 2 * (hv p k + 1 * hv s k)) c i Hn Hi) by (intros j Hj; rewrite DU by exact Hj; ring).
    rewrite (mean_lin d (fun _ => 0)), (mean_lin d (hv p) (hv s) 1). unfold mean_of at 1, rs. rewrite rsum_0 by reflexivity. unfold Rdiv. ring. }
  assert (MV : forall i, (i < d)%nat -> mean_of d (hv s) c i - mean_of d (hv p) c i = dt / 2 * (mean_of d (ha p) c i + mean_of d (ha s) c i)).
  { intros i Hi. rewrite (mean_ext d nn (hv s) (fun k => hv p k + dt / 2 * (ha p k + 1 * ha s k)) c i Hn Hi) by (intros j Hj; specialize (DV j Hj); lra).
    rewrite (mean_lin d (hv p)), (mean_lin d (ha p) (ha s) 1). ring. }
  assert (MM : forall i, mean_of d (mid (hv p) (hv s)) c i = (mean_of d (hv p) c i + mean_of d (hv s) c i) / 2).
  { intros i. unfold mid, mean_of, rs. rewrite (rsum_ext (S d) _ (fun a => 1 / 2 * (hv p (c_node c a * d + i)%nat + hv s (c_node c a * d + i)%nat))) by (intros; req; field).
    rewrite rsum_scal_l, rsum_add. field. apply not_0_INR. lia. }
  (* strains *)
  set (e0 := fun j => strain_of d X (hu p) c j - ref j). set (e1 := fun j => strain_of d X (hu s) c j - ref j).
  set (w0 := strain_of d X (hv p) c). set (w1 := strain_of d X (hv s) c).
  assert (EUp : forall v, (v < num_voigt d)%nat -> strain_of d X (fun k => hu s k - hu p k) c v = dt / 2 * (w0 v + 1 * w1 v)).
  { intros v Hv'. rewrite (strain_of_ext d nn X _ (fun k => (fun _ => 0) k + dt / 2 * (hv p k + 1 * hv s k)) c v Hd Hn) by (intros j Hj; rewrite DU by exact Hj; ring).
    rewrite (strain_of_lin d X (fun _ => 0)), (strain_of_lin d X (hv p) (hv s) 1) by assumption.
    rewrite (strain_of_ext d nn X (fun _ => 0) (fun k => hv p k + -1 * hv p k) c v Hd Hn) by (intros; ring). rewrite strain_of_lin by assumption. unfold w0, w1. ring. }
  assert (EDe : forall v, (v < num_voigt d)%nat -> e1 v + -1 * e0 v = dt / 2 * (w0 v + 1 * w1 v)).
  { intros v Hv'. rewrite <- EUp by exact Hv'. unfold e1, e0.
    rewrite (strain_of_ext d nn X (fun k => hu s k - hu p k) (fun k => hu s k + -1 * hu p k) c v Hd Hn) by (intros; ring). rewrite strain_of_lin by assumption. ring. }
  assert (EM : forall v, (v < num_voigt d)%nat -> strain_of d X (mid (hv p) (hv s)) c v = 1 / 2 * (w0 v + 1 * w1 v)).
  { intros v Hv'. rewrite (strain_of_ext d nn X _ (fun k => (fun k => hv p k + -1 * hv p k) k + 1 / 2 * (hv p k + 1 * hv s k)) c v Hd Hn) by (intros j Hj; unfold mid; field).
    rewrite (strain_of_lin d X (fun k => hv p k + -1 * hv p k)), (strain_of_lin d X (hv p) (hv s) 1), strain_of_lin by assumption. unfold w0, w1. ring. }
  change (fun j => strain_of d X (hu p) c j - ref j) with e0. change (fun j => strain_of d X (hu s) c j - ref j) with e1.
  set (ws := fun v => w0 v + 1 * w1 v).
  assert (SS : forall k e f, stiff d C (fun v => k * e v) f = k * stiff d C e f).
  { intros k e f. unfold stiff, rs. rewrite <- rsum_scal_l. apply rsum_ext. intros i _.
    rewrite (rsum_ext _ (fun j => k * e j * C i j) (fun j => k * (e j * C i j))) by (intros; req; ring). rewrite rsum_scal_l. req. ring. }
  assert (SR : forall k e f, stiff d C e (fun v => k * f v) = k * stiff d C e f).
  { intros k e f. unfold stiff, rs. rewrite <- rsum_scal_l. apply rsum_ext. intros i _. req. ring. }
  rewrite (stiff_ext d C (strain_of d X (mid (hv p) (hv s)) c) (strain_of d X (mid (hv p) (hv s)) c) (fun v => 1 / 2 * ws v) (fun v => 1 / 2 * ws v)) by exact EM.
  rewrite (stiff_ext d C e0 (strain_of d X (fun k => hu s k - hu p k) c) e0 (fun v => dt / 2 * ws v)) by (auto; exact EUp).
  rewrite (stiff_ext d C e1 (strain_of d X (fun k => hu s k - hu p k) c) e1 (fun v => dt / 2 * ws v)) by (auto; exact EUp).
  rewrite (stiff_ext d C w0 (strain_of d X (fun k => hu s k - hu p k) c) w0 (fun v => dt / 2 * ws v)) by (auto; exact EUp).
  rewrite (stiff_ext d C w1 (strain_of d X (fun k => hu s k - hu p k) c) w1 (fun v => dt / 2 * ws v)) by (auto; exact EUp).
  assert (Kd : stiff d C e1 e1 - stiff d C e0 e0 = dt / 2 * (stiff d C e1 ws + stiff d C e0 ws)).
  { rewrite stiff_diff by exact Hsc. rewrite (stiff_ext d C _ _ (fun v => dt / 2 * ws v) (fun v => e1 v + 1 * e0 v)) by (auto; exact EDe).
    rewrite SS, stiff_lin_r, !(stiff_sym d C ws) by exact Hsc. ring. }
  assert (Kw : stiff d C ws ws = stiff d C w0 ws + stiff d C w1 ws).
  { unfold ws at 1. rewrite stiff_lin_l. ring. }
  rewrite !SR, SS.
  set (Ip := rs d (fun i => mean_of d (hv p) c i * mean_of d (hv p) c i)). set (Is := rs d (fun i => mean_of d (hv s) c i * mean_of d (hv s) c i)).
  set (J0 := rs d (fun i => mean_of d (ha p) c i * mean_of d (fun k => hu s k - hu p k) c i)). set (J1 := rs d (fun i => mean_of d (ha s) c i * mean_of d (fun k => hu s k - hu p k) c i)).
  set (D0 := rs d (fun i => mean_of d (hv p) c i * mean_of d (fun k => hu s k - hu p k) c i)). set (D1 := rs d (fun i => mean_of d (hv s) c i * mean_of d (fun k => hu s k - hu p k) c i)).
  set (Dm := rs d (fun i => mean_of d (mid (hv p) (hv s)) c i * mean_of d (mid (hv p) (hv s)) c i)).
  assert (KI : Is - Ip = J0 + J1).
  { unfold Is, Ip, J0, J1, rs. rewrite <- rsum_sub, <- rsum_add. apply rsum_ext. intros i Hi. rewrite MU by exact Hi. specialize (MV i Hi). req.
    replace (mean_of d (ha p) c i * (dt / 2 * (mean_of d (hv p) c i + mean_of d (hv s) c i)) + mean_of d (ha s) c i * (dt / 2 * (mean_of d (hv p) c i + mean_of d (hv s) c i)))
      with ((dt / 2 * (mean_of d (ha p) c i + mean_of d (ha s) c i)) * (mean_of d (hv p) c i + mean_of d (hv s) c i)) by ring. rewrite <- MV. ring. }
  assert (KD : D0 + D1 = 2 * dt * Dm).
  { unfold D0, D1, Dm, rs. rewrite <- rsum_add, <- rsum_scal_l. apply rsum_ext. intros i Hi. rewrite MU, MM by exact Hi. req. field. }
  clearbody Mc Wc Ip Is J0 J1 D0 D1 Dm. clear EM EDe EUp MM MV MU DU DV WM.
  set (k1 := stiff d C e1 e1) in *. set (k0 := stiff d C e0 e0) in *. set (q1 := stiff d C e1 ws) in *. set (q0 := stiff d C e0 ws) in *.
  set (z0 := stiff d C w0 ws) in *. set (z1 := stiff d C w1 ws) in *. rewrite Kw. clearbody k1 k0 q1 q0 z0 z1.
  assert (Is = Ip + J0 + J1) as -> by lra. assert (k1 = k0 + dt / 2 * (q1 + q0)) as -> by lra. assert (D1 = 2 * dt * Dm - D0) as -> by lra. field.
Qed.
Print Assumptions C121_step.
(** With equilibrium at both ends wherever the body moves, the energy does not grow, whatever the step; without damping it stays. *)
Theorem C121_stable : forall d nn pen X Z cells dt (p s : hstate R_field), (1 <= d <= 3)%nat -> mesh_ok d nn X cells -> symmetric_laws d cells -> 0 < dt ->
  newmark (K := R_field) (nn * d) (1 / 2)%R (1 / 4)%R dt p s ->
  (forall k, (k < nn * d)%nat -> hu s k <> hu p k ->
     elastodynamic d pen X (hu p) (hv p) (ha p) Z cells k = 0 /\ elastodynamic d pen X (hu s) (hv s) (ha s) Z cells k = 0) ->
  (passive d pen cells -> total_energy d pen X Z cells (hu s) (hv s) <= total_energy d pen X Z cells (hu p) (hv p)) /\
  ((forall c, In c cells -> y_ra (c_mat c) = 0 /\ y_rb (c_mat c) = 0) -> total_energy d pen X Z cells (hu s) (hv s) = total_energy d pen X Z cells (hu p) (hv p)).
Proof.
  intros d nn pen X Z cells dt p s Hd Hm Hs Hdt HN Heq. pose proof (C121_step d nn pen X Z cells dt p s Hd Hm Hs HN) as E.
  assert (W0 : work (nn * d) (mid (elastodynamic d pen X (hu p) (hv p) (ha p) Z cells) (elastodynamic d pen X (hu s) (hv s) (ha s) Z cells)) (fun k => hu s k - hu p k) = 0).
  { unfold work, rs. apply rsum_0. intros k Hk. destruct (Req_EM_T (hu s k) (hu p k)) as [Q|Q]; [rewrite Q; req; ring|].
    unfold mid. destruct (Heq k Hk Q) as [-> ->]. req. field. }
  rewrite W0 in E. split.
  - intros Hp. pose proof (proj1 (C121_dissipation d nn pen X Z cells (mid (hv p) (hv s)) Hd Hm Hp)) as Dp.
    assert (0 <= dt * dissipation d pen X Z cells (mid (hv p) (hv s))) by (apply Rmult_le_pos; lra). lra.
  - intros H0. assert (D0 : dissipation d pen X Z cells (mid (hv p) (hv s)) = 0).
    { unfold dissipation. apply sum_over_0. intros c Hc. destruct (H0 c Hc) as [-> ->]. ring. }
    rewrite D0 in E. lra.
Qed.
Print Assumptions C121_stable.

(** ** A whole run of the time loop (Problem/HyperbolicModel.v) on this residual *)
Section Matrices.
Variables (d nn : nat) (pen : R -> R) (X : nat -> nat -> R) (Z : nat -> R) (cells : list (cell dynamic)).
Hypotheses (Hd : (1 <= d <= 3)%nat) (Hm : mesh_ok d nn X cells).
Let zero : nat -> R := fun _ => 0.
Let res U V A := elastodynamic d pen X U V A Z cells.
Definition mass_entry (i j : nat) : R := sum_over cells (fun c => inertia_work d pen X Z c (unit_at j) (unit_at i)).
Definition stiffness_entry (i j : nat) : R := sum_over cells (fun c => stress_power d pen X Z c (strain_of d X (unit_at j) c) (strain_of d X (unit_at i) c)).
Definition damping_entry (i j : nat) : R :=
  sum_over cells (fun c => y_ra (c_mat c) * inertia_work d pen X Z c (unit_at j) (unit_at i) + y_rb (c_mat c) * stress_power d pen X Z c (strain_of d X (unit_at j) c) (strain_of d X (unit_at i) c)).
Lemma iw_expand c A W : In c cells -> inertia_work d pen X Z c A W = rsum (nn * d) (fun j => A j * inertia_work d pen X Z c (unit_at j) W).
Proof.
  intros Hc. destruct (mesh_cell _ _ _ _ _ Hm Hc) as [Hn _]. apply (lin_expand (nn * d) (fun a => inertia_work d pen X Z c a W)).
  - intros a b k. unfold inertia_work, rs. rewrite (rsum_ext d _ (fun i => mean_of d a c i * mean_of d W c i + k * (mean_of d b c i * mean_of d W c i))) by (intros; rewrite mean_lin; req; ring).
    rewrite rsum_add, rsum_scal_l. ring.
  - intros a b E. unfold inertia_work, rs. f_equal. apply rsum_ext. intros i Hi. rewrite (mean_ext d nn a b c i Hn Hi E). reflexivity.
Qed.
Lemma sp_expand c U f : In c cells -> stress_power d pen X Z c (strain_of d X U c) f = rsum (nn * d) (fun j => U j * stress_power d pen X Z c (strain_of d X (unit_at j) c) f).
Proof.
  intros Hc. destruct (mesh_cell _ _ _ _ _ Hm Hc) as [Hn _]. apply (lin_expand (nn * d) (fun u => stress_power d pen X Z c (strain_of d X u c) f)).
  - intros a b k. unfold stress_power. rewrite (stiff_ext d _ _ f (fun v => strain_of d X a c v + k * strain_of d X b c v) f) by (intros; try apply strain_of_lin; auto).
    rewrite stiff_lin_l. ring.
  - intros a b E. unfold stress_power. f_equal. apply stiff_ext; [|reflexivity]. intros v _. apply (strain_of_ext d nn); assumption.
Qed.
Lemma expand_sum (q : cell dynamic -> nat -> R) (U : nat -> R) : sum_over cells (fun c => rsum (nn * d) (fun j => U j * q c j)) = rsum (nn * d) (fun j => sum_over cells (fun c => q c j) * U j).
Proof.
  rewrite <- (sum_over_swap cells (nn * d) (fun c j => U j * q c j)). apply rsum_ext. intros j _. rewrite sum_over_scal_r. apply sum_over_ext. intros. req. ring.
Qed.
Definition resting_force (i : nat) : R := sum_over cells (fun c => stress_power d pen X Z c (e_ref (y_law (c_mat c))) (strain_of d X (unit_at i) c)).
Lemma dyn_linear U V A i : (i < nn * d)%nat ->
  res U V A i = rsum (nn * d) (fun j => mass_entry i j * A j) + rsum (nn * d) (fun j => damping_entry i j * V j) + rsum (nn * d) (fun j => stiffness_entry i j * U j) - resting_force i.
Proof.
  intros Hi. unfold res. rewrite <- (work_unit (nn * d) _ i Hi), (dyn_work d nn) by assumption.
  unfold mass_entry, damping_entry, stiffness_entry, resting_force. rewrite <- !expand_sum, <- !sum_over_add, <- sum_over_sub. apply sum_over_ext. intros c Hc.
  rewrite (iw_expand c A) by exact Hc.
  rewrite (rsum_ext (nn * d) (fun j => V j * (_ + _)) (fun j => y_ra (c_mat c) * (V j * inertia_work d pen X Z c (unit_at j) (unit_at i)) + y_rb (c_mat c) * (V j * stress_power d pen X Z c (strain_of d X (unit_at j) c) (strain_of d X (unit_at i) c)))) by (intros; req; ring).
  rewrite rsum_add, !rsum_scal_l, <- (iw_expand c V), <- (sp_expand c V), <- (sp_expand c U) by exact Hc.
  enough (E : stress_power d pen X Z c (fun j => strain_of d X U c j - e_ref (y_law (c_mat c)) j) (strain_of d X (unit_at i) c) =
     stress_power d pen X Z c (strain_of d X U c) (strain_of d X (unit_at i) c) - stress_power d pen X Z c (e_ref (y_law (c_mat c))) (strain_of d X (unit_at i) c)) by (rewrite E; ring).
  unfold stress_power. rewrite (stiff_ext d _ (fun j => strain_of d X U c j - e_ref (y_law (c_mat c)) j) _ (fun j => strain_of d X U c j + -1 * e_ref (y_law (c_mat c)) j) (strain_of d X (unit_at i) c)) by (intros; ring).
  rewrite stiff_lin_l. ring.
Qed.
Lemma sum_unit n (f : nat -> R) j : (j < n)%nat -> rsum n (fun k => f k * unit_at j k) = f j.
Proof. apply (work_unit n f j). Qed.
Lemma sum_zero n (f : nat -> R) : rsum n (fun k => f k * zero k) = 0.
Proof. apply rsum_0. intros. unfold zero. req. ring. Qed.
Lemma entries i j : (i < nn * d)%nat -> (j < nn * d)%nat ->
  res (unit_at j) zero zero i - res zero zero zero i = stiffness_entry i j /\
  res zero (unit_at j) zero i - res zero zero zero i = damping_entry i j /\
  res zero zero (unit_at j) i - res zero zero zero i = mass_entry i j.
Proof. intros Hi Hj. rewrite !dyn_linear, !sum_zero, !sum_unit by assumption. repeat split; ring. Qed.
Lemma iw_sym c A W : inertia_work d pen X Z c A W = inertia_work d pen X Z c W A.
Proof. unfold inertia_work, rs. f_equal. apply rsum_ext. intros. req. ring. Qed.
Lemma entries_sym : symmetric_laws d cells -> forall i j, mass_entry i j = mass_entry j i /\ damping_entry i j = damping_entry j i /\ stiffness_entry i j = stiffness_entry j i.
Proof.
  intros Hs i j. unfold mass_entry, damping_entry, stiffness_entry, stress_power.
  repeat split; apply sum_over_ext; intros c Hc; rewrite ?(iw_sym c (unit_at j) (unit_at i)), ?(stiff_sym d _ (strain_of d X (unit_at j) c) (strain_of d X (unit_at i) c)) by (apply Hs; exact Hc); reflexivity.
Qed.
End Matrices.

(** A problem whose residual is that of the mesh and whose Jacobians are its derivatives (it is affine in the state). *)
Definition dynamic_problem {D} (d nn : nat) (pen : R -> R) (X : nat -> nat -> R) (Z : nat -> R) (cells : list (cell dynamic)) (p : hproblem R_field D) (z : D) : Prop :=
  let zero : nat -> R := fun _ => 0 in
  let res U V A := elastodynamic d pen X U V A Z cells in
  hq_n p = (nn * d)%nat /\ forall s t,
    (forall i, (i < nn * d)%nat -> hp_value (hq_pde p) s z t i = res (hu s) (hv s) (ha s) i) /\
    (forall i j, (i < nn * d)%nat -> (j < nn * d)%nat ->
       hp_gradient_u (hq_pde p) s z t i j = res (unit_at j) zero zero i - res zero zero zero i /\
       hp_gradient_v (hq_pde p) s z t i j = res zero (unit_at j) zero i - res zero zero zero i /\
       hp_gradient_a (hq_pde p) s z t i j = res zero zero (unit_at j) i - res zero zero zero i).
(** The solver can solve the system of a step. *)
Definition solvable {D} (d nn : nat) (pen : R -> R) (X : nat -> nat -> R) (Z : nat -> R) (cells : list (cell dynamic)) (p : hproblem R_field D) (dofs : list nat) : Prop :=
  let zero : nat -> R := fun _ => 0 in
  let res U V A := elastodynamic d pen X U V A Z cells in
  let dt := hq_dt p in
  solver_ok (nn * d) (hq_solve p) /\
  nonsingular (K := R_field) (nn * d) (bc_matrix (K := R_field) dofs
    (fun i j => (res (unit_at j) zero zero i - res zero zero zero i) + 2 / dt * (res zero (unit_at j) zero i - res zero zero zero i) + 4 / (dt * dt) * (res zero zero (unit_at j) i - res zero zero zero i))).
(** Every computed state is in equilibrium off the supports and takes the prescribed values on them. *)
Theorem C121_motion : forall D d nn pen X Z cells (p : hproblem R_field D) z stored dofs vals, (1 <= d <= 3)%nat -> mesh_ok d nn X cells -> symmetric_laws d cells ->
  dynamic_problem d nn pen X Z cells p z -> solvable d nn pen X Z cells p dofs ->
  hq_gamma p = (1 / 2)%R -> hq_beta p = (1 / 4)%R -> (0 < hq_dt p)%R ->
  (forall t, hq_bcs p t = (dofs, vals)) -> length vals = length dofs -> NoDup dofs -> (forall k, In k dofs -> (k < nn * d)%nat) ->
  forall j, (1 <= j < hq_steps p)%nat -> let s := hsolution p z stored j in
     (forall k w, In (k, w) (combine dofs vals) -> hu s k = w) /\
     (forall i, (i < nn * d)%nat -> ~ In i dofs -> elastodynamic d pen X (hu s) (hv s) (ha s) Z cells i = 0) /\
     newmark (K := R_field) (nn * d) (1 / 2)%R (1 / 4)%R (hq_dt p) (hsolution p z stored (j - 1)%nat) s.
Proof.
  intros D d nn pen X Z cells p z stored dofs vals Hd Hm Hs [Hn Hpde] [Hsolv Hns] Hg Hb Hdt Hbc Hlen Hnd Hdofs j Hj. cbv zeta in *.
  assert (Hb0 : hq_beta p <> (0 : R)) by (rewrite Hb; lra). assert (Hdt0 : hq_dt p <> (0 : R)) by (intros Q; rewrite Q in Hdt; lra).
    destruct (C20_equation_of_motion R_field D p z stored (stiffness_entry d pen X Z cells) (damping_entry d pen X Z cells) (mass_entry d pen X Z cells) (fun _ i => resting_force d pen X Z cells i)) with (k := j) as [V Q].
    - rewrite Hn. intros s t. destruct (Hpde s t) as [HV HJ]. repeat split.
      + intros i Hi. rewrite HV by exact Hi. rewrite (dyn_linear d nn pen X Z cells Hd Hm) by exact Hi. reflexivity.
      + intros i l Hi Hl. rewrite (proj1 (HJ i l Hi Hl)). apply (entries d nn pen X Z cells Hd Hm i l Hi Hl).
      + intros i l Hi Hl. rewrite (proj1 (proj2 (HJ i l Hi Hl))). apply (entries d nn pen X Z cells Hd Hm i l Hi Hl).
      + intros i l Hi Hl. rewrite (proj2 (proj2 (HJ i l Hi Hl))). apply (entries d nn pen X Z cells Hd Hm i l Hi Hl).
    - intros a b _ _. apply (entries_sym d pen X Z cells Hs a b).
    - intros a b _ _. apply (entries_sym d pen X Z cells Hs a b).
    - intros a b _ _. apply (entries_sym d pen X Z cells Hs a b).
    - exact Hb0.
    - exact Hdt0.
    - rewrite Hn. exact Hsolv.
    - intros t. rewrite Hbc, Hn. cbn [fst]. eapply nonsingular_ext; [|exact Hns]. apply bc_matrix_ext. intros a b Ha Hb'.
      destruct (entries d nn pen X Z cells Hd Hm a b Ha Hb') as (-> & -> & ->). rewrite Hg, Hb.
      change ((stiffness_entry d pen X Z cells a b + 2 / hq_dt p * damping_entry d pen X Z cells a b + 4 / (hq_dt p * hq_dt p) * mass_entry d pen X Z cells a b)%R =
              (stiffness_entry d pen X Z cells a b + (1 / 2) / ((1 / 4) * hq_dt p) * damping_entry d pen X Z cells a b + 1 / ((1 / 4) * hq_dt p * hq_dt p) * mass_entry d pen X Z cells a b)%R).
      field. exact Hdt0.
    - intros t. rewrite Hbc, Hn. cbn [fst snd]. auto.
    - exact Hj.
    - rewrite Hbc in V, Q. cbn [fst snd] in V, Q. rewrite Hn in Q. split; [exact V|]. split.
      2: { rewrite <- Hn, <- Hg, <- Hb. apply (C20_newmark R_field D p z stored Hb0 Hdt0); [|lia]. change ((1 + 1)%R <> 0). lra. }
      intros i Hi Hni. rewrite (dyn_linear d nn pen X Z cells Hd Hm) by exact Hi.
      specialize (Q i Hi Hni).
      change ((rsum (nn * d) (fun j0 => mass_entry d pen X Z cells i j0 * ha (hsolution p z stored j) j0) + rsum (nn * d) (fun j0 => damping_entry d pen X Z cells i j0 * hv (hsolution p z stored j) j0)
         + rsum (nn * d) (fun j0 => stiffness_entry d pen X Z cells i j0 * hu (hsolution p z stored j) j0) = resting_force d pen X Z cells i)%R) in Q.
      rewrite Q. lra.
Qed.
Print Assumptions C121_motion.
(** Average acceleration, supports held at constant values, no load: from the first computed state on, the energy of a damped body never grows, whatever the mesh,
    the design, the initial state and the step size; that of an undamped body is constant. *)
Theorem C121_run : forall D d nn pen X Z cells (p : hproblem R_field D) z stored dofs vals, (1 <= d <= 3)%nat -> mesh_ok d nn X cells -> symmetric_laws d cells ->
  dynamic_problem d nn pen X Z cells p z -> solvable d nn pen X Z cells p dofs ->
  hq_gamma p = (1 / 2)%R -> hq_beta p = (1 / 4)%R -> (0 < hq_dt p)%R ->
  (forall t, hq_bcs p t = (dofs, vals)) -> length vals = length dofs -> NoDup dofs -> (forall k, In k dofs -> (k < nn * d)%nat) ->
  let E k := total_energy d pen X Z cells (hu (hsolution p z stored k)) (hv (hsolution p z stored k)) in
  forall k, (2 <= k < hq_steps p)%nat ->
  (passive d pen cells -> E k <= E (k - 1)%nat) /\
  ((forall c, In c cells -> y_ra (c_mat c) = 0 /\ y_rb (c_mat c) = 0) -> E k = E (k - 1)%nat).
Proof.
  intros D d nn pen X Z cells p z stored dofs vals Hd Hm Hs Hp Hsv Hg Hb Hdt Hbc Hlen Hnd Hdofs E k Hk.
  pose proof (C121_motion D d nn pen X Z cells p z stored dofs vals Hd Hm Hs Hp Hsv Hg Hb Hdt Hbc Hlen Hnd Hdofs) as EOM. cbv zeta in EOM.
  destruct (EOM k ltac:(lia)) as (V1 & Q1 & HN). destruct (EOM (k - 1)%nat ltac:(lia)) as (V0 & Q0 & _).
  apply (C121_stable d nn pen X Z cells (hq_dt p) _ _ Hd Hm Hs Hdt HN).
  intros i Hi Hne.
  assert (Hni : ~ In i dofs).
  { intros Hin. apply Hne. destruct (In_nth dofs i 0%nat Hin) as (m & Hm' & Em).
    assert (P : In (i, nth m vals 0) (combine dofs vals)).
    { rewrite <- Em. rewrite <- (combine_nth dofs vals m 0%nat 0) by (symmetry; exact Hlen). apply nth_In. rewrite combine_length. lia. }
    rewrite (V1 _ _ P), (V0 _ _ P). reflexivity. }
  split; [apply Q0|apply Q1]; assumption.
Qed.
Print Assumptions C121_run.
