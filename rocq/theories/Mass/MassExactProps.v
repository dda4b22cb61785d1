(** C118: comparison with the integrals. *)
From Coq Require Import String Reals List Arith Lia Lra.
From Coquelicot Require Import Coquelicot.
From Verif Require Import Base.Field Base.Sums Base.Res Element.ElementModel Element.ElementSpec Element.ElementProof Penalty.PenaltyModel
  Residual.ResidualModel Residual.ResidualSpec Residual.ResidualProof Mass.MassModel Mass.MassSpec Mass.MassProof Mass.MassMomentProps.
Import ListNotations.
Local Open Scope R_scope.

(** One bar from a to b of density rho and uniform control z: mass and first moment are the integrals of rho z and rho z x; the second
    moment is the integral of rho z x^2 less rho z (b - a)^3 / 12. *)
Theorem C118_bar :
  forall (X : nat -> nat -> R) (Z : nat -> R) (c : cell R) (a b z : R),
    X (c_node c 0%nat) 0%nat = a -> X (c_node c 1%nat) 0%nat = b -> a < b -> Z (c_node c 0%nat) = z -> Z (c_node c 1%nat) = z ->
    exists m f s, measured 1 X Z [c] m f s /\
      is_RInt (fun _ => c_mat c * z) a b m /\ is_RInt (fun x => c_mat c * z * x) a b (f 0%nat) /\
      is_RInt (fun x => c_mat c * z * x ^ 2) a b (s 0%nat 0%nat + c_mat c * z * (b - a) ^ 3 / 12).
Proof.
  intros X Z c a b z Ha Hb Hab Hz0 Hz1. eexists _, _, _. split; [apply measured_body; lia|].
  assert (P : forall n p, (0 < n)%nat -> is_RInt (fun x => p * x ^ pred n) a b (p * (b ^ n / INR n) - p * (a ^ n / INR n))).
  { intros n p Hn. apply (is_RInt_derive (fun x => p * (x ^ n / INR n))).
    - intros x _. auto_derive; [trivial|]. destruct n; [lia|]. cbn [pred]. field. apply not_0_INR. lia.
    - intros x _. apply (ex_derive_continuous (fun x => p * x ^ pred n)). auto_derive. trivial. }
  assert (E : forall l, is_RInt (fun x => c_mat c * z * x ^ 0) a b l -> is_RInt (fun _ => c_mat c * z) a b l).
  { intros l. apply is_RInt_ext. intros x _. cbn. ring. }
  assert (F : forall l, is_RInt (fun x => c_mat c * z * x ^ 1) a b l -> is_RInt (fun x => c_mat c * z * x) a b l).
  { intros l. apply is_RInt_ext. intros x _. cbn. ring. }
  unfold mass_of, first_of, second_of, design_body, mean, middle, simplex_measure, rs. cbn [map sum_over fst snd]. rsums. rewrite Ha, Hb, Hz0, Hz1.
  rewrite (Rabs_pos_eq (b - a)) by lra. split; [|split].
  - apply E. match goal with |- is_RInt _ _ _ ?l => replace l with (c_mat c * z * (b ^ 1 / INR 1) - c_mat c * z * (a ^ 1 / INR 1)); [apply (P 1%nat); lia|] end. cbn [INR]. field.
  - apply F. match goal with |- is_RInt _ _ _ ?l => replace l with (c_mat c * z * (b ^ 2 / INR 2) - c_mat c * z * (a ^ 2 / INR 2)); [apply (P 2%nat); lia|] end. cbn [INR]. field.
  - match goal with |- is_RInt _ _ _ ?l => replace l with (c_mat c * z * (b ^ 3 / INR 3) - c_mat c * z * (a ^ 3 / INR 3)); [apply (P 3%nat); lia|] end. cbn [INR]. field.
Qed.
Print Assumptions C118_bar.
(** So a finer mesh of the same bar gives another second moment. *)
Theorem C118_refinement_refuted :
  ~ (forall X X' Z (cells cells' : list (cell R)) m f s m' f' s',
       measured 1 X Z cells m f s -> measured 1 X' Z cells' m' f' s' ->
       (* both meshes are the bar from 0 to 1, density 1, control 1 *)
       (forall n, Z n = 1) -> (forall c, In c (cells ++ cells') -> c_mat c = 1) ->
       (forall x, 0 < x < 1 -> exists c, In c cells /\ X (c_node c 0%nat) 0%nat <= x <= X (c_node c 1%nat) 0%nat) ->
       (forall x, 0 < x < 1 -> exists c, In c cells' /\ X' (c_node c 0%nat) 0%nat <= x <= X' (c_node c 1%nat) 0%nat) ->
       m = 1 -> m' = 1 -> s 0%nat 0%nat = s' 0%nat 0%nat).
Proof.
  intros H.
  specialize (H (fun n _ => INR n) (fun n _ => INR n / 2) (fun _ => 1) [mkCell (fun a => a) 1] [mkCell (fun a => a) 1; mkCell (fun a => S a) 1] _ _ _ _ _ _
    (measured_body 1 _ _ _ ltac:(lia)) (measured_body 1 _ _ _ ltac:(lia)) (fun _ => eq_refl)).
  assert (V1 : forall u v, u <= v -> Rabs (v - u) = v - u) by (intros; apply Rabs_pos_eq; lra).
  revert H. unfold mass_of, second_of, design_body, mean, middle, simplex_measure, rs. cbn [map sum_over fst snd c_node c_mat]. rsums. cbn [INR].
  rewrite !V1 by lra. intros H. enough (A : (1:R) * ((0 + 1 + 1) / (1 + 1)) * (1 - 0) * ((0 + 0 + 1) / (1 + 1) * ((0 + 0 + 1) / (1 + 1))) + 0 =
    1 * ((0 + 1 + 1) / (1 + 1)) * (1 / 2 - 0 / 2) * ((0 + 0 / 2 + 1 / 2) / (1 + 1) * ((0 + 0 / 2 + 1 / 2) / (1 + 1))) +
    (1 * ((0 + 1 + 1) / (1 + 1)) * ((1 + 1) / 2 - 1 / 2) * ((0 + 1 / 2 + (1 + 1) / 2) / (1 + 1) * ((0 + 1 / 2 + (1 + 1) / 2) / (1 + 1))) + 0)) by lra.
  apply H.
  - intros c Hc. cbn in Hc. destruct Hc as [Hc|[Hc|[Hc|[]]]]; rewrite <- Hc; reflexivity.
  - intros x Hx. eexists. split; [left; reflexivity|]. cbn. lra.
  - intros x Hx. destruct (Rle_dec x (1 / 2)); [exists (mkCell (fun a => a) 1); split; [left; reflexivity|cbn; lra]|exists (mkCell (fun a => S a) 1); split; [right; left; reflexivity|cbn; lra]].
  - field.
  - field.
Qed.
Print Assumptions C118_refinement_refuted.
