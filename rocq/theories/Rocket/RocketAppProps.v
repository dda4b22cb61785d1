(** C141: the rocket application. *)
From Coq Require Import Reals String List Arith Lia Lra.
From Verif Require Import Base.Res Base.ListUpd Rocket.RocketAppModel.
Import ListNotations.
Local Open Scope R_scope.
Local Open Scope string_scope.

(** Specification.  Sum of squares, and half the mean squared distance of two profiles relative to a norm. *)
Definition squares (l : list R) : R := fold_right Rplus 0 (map (fun x => x * x) l).
Definition distance (l l' : list R) : R := fold_right Rplus 0 (map (fun p => (fst p - snd p) * (fst p - snd p)) (combine l l')).
Definition relative_misfit (trial target : list R) (norm : R) : R := distance trial target / (2 * INR (List.length target) * norm).
(** The chamber two design variables [c] describe, with normalisation [n]. *)
Definition chamber (c0 c1 n0 n1 : R) : params := mkParams [15 / 100; 65 / 100; c0 * n0] [c1 * n1; 0].
(** Two data maps that differ at most in one entry. *)
Definition same_but (name : string) (m m' : data) : Prop := forall k, k <> name -> find m' k = find m k.
(** The data an application works with. *)
Record working (m : data) (c0 c1 n0 n1 norm : R) (target : list R) : Prop := {
  w_design : find m "DesignVars" = Some [c0; c1];
  w_norm : find m "Normalization" = Some [n0; n1];
  w_target : find m "TargetThrustProfile" = Some target;
  w_tnorm : find m "NormThrustProfile" = Some [norm];
  w_value : exists v, find m "ObjFuncVal" = Some [v];
  w_grad : exists g0 g1, find m "ObjFuncGrad" = Some [g0; g1] }.

Lemma find_store m k v k' : find (store m k v) k' = if String.eqb k k' then Some v else find m k'.
Proof.
  induction m as [|[a w] m IH]; cbn.
  - destruct (String.eqb k k'); reflexivity.
  - destruct (String.eqb_spec a k) as [->|h]; cbn.
    + destruct (String.eqb k k'); reflexivity.
    + destruct (String.eqb_spec a k') as [->|h']; [|exact IH]. destruct (String.eqb_spec k k') as [->|]; [contradiction|reflexivity].
Qed.
Lemma store_same m k v : same_but k m (store m k v).
Proof. intros k' H. rewrite find_store. destruct (String.eqb_spec k k') as [->|]; [contradiction|reflexivity]. Qed.
Lemma misfit_distance : forall target trial, (List.length target <= List.length trial)%nat -> misfit trial target = Ok (distance trial target).
Proof.
  induction target as [|t target IH]; intros [|x trial] H; cbn in H |- *; try lia; try reflexivity.
  rewrite IH by lia. cbn. unfold distance. reflexivity.
Qed.
Lemma inner_squares l : inner_product l l = squares l.
Proof.
  unfold inner_product, squares.
  assert (H : forall l a, fold_left Rplus l a = a + fold_right Rplus 0 l).
  { clear. induction l as [|x l IH]; intros a; cbn; [lra|]. rewrite IH. lra. }
  rewrite H, Rplus_0_l. f_equal. induction l as [|x l IH]; [reflexivity|]. cbn. rewrite IH. reflexivity.
Qed.
Lemma squares_pos l : 0 <= squares l.
Proof. induction l as [|x l IH]; cbn; [lra|]. fold (squares l). pose proof (Rle_0_sqr x) as H. unfold Rsqr in H. lra. Qed.
Lemma distance_pos l l' : 0 <= distance l l'.
Proof.
  unfold distance. induction (combine l l') as [|[x y] c IH]; cbn; [lra|]. pose proof (Rle_0_sqr (x - y)) as H. unfold Rsqr in H. cbn in IH. lra.
Qed.
Lemma distance_zero : forall l l', List.length l = List.length l' -> distance l l' = 0 <-> l = l'.
Proof.
  induction l as [|x l IH]; intros [|y l'] H; cbn in H; try discriminate; [split; reflexivity|].
  unfold distance. cbn. fold (distance l l'). pose proof (distance_pos l l') as P. pose proof (Rle_0_sqr (x - y)) as Q. unfold Rsqr in Q. split.
  - intros E. assert (E0 : (x - y) * (x - y) = 0) by lra. assert (E1 : distance l l' = 0) by lra.
    apply Rmult_integral in E0. f_equal; [lra|]. apply IH; [lia|exact E1].
  - intros E. injection E as -> ->. rewrite (proj2 (IH l' ltac:(lia)) eq_refl). lra.
Qed.

Lemma objective_value tp m c0 c1 n0 n1 norm target d0 d1 : working m c0 c1 n0 n1 norm target ->
  List.length target = List.length (tp (chamber d0 d1 n0 n1)) ->
  objective tp m [d0; d1] target = Ok (relative_misfit (tp (chamber d0 d1 n0 n1)) target norm).
Proof.
  intros W H. unfold objective, problem_of, entry. rewrite (w_norm _ _ _ _ _ _ _ W). cbn [ub rbind at_ nth_error].
  change (constant_burn_rate max_radius len (d0 * n0) (d1 * n1)) with (chamber d0 d1 n0 n1).
  rewrite misfit_distance by lia. cbn [rbind]. rewrite (w_tnorm _ _ _ _ _ _ _ W). cbn [ub rbind at_ nth_error].
  f_equal. unfold relative_misfit, Rdiv. ring.
Qed.

(** First part.  At the start the application holds the target, its norm, and zero design variables; the variables may then be imported. *)
Theorem C141_start : forall profile, profile <> [] ->
  exists m, define_data profile = Ok m /\ working m 0 0 (1 / 10) (1 / 100) (squares profile) profile /\
    (exists x, find m "MaxThrust" = Some [x] /\ In x profile /\ forall y, In y profile -> y <= x) /\
    forall c0 c1, exists m', import "DesignVars" [c0; c1] m = Ok m' /\ same_but "DesignVars" m m' /\
      working m' c0 c1 (1 / 10) (1 / 100) (squares profile) profile.
Proof.
  intros [|x profile] Hp; [contradiction|]. unfold define_data, set_target, max_element. cbn [rbind].
  match goal with |- exists m, Ok ?M = _ /\ _ => exists M end. split; [reflexivity|]. rewrite <- inner_squares. split; [|split].
  - split; try reflexivity; [exists 0; reflexivity|exists 0, 0; reflexivity].
  - exists (fold_left Rmax profile x). split; [reflexivity|].
    assert (H : forall l a, In (fold_left Rmax l a) (a :: l) /\ forall y, In y (a :: l) -> y <= fold_left Rmax l a).
    { clear. induction l as [|b l IH]; intros a; cbn [fold_left].
      - split; [left; reflexivity|]. intros y [<- |[]]. lra.
      - destruct (IH (Rmax a b)) as [H1 H2]. split.
        + destruct H1 as [H1|H1]; [|right; right; exact H1]. rewrite <- H1. unfold Rmax. destruct (Rle_dec a b); [right; left; reflexivity|left; reflexivity].
        + intros y [<- |[<- |Hy]].
          * apply Rle_trans with (Rmax a b); [apply Rmax_l|apply H2; left; reflexivity].
          * apply Rle_trans with (Rmax a b); [apply Rmax_r|apply H2; left; reflexivity].
          * apply H2. right. exact Hy. }
    exact (H profile x).
  - intros c0 c1. eexists. split; [reflexivity|]. split; [apply store_same|].
    split; try reflexivity; [exists 0; reflexivity|exists 0, 0; reflexivity].
Qed.
Print Assumptions C141_start.

(** Second part.  On request, the objective is the relative misfit of the chamber's thrust, and nothing else changes. *)
Theorem C141_value : forall tp m c0 c1 n0 n1 norm target, working m c0 c1 n0 n1 norm target ->
  List.length target = List.length (tp (chamber c0 c1 n0 n1)) ->
  exists m', compute tp "ObjFuncEval" m = Ok m' /\ same_but "ObjFuncVal" m m' /\
    export "ObjFuncVal" m' = Ok [relative_misfit (tp (chamber c0 c1 n0 n1)) target norm].
Proof.
  intros tp m c0 c1 n0 n1 norm target W H. unfold compute. cbn [String.eqb Ascii.eqb Bool.eqb]. unfold eval_value, entry.
  rewrite (w_design _ _ _ _ _ _ _ W), (w_target _ _ _ _ _ _ _ W). destruct (w_value _ _ _ _ _ _ _ W) as [v ->]. cbn [ub rbind].
  rewrite (objective_value tp m c0 c1 n0 n1 norm target c0 c1 W H). cbn [ub rbind upd].
  eexists. split; [reflexivity|]. split; [apply store_same|]. unfold export, entry. rewrite find_store. reflexivity.
Qed.
Print Assumptions C141_value.
Theorem C141_misfit : forall trial target, List.length trial = List.length target -> 0 < squares target ->
  0 <= relative_misfit trial target (squares target) /\ (relative_misfit trial target (squares target) = 0 <-> trial = target).
Proof.
  intros trial target Hl Hs. assert (Hn : 0 < INR (List.length target)).
  { destruct target; [cbn in Hs; lra|]. apply lt_0_INR. cbn. lia. }
  assert (Hd : 0 < 2 * INR (List.length target) * squares target) by (apply Rmult_lt_0_compat; [lra|exact Hs]).
  unfold relative_misfit. split.
  - apply Rmult_le_pos; [apply distance_pos|]. left. apply Rinv_0_lt_compat. exact Hd.
  - rewrite <- (distance_zero trial target Hl). split; intros E.
    + apply Rmult_integral in E. destruct E as [E|E]; [exact E|]. exfalso. revert E. apply Rinv_neq_0_compat. lra.
    + rewrite E. unfold Rdiv. ring.
Qed.
Print Assumptions C141_misfit.

(** Third part.  The stored gradient is, for each design variable, a central difference: the variable times the derivative at a point within a ten-thousandth
    of it.  The derivative itself is not what is stored. *)
Section Gradient.
Variables (tp : params -> list R) (m : data) (c0 c1 n0 n1 norm : R) (target : list R).
Hypothesis W : working m c0 c1 n0 n1 norm target.
Hypothesis Hlen : forall d0 d1, List.length target = List.length (tp (chamber d0 d1 n0 n1)).
Definition J (d0 d1 : R) : R := relative_misfit (tp (chamber d0 d1 n0 n1)) target norm.
Lemma gradient_stored : exists m', compute tp "ObjFuncGrad" m = Ok m' /\ same_but "ObjFuncGrad" m m' /\
  export "ObjFuncGrad" m' = Ok [(J (c0 + c0 * eps) c1 - J (c0 - c0 * eps) c1) / (2 * eps); (J c0 (c1 + c1 * eps) - J c0 (c1 - c1 * eps)) / (2 * eps)].
Proof.
  unfold compute. cbn [String.eqb Ascii.eqb Bool.eqb]. unfold eval_gradient, entry.
  rewrite (w_design _ _ _ _ _ _ _ W), (w_target _ _ _ _ _ _ _ W). destruct (w_grad _ _ _ _ _ _ _ W) as (g0 & g1 & ->). cbn [ub rbind].
  unfold gradient. cbn [List.length seq foldR gradient_step at_ nth_error ub rbind upd].
  rewrite !(fun d0 d1 => objective_value tp m c0 c1 n0 n1 norm target d0 d1 W (Hlen d0 d1)). cbn [ub rbind upd snd].
  cbn [gradient_step at_ nth_error ub rbind upd].
  rewrite !(fun d0 d1 => objective_value tp m c0 c1 n0 n1 norm target d0 d1 W (Hlen d0 d1)). cbn [ub rbind upd snd].
  eexists. split; [reflexivity|]. split; [apply store_same|]. unfold export, entry. rewrite find_store. reflexivity.
Qed.
End Gradient.
Lemma central f f' c : (forall x, derivable_pt_lim f x (f' x)) ->
  exists x, Rabs (x - c) <= eps * Rabs c /\ (f (c + c * eps) - f (c - c * eps)) / (2 * eps) = c * f' x.
Proof.
  intros D. destruct (Rtotal_order c 0) as [H|[H|H]].
  - assert (Hlt : c + c * eps < c - c * eps) by (unfold eps; lra).
    destruct (MVT_cor2 f f' _ _ Hlt (fun x _ => D x)) as (x & E & Hx). exists x. split.
    + rewrite (Rabs_left c H). unfold eps in *. apply Rabs_le. lra.
    + replace (f (c + c * eps) - f (c - c * eps)) with (- (f (c - c * eps) - f (c + c * eps))) by ring. rewrite E. unfold eps. field.
  - subst c. exists 0. split; [rewrite Rminus_0_r, Rabs_R0; lra|]. rewrite !Rmult_0_l, Rplus_0_r, Rminus_0_r. unfold eps. field.
  - assert (Hlt : c - c * eps < c + c * eps) by (unfold eps; lra).
    destruct (MVT_cor2 f f' _ _ Hlt (fun x _ => D x)) as (x & E & Hx). exists x. split.
    + rewrite (Rabs_pos_eq c) by lra. unfold eps in *. apply Rabs_le. lra.
    + rewrite E. unfold eps. field.
Qed.
Theorem C141_gradient_partial : forall tp m c0 c1 n0 n1 norm target, working m c0 c1 n0 n1 norm target ->
  (forall d0 d1, List.length target = List.length (tp (chamber d0 d1 n0 n1))) ->
  let J d0 d1 := relative_misfit (tp (chamber d0 d1 n0 n1)) target norm in
  forall J0 J1, (forall d, derivable_pt_lim (fun d => J d c1) d (J0 d)) -> (forall d, derivable_pt_lim (fun d => J c0 d) d (J1 d)) ->
  exists m' x0 x1, compute tp "ObjFuncGrad" m = Ok m' /\ same_but "ObjFuncGrad" m m' /\
    Rabs (x0 - c0) <= 1 / 10000 * Rabs c0 /\ Rabs (x1 - c1) <= 1 / 10000 * Rabs c1 /\
    export "ObjFuncGrad" m' = Ok [c0 * J0 x0; c1 * J1 x1].
Proof.
  intros tp m c0 c1 n0 n1 norm target W Hl F J0 J1 D0 D1.
  destruct (gradient_stored tp m c0 c1 n0 n1 norm target W Hl) as (m' & E & S & X).
  destruct (central (fun d => F d c1) J0 c0 D0) as (x0 & A0 & E0). destruct (central (fun d => F c0 d) J1 c1 D1) as (x1 & A1 & E1).
  exists m', x0, x1. split; [exact E|]. split; [exact S|]. split; [exact A0|]. split; [exact A1|]. rewrite X. unfold J. rewrite <- E0, <- E1. reflexivity.
Qed.
Print Assumptions C141_gradient_partial.
(** Refuted.  A variable at zero has a stored derivative of zero, whatever the objective; and the thrust may well depend on it. *)
Definition linear_thrust (p : params) : list R := [nth 2 (p_geometry p) 0 + nth 0 (p_burn_rate p) 0].
Theorem C141_gradient_refuted :
  (forall tp m c1 n0 n1 norm target, working m 0 c1 n0 n1 norm target ->
     (forall d0 d1, List.length target = List.length (tp (chamber d0 d1 n0 n1))) ->
     exists m' g1, compute tp "ObjFuncGrad" m = Ok m' /\ export "ObjFuncGrad" m' = Ok [0; g1]) /\
  exists m, working m 0 0 (1 / 10) (1 / 100) 1 [1] /\
    (forall d0 d1, List.length [1] = List.length (linear_thrust (chamber d0 d1 (1 / 10) (1 / 100)))) /\
    derivable_pt_lim (fun d => relative_misfit (linear_thrust (chamber d 0 (1 / 10) (1 / 100))) [1] 1) 0 (- (1 / 10)).
Proof.
  split.
  - intros tp m c1 n0 n1 norm target W Hl. destruct (gradient_stored tp m 0 c1 n0 n1 norm target W Hl) as (m' & E & S & X).
    exists m'. eexists. split; [exact E|]. rewrite X. rewrite !Rmult_0_l, Rplus_0_r, Rminus_0_r. do 2 f_equal. unfold eps. field.
  - destruct (C141_start [1] ltac:(discriminate)) as (m & _ & W & _ & _). exists m. split.
    { replace 1 with (squares [1]) at 3 by (cbn; lra). exact W. }
    split; [reflexivity|].
    assert (E : forall d, relative_misfit (linear_thrust (chamber d 0 (1 / 10) (1 / 100))) [1] 1 = (d * (1 / 10) - 1) * (d * (1 / 10) - 1) / 2).
    { intros d. unfold relative_misfit, distance, linear_thrust, chamber. cbn [p_geometry p_burn_rate nth combine map fst snd fold_right List.length INR]. field. }
    intros e He.
    exists (mkposreal e He). intros h Hh Hhe. rewrite !E. cbn [pos] in Hhe.
    replace (_ - _) with (h / 200) by (field; exact Hh).
    unfold Rdiv. rewrite Rabs_mult, (Rabs_pos_eq (/ 200)) by lra. pose proof (Rabs_pos h). lra.
Qed.
Print Assumptions C141_gradient_refuted.

(** Fourth part, refuted: the operations the application defines do nothing, without an error; only two other names are acted upon. *)
Theorem C141_operations_refuted : forall tp m op, In op defined_operations -> compute tp op m = Ok m.
Proof. intros tp m op [<- |[<- |[]]]; reflexivity. Qed.
Print Assumptions C141_operations_refuted.
Theorem C141_other_operations : forall tp m op, op <> "ObjFuncEval" -> op <> "ObjFuncGrad" -> compute tp op m = Ok m.
Proof.
  intros tp m op H1 H2. unfold compute. destruct (String.eqb_spec op "ObjFuncEval"); [contradiction|]. destruct (String.eqb_spec op "ObjFuncGrad"); [contradiction|reflexivity].
Qed.
Print Assumptions C141_other_operations.

(** Fifth part.  What is imported under a known name is what is exported under it, and nothing else changes; an unknown name is undefined behaviour in both
    directions. *)
Theorem C141_data : forall m name v, 
  (find m name <> None -> exists m', import name v m = Ok m' /\ export name m' = Ok v /\ same_but name m m') /\
  (find m name = None -> import name v m = UB /\ export name m = UB).
Proof.
  intros m name v. unfold import, export, entry. destruct (find m name) as [w|] eqn:E.
  - split; [|discriminate]. intros _. eexists. split; [reflexivity|]. split; [|apply store_same]. rewrite find_store, String.eqb_refl. reflexivity.
  - split; [contradiction|]. intros _. split; reflexivity.
Qed.
Print Assumptions C141_data.
(** Refuted: a target that is imported does not come with its norm; the objective stays relative to the norm of the target before. *)
Theorem C141_target_refuted : forall tp profile target, profile <> [] ->
  List.length target = List.length (tp (chamber 0 0 (1 / 10) (1 / 100))) ->
  exists m m' m'', define_data profile = Ok m /\ import "TargetThrustProfile" target m = Ok m' /\ compute tp "ObjFuncEval" m' = Ok m'' /\
    export "ObjFuncVal" m'' = Ok [relative_misfit (tp (chamber 0 0 (1 / 10) (1 / 100))) target (squares profile)].
Proof.
  intros tp profile target Hp Hl. destruct (C141_start profile Hp) as (m & E & W & _ & _).
  assert (F : find m "TargetThrustProfile" <> None) by (rewrite (w_target _ _ _ _ _ _ _ W); discriminate).
  destruct (proj1 (C141_data m "TargetThrustProfile" target) F) as (m' & I & X & S).
  assert (W' : working m' 0 0 (1 / 10) (1 / 100) (squares profile) target).
  { destruct W as [a b c d e f]. split; try (rewrite S by discriminate; assumption). unfold export, entry in X. destruct (find m' "TargetThrustProfile"); [|discriminate].
    cbn in X. congruence. }
  destruct (C141_value tp m' _ _ _ _ _ _ W' Hl) as (m'' & C & _ & V). exists m, m', m''. auto.
Qed.
Print Assumptions C141_target_refuted.
(** The solution file shows the radius and burn rate of the chamber the design variables describe. *)
Theorem C141_solution : forall m c0 c1 n0 n1 norm target, working m c0 c1 n0 n1 norm target ->
  exists r b, print_solution m = Ok (r, b) /\ nth_error (p_geometry (chamber c0 c1 n0 n1)) 2 = Some r /\ nth_error (p_burn_rate (chamber c0 c1 n0 n1)) 0 = Some b.
Proof.
  intros m c0 c1 n0 n1 norm target W. unfold print_solution, entry. rewrite (w_design _ _ _ _ _ _ _ W), (w_norm _ _ _ _ _ _ _ W). cbn [ub rbind at_ nth_error].
  eexists. eexists. split; [reflexivity|]. split; reflexivity.
Qed.
Print Assumptions C141_solution.
(** The conditions are met: two thrusts, one of which depends on the radius. *)
Example C141_reachable : exists m, define_data [0; 3] = Ok m /\ working m 0 0 (1 / 10) (1 / 100) 9 [0; 3] /\
  (forall d0 d1, List.length [0; 3] = List.length ((fun p => [0; nth 2 (p_geometry p) 0]) (chamber d0 d1 (1 / 10) (1 / 100)))).
Proof.
  destruct (C141_start [0; 3] ltac:(discriminate)) as (m & E & W & _). exists m. split; [exact E|]. split; [|reflexivity].
  replace 9 with (squares [0; 3]) by (cbn; lra). exact W.
Qed.
