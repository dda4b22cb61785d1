(** Lemmas on supports and connectedness. *)
From Coq Require Import Reals List Arith Bool Lia Lra.
From Verif Require Import Base.Field Base.Sums Base.Res Element.ElementModel Element.ElementSpec Element.ElementProof Element.ElementProps
  Penalty.PenaltyModel Residual.ResidualModel Residual.ResidualSpec Residual.ResidualProof Residual.ResidualProps Residual.ResidualEnergyProps
  Residual.FrameSpec Residual.FrameProof Residual.SupportSpec.
Import ListNotations.
Local Open Scope R_scope.

Lemma sum_over_zero {A} (l : list A) f : (forall x, In x l -> 0 <= f x) -> sum_over l f = 0 -> forall x, In x l -> f x = 0.
Proof.
  induction l as [|y l IH]; intros Hp Hs x Hx; [contradiction|]. cbn in Hs.
  pose proof (Hp y (or_introl eq_refl)). pose proof (sum_over_nonneg l f (fun z Hz => Hp z (or_intror Hz))).
  destruct Hx as [<-|Hx]; [lra|]. apply IH; [intros z Hz; apply Hp; right; exact Hz|lra|exact Hx].
Qed.
Lemma work_sub n F G W : work n (fun k => F k - G k) W = work n F W - work n G W.
Proof. unfold work, rs. rewrite <- rsum_sub. apply rsum_ext. intros. req. ring. Qed.
Lemma conditions_work n held U U' F F' : same_conditions n held U U' F F' -> work n (fun k => F k - F' k) (fun k => U k - U' k) = 0.
Proof.
  intros H. unfold work, rs. apply rsum_0. intros k Hk. specialize (H k Hk). destruct (held k); rewrite H; req; ring.
Qed.
Lemma positive_zero n C e : positive_form n C -> rs n (fun i => e i * rs n (fun j => C i j * e j)) = 0 -> forall i, (i < n)%nat -> e i = 0.
Proof.
  intros HC H i Hi. destruct (Req_dec (e i) 0) as [|N]; [assumption|]. exfalso. specialize (HC e (ex_intro _ i (conj Hi N))). lra.
Qed.
Lemma positive_nonneg n C e : positive_form n C -> 0 <= rs n (fun i => e i * rs n (fun j => C i j * e j)).
Proof.
  intros HC. assert (D : (exists i, (i < n)%nat /\ e i <> 0) \/ forall i, (i < n)%nat -> e i = 0).
  { clear. induction n as [|n [(i & Hi & N)|IH]]; [right; intros; lia|left; exists i; split; [lia|exact N]|].
    destruct (Req_dec (e n) 0) as [E|N]; [right|left; exists n; split; [lia|exact N]]. intros i Hi. destruct (Nat.eq_dec i n) as [->|]; [exact E|apply IH; lia]. }
  destruct D as [D|D]; [left; apply HC; exact D|right]. symmetry. unfold rs. apply rsum_0. intros i Hi. rewrite D by exact Hi. req. ring.
Qed.

(** ** One cell *)
(** The nodal values of a cell from its gradient. *)
Lemma nodal_difference d ndof off u x a : (1 <= d <= 3)%nat -> cell_det d x <> 0 -> (a <= d)%nat ->
  u (a * ndof + off)%nat - u (d * ndof + off)%nat = rsum d (fun l => scalar_gradient d ndof off u (cell_gradient d x) l * (x a l - x d l)).
Proof.
  intros Hd Hn Ha. unfold scalar_gradient.
  rewrite (rsum_ext d _ (fun l => rsum (S d) (fun b => u (b * ndof + off)%nat * (cell_gradient d x b l * (x a l - x d l))))).
  2: { intros l _. rewrite rsum_scal_r. apply rsum_ext. intros. req. ring. }
  rewrite rsum_swap. rewrite (rsum_ext (S d) _ (fun b => u (b * ndof + off)%nat * delta b a - u (b * ndof + off)%nat * delta b d)).
  2: { intros b Hb. rewrite rsum_scal_l, gradient_dual by (assumption || lia). req. ring. }
  rewrite rsum_sub. rewrite (rsum_delta_r (S d) a (fun b => u (b * ndof + off)%nat)) by lia. rewrite (rsum_delta_r (S d) d (fun b => u (b * ndof + off)%nat)) by lia. reflexivity.
Qed.
Lemma flat_gradient d ndof off u x : (1 <= d <= 3)%nat -> cell_det d x <> 0 -> (forall l, (l < d)%nat -> scalar_gradient d ndof off u (cell_gradient d x) l = 0) ->
  forall a b, (a <= d)%nat -> (b <= d)%nat -> u (a * ndof + off)%nat = u (b * ndof + off)%nat.
Proof.
  intros Hd Hn G. assert (E : forall a, (a <= d)%nat -> u (a * ndof + off)%nat = u (d * ndof + off)%nat).
  { intros a Ha. pose proof (nodal_difference d ndof off u x a Hd Hn Ha) as D. rewrite rsum_0 in D; [lra|]. intros l Hl. rewrite G by exact Hl. req. ring. }
  intros a b Ha Hb. rewrite (E a Ha), (E b Hb). reflexivity.
Qed.
(** The displacement gradient of a cell without strain is antisymmetric. *)
Lemma strain_free d ndof u x : (1 <= d <= 3)%nat -> (d <= ndof)%nat ->
  (forall v, (v < num_voigt d)%nat -> strain d ndof (fun _ => 0) u (cell_gradient d x) v = 0) ->
  antisymmetric d (fun i j => scalar_gradient d ndof i u (cell_gradient d x) j).
Proof.
  intros Hd Hn H i j Hi Hj. unfold scalar_gradient.
  assert (P1 : voigt_pairs 1 = [(0, 0)]%nat) by reflexivity.
  assert (P2 : voigt_pairs 2 = [(0, 0); (1, 1); (0, 1)]%nat) by reflexivity.
  assert (P3 : voigt_pairs 3 = [(0, 0); (1, 1); (2, 2); (1, 2); (0, 2); (0, 1)]%nat) by reflexivity.
  dims d; cbn [num_voigt] in H; unfold strain in H; rewrite ?P1, ?P2, ?P3 in H; clear P1 P2 P3.
  - pose proof (H 0%nat ltac:(lia)) as H0. cbn [nth_error Nat.eqb] in H0.
    assert (i = 0%nat) by lia. assert (j = 0%nat) by lia. subst. rewrite H0. ring.
  - pose proof (H 0%nat ltac:(lia)) as H0. pose proof (H 1%nat ltac:(lia)) as H1. pose proof (H 2%nat ltac:(lia)) as H2.
    cbn [nth_error Nat.eqb] in H0, H1, H2. rewrite Rplus_0_l, rsum_add in H2.
    destruct i as [|[|i]]; try lia; destruct j as [|[|j]]; try lia; lra.
  - pose proof (H 0%nat ltac:(lia)) as H0. pose proof (H 1%nat ltac:(lia)) as H1. pose proof (H 2%nat ltac:(lia)) as H2.
    pose proof (H 3%nat ltac:(lia)) as H3. pose proof (H 4%nat ltac:(lia)) as H4. pose proof (H 5%nat ltac:(lia)) as H5.
    cbn [nth_error Nat.eqb] in H0, H1, H2, H3, H4, H5. rewrite Rplus_0_l, rsum_add in H3, H4, H5.
    destruct i as [|[|[|i]]]; try lia; destruct j as [|[|[|j]]]; try lia; lra.
Qed.
Lemma gradient_nonzero d x b : (1 <= d <= 3)%nat -> cell_det d x <> 0 -> (b <= d)%nat -> exists l, (l < d)%nat /\ cell_gradient d x b l <> 0.
Proof.
  intros Hd Hn Hb.
  assert (D : (exists l, (l < d)%nat /\ cell_gradient d x b l <> 0) \/ forall l, (l < d)%nat -> cell_gradient d x b l = 0).
  { generalize d at 1 3. intros m. induction m as [|m [(i & Hi & N)|IH]]; [right; intros; lia|left; exists i; split; [lia|exact N]|].
    destruct (Req_dec (cell_gradient d x b m) 0) as [E|N]; [right|left; exists m; split; [lia|exact N]]. intros i Hi. destruct (Nat.eq_dec i m) as [->|]; [exact E|apply IH; lia]. }
  destruct D as [D|D]; [exact D|exfalso].
  destruct (Nat.eq_dec b d) as [->|Nb].
  - pose proof (gradient_dual d x d 0 Hd Hn ltac:(lia) ltac:(lia)) as G. rewrite rsum_0 in G by (intros l Hl; rewrite D by exact Hl; req; ring).
    unfold delta in G. rewrite Nat.eqb_refl in G. destruct (Nat.eqb_spec d 0); [lia|lra].
  - pose proof (gradient_dual d x b b Hd Hn ltac:(lia) ltac:(lia)) as G. rewrite rsum_0 in G by (intros l Hl; rewrite D by exact Hl; req; ring).
    unfold delta in G. rewrite Nat.eqb_refl in G. destruct (Nat.eqb_spec b d); [lia|lra].
Qed.
(** A strain-free cell at rest at all corners but one is at rest. *)
Lemma pinned_cell d ndof u x b : (1 <= d <= 3)%nat -> (d <= ndof)%nat -> cell_det d x <> 0 -> (b <= d)%nat ->
  (forall v, (v < num_voigt d)%nat -> strain d ndof (fun _ => 0) u (cell_gradient d x) v = 0) ->
  (forall a i, (a <= d)%nat -> a <> b -> (i < d)%nat -> u (a * ndof + i)%nat = 0) ->
  forall a i, (a <= d)%nat -> (i < d)%nat -> u (a * ndof + i)%nat = 0.
Proof.
  intros Hd Hn Hx Hb Hs H0 a i Ha Hi. destruct (Nat.eq_dec a b) as [->|Na]; [|apply H0; assumption].
  pose proof (strain_free d ndof u x Hd Hn Hs) as An.
  assert (G : forall i j, (i < d)%nat -> scalar_gradient d ndof i u (cell_gradient d x) j = u (b * ndof + i)%nat * cell_gradient d x b j).
  { intros i' j Hi'. unfold scalar_gradient. rewrite (rsum_single (S d) b); [reflexivity|lia|]. intros a' Ha' Na'. rewrite (H0 a' i') by (assumption || lia). req. ring. }
  destruct (gradient_nonzero d x b Hd Hx Hb) as (l & Hl & Nl).
  assert (Ul : u (b * ndof + l)%nat = 0).
  { pose proof (An l l Hl Hl) as E. cbn beta in E. rewrite G in E by exact Hl. assert (u (b * ndof + l)%nat * cell_gradient d x b l = 0) as E' by lra.
    apply Rmult_integral in E'. tauto. }
  pose proof (An i l Hi Hl) as E. cbn beta in E. rewrite !G in E by assumption. rewrite Ul in E.
  assert (u (b * ndof + i)%nat * cell_gradient d x b l = 0) as E' by lra. apply Rmult_integral in E'. tauto.
Qed.

(** ** The mesh *)
(** A displacement field without strain in any cell of a body in one piece is a rigid motion. *)
Definition rigid_field (d ndof : nat) (X : nat -> nat -> R) (t : nat -> R) (A : nat -> nat -> R) (k : nat) : R :=
  affine d (t (k mod ndof)) (A (k mod ndof)) X (k / ndof).
Lemma rigid_field_at d ndof X t A n i : (i < ndof)%nat -> rigid_field d ndof X t A (n * ndof + i) = affine d (t i) (A i) X n.
Proof.
  intros Hi. unfold rigid_field. rewrite Nat.add_comm, Nat.mod_add by lia.
  rewrite Nat.div_add, Nat.mod_small, Nat.div_small by lia. reflexivity.
Qed.
Lemma rigid_body {M} d nn ndof X (cells : list (cell M)) W : (1 <= d <= 3)%nat -> (d <= ndof)%nat -> mesh_ok d nn X cells -> one_piece d nn (map c_node cells) ->
  (forall c v, In c cells -> (v < num_voigt d)%nat -> strain d ndof (fun _ => 0) (gather ndof W c) (cell_gradient d (gather_coords X c)) v = 0) ->
  exists t A, antisymmetric d A /\ moves d nn ndof X t A W.
Proof.
  intros Hd Hn Hm [(f0 & H0 & Hj) Hcov] Hs.
  apply in_map_iff in H0. destruct H0 as (c0 & <- & Hc0).
  destruct (mesh_cell _ _ _ _ _ Hm Hc0) as [Hn0 Hv0].
  set (A := fun i j => scalar_gradient d ndof i (gather ndof W c0) (cell_gradient d (gather_coords X c0)) j).
  set (t := fun i => W (c_node c0 d * ndof + i)%nat - rs d (fun l => A i l * X (c_node c0 d) l)).
  assert (HA : antisymmetric d A) by (apply strain_free; [exact Hd|exact Hn|intros v Hv; apply Hs; assumption]).
  exists t, A. split; [exact HA|].
  set (D := fun k => W k + -1 * rigid_field d ndof X t A k).
  assert (SD : forall c v, In c cells -> (v < num_voigt d)%nat -> strain d ndof (fun _ => 0) (gather ndof D c) (cell_gradient d (gather_coords X c)) v = 0).
  { intros c v Hc Hv. change (gather ndof D c) with (fun k => gather ndof W c k + -1 * gather ndof (rigid_field d ndof X t A) c k).
    rewrite strain_lin, Hs by assumption. destruct (mesh_cell _ _ _ _ _ Hm Hc) as [Hnc Hvc].
    rewrite (rigid_strain d nn ndof X t A (rigid_field d ndof X t A) c v Hd Hn Hnc Hvc); [ring| |exact HA|exact Hv].
    intros n i Hn' Hi. apply rigid_field_at. lia. }
  assert (Z : forall f, joined d (map c_node cells) (c_node c0) f -> forall a i, (a <= d)%nat -> (i < d)%nat -> D (f a * ndof + i)%nat = 0).
  { intros f HJ. induction HJ as [|f f' HJ IH Hin (b & Hb & Hsh)].
    - intros a i Ha Hi. unfold D. rewrite rigid_field_at by lia. unfold affine, t.
      pose proof (nodal_difference d ndof i (gather ndof W c0) (gather_coords X c0) a Hd (det_measure d _ Hd Hv0) Ha) as E.
      rewrite !gather_at in E by lia. fold (A i) in E.
      rewrite (rsum_ext d _ (fun l => A i l * X (c_node c0 a) l - A i l * X (c_node c0 d) l)) in E by (intros; unfold A, gather_coords; req; ring).
      rewrite rsum_sub in E. unfold rs. lra.
    - apply in_map_iff in Hin. destruct Hin as (c & <- & Hc). destruct (mesh_cell _ _ _ _ _ Hm Hc) as [Hnc Hvc].
      intros a i Ha Hi. rewrite <- (gather_at ndof D c a i) by lia.
      apply (pinned_cell d ndof (gather ndof D c) (gather_coords X c) b Hd Hn (det_measure d _ Hd Hvc) Hb); try assumption.
      { intros v Hv. apply SD; assumption. }
      intros a' i' Ha' Na' Hi'. rewrite gather_at by lia. destruct (Hsh a' Ha' Na') as (a2 & Ha2 & ->). apply IH; assumption. }
  intros n i Hn' Hi. destruct (Hcov n Hn') as (f & a & Hf & Ha & <-). pose proof (Z f (Hj f Hf) a i Ha Hi) as E. unfold D in E. rewrite rigid_field_at in E by lia. lra.
Qed.
