(** Lemmas on the element kernels. *)
From Coq Require Import Reals List Arith Bool Lia Lra.
From Verif Require Import Base.Field Base.Sums Element.ElementModel.
Import ListNotations.
Local Open Scope R_scope.

Ltac req := match goal with |- @eq _ ?a ?b => change (@eq R a b) end.
Ltac rsums := cbn [sum]; change (@radd R_ring) with Rplus; change (@r0 R_ring) with 0; change (@rmul R_ring) with Rmult; try req.
Ltac dims d := destruct d as [|[|[|[|d]]]]; [exfalso; lia| | | |exfalso; lia].

Lemma fold_add n (F : (nat -> R) -> nat -> nat -> R) (D : nat -> nat -> R) :
  (forall o i k, F o i k = o k + D i k) -> forall o k, fold_left F (seq 0 n) o k = o k + rsum n (fun i => D i k).
Proof.
  intros H o k. induction n as [|n IH]; [cbn; change (@r0 R_ring) with 0; ring|].
  rewrite seq_S, fold_left_app. cbn [fold_left]. rewrite H, IH. cbn [sum plus]. change (@radd R_ring) with Rplus. ring.
Qed.

Lemma rsum_add n f g : rsum n (fun i => f i + g i) = rsum n f + rsum n g. Proof. exact (sum_add (K := R_ring) n f g). Qed.
Lemma rsum_scal_l n c f : rsum n (fun i => c * f i) = c * rsum n f. Proof. exact (sum_scal_l (K := R_ring) n c f). Qed.
Lemma rsum_ext n f g : (forall i, (i < n)%nat -> f i = g i) -> rsum n f = rsum n g. Proof. exact (sum_ext (K := R_ring) n f g). Qed.
Lemma rsum_0 n f : (forall i, (i < n)%nat -> f i = 0) -> rsum n f = 0. Proof. exact (sum_0 (K := R_ring) n f). Qed.
Lemma rsum_single n i f : (i < n)%nat -> (forall j, (j < n)%nat -> j <> i -> f j = 0) -> rsum n f = f i. Proof. exact (sum_single (K := R_ring) n i f). Qed.
Lemma rsum_swap n m (f : nat -> nat -> R) : rsum n (fun i => rsum m (fun j => f i j)) = rsum m (fun j => rsum n (fun i => f i j)).
Proof. exact (sum_swap (K := R_ring) n m f). Qed.

Lemma gradient_linear d x : (1 <= d <= 3)%nat -> cell_det d x <> 0 ->
  forall k l, (k < d)%nat -> (l < d)%nat -> rsum (S d) (fun a => x a l * cell_gradient d x a k) = if Nat.eqb l k then 1 else 0.
Proof.
  intros Hd Hdet k l Hk Hl. dims d.
  - assert (k = 0 /\ l = 0)%nat as [-> ->] by lia. rsums. cbn in *. unfold det1 in *. field. exact Hdet.
  - cbn [cell_det] in Hdet.
    destruct k as [|[|k]]; try lia; destruct l as [|[|l]]; try lia; rsums; cbn [cell_gradient gradient2 Nat.eqb]; unfold gradient2; cbv zeta; unfold det2 in *; cbv zeta in *; field; exact Hdet.
  - cbn [cell_det] in Hdet.
    destruct k as [|[|[|k]]]; try lia; destruct l as [|[|[|l]]]; try lia; rsums; cbn [cell_gradient Nat.eqb]; unfold gradient3; cbv zeta; unfold det3 in *; cbv zeta in *; field; exact Hdet.
Qed.
Lemma gradient_sum d x k : (1 <= d <= 3)%nat -> rsum (S d) (fun a => cell_gradient d x a k) = 0.
Proof.
  intros Hd. dims d; rsums; cbn [cell_gradient].
  - unfold gradient1. cbv zeta. destruct k as [|k]; ring.
  - unfold gradient2. cbv zeta. destruct k as [|[|k]]; ring.
  - unfold gradient3. cbv zeta. destruct k as [|[|[|k]]]; ring.
Qed.
Lemma linear_field d x b0 b k : (1 <= d <= 3)%nat -> cell_det d x <> 0 -> (k < d)%nat ->
  rsum (S d) (fun a => (b0 + rsum d (fun l => b l * x a l)) * cell_gradient d x a k) = b k.
Proof.
  intros Hd Hdet Hk.
  rewrite (rsum_ext _ _ (fun a => b0 * cell_gradient d x a k + rsum d (fun l => b l * (x a l * cell_gradient d x a k)))).
  2: { intros a _. rewrite Rmult_plus_distr_r. f_equal. rewrite Rmult_comm.
       etransitivity; [symmetry; apply rsum_scal_l|]. apply rsum_ext. intros. req. ring. }
  rewrite rsum_add, rsum_scal_l, gradient_sum by exact Hd. rewrite Rmult_0_r, Rplus_0_l, rsum_swap.
  rewrite (rsum_ext _ _ (fun l => b l * (if Nat.eqb l k then 1 else 0))).
  2: { intros l Hl. rewrite rsum_scal_l, gradient_linear by assumption. reflexivity. }
  rewrite (rsum_single d k); [|exact Hk|intros j _ Hj; destruct (Nat.eqb_spec j k); [contradiction|req; ring]].
  rewrite Nat.eqb_refl. req; ring.
Qed.

(** Divergence kernels: entries. *)
Lemma divergence_entry d ndof off scale vol s g out k :
  stress_divergence d ndof off scale vol s g out k =
  out k + rsum d (fun i => rsum (S d) (fun a => if Nat.eqb k (a * ndof + i + off) then scale * vol * rsum d (fun j => s (voigt d i j) * g a j) else 0)).
Proof.
  unfold stress_divergence.
  rewrite (fold_add d _ (fun i k => rsum (S d) (fun a => if Nat.eqb k (a * ndof + i + off) then scale * vol * rsum d (fun j => s (voigt d i j) * g a j) else 0))); [reflexivity|].
  intros o i k0. rewrite (fold_add (S d) _ (fun a k0 => if Nat.eqb k0 (a * ndof + i + off) then scale * vol * rsum d (fun j => s (voigt d i j) * g a j) else 0)); [reflexivity|].
  intros o' a k1. rewrite (fold_add d _ (fun j k1 => if Nat.eqb k1 (a * ndof + i + off) then scale * vol * s (voigt d i j) * g a j else 0)).
  2: { intros o2 j k2. destruct (Nat.eqb k2 _); ring. }
  f_equal. destruct (Nat.eqb k1 _).
  - rewrite <- rsum_scal_l. apply rsum_ext. intros. req. ring.
  - apply rsum_0. reflexivity.
Qed.
Lemma divergence_at d ndof off scale vol s g out a i : (i < d)%nat -> (a < S d)%nat -> (d + off <= ndof)%nat ->
  stress_divergence d ndof off scale vol s g out (a * ndof + i + off)%nat =
  out (a * ndof + i + off)%nat + scale * vol * rsum d (fun j => s (voigt d i j) * g a j).
Proof.
  intros Hi Ha Hn. rewrite divergence_entry. f_equal.
  assert (U : forall a' i', (i' < d)%nat -> (a * ndof + i + off = a' * ndof + i' + off)%nat -> a' = a /\ i' = i).
  { intros a' i' Hi' E. destruct (Nat.lt_trichotomy a' a) as [H|[->|H]]; [exfalso|split; lia|exfalso].
    - assert ((a' + 1) * ndof <= a * ndof)%nat by (apply Nat.mul_le_mono_r; lia). lia.
    - assert ((a + 1) * ndof <= a' * ndof)%nat by (apply Nat.mul_le_mono_r; lia). lia. }
  rewrite (rsum_single d i); [|exact Hi|intros i' Hi' Hne; apply rsum_0; intros a' _; destruct (Nat.eqb_spec (a * ndof + i + off) (a' * ndof + i' + off)) as [E|]; [destruct (U a' i' Hi' E); contradiction|reflexivity]].
  rewrite (rsum_single (S d) a); [|exact Ha|intros a' Ha' Hne; destruct (Nat.eqb_spec (a * ndof + i + off) (a' * ndof + i + off)) as [E|]; [destruct (U a' i Hi E); contradiction|reflexivity]].
  rewrite Nat.eqb_refl. reflexivity.
Qed.
Lemma divergence_other d ndof off scale vol s g out k :
  (forall a i, (i < d)%nat -> (a < S d)%nat -> k <> (a * ndof + i + off)%nat) -> stress_divergence d ndof off scale vol s g out k = out k.
Proof.
  intros H. rewrite divergence_entry. rewrite (rsum_0 d); [ring|]. intros i Hi. apply rsum_0. intros a Ha.
  destruct (Nat.eqb_spec k (a * ndof + i + off)) as [E|]; [exfalso; exact (H a i Hi Ha E)|reflexivity].
Qed.
Lemma duality d ndof s g w : (1 <= d <= 3)%nat ->
  rsum (S d) (fun a => rsum d (fun i => rsum d (fun j => s (voigt d i j) * g a j) * w (a * ndof + i)%nat)) =
  rsum (num_voigt d) (fun v => s v * strain d ndof (fun _ => 0) w g v).
Proof. intros Hd. dims d; unfold strain; rsums; cbn -[Rplus Rmult Nat.mul Nat.add]; ring. Qed.

Lemma flux_entry d ndof off scale vol q g out k :
  flux_divergence d ndof off scale vol q g out k =
  out k + rsum (S d) (fun a => if Nat.eqb k (a * ndof + off) then scale * vol * rsum d (fun j => q j * g a j) else 0).
Proof.
  unfold flux_divergence.
  rewrite (fold_add (S d) _ (fun a k0 => if Nat.eqb k0 (a * ndof + off) then scale * vol * rsum d (fun j => q j * g a j) else 0)); [reflexivity|].
  intros o' a k1. rewrite (fold_add d _ (fun j k1 => if Nat.eqb k1 (a * ndof + off) then scale * q j * g a j * vol else 0)).
  2: { intros o2 j k2. destruct (Nat.eqb k2 _); ring. }
  f_equal. destruct (Nat.eqb k1 _).
  - rewrite <- rsum_scal_l. apply rsum_ext. intros. req. ring.
  - apply rsum_0. reflexivity.
Qed.
