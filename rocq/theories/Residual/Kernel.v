(** Linear algebra over the reals: a square matrix that maps no other vector than zero to zero has an inverse. *)
From Coq Require Import Reals Arith Lia Lra.
From Verif Require Import Base.Field Base.Sums Element.ElementModel Element.ElementProof Residual.ResidualProof.
Local Open Scope R_scope.

Lemma last_sum n (f : nat -> R) : rsum (S n) f = rsum n f + f n.
Proof. reflexivity. Qed.
Lemma rsum_delta' n p (v : R) : (p < n)%nat -> rsum n (fun k => if Nat.eqb k p then v else 0) = v.
Proof. intros Hp. rewrite (rsum_single n p); [rewrite Nat.eqb_refl; reflexivity|exact Hp|]. intros k Hk Nk. destruct (Nat.eqb_spec k p); [contradiction|reflexivity]. Qed.
(** m equations for m + 1 unknowns. *)
Lemma dependent m : forall V : nat -> nat -> R, exists x : nat -> R, (exists j, (j <= m)%nat /\ x j <> 0) /\ forall i, (i < m)%nat -> rsum (S m) (fun j => V i j * x j) = 0.
Proof.
  induction m as [|m IH]; intros V.
  { exists (fun _ => 1). split; [exists 0%nat; split; [lia|lra]|intros; lia]. }
  (* pivot in the last column *)
  assert (P : forall V : nat -> nat -> R, V m (S m) <> 0 -> exists x : nat -> R, (exists j, (j <= S m)%nat /\ x j <> 0) /\ forall i, (i < S m)%nat -> rsum (S (S m)) (fun j => V i j * x j) = 0).
  { clear V. intros V Hp. destruct (IH (fun i j => V i j - V i (S m) * V m j / V m (S m))) as (y & (j & Hj & Hy) & E).
    set (x := fun j => if Nat.eqb j (S m) then - rsum (S m) (fun j => V m j * y j) / V m (S m) else y j).
    assert (X : forall W : nat -> R, rsum (S m) (fun j => W j * x j) = rsum (S m) (fun j => W j * y j)).
    { intros W. apply rsum_ext. intros i Hi. unfold x. destruct (Nat.eqb_spec i (S m)); [lia|reflexivity]. }
    assert (XL : x (S m) = - rsum (S m) (fun j => V m j * y j) / V m (S m)) by (unfold x; rewrite Nat.eqb_refl; reflexivity).
    exists x. split.
    { exists j. split; [lia|]. unfold x. destruct (Nat.eqb_spec j (S m)); [lia|exact Hy]. }
    intros i Hi. rewrite (last_sum (S m)), X, XL.
    destruct (Nat.eq_dec i m) as [->|Ni]; [req; field; exact Hp|].
    specialize (E i ltac:(lia)).
    assert (E2 : rsum (S m) (fun j => (V i j - V i (S m) * V m j / V m (S m)) * y j) = rsum (S m) (fun j => V i j * y j) - V i (S m) / V m (S m) * rsum (S m) (fun j => V m j * y j)).
    { rewrite <- rsum_scal_l, <- rsum_sub. apply rsum_ext. intros k Hk. req. field. exact Hp. }
    rewrite E2 in E. transitivity (rsum (S m) (fun j => V i j * y j) - V i (S m) / V m (S m) * rsum (S m) (fun j => V m j * y j)); [req; field; exact Hp|exact E]. }
  (* some column has a pivot, or the last equation is void *)
  assert (D : (exists p, (p <= S m)%nat /\ V m p <> 0) \/ forall p, (p <= S m)%nat -> V m p = 0).
  { generalize (S m) at 1 2. intros q. induction q as [|q [(p & Hq & N)|IHq]].
    - destruct (Req_dec (V m 0%nat) 0) as [E|N]; [right; intros p Hq; replace p with 0%nat by lia; exact E|left; exists 0%nat; split; [lia|exact N]].
    - left. exists p. split; [lia|exact N].
    - destruct (Req_dec (V m (S q)) 0) as [E|N]; [right|left; exists (S q); split; [lia|exact N]].
      intros p Hp. destruct (Nat.eq_dec p (S q)) as [->|]; [exact E|apply IHq; lia]. }
  destruct D as [(p & Hp & Np)|D].
  - destruct (Req_dec (V m (S m)) 0) as [Z|N]; [|apply P; exact N].
    assert (Hp' : (p <= m)%nat) by (destruct (Nat.eq_dec p (S m)); [subst; contradiction|lia]).
    destruct (P (fun i j => V i j + (if Nat.eqb j (S m) then V i p else 0))) as (y & (j & Hj & Hy) & E).
    { rewrite Nat.eqb_refl, Z. lra. }
    set (x := fun j => y j + (if Nat.eqb j p then y (S m) else 0)).
    exists x. split.
    { destruct (Req_dec (y (S m)) 0) as [YZ|YN].
      - exists j. split; [exact Hj|]. unfold x. destruct (Nat.eqb j p); [rewrite YZ|]; lra.
      - exists (S m). split; [lia|]. unfold x. destruct (Nat.eqb_spec (S m) p); [lia|lra]. }
    intros i Hi. etransitivity; [|apply (E i Hi)]. rewrite !(last_sum (S m)).
    assert (XM : x (S m) = y (S m)) by (unfold x; destruct (Nat.eqb_spec (S m) p); [lia|lra]). rewrite XM, Nat.eqb_refl.
    assert (S1 : rsum (S m) (fun j => V i j * x j) = rsum (S m) (fun j => V i j * y j) + V i p * y (S m)).
    { rewrite <- (rsum_delta' (S m) p (V i p * y (S m))%R) by lia. rewrite <- rsum_add. apply rsum_ext.
      intros k Hk. unfold x. destruct (Nat.eqb_spec k p) as [->|]; req; ring. }
    assert (S2 : rsum (S m) (fun j => (V i j + (if Nat.eqb j (S m) then V i p else 0)) * y j) = rsum (S m) (fun j => V i j * y j)).
    { apply rsum_ext. intros k Hk. destruct (Nat.eqb_spec k (S m)); [lia|req; ring]. }
    rewrite S1, S2. req. ring.
  - destruct (IH V) as (y & (j & Hj & Hy) & E).
    exists (fun j => if Nat.eqb j (S m) then 0 else y j). split.
    { exists j. split; [lia|]. destruct (Nat.eqb_spec j (S m)); [lia|exact Hy]. }
    intros i Hi. destruct (Nat.eq_dec i m) as [->|Ni].
    + apply rsum_0. intros k Hk. rewrite D by lia. req. ring.
    + rewrite (last_sum (S m)), Nat.eqb_refl. rewrite Rmult_0_r, Rplus_0_r. etransitivity; [|apply (E i); lia]. apply rsum_ext.
      intros k Hk. destruct (Nat.eqb_spec k (S m)); [lia|reflexivity].
Qed.

Definition trivial_kernel (n : nat) (A : nat -> nat -> R) : Prop := forall x, (forall i, (i < n)%nat -> rsum n (fun j => A i j * x j) = 0) -> forall i, (i < n)%nat -> x i = 0.
Lemma reaches n A b : trivial_kernel n A -> exists x, forall i, (i < n)%nat -> rsum n (fun j => A i j * x j) = b i.
Proof.
  intros HK. destruct (dependent n (fun i j => if Nat.eqb j n then b i else A i j)) as (y & (j & Hj & Hy) & E).
  assert (S1 : forall i, (i < n)%nat -> rsum n (fun j => A i j * y j) + b i * y n = 0).
  { intros i Hi. specialize (E i Hi). rewrite last_sum, Nat.eqb_refl in E. etransitivity; [|exact E]. req. apply Rplus_eq_compat_r. apply rsum_ext. intros k Hk. destruct (Nat.eqb_spec k n); [lia|reflexivity]. }
  assert (YN : y n <> 0).
  { intros Z. apply Hy. destruct (Nat.eq_dec j n) as [->|]; [exact Z|]. apply (HK y); [|lia]. intros i Hi. specialize (S1 i Hi). rewrite Z in S1. lra. }
  exists (fun j => - / y n * y j). intros i Hi.
  rewrite (rsum_ext n _ (fun j => - / y n * (A i j * y j))) by (intros; req; ring).
  rewrite rsum_scal_l. specialize (S1 i Hi). assert (S2 : rsum n (fun j => A i j * y j) = - (b i * y n)) by (apply Rplus_opp_r_uniq; rewrite Rplus_comm; exact S1).
  rewrite S2. req. field. exact YN.
Qed.
Lemma choose n (P : nat -> (nat -> R) -> Prop) : (forall j, (j < n)%nat -> exists x, P j x) -> exists f : nat -> nat -> R, forall j, (j < n)%nat -> P j (f j).
Proof.
  induction n as [|n IH]; intros H; [exists (fun _ _ => 0); intros; lia|].
  destruct IH as (f & F); [intros; apply H; lia|]. destruct (H n ltac:(lia)) as (x & X).
  exists (fun j => if Nat.eqb j n then x else f j). intros j Hj. destruct (Nat.eqb_spec j n) as [->|]; [exact X|apply F; lia].
Qed.
(** The inverse, as a matrix. *)
Theorem kernel_inverse n A : trivial_kernel n A -> exists B, forall i j, (i < n)%nat -> (j < n)%nat -> mm (K := R_ring) n A B i j = (if Nat.eqb i j then 1 else 0).
Proof.
  intros HK. destruct (choose n (fun j x => forall i, (i < n)%nat -> rsum n (fun k => A i k * x k) = if Nat.eqb i j then 1 else 0)) as (f & F).
  { intros j Hj. apply (reaches n A (fun i => if Nat.eqb i j then 1 else 0) HK). }
  exists (fun k j => f j k). intros i j Hi Hj. apply (F j Hj i Hi).
Qed.
