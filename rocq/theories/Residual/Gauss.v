(** A linear solver over the reals that solves every system with an inverse: what the theorems ask of the external solvers can be met, for every size. *)
From Coq Require Import Reals List Arith Bool Lia Lra.
From Verif Require Import Base.Field Base.Sums BC.ConstraintsSpec Problem.DenseBC Element.ElementModel Element.ElementProof Residual.ResidualProof Residual.Kernel.
Local Open Scope R_scope.

(** The first of n entries that is not zero. *)
Fixpoint nonzero (n : nat) (f : nat -> R) : option nat :=
  match n with O => None | S m => match nonzero m f with Some i => Some i | None => if Req_EM_T (f m) 0 then None else Some m end end.
Lemma nonzero_some n f i : nonzero n f = Some i -> (i < n)%nat /\ f i <> 0.
Proof.
  induction n as [|n IH]; cbn; [discriminate|]. destruct (nonzero n f) as [j|]; [intros [= ->]; destruct (IH eq_refl); split; [lia|assumption]|].
  destruct (Req_EM_T (f n) 0); [discriminate|]. intros [= <-]. split; [lia|assumption].
Qed.
Lemma nonzero_none n f : nonzero n f = None -> forall i, (i < n)%nat -> f i = 0.
Proof.
  induction n as [|n IH]; cbn; intros E i Hi; [lia|]. destruct (nonzero n f); [discriminate|]. destruct (Req_EM_T (f n) 0) as [Z|]; [|discriminate].
  destruct (Nat.eq_dec i n) as [->|]; [exact Z|apply IH; [reflexivity|lia]].
Qed.
(** Indices q and m exchanged. *)
Definition exchange (q m k : nat) : nat := if Nat.eqb k q then m else if Nat.eqb k m then q else k.
Lemma exchange_twice q m k : exchange q m (exchange q m k) = k.
Proof. unfold exchange. destruct (Nat.eqb k q) eqn:E1; [|destruct (Nat.eqb k m) eqn:E2]; repeat match goal with H : Nat.eqb _ _ = true |- _ => apply Nat.eqb_eq in H; subst end; rewrite ?Nat.eqb_refl, ?E1, ?E2; try reflexivity. destruct (Nat.eqb m q) eqn:E; [apply Nat.eqb_eq in E; congruence|reflexivity]. Qed.
Lemma exchange_lt q m n k : (q < n)%nat -> (m < n)%nat -> (k < n)%nat -> (exchange q m k < n)%nat.
Proof. intros. unfold exchange. destruct (Nat.eqb k q), (Nat.eqb k m); assumption. Qed.
Lemma rsum_point n i (f : nat -> R) : (i < n)%nat -> rsum n f = rsum n (fun k => if Nat.eqb k i then 0%R else f k) + f i.
Proof. intros Hi. rewrite <- (rsum_delta' n i (f i)) by exact Hi. rewrite <- rsum_add. apply rsum_ext. intros k Hk. destruct (Nat.eqb_spec k i) as [->|]; req; ring. Qed.
Lemma Rplus_comm_tail a b c : a + b + c = a + c + b.
Proof. ring. Qed.
Lemma rsum_exchange n q m (f : nat -> R) : (q < n)%nat -> (m < n)%nat -> rsum n (fun k => f (exchange q m k)) = rsum n f.
Proof.
  intros Hq Hm. destruct (Nat.eq_dec q m) as [->|N]; [apply rsum_ext; intros k Hk; f_equal; unfold exchange; destruct (Nat.eqb_spec k m); congruence|].
  assert (T : forall g : nat -> R, rsum n g = rsum n (fun k => if Nat.eqb k m then 0%R else if Nat.eqb k q then 0%R else g k) + g m + g q).
  { intros g. etransitivity; [exact (rsum_point n q g Hq)|]. apply (f_equal (fun v => v + g q)). etransitivity; [exact (rsum_point n m (fun k => if Nat.eqb k q then 0%R else g k) Hm)|].
    cbn beta. destruct (Nat.eqb_spec m q); [congruence|]. reflexivity. }
  etransitivity; [exact (T (fun k => f (exchange q m k)))|]. symmetry. etransitivity; [exact (T f)|]. cbn beta. symmetry.
  assert (E : rsum n (fun k => if Nat.eqb k m then 0%R else if Nat.eqb k q then 0%R else f (exchange q m k)) = rsum n (fun k => if Nat.eqb k m then 0%R else if Nat.eqb k q then 0%R else f k)).
  { apply rsum_ext. intros k Hk. unfold exchange. destruct (Nat.eqb_spec k m); [reflexivity|]. destruct (Nat.eqb_spec k q); [reflexivity|reflexivity]. }
  etransitivity; [exact (f_equal (fun v => v + f (exchange q m m) + f (exchange q m q)) E)|]. unfold exchange. rewrite !Nat.eqb_refl. assert (B : Nat.eqb m q = false) by (apply Nat.eqb_neq; congruence). rewrite B. apply (Rplus_comm_tail _ (f q) (f m)).
Qed.
(** Elimination with exchange of unknowns: the last equation is solved for an unknown it contains. *)
Fixpoint gauss (n : nat) (A : nat -> nat -> R) (b : nat -> R) : nat -> R :=
  match n with
  | O => fun _ => 0
  | S m =>
    match nonzero (S m) (A m) with
    | None => fun _ => 0
    | Some q =>
      let C := fun i j => A i (exchange q m j) in
      let x := gauss m (fun i j => C i j - C i m / C m m * C m j) (fun i => b i - C i m / C m m * b m) in
      let y := fun j => if Nat.eqb j m then (b m - rsum m (fun k => C m k * x k)) / C m m else x j in
      fun j => y (exchange q m j)
    end
  end.
Theorem gauss_ok n : solver_ok (K := R_ring) n (gauss n).
Proof.
  induction n as [|m IH]; intros A b (B & HB).
  { intros i Hi. lia. }
  assert (Hrow : exists q, nonzero (S m) (A m) = Some q).
  { destruct (nonzero (S m) (A m)) as [q|] eqn:E; [exists q; reflexivity|]. exfalso. pose proof (HB m m ltac:(lia) ltac:(lia)) as H. rewrite Nat.eqb_refl in H.
    assert (Z : mm (K := R_ring) (S m) A B m m = 0) by (unfold mm; apply rsum_0; intros k Hk; rewrite (nonzero_none _ _ E k Hk); apply Rmult_0_l). rewrite Z in H. cbn in H. lra. }
  destruct Hrow as (q & Eq). destruct (nonzero_some _ _ _ Eq) as [Hq Nq].
  set (C := fun i j => A i (exchange q m j)). assert (Cm : C m m <> 0) by (unfold C, exchange; destruct (Nat.eqb_spec m q) as [->|]; [exact Nq|rewrite Nat.eqb_refl; exact Nq]).
  set (A' := fun i j => C i j - C i m / C m m * C m j). set (b' := fun i => b i - C i m / C m m * b m).
  (* the inverse with its rows exchanged *)
  set (D := fun k j => B (exchange q m k) j).
  assert (HD : forall i j, (i < S m)%nat -> (j < S m)%nat -> rsum (S m) (fun k => C i k * D k j) = if Nat.eqb i j then 1 else 0).
  { intros i j Hi Hj. etransitivity; [|exact (HB i j Hi Hj)]. exact (rsum_exchange (S m) q m (fun k => A i k * B k j) Hq ltac:(lia)). }
  assert (Hns : nonsingular (K := R_ring) m A').
  { exists D. intros i j Hi Hj. pose proof (HD i j ltac:(lia) ltac:(lia)) as H1. pose proof (HD m j ltac:(lia) ltac:(lia)) as H2. rewrite last_sum in H1, H2.
    assert (Em : Nat.eqb m j = false) by (apply Nat.eqb_neq; lia). rewrite Em in H2.
    assert (E : mm (K := R_ring) m A' D i j = rsum m (fun k => C i k * D k j) - C i m / C m m * rsum m (fun k => C m k * D k j)).
    { unfold mm. rewrite <- rsum_scal_l, <- rsum_sub. apply rsum_ext. intros k Hk. unfold A'. match goal with |- @eq _ ?l ?r => change (@eq R l r) end. cbn. field. exact Cm. }
    rewrite E. replace (rsum m (fun k => C m k * D k j)) with (- (C m m * D m j)) by lra. replace (C i m / C m m * - (C m m * D m j)) with (- (C i m * D m j)) by (field; exact Cm). cbn in H1 |- *. lra. }
  pose proof (IH A' b' Hns) as Hx. set (x := gauss m A' b') in *.
  assert (G : forall j, gauss (S m) A b j = (fun j => if Nat.eqb j m then (b m - rsum m (fun k => C m k * x k)) / C m m else x j) (exchange q m j)).
  { intros j. cbn [gauss]. rewrite Eq. reflexivity. }
  set (y := fun j => if Nat.eqb j m then (b m - rsum m (fun k => C m k * x k)) / C m m else x j) in *.
  intros i Hi. transitivity (rsum (S m) (fun k => C i k * y k)).
  { etransitivity; [|exact (rsum_exchange (S m) q m (fun k => C i k * y k) Hq ltac:(lia))]. apply rsum_ext. intros k Hk. rewrite G. unfold C at 1. rewrite exchange_twice. reflexivity. }
  rewrite last_sum.
  assert (Y : forall r, rsum m (fun k => C r k * y k) = rsum m (fun k => C r k * x k)).
  { intros r. apply rsum_ext. intros k Hk. unfold y. assert (E : Nat.eqb k m = false) by (apply Nat.eqb_neq; lia). rewrite E. reflexivity. }
  rewrite Y. unfold y. rewrite Nat.eqb_refl. destruct (Nat.eq_dec i m) as [->|N]; [match goal with |- @eq _ ?l ?r => change (@eq R l r) end; generalize (rsum m (fun k => C m k * x k)); intros s; field; exact Cm|].
  specialize (Hx i ltac:(lia)). 
  assert (E : rsum m (fun j => A' i j * x j) = rsum m (fun k => C i k * x k) - C i m / C m m * rsum m (fun k => C m k * x k)).
  { rewrite <- rsum_scal_l, <- rsum_sub. apply rsum_ext. intros k Hk. unfold A'. match goal with |- @eq _ ?l ?r => change (@eq R l r) end. cbn. field. exact Cm. }
  assert (Hx' : rsum m (fun j => A' i j * x j) = b' i) by exact Hx. rewrite E in Hx'. unfold b' in Hx'.
  replace (C i m * ((b m - rsum m (fun k => C m k * x k)) / C m m)) with (C i m / C m m * b m - C i m / C m m * rsum m (fun k => C m k * x k)) by (field; exact Cm). lra.
Qed.
