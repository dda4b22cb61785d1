(** Finite sums over an arbitrary commutative ring, and the dense
    vectors/matrices used by specifications: vectors are functions
    [nat -> K] looked at below an explicit length. *)
From Coq Require Import Arith Lia List Ring Permutation.
From Verif Require Import Base.Field.
Import ListNotations.

Section Sums.
Context {K : CRing}.
Add Ring Kring : (r_th K).
Local Open Scope K_scope.

(** [sum n f] is f 0 + ... + f (n-1). *)
Fixpoint sum (n : nat) (f : nat -> K) : K :=
  match n with
  | O => 0
  | S m => sum m f + f m
  end.

(** Sum of a list. *)
Fixpoint lsum (l : list K) : K :=
  match l with
  | [] => 0
  | x :: l' => x + lsum l'
  end.

Lemma sum_ext n f g : (forall i, i < n -> f i = g i) -> sum n f = sum n g.
Proof.
  induction n as [|n IH]; intros H; simpl; [reflexivity|].
  rewrite IH by (intros; apply H; lia). rewrite H by lia. reflexivity.
Qed.

Lemma sum_0 n f : (forall i, i < n -> f i = 0) -> sum n f = 0.
Proof.
  induction n as [|n IH]; intros H; simpl; [reflexivity|].
  rewrite IH by (intros; apply H; lia). rewrite H by lia. ring.
Qed.

Lemma sum_add n f g : sum n (fun i => f i + g i) = sum n f + sum n g.
Proof. induction n as [|n IH]; simpl; [ring|]. rewrite IH. ring. Qed.

Lemma sum_sub n f g : sum n (fun i => f i - g i) = sum n f - sum n g.
Proof. induction n as [|n IH]; simpl; [ring|]. rewrite IH. ring. Qed.

Lemma sum_opp n f : sum n (fun i => - f i) = - sum n f.
Proof. induction n as [|n IH]; simpl; [ring|]. rewrite IH. ring. Qed.

Lemma sum_scal_l n c f : sum n (fun i => c * f i) = c * sum n f.
Proof. induction n as [|n IH]; simpl; [ring|]. rewrite IH. ring. Qed.

Lemma sum_scal_r n c f : sum n (fun i => f i * c) = sum n f * c.
Proof. induction n as [|n IH]; simpl; [ring|]. rewrite IH. ring. Qed.

Lemma sum_swap n m (f : nat -> nat -> K) :
  sum n (fun i => sum m (fun j => f i j)) = sum m (fun j => sum n (fun i => f i j)).
Proof.
  induction n as [|n IH]; simpl.
  - symmetry. apply sum_0. reflexivity.
  - rewrite IH, <- sum_add. reflexivity.
Qed.

Lemma sum_single n i f :
  i < n -> (forall j, j < n -> j <> i -> f j = 0) -> sum n f = f i.
Proof.
  induction n as [|n IH]; intros Hi H; [lia|]. simpl.
  destruct (Nat.eq_dec i n) as [->|Hne].
  - rewrite sum_0; [ring|]. intros j Hj. apply H; lia.
  - rewrite IH by (try lia; intros; apply H; lia). rewrite (H n) by lia. ring.
Qed.

Lemma sum_delta n i f :
  i < n -> sum n (fun j => if Nat.eqb i j then f j else 0) = f i.
Proof.
  intros Hi. rewrite (sum_single n i); [rewrite Nat.eqb_refl; reflexivity|exact Hi|].
  intros j _ Hj. destruct (Nat.eqb_spec i j); [lia|reflexivity].
Qed.

Lemma sum_split a b f : sum (a + b) f = sum a f + sum b (fun i => f (a + i)%nat).
Proof.
  induction b as [|b IH]; simpl.
  - rewrite Nat.add_0_r. ring.
  - rewrite Nat.add_succ_r. simpl. rewrite IH. ring.
Qed.

(** Block sums: an index below [n*m] is [i*m + j]. *)
Lemma sum_block n m f :
  sum (n * m) f = sum n (fun i => sum m (fun j => f (i * m + j)%nat)).
Proof.
  induction n as [|n IH]; simpl; [reflexivity|].
  rewrite Nat.add_comm, sum_split, IH. reflexivity.
Qed.

Lemma lsum_app l1 l2 : lsum (l1 ++ l2) = lsum l1 + lsum l2.
Proof. induction l1 as [|x l1 IH]; simpl; [ring|]. rewrite IH. ring. Qed.

Lemma lsum_perm l1 l2 : Permutation l1 l2 -> lsum l1 = lsum l2.
Proof.
  induction 1 as [|x l l' _ IH|x y l|l l' l'' _ IH1 _ IH2]; simpl.
  - reflexivity.
  - rewrite IH. reflexivity.
  - ring.
  - congruence.
Qed.

Lemma lsum_map_seq n f : lsum (map f (seq 0 n)) = sum n f.
Proof.
  induction n as [|n IH]; [reflexivity|].
  rewrite seq_S, map_app, lsum_app, IH. simpl. ring.
Qed.

Lemma lsum_map_add {A} (f g : A -> K) l :
  lsum (map (fun x => f x + g x) l) = lsum (map f l) + lsum (map g l).
Proof. induction l as [|x l IH]; simpl; [ring|]. rewrite IH. ring. Qed.

Lemma lsum_map_scal {A} c (f : A -> K) l :
  lsum (map (fun x => c * f x) l) = c * lsum (map f l).
Proof. induction l as [|x l IH]; simpl; [ring|]. rewrite IH. ring. Qed.

Lemma lsum_map_0 {A} (f : A -> K) l : (forall x, In x l -> f x = 0) -> lsum (map f l) = 0.
Proof.
  induction l as [|x l IH]; simpl; intros H; [reflexivity|].
  rewrite H by (left; reflexivity). rewrite IH by (intros; apply H; right; assumption). ring.
Qed.

Lemma lsum_map_ext {A} (f g : A -> K) l :
  (forall x, In x l -> f x = g x) -> lsum (map f l) = lsum (map g l).
Proof.
  intros H. f_equal. apply map_ext_in. exact H.
Qed.

Lemma lsum_flat_map {A B} (f : B -> K) (g : A -> list B) l :
  lsum (map f (flat_map g l)) = lsum (map (fun x => lsum (map f (g x))) l).
Proof.
  induction l as [|x l IH]; simpl; [reflexivity|].
  rewrite map_app, lsum_app, IH. reflexivity.
Qed.

Lemma lsum_swap_sum {A} n (f : A -> nat -> K) l :
  lsum (map (fun x => sum n (f x)) l) = sum n (fun i => lsum (map (fun x => f x i) l)).
Proof.
  induction l as [|x l IH]; simpl.
  - symmetry. apply sum_0. reflexivity.
  - rewrite IH, <- sum_add. reflexivity.
Qed.

(** Dense products. *)
Definition dot (n : nat) (x y : nat -> K) : K := sum n (fun i => x i * y i).
Definition mv (n : nat) (A : nat -> nat -> K) (x : nat -> K) : nat -> K :=
  fun i => sum n (fun j => A i j * x j).
Definition tr (A : nat -> nat -> K) : nat -> nat -> K := fun i j => A j i.
Definition mm (n : nat) (A B : nat -> nat -> K) : nat -> nat -> K :=
  fun i k => sum n (fun j => A i j * B j k).

Lemma dot_comm n x y : dot n x y = dot n y x.
Proof. apply sum_ext. intros. ring. Qed.

Lemma dot_ext n x x' y y' :
  (forall i, i < n -> x i = x' i) -> (forall i, i < n -> y i = y' i) ->
  dot n x y = dot n x' y'.
Proof. intros H1 H2. apply sum_ext. intros i Hi. rewrite H1, H2 by lia. reflexivity. Qed.

Lemma dot_add_l n x x' y : dot n (fun i => x i + x' i) y = dot n x y + dot n x' y.
Proof. unfold dot. rewrite <- sum_add. apply sum_ext. intros. ring. Qed.
Lemma dot_add_r n x y y' : dot n x (fun i => y i + y' i) = dot n x y + dot n x y'.
Proof. unfold dot. rewrite <- sum_add. apply sum_ext. intros. ring. Qed.
Lemma dot_sub_l n x x' y : dot n (fun i => x i - x' i) y = dot n x y - dot n x' y.
Proof. unfold dot. rewrite <- sum_sub. apply sum_ext. intros. ring. Qed.
Lemma dot_sub_r n x y y' : dot n x (fun i => y i - y' i) = dot n x y - dot n x y'.
Proof. unfold dot. rewrite <- sum_sub. apply sum_ext. intros. ring. Qed.
Lemma dot_opp_l n x y : dot n (fun i => - x i) y = - dot n x y.
Proof. unfold dot. rewrite <- sum_opp. apply sum_ext. intros. ring. Qed.
Lemma dot_opp_r n x y : dot n x (fun i => - y i) = - dot n x y.
Proof. unfold dot. rewrite <- sum_opp. apply sum_ext. intros. ring. Qed.
Lemma dot_scal_l n c x y : dot n (fun i => c * x i) y = c * dot n x y.
Proof. unfold dot. rewrite <- sum_scal_l. apply sum_ext. intros. ring. Qed.
Lemma dot_scal_r n c x y : dot n x (fun i => c * y i) = c * dot n x y.
Proof. unfold dot. rewrite <- sum_scal_l. apply sum_ext. intros. ring. Qed.
Lemma dot_0_l n y : dot n (fun _ => 0) y = 0.
Proof. apply sum_0. intros. ring. Qed.
Lemma dot_0_r n y : dot n y (fun _ => 0) = 0.
Proof. apply sum_0. intros. ring. Qed.

Lemma mv_ext n A A' x x' i :
  (forall j, j < n -> A i j = A' i j) -> (forall j, j < n -> x j = x' j) ->
  mv n A x i = mv n A' x' i.
Proof. intros H1 H2. apply sum_ext. intros j Hj. rewrite H1, H2 by lia. reflexivity. Qed.

Lemma mv_add n A x y i : mv n A (fun j => x j + y j) i = mv n A x i + mv n A y i.
Proof. unfold mv. rewrite <- sum_add. apply sum_ext. intros. ring. Qed.
Lemma mv_sub n A x y i : mv n A (fun j => x j - y j) i = mv n A x i - mv n A y i.
Proof. unfold mv. rewrite <- sum_sub. apply sum_ext. intros. ring. Qed.
Lemma mv_opp n A x i : mv n A (fun j => - x j) i = - mv n A x i.
Proof. unfold mv. rewrite <- sum_opp. apply sum_ext. intros. ring. Qed.
Lemma mv_scal n A c x i : mv n A (fun j => c * x j) i = c * mv n A x i.
Proof. unfold mv. rewrite <- sum_scal_l. apply sum_ext. intros. ring. Qed.
Lemma mv_0 n A i : mv n A (fun _ => 0) i = 0.
Proof. apply sum_0. intros. ring. Qed.

(** The transpose is the adjoint: y . (A x) = (A^T y) . x, for an m x n matrix. *)
Lemma dot_mv_tr m n A x y : dot m y (mv n A x) = dot n (mv m (tr A) y) x.
Proof.
  unfold dot, mv, tr.
  rewrite (sum_ext m _ (fun i => sum n (fun j => y i * (A i j * x j))))
    by (intros; rewrite sum_scal_l; reflexivity).
  rewrite sum_swap. apply sum_ext. intros j Hj.
  rewrite <- sum_scal_r. apply sum_ext. intros. ring.
Qed.

Lemma mv_mm m n A B x i : mv n (mm m A B) x i = mv m A (mv n B x) i.
Proof.
  unfold mv, mm.
  rewrite (sum_ext n _ (fun k => sum m (fun j => A i j * B j k * x k)))
    by (intros; rewrite sum_scal_r; reflexivity).
  rewrite sum_swap. apply sum_ext. intros j Hj.
  rewrite <- sum_scal_l. apply sum_ext. intros. ring.
Qed.

End Sums.

Arguments sum {K} n f. Arguments lsum {K} l. Arguments dot {K} n x y.
Arguments mv {K} n A x i. Arguments tr {K} A i j /. Arguments mm {K} n A B i k.
