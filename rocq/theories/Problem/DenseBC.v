(** Dirichlet conditions at the level of dense matrices and vectors, the effect of the sparse implementation
    being given by C02_matrix_and_rhs; the linear solver as an oracle. *)
From Coq Require Import Arith Lia List Bool Ring.
From Verif Require Import Base.Field Base.Sums BC.ConstraintsModel BC.ConstraintsSpec BC.ConstraintsProof BC.ConstraintsMain.
Import ListNotations.

Notation vect K := (nat -> rcar K).
Notation matr K := (nat -> nat -> rcar K).

Section K.
Context {K : CRing}.
Add Ring KringDBC : (r_th K).
Local Open Scope K_scope.

(** Effect of Plato::applyBlockConstraints / applyConstraints (src/ApplyConstraints.hpp lines 18-219) on the
    represented matrix and on the right-hand side (see [bc_refines]). *)
Definition bc_matrix (dofs : list nat) (A : matr K) : matr K := constrained_matrix dofs A.
Definition bc_rhs (scale : K) (dofs : list nat) (vals : list K) (A : matr K) (b : vect K) : vect K :=
  fun i => match prescribed scale dofs vals i with
           | Some v => v
           | None => b i - lsum (map (fun dv => A (fst dv) i * (scale * snd dv)) (combine dofs vals))
           end.

(** The sparse implementation computes exactly these, whatever the schedule. *)
Lemma bc_refines (N n : nat) (g : graph) (scale : K) (dofs : list nat) (vals : list K) (m m' : mem K) :
  0 < N -> wf_graph n g ->
  List.length (ents m) = (N * N * List.length (colidx g))%nat -> List.length (rhs m) = (n * N)%nat ->
  List.length vals = List.length dofs -> compatible scale dofs vals -> (forall d, In d dofs -> d < n * N) ->
  applyBlockConstraints N g scale dofs vals m m' ->
  (forall i j, i < n * N -> j < n * N -> dense N g (ents m') i j = bc_matrix dofs (dense N g (ents m)) i j) /\
  (forall i, i < n * N -> vec (rhs m') i = bc_rhs scale dofs vals (dense N g (ents m)) (vec (rhs m)) i).
Proof. apply block_content. Qed.

(** The linear solver (AmgX, Epetra, Tpetra: external libraries).  [solver_ok]: it returns a solution of
    every system with a nonsingular matrix. *)
Definition solver := matr K -> vect K -> vect K.
Definition nonsingular (n : nat) (A : matr K) : Prop :=
  exists B, forall i j, i < n -> j < n -> mm n A B i j = (if Nat.eqb i j then 1 else 0).
Definition solver_ok (n : nat) (slv : solver) : Prop :=
  forall A b, nonsingular n A -> solves n A b (slv A b).

Section Sys.
Variables (n : nat) (scale : K) (dofs : list nat) (vals : list K).
Hypothesis Hlen : List.length vals = List.length dofs.
Hypothesis Hc : compatible scale dofs vals.
Hypothesis Hd : forall d, In d dofs -> d < n.

Lemma compat_zdup : zdup (bcs_of scale dofs vals).
Proof.
  unfold bcs_of, zdup. clear -Hc. unfold compatible in Hc.
  induction (combine dofs vals) as [|a l IH]; simpl; constructor.
  - inversion Hc; subst. apply Forall_map. simpl. assumption.
  - apply IH. inversion Hc; assumption.
Qed.

Lemma bc_row_fixed A x i : i < n -> constrained dofs i = true -> mv n (bc_matrix dofs A) x i = x i.
Proof.
  intros Hi E. unfold mv. rewrite <- (sum_delta n i x Hi). apply sum_ext. intros j Hj.
  unfold bc_matrix, constrained_matrix. rewrite E. simpl. destruct (Nat.eqb i j); ring.
Qed.

Lemma bc_row_free A x i : i < n -> constrained dofs i = false ->
  mv n A x i = mv n (bc_matrix dofs A) x i + sum n (fun j => if constrained dofs j then A i j * x j else 0).
Proof.
  intros Hi E. unfold mv. rewrite <- sum_add. apply sum_ext. intros j Hj.
  unfold bc_matrix, constrained_matrix. rewrite E. simpl. destruct (constrained dofs j) eqn:Ej; [|ring].
  destruct (Nat.eqb_spec i j) as [->|]; [congruence|ring].
Qed.

Theorem bc_system A b x :
  symmetric_where_needed n A scale dofs vals ->
  (solves n (bc_matrix dofs A) (bc_rhs scale dofs vals A b) x <-> solves_constrained n A b scale dofs vals x).
Proof.
  intros Hsym.
  assert (Hcomb : forall i f, i < n -> (forall d v, prescribed scale dofs vals d = Some v -> f d = v) ->
            sum n (fun j => if constrained dofs j then A i j * f j else 0) =
            lsum (map (fun dv => A (fst dv) i * (scale * snd dv)) (combine dofs vals))).
  { intros i f Hi Hf.
    pose proof (sum_constrained n (A i) f (bcs_of scale dofs vals) compat_zdup) as E.
    rewrite bcs_fst in E by exact Hlen. rewrite E; [|exact Hd|].
    - unfold bcs_of. rewrite map_map. simpl. apply lsum_map_ext. intros [d v] Hin. simpl.
      symmetry. apply Hsym; assumption.
    - intros d v Hin. apply Hf. apply (prescribed_all scale dofs vals Hc). exact Hin. }
  assert (Hpc : forall i v, prescribed scale dofs vals i = Some v -> constrained dofs i = true).
  { intros i v Hp. destruct (constrained dofs i) eqn:E; [reflexivity|].
    apply (prescribed_none scale dofs vals i Hlen) in E. congruence. }
  split.
  - intros Hs. assert (Hpr : forall d v, prescribed scale dofs vals d = Some v -> x d = v).
    { intros d v Hp. pose proof (Hpc d v Hp) as Hcd.
      assert (Hdd : d < n) by (apply Hd; apply constrained_in; exact Hcd).
      rewrite <- (bc_row_fixed A x d Hdd Hcd). rewrite Hs by exact Hdd. unfold bc_rhs. rewrite Hp. reflexivity. }
    split; [exact Hpr|]. intros i Hi E. rewrite (bc_row_free A x i Hi E), (Hcomb i x Hi Hpr).
    rewrite Hs by exact Hi. unfold bc_rhs. rewrite (proj2 (prescribed_none scale dofs vals i Hlen) E). ring.
  - intros [Hpr Hfree] i Hi. unfold bc_rhs.
    destruct (prescribed scale dofs vals i) as [v|] eqn:Ep.
    + rewrite bc_row_fixed by eauto. apply Hpr. exact Ep.
    + apply prescribed_none in Ep; [|exact Hlen]. pose proof (bc_row_free A x i Hi Ep) as E.
      rewrite Hfree in E by auto. rewrite (Hcomb i x Hi Hpr) in E. rewrite E. ring.
Qed.
End Sys.

(** Homogeneous conditions: any matrix, any repetition of dofs. *)
Lemma zero_compatible (scale : K) (dofs : list nat) (vals : list K) :
  (forall v, In v vals -> scale * v = 0) -> compatible scale dofs vals.
Proof.
  intros Hz. unfold compatible.
  assert (H : forall d v, In (d, v) (combine dofs vals) -> scale * v = 0)
    by (intros d v Hin; apply Hz; eapply in_combine_r; eauto).
  clear Hz. induction (combine dofs vals) as [|[a v] l IH]; constructor.
  - apply Forall_forall. intros [b w] Hin _. simpl. split; eapply H; [left; reflexivity|right; exact Hin].
  - apply IH. intros; eapply H; right; eauto.
Qed.

Theorem bc_zero n (scale : K) (dofs : list nat) (vals : list K) A b x :
  List.length vals = List.length dofs -> (forall d, In d dofs -> d < n) ->
  (forall v, In v vals -> scale * v = 0) ->
  (solves n (bc_matrix dofs A) (bc_rhs scale dofs vals A b) x <->
   (forall d, In d dofs -> x d = 0) /\ (forall i, i < n -> ~ In i dofs -> mv n A x i = b i)).
Proof.
  intros Hl Hd Hz. rewrite bc_system; auto; [|apply zero_compatible; exact Hz|].
  2: { intros d v i Hin Hi. apply in_combine_r in Hin. rewrite (Hz _ Hin). ring. }
  unfold solves_constrained.
  assert (Hp : forall d v, prescribed scale dofs vals d = Some v -> v = 0 /\ In d dofs).
  { intros d v Hp. apply prescribed_some in Hp; [|exact Hl]. unfold bcs_of in Hp.
    apply in_map_iff in Hp as [[d' w] [E Hin]]. inversion E; subst. simpl.
    split; [apply Hz; eapply in_combine_r; eauto|eapply in_combine_l; eauto]. }
  split; intros [H1 H2]; split.
  - intros d Hin. destruct (prescribed scale dofs vals d) as [v|] eqn:Ep.
    + rewrite (H1 d v Ep). apply (Hp d v Ep).
    + apply prescribed_none in Ep; [|exact Hl]. apply constrained_in in Hin. congruence.
  - intros i Hi Hn. apply H2; [exact Hi|]. destruct (constrained dofs i) eqn:E; [|reflexivity].
    apply constrained_in in E. contradiction.
  - intros d v Ep. destruct (Hp d v Ep) as [-> Hin]. apply H1. exact Hin.
  - intros i Hi Hc'. apply H2; [exact Hi|]. intros Hin. apply constrained_in in Hin. congruence.
Qed.
End K.
