(** Model of src/ApplyConstraints.hpp: imposing Dirichlet conditions on an
    assembled sparse system, with the parallel loops executed under an
    arbitrary interleaving of their individual memory operations. *)
From Coq Require Import Arith List Relations.
From Verif Require Import Base.Field Base.ListUpd.
Import ListNotations.

(** Structure of a [Plato::CrsMatrix] (src/alg/CrsMatrix.hpp): row map and
    column indices; they are not modified by the routines below. *)
Record graph := mkGraph { rowmap : list nat; colidx : list nat }.

Section Model.
Context {K : CRing}.
Local Open Scope K_scope.

(** The two mutable views: [tMatrixEntries] and [aRhs]. *)
Record mem := mkMem { ents : list K; rhs : list K }.

(** Individual memory operations of a work item.
    [Kokkos::atomic_add(&aRhs(c), -tMatrixEntries(o)*v)] (lines 51 and 118) is two
    operations: [Acc] reads the matrix entry, [Add] is the atomic addition
    of the product; other work items may run in between. *)
Inductive op :=
| Acc (o c : nat) (v : K)   (* read entries(o); then add -entries(o)*v to rhs(c) *)
| Add (c : nat) (x : K)     (* atomic: rhs(c) += x *)
| Wr (o : nat) (x : K)      (* entries(o) = x *)
| WrR (c : nat) (x : K).    (* rhs(c) = x *)

(** Executing one operation; [None] is an out-of-bounds access.  The second
    component is what the work item still has to do for this statement. *)
Definition exec_op (a : op) (m : mem) : option (mem * list op) :=
  match a with
  | Acc o c v => do e <- nth_error (ents m) o; Some (m, [Add c (- e * v)])
  | Add c x => do y <- nth_error (rhs m) c;
               do b <- upd (rhs m) c (y + x); Some (mkMem (ents m) b, [])
  | Wr o x => do e <- upd (ents m) o x; Some (mkMem e (rhs m), [])
  | WrR c x => do b <- upd (rhs m) c x; Some (mkMem (ents m) b, [])
  end.

(** A configuration: memory and the remaining program of every work item. *)
Definition cfg := (mem * list (list op))%type.

(** One step: any work item that is not finished performs its next operation. *)
Inductive step : cfg -> cfg -> Prop :=
| step_item m ts1 a p ts2 m' q :
    exec_op a m = Some (m', q) ->
    step (m, ts1 ++ (a :: p) :: ts2) (m', ts1 ++ (q ++ p) :: ts2).

(** Some work item is about to access memory out of bounds. *)
Definition faulty (c : cfg) : Prop :=
  exists a p, In (a :: p) (snd c) /\ exec_op a (fst c) = None.

Definition finished (c : cfg) : Prop := Forall (fun p => p = []) (snd c).

Definition steps := clos_refl_trans_1n cfg step.

(** [parallel_for] over work items [ts]: [m'] is a possible result. *)
Definition par_result (m : mem) (ts : list (list op)) (m' : mem) : Prop :=
  exists c, steps (m, ts) c /\ finished c /\ fst c = m'.

Fixpoint flat_mapM {A B} (f : A -> option (list B)) (l : list A) : option (list B) :=
  match l with
  | [] => Some []
  | x :: l' => do y <- f x; do ys <- flat_mapM f l'; Some (y ++ ys)
  end.

(** Offsets of row [i]: rowMap(i) .. rowMap(i+1)-1 (lines 102-104, 34-36). *)
Definition row_offsets (g : graph) (i : nat) : option (list nat) :=
  do a <- nth_error (rowmap g) i;
  do b <- nth_error (rowmap g) (S i);
  Some (range a b).

(** applyConstraints, lines 120-130: clear the (col,row) entries. *)
Definition clear_col (g : graph) (r c : nat) : option (list op) :=
  do os <- row_offsets g c;
  flat_mapM (fun o => do cc <- nth_error (colidx g) o;
                      Some (if Nat.eqb cc r then [Wr o 0] else [])) os.

(** applyConstraints, lines 100-133: the work item of one condition [dof r := v]. *)
Definition bc_item (g : graph) (r : nat) (v : K) : option (list op) :=
  do os <- row_offsets g r;
  flat_mapM (fun o =>
    do c <- nth_error (colidx g) o;
    if Nat.eqb c r then Some [Wr o 1]
    else do z <- clear_col g r c; Some (Acc o c v :: Wr o 0 :: z)) os.

(** applyBlockConstraints, lines 53-66: [lc] is the local column dof, [lr] the
    local row dof, [cn] the column node. *)
Definition clear_col_block (N : nat) (g : graph) (r lr cn lc : nat) : option (list op) :=
  do os <- row_offsets g cn;
  flat_mapM (fun o => do cc <- nth_error (colidx g) o;
                      Some (if Nat.eqb (N * cc + lr) r
                            then [Wr (N * N * o + N * lc + lr) 0] else [])) os.

(** applyBlockConstraints, lines 30-69: the work item of one condition. *)
Definition bc_item_block (N : nat) (g : graph) (r : nat) (v : K) : option (list op) :=
  let rn := (r / N)%nat in
  let lr := (r mod N)%nat in
  do os <- row_offsets g rn;
  flat_mapM (fun o =>
    flat_mapM (fun lc =>
      do cn <- nth_error (colidx g) o;
      let e := (N * N * o + N * lr + lc)%nat in
      let cd := (N * cn + lc)%nat in
      if Nat.eqb cd r then Some [Wr e 1]
      else do z <- clear_col_block N g r lr cn lc; Some (Acc e cd v :: Wr e 0 :: z))
    (seq 0 N)) os.

Fixpoint mapM {A B} (f : A -> option B) (l : list A) : option (list B) :=
  match l with
  | [] => Some []
  | x :: l' => do y <- f x; do ys <- mapM f l'; Some (y :: ys)
  end.

(** The list of conditions the loops iterate over: dof [aDirichletDofs[i]] and
    value [aScale*aDirichletValues[i]] (lines 30-31, 100-101); the loop bound is the
    length of the dof list (lines 24, 94). *)
Definition bc_list (scale : K) (dofs : list nat) (vals : list K) : option (list (nat * K)) :=
  mapM (fun i => do d <- nth_error dofs i; do v <- nth_error vals i; Some (d, scale * v))
       (seq 0 (length dofs)).

(** [apply_result item ...]: the possible results of the two consecutive parallel
    loops (lines 28-77 / 98-141), [item] building the work items of the first. *)
Definition apply_result (item : nat -> K -> option (list op))
           (scale : K) (dofs : list nat) (vals : list K) (m m' : mem) : Prop :=
  exists bcs ts m1,
    bc_list scale dofs vals = Some bcs /\
    mapM (fun dv => item (fst dv) (snd dv)) bcs = Some ts /\
    par_result m ts m1 /\
    par_result m1 (map (fun dv => [WrR (fst dv) (snd dv)]) bcs) m'.

(** [apply_safe]: no schedule of either loop runs into an out-of-bounds access. *)
Definition apply_safe (item : nat -> K -> option (list op))
           (scale : K) (dofs : list nat) (vals : list K) (m : mem) : Prop :=
  exists bcs ts,
    bc_list scale dofs vals = Some bcs /\
    mapM (fun dv => item (fst dv) (snd dv)) bcs = Some ts /\
    (forall c, steps (m, ts) c -> ~ faulty c) /\
    (forall m1, par_result m ts m1 ->
       forall c, steps (m1, map (fun dv => [WrR (fst dv) (snd dv)]) bcs) c -> ~ faulty c).

(** Plato::applyConstraints (lines 81-143). *)
Definition applyConstraints g := apply_result (bc_item g).
(** Plato::applyBlockConstraints (lines 10-79). *)
Definition applyBlockConstraints N g := apply_result (bc_item_block N g).

End Model.

Arguments mem : clear implicits.
Arguments op : clear implicits.
Arguments cfg : clear implicits.

(** A deterministic scheduler, used only to compute examples: always run the
    work item chosen by the list of picks (an item index), then finish the
    rest in order. *)
Section Sched.
Context {K : CRing}.

Fixpoint run_pick (i : nat) (ts : list (list (op K))) (m : mem K) {struct ts}
  : option (mem K * list (list (op K))) :=
  match ts, i with
  | [], _ => None
  | [] :: _, O => None
  | (a :: p) :: ts', O => do r <- exec_op a m; Some (fst r, (snd r ++ p) :: ts')
  | p :: ts', S i' => do r <- run_pick i' ts' m; Some (fst r, p :: snd r)
  end.

Fixpoint run_picks (l : list nat) (c : cfg K) : option (cfg K) :=
  match l with
  | [] => Some c
  | i :: l' => do r <- run_pick i (snd c) (fst c); run_picks l' r
  end.

Lemma run_pick_step i ts m m' ts' :
  run_pick i ts m = Some (m', ts') -> step (m, ts) (m', ts').
Proof.
  revert i m' ts'; induction ts as [|p ts IH]; intros i m' ts' H; simpl in H; [discriminate|].
  destruct p as [|a p], i as [|i]; try discriminate.
  - destruct (run_pick i ts m) as [[m1 ts1]|] eqn:E; cbn in H; [|discriminate]. inversion H; subst.
    apply IH in E. inversion E; subst.
    change ([] :: ts0 ++ (a :: p) :: ts2) with (([] :: ts0) ++ (a :: p) :: ts2).
    apply (step_item m ([] :: ts0)); assumption.
  - destruct (exec_op a m) as [[m1 q]|] eqn:E; cbn in H; [|discriminate]. inversion H; subst. simpl.
    apply (step_item m [] a p ts m' q). exact E.
  - destruct (run_pick i ts m) as [[m1 ts1]|] eqn:E; cbn in H; [|discriminate]. inversion H; subst.
    apply IH in E. inversion E; subst.
    change ((a :: p) :: ts0 ++ (a0 :: p0) :: ts2) with (((a :: p) :: ts0) ++ (a0 :: p0) :: ts2).
    apply (step_item m ((a :: p) :: ts0)); assumption.
Qed.

Lemma run_picks_steps l c c' : run_picks l c = Some c' -> steps c c'.
Proof.
  revert c; induction l as [|i l IH]; intros c H; simpl in H.
  - inversion H; constructor.
  - destruct (run_pick i (snd c) (fst c)) as [[m ts]|] eqn:E; cbn in H; [|discriminate].
    apply run_pick_step in E. destruct c as [m0 ts0]; simpl in *.
    econstructor; [exact E|]. apply IH. exact H.
Qed.
End Sched.
