(** What the properties of path-dependent criteria say. *)
From Coq Require Import String Reals List Arith.
From Verif Require Import Base.Field Base.Sums Element.ElementSpec Residual.ResidualSpec Blocks.BlocksModel Criteria.PathModel.
Import ListNotations.
Local Open Scope R_scope.

(** A tree of criteria means: multiplier times the sum over all n cells, weighted sums of that.  m gives the domain of each cell, a what the
    criterion sees of it. *)
Fixpoint meaning (n : nat) (m : nat -> string) (f : pcrit) (a : nat -> args) (t : R) {struct f} : R :=
  match f with
  | Basic b => b_mult b * rs n (fun c => b_value b (m c) (a c) t)
  | Weighted parts => (fix go (l : list (string * R * pcrit)) : R := match l with [] => 0 | (_, w, p) :: l => w * meaning n m p a t + go l end) parts
  end.
(** Every basic criterion in the tree satisfies P; no weighted sum is empty. *)
Fixpoint every (P : basic -> Prop) (f : pcrit) {struct f} : Prop :=
  match f with
  | Basic b => P b
  | Weighted parts => parts <> [] /\ (fix go (l : list (string * R * pcrit)) : Prop := match l with [] => True | (_, _, p) :: l => every P p /\ go l end) parts
  end.
(** a with variable v moved by s in direction w. *)
Definition var_eqb (v v' : var) : bool := match v, v' with VU, VU | VUp, VUp | VC, VC | VCp, VCp | VZ, VZ | VX, VX => true | _, _ => false end.
Definition move (v : var) (a : args) (w : nat -> R) (s : R) : args := fun v' k => if var_eqb v v' then a v' k + s * w k else a v' k.
(** The derivatives of a basic criterion are those of its cell values; n v numbers of variable v in a cell. *)
Definition differentiated (n : var -> nat) (b : basic) : Prop :=
  forall v dom a t w, derivable_pt_lim (fun s => b_value b dom (move v a w s) t) 0 (rs (n v) (fun k => b_der b v dom a t k * w k)).
(** How many numbers of each variable a cell with npc corners sees: nd per corner of the global states, nl local ones, one design value and d coordinates per corner. *)
Definition numbers (npc d nd nl : nat) (v : var) : nat :=
  match v with VU => npc * nd | VUp => npc * nd | VC => nl | VCp => nl | VZ => npc | VX => npc * d end.
(** The domain of each cell. *)
Definition domain_of (ds : list domain) (m : nat -> string) : Prop := forall d c, In d ds -> In c (dom_cells d) -> m c = dom_name d.
(** Last value written under a name. *)
Fixpoint last_write (w : list (string * R)) (name : string) : option R :=
  match w with [] => None | (n, x) :: w => match last_write w name with Some y => Some y | None => if String.eqb n name then Some x else None end end.
(** What cell c sees when the unknowns of a step are U, those of the step before Up, the local states C and Cp, control Z and positions X: its corners'
    numbers, corner by corner, and its own nl local states. *)
Record sees (npc d nd nl : nat) (conn : nat -> nat -> nat) (U Up C Cp Z X : nat -> R) (c : nat) (a : args) : Prop := {
  sees_U : forall b i, (b < npc)%nat -> (i < nd)%nat -> a VU (b * nd + i)%nat = U (conn c b * nd + i)%nat;
  sees_Up : forall b i, (b < npc)%nat -> (i < nd)%nat -> a VUp (b * nd + i)%nat = Up (conn c b * nd + i)%nat;
  sees_C : forall i, (i < nl)%nat -> a VC i = C (c * nl + i)%nat;
  sees_Cp : forall i, (i < nl)%nat -> a VCp i = Cp (c * nl + i)%nat;
  sees_Z : forall b, (b < npc)%nat -> a VZ b = Z (conn c b);
  sees_X : forall b i, (b < npc)%nat -> (i < d)%nat -> a VX (b * d + i)%nat = X (conn c b * d + i)%nat }.
