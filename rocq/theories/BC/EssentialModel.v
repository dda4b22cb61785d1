(** Model of src/EssentialBCs.hpp: from the input list of essential boundary
    conditions to the arrays of constrained dofs and values. *)
From Coq Require Import Arith List String.
From Verif Require Import Base.Field Base.ListUpd Base.Res.
Import ListNotations.

Section Model.
Context {K : CField}.
Local Open Scope K_scope.

(** The "Type" parameter (lines 238-249, 273-290). *)
Inductive bc_type := ZeroValue | FixedValue | TimeDependent | OtherType.

(** A sublist of the "Essential Boundary Conditions" block: the parameters read
    by lines 32-33, 37-52, 238, 273-274; [None] is an absent parameter.  "Function"
    holds the function of time its expression denotes. *)
Record bc_entry := mkEntry {
  e_type : option bc_type;
  e_sides : option string;
  e_index : option nat;
  e_value : option K;
  e_function : option (K -> K)
}.

(** class EssentialBC (lines 104-109); [value]/[mMathExpr] is a sum. *)
Record ebc := mkEbc { ns_name : string; dof : nat; spec : K + (K -> K); scaleFactor : K }.

(** EssentialBC constructor (lines 26-54). *)
Definition ebc_ctor (e : bc_entry) (scale : K) : res ebc :=
  match e_sides e with
  | None => Throw
  | Some s =>
    let d := match e_index e with Some i => i | None => 0%nat end in
    match e_value e, e_function e with
    | Some _, Some _ => Throw
    | None, None => Throw
    | Some v, None => Ok (mkEbc s d (inl v) scale)
    | None, Some f => Ok (mkEbc s d (inr f) scale)
    end
  end.

(** EssentialBCs constructor, one iteration (lines 265-292); the constructor without
    a scale table (lines 222-252) is the case of the empty table. *)
Definition bcs_ctor1 (table : list (nat * K)) (e : bc_entry) : res ebc :=
  let index := match e_index e with Some i => i | None => 0%nat end in
  let scale := match find (fun p => Nat.eqb (fst p) index) table with
               | Some p => snd p | None => 1 end in
  match e_type e with
  | Some ZeroValue =>
      ebc_ctor (mkEntry (e_type e) (e_sides e) (e_index e) (Some 0) (e_function e)) scale
  | Some FixedValue | Some TimeDependent => ebc_ctor e scale
  | Some OtherType | None => Throw
  end.

Definition bcs_ctor (table : list (nat * K)) (es : list bc_entry) : res (list ebc) :=
  mapR (bcs_ctor1 table) es.

(** get_value (lines 91-100). *)
Definition get_value (b : ebc) (t : K) : K :=
  match spec b with
  | inl v => v / scaleFactor b
  | inr f => f t / scaleFactor b
  end.

(** Node sets of the mesh: name to list of local node ids. *)
Definition nodesets := string -> option (list nat).

(** get_length (lines 157-180). *)
Definition get_length (ns : nodesets) (b : ebc) : res nat :=
  match ns (ns_name b) with None => Throw | Some l => Ok (List.length l) end.

(** EssentialBC::get (lines 184-218): [sched] orders the parallel loop. *)
Definition ebc_get (sched : schedule) (N : nat) (ns : nodesets) (b : ebc) (offset : nat) (t : K)
           (s : list nat * list K) : res (list nat * list K) :=
  match ns (ns_name b) with
  | None => Throw
  | Some nodes =>
    let v := get_value b t in
    foldR (fun i s =>
      let! node := ub (nth_error nodes i) in
      let! ds := ub (upd (fst s) (offset + i) (N * node + dof b)%nat) in
      let! vs := ub (upd (snd s) (offset + i) v) in
      Ok (ds, vs)) (sched (List.length nodes)) s
  end.

(** Kokkos::resize: keep the common prefix; new entries are [d]. *)
Definition resize {A} (d : A) (n : nat) (l : list A) : list A :=
  firstn n l ++ repeat d (n - List.length l).

(** EssentialBCs::get (lines 298-318). *)
Definition bcs_get (sched : schedule) (N : nat) (ns : nodesets) (bs : list ebc) (t : K)
           (s : list nat * list K) : res (list nat * list K) :=
  let! num := foldR (fun b n => let! l := get_length ns b in Ok (n + l)%nat) bs 0%nat in
  let s0 := (resize 0%nat num (fst s), resize 0 num (snd s)) in
  let! r := foldR (fun b os =>
      let! s' := ebc_get sched N ns b (fst os) t (snd os) in
      let! l := get_length ns b in
      Ok ((fst os + l)%nat, s')) bs (0%nat, s0) in
  Ok (snd r).

(** Construct from the input, then get. *)
Definition essential_bcs (sched : schedule) (N : nat) (table : list (nat * K)) (es : list bc_entry)
           (ns : nodesets) (t : K) (s : list nat * list K) : res (list nat * list K) :=
  let! bs := bcs_ctor table es in bcs_get sched N ns bs t s.

End Model.
Arguments bc_entry : clear implicits.
Arguments ebc : clear implicits.
