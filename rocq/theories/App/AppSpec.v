(** What the application's updates, operations and exports should do, said without the code's helpers. *)
From Coq Require Import Reals String Ascii List Arith ZArith Bool.
From Verif Require Import App.AppModel.
Import ListNotations.

(** The entry a path of names leads to. *)
Fixpoint lookup (ps : plist) (path : list string) : option entry :=
  match path with
  | [] => Some (Sub ps)
  | n :: rest => match get ps n with
                 | None => None
                 | Some e => match rest with [] => Some e | _ => match e with Sub l => lookup l rest | _ => None end end
                 end
  end.
Definition prefix_of (p q : list string) : Prop := exists r, q = p ++ r.
Definition related (p q : list string) : Prop := prefix_of p q \/ prefix_of q p.

Fixpoint no_char (c : ascii) (s : string) : Prop := match s with EmptyString => True | String a s' => a <> c /\ no_char c s' end.
(** The target "[A]:[B]:leaf". *)
Fixpoint render (lists : list string) (leaf : string) : string :=
  match lists with [] => leaf | n :: rest => append (append "[" (append n "]")) (String ":"%char (render rest leaf)) end.

(** The parameters a conditional operation saw at its last call, from the events alone. *)
Fixpoint seen (name : string) (evs : list event) (now : list R) (last : option (list R)) : option (list R) :=
  match evs with
  | [] => last
  | Compute n :: l => seen name l now (if String.eqb n name then Some now else last)
  | Parameters v :: l => seen name l v last
  | _ :: l => seen name l now last
  end.
(** At every call of the operation the parameters are not empty. *)
Fixpoint never_empty (name : string) (evs : list event) (now : list R) : Prop :=
  match evs with
  | [] => True
  | Compute n :: l => (n = name -> now <> []) /\ never_empty name l now
  | Parameters v :: l => never_empty name l v
  | _ :: l => never_empty name l now
  end.

(** The data in the map when each step was saved, from the commands alone: the current contents by name, then the saved ones. *)
Section DataMap.
Context {A : Type}.
Definition contents := string -> option (list A).
(** Cell [c] of a domain's cells takes the value the domain gives it, the others keep theirs. *)
Definition overwrite (zero : A) (cells : list nat) (v old : list A) : list A :=
  map (fun c => match rev (filter (fun k => Nat.eqb (nth k cells 0) c) (seq 0 (List.length cells))) with k :: _ => nth k v zero | [] => nth c old zero end) (seq 0 (List.length old)).
Definition assign (cur : contents) (name : string) (v : list A) : contents := fun n => if String.eqb n name then Some v else cur n.
Fixpoint story (zero : A) (nelems : nat) (l : list dcmd) (cur : contents) (sv : list contents) : contents * list contents :=
  match l with
  | [] => (cur, sv)
  | Put n v :: l' => story zero nelems l' (assign cur n v) sv
  | PutDomain n cells v :: l' => story zero nelems l' (assign cur n (overwrite zero cells v (match cur n with Some old => old | None => repeat zero nelems end))) sv
  | Save :: l' => story zero nelems l' cur (sv ++ [cur])
  | Clear :: l' => story zero nelems l' cur []
  end.
End DataMap.
