(** What an optimiser's continuation call must do. *)
From Coq Require Import Reals String List.
From Verif Require Import Base.Res Update.UpdateModel.
Import ListNotations.

Section S.
Variables (St Inp : Type) (step : string -> Inp -> St -> St).
(** The state reached by advancing once per call, in the order of the calls. *)
Definition once_per_call (d : string) (h : list Inp) (s : St) : St := fold_left (fun s i => step d i s) h s.
Definition twice_per_call (d : string) (h : list Inp) (s : St) : St := fold_left (fun s i => step d i (step d i s)) h s.
(** After the calls [h] every evaluator (value and each derivative, [ks]) of every block [doms] has advanced exactly once per call. *)
Definition all_once (ks doms : list string) (init : string -> St) (f : fn St) (h : list Inp) : Prop :=
  forall k d, In k ks -> In d doms -> evaluator St f k d = Ok (once_per_call d h (init d)).
(** The value and all the derivatives of a block use the same state. *)
Definition consistent (ks doms : list string) (f : fn St) : Prop :=
  forall k k' d, In k ks -> In k' ks -> In d doms -> evaluator St f k d = evaluator St f k' d /\ exists s, evaluator St f k d = Ok s.
End S.
