(** What a user expects of the augmented Lagrangian criteria. *)
From Coq Require Import Reals List.
From Coquelicot Require Import Coquelicot.
From Verif Require Import Base.Field Base.Sums Penalty.PenaltyModel AugLag.AugLagModel.
Import ListNotations.
Local Open Scope R_scope.

(** Reasonable input data: positive limit, a penalty that grows (factor at least one) and starts positive, SIMP with a positive floor. *)
Definition sane (p : params) : Prop := 0 < p_limit p /\ 1 <= p_expand p /\ 0 < p_bound p /\ 0 < pn_min (p_simp p) <= 1.
Definition started (s : state) : Prop := 0 < s_mu s /\ forall i, 0 <= s_lam s i.
(** A cell violates its limit; how much, as the textbook one-sided penalty. *)
Definition violation (v : variant) (p : params) (m z : R) : R :=
  simp (p_simp p) z * match v with General => (Rmax 0 (m / p_limit p - 1)) ^ 4 + (Rmax 0 (m / p_limit p - 1)) ^ 2 | _ => (Rmax 0 (m / p_limit p - 1)) ^ 2 end.
(** The penalty used by call number [k] (counted from 0). *)
Definition penalty_at (p : params) (mu0 : R) (k : nat) : R := match k with O => mu0 | _ => Rmin (p_expand p ^ k * mu0) (p_bound p) end.
(** A dual number follows a curve: value and derivative at 0. *)
Definition tracks (f : R -> R) (d : dual) : Prop := fst d = f 0 /\ is_derive f 0 (snd d).
