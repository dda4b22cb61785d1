(** Abstract scalars.

    [Plato::Scalar] is [double] (src/PlatoTypes.hpp); it is idealised as an
    exact commutative ring or field, given as an explicit record so that
    theorems quantify over all of them and definitions run on [Z] and [Qc]. *)
From Coq Require Import ZArith QArith Qcanon Reals Ring Field.

Record CRing : Type := mkCRing {
  rcar :> Type;
  r0 : rcar;
  r1 : rcar;
  radd : rcar -> rcar -> rcar;
  rmul : rcar -> rcar -> rcar;
  rsub : rcar -> rcar -> rcar;
  ropp : rcar -> rcar;
  r_th : ring_theory r0 r1 radd rmul rsub ropp (@eq rcar)
}.

Arguments r0 {_}. Arguments r1 {_}. Arguments radd {_} _ _.
Arguments rmul {_} _ _. Arguments rsub {_} _ _. Arguments ropp {_} _.

Record CField : Type := mkCField {
  fring :> CRing;
  fdiv : fring -> fring -> fring;
  finv : fring -> fring;
  f_th : field_theory (@r0 fring) r1 radd rmul rsub ropp fdiv finv (@eq fring)
}.

Arguments fdiv {_} _ _. Arguments finv {_} _.

Declare Scope K_scope.
Delimit Scope K_scope with K.
Bind Scope K_scope with rcar.
Notation "0" := r0 : K_scope.
Notation "1" := r1 : K_scope.
Infix "+" := radd : K_scope.
Infix "*" := rmul : K_scope.
Infix "-" := rsub : K_scope.
Notation "- x" := (ropp x) : K_scope.
Infix "/" := fdiv : K_scope.

(** Instances. *)
Definition Z_ring : CRing := mkCRing Z 0%Z 1%Z Z.add Z.mul Z.sub Z.opp Zth.

Definition Qc_ring : CRing :=
  mkCRing Qc 0%Qc 1%Qc Qcplus Qcmult Qcminus Qcopp Qcrt.
Definition Qc_field : CField := mkCField Qc_ring Qcdiv Qcinv Qcft.

Definition R_ring : CRing := mkCRing R 0%R 1%R Rplus Rmult Rminus Ropp RTheory.
Definition R_field : CField := mkCField R_ring Rdiv Rinv Rfield.
