(** Model of src/BLAS1.hpp, src/BLAS2.hpp and src/BLAS3.hpp.

    Exact arithmetic in a commutative ring, so that the isfinite checks always pass.  Arguments that are
    different views are assumed not to alias.  Each work item of a parallel loop is taken as atomic; the items of
    these loops write to different entries. *)
From Coq Require Import Arith List Bool Ascii.
From Verif Require Import Base.Field Base.Res Blas.View.
Import ListNotations.

Definition guard {A} (bad : bool) (k : res A) : res A := if bad then Throw else k.

Section K.
Context {K : CRing}.
Local Open Scope K_scope.
Notation vw := (view K).
Notation empty v := (Nat.eqb (vsize v) 0).
Notation differ a b := (negb (Nat.eqb a b)).

(** ** BLAS1 *)

(** dot (BLAS1.hpp lines 47-67). *)
Definition dot1 (sched : schedule) (v1 v2 : vw) : res K :=
  guard (differ (vsize v2) (vsize v1))
    (foldR (fun i s => let! a := vget v1 [i] in let! b := vget v2 [i] in Ok (s + a * b)) (sched (vsize v1)) r0).

(** fill (lines 95-115). *)
Definition fill1 (sched : schedule) (x : K) (v : vw) : res vw :=
  guard (empty v) (foldR (fun i v => vset v [i] x) (sched (vsize v)) v).

(** fill with a list of ordinals (lines 125-164): the loop runs over the size of the output. *)
Definition fill_ordinals (sched : schedule) (mult : K) (ordinals : view nat) (values out : vw) : res vw :=
  guard (empty out) (guard (empty values) (guard (differ (vsize ordinals) (vsize values))
    (foldR (fun i out => let! o := vget ordinals [i] in let! x := vget values [i] in vset out [o] (mult * x))
           (sched (vsize out)) out))).

(** copy (lines 172-188). *)
Definition copy1 (sched : schedule) (inp out : vw) : res vw :=
  guard (differ (vsize inp) (vsize out))
    (foldR (fun i out => let! x := vget inp [i] in vset out [i] x) (sched (vsize inp)) out).

(** scale (lines 196-216). *)
Definition scale1 (sched : schedule) (a : K) (v : vw) : res vw :=
  guard (empty v) (foldR (fun i v => vmodify v [i] (fun x => Ok (x * a))) (sched (vsize v)) v).

(** axpy (lines 225-241). *)
Definition axpy1 (sched : schedule) (a : K) (inp out : vw) : res vw :=
  guard (differ (vsize inp) (vsize out))
    (foldR (fun i out => vmodify out [i] (fun y => let! x := vget inp [i] in Ok (y + a * x))) (sched (vsize inp)) out).

(** update (lines 251-278). *)
Definition update1 (sched : schedule) (a : K) (inp : vw) (b : K) (out : vw) : res vw :=
  guard (differ (vsize inp) (vsize out))
    (foldR (fun i out => vmodify out [i] (fun y => let! x := vget inp [i] in Ok (a * x + b * y))) (sched (vsize inp)) out).

(** local_sum (lines 286-303). *)
Definition local_sum (sched : schedule) (inp : vw) : res K :=
  guard (empty inp) (foldR (fun i s => let! x := vget inp [i] in Ok (s + x)) (sched (vsize inp)) r0).

(** extract<NumStride, NumOffset> (lines 374-397). *)
Definition extract1 (stride offset : nat) (sched : schedule) (from to : vw) : res vw :=
  guard (empty from) (guard (empty to)
    (foldR (fun i to => let! x := vget from [(i * stride + offset)%nat] in vset to [i] x) (sched (extent to 0)) to)).

(** ** BLAS2 *)

(** fill (BLAS2.hpp lines 90-107). *)
Definition fill2 (sched : schedule) (a : K) (x : vw) : res vw :=
  guard (empty x)
    (foldR (fun c x => foldR (fun i x => vset x [c; i] a) (seq 0 (extent x 1)) x) (sched (extent x 0)) x).

(** scale (lines 119-136). *)
Definition scale2 (sched : schedule) (a : K) (x : vw) : res vw :=
  guard (empty x)
    (foldR (fun c v => foldR (fun i v => vmodify v [c; i] (fun e => Ok (a * e))) (seq 0 (extent x 1)) v) (sched (extent x 0)) x).

(** update (lines 150-180). *)
Definition update2 (sched : schedule) (a : K) (x : vw) (b : K) (y : vw) : res vw :=
  guard (differ (extent x 0) (extent y 0)) (guard (differ (extent x 1) (extent y 1))
    (foldR (fun c y => foldR (fun i y => vmodify y [c; i] (fun e => let! f := vget x [c; i] in Ok (a * f + b * e)))
                             (seq 0 (extent x 1)) y) (sched (extent x 0)) y)).

(** axpy<NumDofsPerNode, DofOffset> (lines 193-222). *)
Definition axpy2 (D off : nat) (sched : schedule) (a : K) (inp out : vw) : res vw :=
  guard (empty out) (guard (empty inp) (guard (differ (extent out 0) (extent inp 0))
    (foldR (fun c out => foldR (fun i out => vmodify out [c; (D * i + off)%nat]
                                  (fun e => let! f := vget inp [c; i] in Ok (a * e + f)))
                               (seq 0 (extent inp 1)) out) (sched (extent inp 0)) out))).

Definition is_N (t : ascii) : bool := Ascii.eqb t "N" || Ascii.eqb t "n".
Definition is_T (t : ascii) : bool := Ascii.eqb t "T" || Ascii.eqb t "t".

(** matrix_times_vector (lines 245-327).  Nested loops over (row, column) are one loop over the
    pairs in the same order. *)
Definition matrix_times_vector (sched : schedule) (trans : ascii) (a : K) (A x : vw) (b : K) (y : vw) : res vw :=
  guard (empty A) (guard (empty x) (guard (empty y)
  (guard (differ (extent A 0) (extent x 0)) (guard (differ (extent A 0) (extent y 0))
  (guard (negb (is_N trans || is_T trans))
    (let ncells := extent A 0 in let nrows := extent A 1 in let ncols := extent A 2 in
     if is_N trans then
       foldR (fun c y =>
         let! y := foldR (fun r y => vmodify y [c; r] (fun e => Ok (b * e))) (seq 0 nrows) y in
         foldR (fun rk y => vmodify y [c; fst rk]
                  (fun e => let! m := vget A [c; fst rk; snd rk] in let! f := vget x [c; snd rk] in Ok (e + a * m * f)))
               (list_prod (seq 0 nrows) (seq 0 ncols)) y) (sched ncells) y
     else
       foldR (fun c y =>
         let! y := foldR (fun k y => vmodify y [c; k] (fun e => Ok (b * e))) (seq 0 ncols) y in
         foldR (fun rk y => vmodify y [c; snd rk]
                  (fun e => let! m := vget A [c; fst rk; snd rk] in let! f := vget x [c; fst rk] in Ok (e + a * m * f)))
               (list_prod (seq 0 nrows) (seq 0 ncols)) y) (sched ncells) y)))))).

(** ** BLAS3 *)

(** identity<NumRows, NumCols> (BLAS3.hpp lines 41-63). *)
Definition identity3 (R C : nat) (sched : schedule) (ncells : nat) (M : vw) : res vw :=
  guard (empty M) (guard (differ (extent M 0) ncells)
    (foldR (fun c M => foldR (fun rk M => vset M [c; fst rk; snd rk] (if Nat.eqb (fst rk) (snd rk) then r1 else r0))
                             (list_prod (seq 0 R) (seq 0 C)) M) (sched ncells) M)).

(** fill<NumRows, NumCols> (lines 123-147). *)
Definition fill3 (R C : nat) (sched : schedule) (ncells : nat) (a : K) (M : vw) : res vw :=
  guard (empty M) (guard (Nat.eqb ncells 0)
    (foldR (fun c M => foldR (fun rk M => vset M [c; fst rk; snd rk] a)
                             (list_prod (seq 0 R) (seq 0 C)) M) (sched ncells) M)).

(** update (lines 162-203). *)
Definition update3 (sched : schedule) (ncells : nat) (a : K) (A : vw) (b : K) (B : vw) : res vw :=
  guard (empty A) (guard (empty B) (guard (differ (extent A 1) (extent B 1)) (guard (differ (extent A 2) (extent B 2))
  (guard (Nat.eqb ncells 0)
    (foldR (fun c B => foldR (fun rk B => vmodify B [c; fst rk; snd rk]
                                 (fun e => let! f := vget A [c; fst rk; snd rk] in Ok (a * f + b * e)))
                             (list_prod (seq 0 (extent A 1)) (seq 0 (extent A 2))) B) (sched ncells) B))))).

(** multiply (lines 224-312). *)
Definition multiply3 (sched : schedule) (ncells : nat) (a : K) (A B : vw) (b : K) (C : vw) : res vw :=
  guard (empty A) (guard (empty B) (guard (empty C)
  (guard (differ (extent A 2) (extent B 1)) (guard (differ (extent A 1) (extent C 1)) (guard (differ (extent B 2) (extent C 2))
  (guard (differ (extent A 0) ncells) (guard (differ (extent B 0) ncells) (guard (differ (extent C 0) ncells)
    (let nr := extent C 1 in let nc := extent C 2 in let ni := extent A 2 in
     foldR (fun c C =>
       let! C := foldR (fun rk C => vmodify C [c; fst rk; snd rk] (fun e => Ok (b * e))) (list_prod (seq 0 nr) (seq 0 nc)) C in
       foldR (fun rk C =>
         let! t := foldR (fun m s => let! x := vget A [c; fst rk; m] in let! y := vget B [c; m; snd rk] in Ok (s + a * x * y))
                         (seq 0 ni) r0 in
         vmodify C [c; fst rk; snd rk] (fun e => Ok (e + t))) (list_prod (seq 0 nr) (seq 0 nc)) C) (sched ncells) C))))))))).
End K.
