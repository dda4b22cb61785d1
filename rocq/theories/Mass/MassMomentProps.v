(** C118: mass, centre of gravity and moments of inertia of a design. *)
From Coq Require Import String Reals List Arith Bool Lia Lra.
From Verif Require Import Base.Field Base.Sums Base.Res Element.ElementModel Element.ElementSpec Element.ElementProof Penalty.PenaltyModel
  Residual.ResidualModel Residual.ResidualSpec Residual.ResidualProof Mass.MassModel Mass.MassSpec Mass.MassProof.
Import ListNotations.
Local Open Scope R_scope.

Local Open Scope string_scope.
Definition first_name (i : nat) : string := nth i ["FirstX"; "FirstY"; "FirstZ"] "".
Definition second_name (i j : nat) : string := nth j (nth i [["SecondXX"; "SecondXY"; "SecondXZ"]; [""; "SecondYY"; "SecondYZ"]; [""; ""; "SecondZZ"]] []) "".
Definition moment_names : list string :=
  ["Mass"; "FirstX"; "FirstY"; "FirstZ"; "SecondXX"; "SecondYY"; "SecondZZ"; "SecondXY"; "SecondXZ"; "SecondYZ"].

(** The functions return the moments of the point masses density * mean control * measure at the middles of the cells; a component the
    mesh does not have is read out of bounds; an unknown name is an error. *)
Theorem C118_value :
  forall d X Z cells, (1 <= d <= 3)%nat ->
    let b := design_body d X Z (map (fun c => (c_node c, c_mat c)) cells) in
    mass_moment d "Mass" X Z cells = Ok (mass_of b) /\
    (forall i, (i < 3)%nat -> mass_moment d (first_name i) X Z cells = if Nat.ltb i d then Ok (first_of b i) else UB) /\
    (forall i j, (i <= j < 3)%nat -> mass_moment d (second_name i j) X Z cells = if Nat.ltb j d then Ok (second_of b i j) else UB) /\
    (forall name, ~ In name moment_names -> mass_moment d name X Z cells = Throw).
Proof.
  intros d X Z cells Hd b. split; [|split; [|split]].
  - unfold mass_moment. cbn [moment_named String.eqb Ascii.eqb Bool.eqb rbind moment_fits]. f_equal. apply (moment_sum_spec d Mass). exact Hd.
  - intros i Hi. assert (E : moment_named (first_name i) = Ok (First i)) by (destruct i as [|[|[|i]]]; [reflexivity..|lia]).
    unfold mass_moment. rewrite E. cbn [rbind moment_fits]. destruct (Nat.ltb i d); [|reflexivity]. f_equal. apply (moment_sum_spec d (First i)). exact Hd.
  - intros i j Hij. assert (E : moment_named (second_name i j) = Ok (Second i j)).
    { destruct i as [|[|[|i]]]; [..|lia]; (destruct j as [|[|[|j]]]; [..|lia]); solve [reflexivity|lia]. }
    unfold mass_moment. rewrite E. cbn [rbind moment_fits].
    replace (Nat.ltb i d && Nat.ltb j d)%bool with (Nat.ltb j d) by (destruct (Nat.ltb_spec j d), (Nat.ltb_spec i d); cbn; lia || reflexivity).
    destruct (Nat.ltb j d); [|reflexivity]. f_equal. apply (moment_sum_spec d (Second i j)). exact Hd.
  - intros name H. unfold mass_moment, moment_named. unfold moment_names in H. cbn [In] in H.
    repeat match goal with |- context [String.eqb name ?s] => let E := fresh in destruct (String.eqb_spec name s) as [E|E]; [exfalso; apply H; rewrite E; tauto|] end.
    reflexivity.
Qed.
Print Assumptions C118_value.

(** The moments of a design, as the functions return them. *)
Definition measured (d : nat) X Z (cells : list (cell R)) (m : R) (f : nat -> R) (s : nat -> nat -> R) : Prop :=
  mass_moment d "Mass" X Z cells = Ok m /\ (forall i, (i < d)%nat -> mass_moment d (first_name i) X Z cells = Ok (f i)) /\
  (forall i j, (i <= j < d)%nat -> mass_moment d (second_name i j) X Z cells = Ok (s i j)).
Lemma measured_body d X Z cells : (1 <= d <= 3)%nat ->
  let b := design_body d X Z (map (fun c => (c_node c, c_mat c)) cells) in measured d X Z cells (mass_of b) (first_of b) (second_of b).
Proof.
  intros Hd b. destruct (C118_value d X Z cells Hd) as (H1 & H2 & H3 & _). split; [exact H1|]. split.
  - intros i Hi. rewrite H2 by lia. destruct (Nat.ltb_spec i d); [reflexivity|lia].
  - intros i j Hij. rewrite H3 by lia. destruct (Nat.ltb_spec j d); [reflexivity|lia].
Qed.
Lemma measured_inv d X Z cells m f s : (1 <= d <= 3)%nat -> measured d X Z cells m f s ->
  let b := design_body d X Z (map (fun c => (c_node c, c_mat c)) cells) in
  m = mass_of b /\ (forall i, (i < d)%nat -> f i = first_of b i) /\ (forall i j, (i <= j < d)%nat -> s i j = second_of b i j).
Proof.
  intros Hd (H1 & H2 & H3) b. destruct (measured_body d X Z cells Hd) as (G1 & G2 & G3). split; [|split].
  - rewrite H1 in G1. injection G1 as E. exact E.
  - intros i Hi. specialize (H2 i Hi). rewrite (G2 i Hi) in H2. injection H2 as E. symmetry. exact E.
  - intros i j Hij. specialize (H3 i j Hij). rewrite (G3 i j Hij) in H3. injection H3 as E. symmetry. exact E.
Qed.

Lemma measure_nonneg d x : (1 <= d <= 3)%nat -> 0 <= simplex_measure d x.
Proof. intros Hd. dims d; unfold simplex_measure; cbv zeta; match goal with |- context [Rabs ?t] => pose proof (Rabs_pos t) end; lra. Qed.
Lemma mean_nonneg d z : (forall a, (a <= d)%nat -> 0 <= z a) -> 0 <= mean d z.
Proof.
  intros H. unfold mean, rs. apply Rmult_le_pos; [|left; apply Rinv_0_lt_compat, lt_0_INR; lia].
  assert (P : forall n, (n <= S d)%nat -> 0 <= rsum n z); [|apply P; lia].
  induction n as [|n IH]; intros Hn; [right; reflexivity|]. cbn [sum]. change (@radd R_ring) with Rplus. specialize (IH ltac:(lia)). specialize (H n ltac:(lia)). lra.
Qed.
Definition nonnegative_design (d : nat) (Z : nat -> R) (cells : list (cell R)) : Prop :=
  forall c, In c cells -> 0 <= c_mat c /\ forall a, (a <= d)%nat -> 0 <= Z (c_node c a).
Lemma body_nonneg d X Z cells q : (1 <= d <= 3)%nat -> nonnegative_design d Z cells ->
  In q (design_body d X Z (map (fun c => (c_node c, c_mat c)) cells)) -> 0 <= fst q.
Proof.
  intros Hd H Hq. unfold design_body in Hq. rewrite map_map in Hq. apply in_map_iff in Hq. destruct Hq as (c & <- & Hc). cbn [fst snd].
  destruct (H c Hc) as [Hr Hz]. apply Rmult_le_pos; [apply Rmult_le_pos; [exact Hr|apply mean_nonneg; intros a Ha; apply Hz; exact Ha]|apply measure_nonneg; exact Hd].
Qed.

(** The mass is not negative, and the centre of gravity lies in every half-space that contains the nodes. *)
Theorem C118_centre :
  forall d X Z cells m f s, (1 <= d <= 3)%nat -> nonnegative_design d Z cells -> measured d X Z cells m f s ->
    0 <= m /\
    forall (n : nat -> R) (h : R), (forall c a, In c cells -> (a <= d)%nat -> rs d (fun i => n i * X (c_node c a) i) <= h) ->
      m <> 0 -> rs d (fun i => n i * (f i / m)) <= h.
Proof.
  intros d X Z cells m f s Hd Hn Hm. destruct (measured_inv _ _ _ _ _ _ _ Hd Hm) as (Em & Ef & _).
  set (b := design_body d X Z (map (fun c => (c_node c, c_mat c)) cells)) in *.
  assert (P : 0 <= m) by (rewrite Em; apply sum_over_nonneg; intros q Hq; exact (body_nonneg d X Z cells q Hd Hn Hq)).
  split; [exact P|]. intros n h Hh Hm0. apply Rmult_le_reg_l with m; [lra|].
  replace (m * rs d (fun i => n i * (f i / m))) with (sum_over b (fun q => fst q * rs d (fun i => n i * snd q i))).
  2:{ unfold rs. rewrite <- (rsum_scal_l d m). rewrite (sum_over_ext b _ (fun q => rsum d (fun i => n i * (fst q * snd q i)))).
      2:{ intros q _. rewrite <- rsum_scal_l. apply rsum_ext. intros. req. ring. }
      rewrite <- sum_over_swap. apply rsum_ext. intros i Hi. rewrite sum_over_scal. rewrite (Ef i Hi). unfold first_of. req. field. exact Hm0. }
  rewrite Em. unfold mass_of. rewrite sum_over_scal_r.
  enough (G : 0 <= sum_over b (fun q => fst q * h + (-1) * (fst q * rs d (fun i => n i * snd q i)))).
  { rewrite sum_over_add, sum_over_scal in G. lra. }
  apply sum_over_nonneg. intros q Hq. pose proof (body_nonneg d X Z cells q Hd Hn Hq) as Pq.
  replace (fst q * h + -1 * (fst q * rs d (fun i => n i * snd q i))) with (fst q * (h - rs d (fun i => n i * snd q i))) by ring.
  apply Rmult_le_pos; [exact Pq|]. apply Rge_le, Rge_minus, Rle_ge.
  unfold b, design_body in Hq. rewrite map_map in Hq. apply in_map_iff in Hq. destruct Hq as (c & <- & Hc). cbn [fst snd].
  assert (A : forall a, (a <= d)%nat -> rs d (fun i => n i * X (c_node c a) i) <= h) by (intros; apply Hh; assumption).
  clear - A Hd. unfold middle, rs in *. dims d; rsums.
  - pose proof (A 0%nat ltac:(lia)). pose proof (A 1%nat ltac:(lia)). revert H H0. rsums. cbn [INR]. intros. lra.
  - pose proof (A 0%nat ltac:(lia)). pose proof (A 1%nat ltac:(lia)). pose proof (A 2%nat ltac:(lia)). revert H H0 H1. rsums. cbn [INR]. intros. lra.
  - pose proof (A 0%nat ltac:(lia)). pose proof (A 1%nat ltac:(lia)). pose proof (A 2%nat ltac:(lia)). pose proof (A 3%nat ltac:(lia)). revert H H0 H1 H2. rsums. cbn [INR]. intros. lra.
Qed.
Print Assumptions C118_centre.

(** ** Moving the body *)
Definition moved (d : nat) (t : nat -> R) (A : nat -> nat -> R) (X : nat -> nat -> R) (n i : nat) : R := t i + rs d (fun j => A i j * X n j).
Lemma measure_moved d t A x : (1 <= d <= 3)%nat -> simplex_measure d (moved d t A x) = Rabs (det d A) * simplex_measure d x.
Proof.
  intros Hd. dims d; unfold simplex_measure, moved, rs; cbv zeta; rsums; cbn [det]; unfold Rdiv; rewrite <- ?Rmult_assoc, <- Rabs_mult; first [apply f_equal|apply (f_equal (fun y => y * _)), f_equal]; ring.
Qed.
Lemma middle_moved d t A x i : (1 <= d <= 3)%nat -> middle d (moved d t A x) i = t i + rs d (fun j => A i j * middle d x j).
Proof. intros Hd. dims d; unfold middle, moved, rs; rsums; cbn [INR]; field. Qed.
(** Under X' = t + A X all moments change as those of a body of the same material do: with |det A| for the volume. *)
Theorem C118_moved :
  forall d X Z cells t A, (1 <= d <= 3)%nat ->
    exists m f s, measured d X Z cells m f s /\ (forall i j, s i j = s j i) /\
      measured d (moved d t A X) Z cells (Rabs (det d A) * m) (fun i => Rabs (det d A) * (m * t i + rs d (fun j => A i j * f j)))
        (fun i j => Rabs (det d A) * (m * t i * t j + t i * rs d (fun k => A j k * f k) + t j * rs d (fun k => A i k * f k)
                                     + rs d (fun k => rs d (fun l => A i k * A j l * s k l)))).
Proof.
  intros d X Z cells t A Hd. set (b := design_body d X Z (map (fun c => (c_node c, c_mat c)) cells)).
  exists (mass_of b), (first_of b), (second_of b). split; [apply measured_body; exact Hd|]. split.
  { intros i j. unfold second_of. apply sum_over_ext. intros q _. ring. }
  set (b' := design_body d (moved d t A X) Z (map (fun c => (c_node c, c_mat c)) cells)).
  assert (S : forall F : R -> (nat -> R) -> R, (forall m p p', (forall i, p i = p' i) -> F m p = F m p') ->
    sum_over b' (fun q => F (fst q) (snd q)) = sum_over b (fun q => F (Rabs (det d A) * fst q) (fun i => t i + rs d (fun j => A i j * snd q j)))).
  { intros F HF. unfold b', b, design_body. rewrite !map_map, !sum_over_map. apply sum_over_ext. intros c _. cbn [fst snd].
    change (fun a i => moved d t A X (c_node c a) i) with (moved d t A (fun a i => X (c_node c a) i)).
    rewrite measure_moved by exact Hd. replace (c_mat c * mean d (fun a => Z (c_node c a)) * (Rabs (det d A) * simplex_measure d (fun a i => X (c_node c a) i)))
      with (Rabs (det d A) * (c_mat c * mean d (fun a => Z (c_node c a)) * simplex_measure d (fun a i => X (c_node c a) i))) by ring.
    apply HF. intros i. apply middle_moved. exact Hd. }
  destruct (measured_body d (moved d t A X) Z cells Hd) as (G1 & G2 & G3). fold b' in G1, G2, G3. split; [|split].
  - rewrite G1. f_equal. unfold mass_of. etransitivity; [exact (S (fun m _ => m) (fun _ _ _ _ => eq_refl))|]. apply (sum_over_scal b (Rabs (det d A)) fst).
  - intros i Hi. rewrite (G2 i Hi). f_equal. unfold first_of. rewrite (S (fun m p => m * p i)) by (intros; rewrite H; reflexivity).
    rewrite (sum_over_ext b _ (fun q => Rabs (det d A) * (fst q * t i + rs d (fun j => A i j * (fst q * snd q j))))).
    2:{ intros q _. unfold rs. rewrite Rmult_assoc. f_equal. rewrite Rmult_plus_distr_l. f_equal. rewrite <- rsum_scal_l. apply rsum_ext. intros. req. ring. }
    rewrite sum_over_scal. f_equal. rewrite sum_over_add. f_equal; [unfold mass_of; rewrite sum_over_scal_r; reflexivity|].
    unfold rs. rewrite <- sum_over_swap. apply rsum_ext. intros j Hj. rewrite sum_over_scal. reflexivity.
  - intros i j Hij. rewrite (G3 i j Hij). f_equal. unfold second_of at 1. rewrite (S (fun m p => m * (p i * p j))) by (intros ? ? ? H; rewrite !H; reflexivity).
    rewrite (sum_over_ext b _ (fun q => Rabs (det d A) * (t i * t j * fst q + (t i * rs d (fun k => A j k * (fst q * snd q k))
      + (t j * rs d (fun k => A i k * (fst q * snd q k)) + rs d (fun k => rs d (fun l => A i k * A j l * (fst q * (snd q k * snd q l))))))))).
    2:{ intros q _. clear. unfold rs. rewrite (rsum_ext d (fun k => A j k * (fst q * snd q k)) (fun k => fst q * (A j k * snd q k))) by (intros; req; ring).
        rewrite (rsum_ext d (fun k => A i k * (fst q * snd q k)) (fun k => fst q * (A i k * snd q k))) by (intros; req; ring).
        rewrite (rsum_ext d (fun k => rsum d (fun l => A i k * A j l * (fst q * (snd q k * snd q l)))) (fun k => (fst q * rsum d (fun l => A j l * snd q l)) * (A i k * snd q k))).
        2:{ intros k Hk. transitivity (rsum d (fun l => (A i k * fst q * snd q k) * (A j l * snd q l))); [apply rsum_ext; intros; req; ring|]. rewrite rsum_scal_l. req. ring. }
        rewrite !rsum_scal_l. ring. }
    rewrite sum_over_scal, !sum_over_add, !sum_over_scal. f_equal.
    unfold rs. rewrite <- !sum_over_swap.
    rewrite (rsum_ext d (fun k => sum_over b (fun c => A j k * (fst c * snd c k))) (fun k => A j k * first_of b k)) by (intros; rewrite sum_over_scal; reflexivity).
    rewrite (rsum_ext d (fun k => sum_over b (fun c => A i k * (fst c * snd c k))) (fun k => A i k * first_of b k)) by (intros; rewrite sum_over_scal; reflexivity).
    rewrite (rsum_ext d (fun k => sum_over b (fun c => rsum d (fun l => A i k * A j l * (fst c * (snd c k * snd c l))))) (fun k => rsum d (fun l => A i k * A j l * second_of b k l))).
    2:{ intros k Hk. rewrite <- sum_over_swap. apply rsum_ext. intros l Hl. rewrite sum_over_scal. reflexivity. }
    unfold mass_of. ring.
Qed.
Print Assumptions C118_moved.

Lemma det_orthonormal d A : (1 <= d <= 3)%nat -> orthonormal d A -> Rabs (det d A) = 1.
Proof.
  intros Hd H. assert (E : det d A * det d A = 1).
  { dims d.
    - pose proof (H 0%nat 0%nat ltac:(lia) ltac:(lia)) as G. unfold rs in G. revert G. rsums. cbn [Nat.eqb]. intros G. cbn [det]. lra.
    - pose proof (H 0%nat 0%nat ltac:(lia) ltac:(lia)) as G0. pose proof (H 0%nat 1%nat ltac:(lia) ltac:(lia)) as G1. pose proof (H 1%nat 1%nat ltac:(lia) ltac:(lia)) as G2.
      unfold rs in *. revert G0 G1 G2. rsums. cbn [Nat.eqb det]. intros.
      set (a := A 0%nat 0%nat) in *; set (b := A 0%nat 1%nat) in *; set (c := A 1%nat 0%nat) in *; set (e := A 1%nat 1%nat) in *.
      replace ((a * e - b * c) * (a * e - b * c)) with ((0 + a * a + c * c) * (0 + b * b + e * e) - (0 + a * b + c * e) * (0 + a * b + c * e)) by ring.
      rewrite G0, G1, G2. ring.
    - pose proof (H 0%nat 0%nat ltac:(lia) ltac:(lia)) as G00. pose proof (H 0%nat 1%nat ltac:(lia) ltac:(lia)) as G01. pose proof (H 0%nat 2%nat ltac:(lia) ltac:(lia)) as G02.
      pose proof (H 1%nat 1%nat ltac:(lia) ltac:(lia)) as G11. pose proof (H 1%nat 2%nat ltac:(lia) ltac:(lia)) as G12. pose proof (H 2%nat 2%nat ltac:(lia) ltac:(lia)) as G22.
      unfold rs in *. revert G00 G01 G02 G11 G12 G22. rsums. cbn [Nat.eqb det]. intros.
      set (a := A 0%nat 0%nat) in *; set (b := A 0%nat 1%nat) in *; set (c := A 0%nat 2%nat) in *; set (e := A 1%nat 0%nat) in *; set (f := A 1%nat 1%nat) in *;
      set (g := A 1%nat 2%nat) in *; set (h := A 2%nat 0%nat) in *; set (i := A 2%nat 1%nat) in *; set (j := A 2%nat 2%nat) in *.
      transitivity ((0 + a * a + e * e + h * h) * ((0 + b * b + f * f + i * i) * (0 + c * c + g * g + j * j) - (0 + b * c + f * g + i * j) * (0 + b * c + f * g + i * j))
        - (0 + a * b + e * f + h * i) * ((0 + a * b + e * f + h * i) * (0 + c * c + g * g + j * j) - (0 + b * c + f * g + i * j) * (0 + a * c + e * g + h * j))
        + (0 + a * c + e * g + h * j) * ((0 + a * b + e * f + h * i) * (0 + b * c + f * g + i * j) - (0 + b * b + f * f + i * i) * (0 + a * c + e * g + h * j))); [ring|].
      rewrite G00, G01, G02, G11, G12, G22. ring. }
  assert (F : Rabs (det d A) * Rabs (det d A) = 1) by (rewrite <- Rabs_mult, E; apply Rabs_R1).
  pose proof (Rabs_pos (det d A)). nra.
Qed.
(** A rigid motion keeps the mass; the centre of gravity moves with the body. *)
Theorem C118_rigid :
  forall d X Z cells t A, (1 <= d <= 3)%nat -> orthonormal d A ->
    exists m f f' s s', measured d X Z cells m f s /\ measured d (moved d t A X) Z cells m f' s' /\
      (m <> 0 -> forall i, (i < d)%nat -> f' i / m = t i + rs d (fun j => A i j * (f j / m))).
Proof.
  intros d X Z cells t A Hd HA. destruct (C118_moved d X Z cells t A Hd) as (m & f & s & H & _ & H').
  rewrite (det_orthonormal d A Hd HA) in H'. replace (1 * m) with m in H' by ring.
  eexists m, f, _, s, _. split; [exact H|]. split; [exact H'|]. intros Hm i Hi. cbv beta. unfold rs. transitivity (t i + / m * rsum d (fun j => A i j * f j)); [field; exact Hm|].
  f_equal. rewrite <- rsum_scal_l. apply rsum_ext. intros. req. field. exact Hm.
Qed.
Print Assumptions C118_rigid.

(** ** Inertia *)
(** The moment of inertia about the axis v is the sum of m |v x p|^2: never negative, and the moments obey the triangle inequality. *)
Theorem C118_inertia :
  forall X Z cells m f s, nonnegative_design 3 Z cells -> measured 3 X Z cells m f s ->
    let b := design_body 3 X Z (map (fun c => (c_node c, c_mat c)) cells) in
    inertia_of b 0 0 = s 1%nat 1%nat + s 2%nat 2%nat /\ inertia_of b 1 1 = s 0%nat 0%nat + s 2%nat 2%nat /\ inertia_of b 2 2 = s 0%nat 0%nat + s 1%nat 1%nat /\
    (forall i j, (i < j < 3)%nat -> inertia_of b i j = - s i j) /\
    (forall v, 0 <= rs 3 (fun i => rs 3 (fun j => v i * inertia_of b i j * v j))) /\
    (forall i j k, (i < 3)%nat -> (j < 3)%nat -> (k < 3)%nat -> i <> j -> i <> k -> j <> k -> inertia_of b i i <= inertia_of b j j + inertia_of b k k).
Proof.
  intros X Z cells m f s Hn Hm b. destruct (measured_inv 3 _ _ _ _ _ _ ltac:(lia) Hm) as (_ & _ & Es). fold b in Es.
  pose proof (fun q Hq => body_nonneg 3 X Z cells q ltac:(lia) Hn Hq) as Pb. fold b in Pb.
  assert (D : forall i, inertia_of b i i = sum_over b (fun q => fst q * (rs 3 (fun k => snd q k * snd q k) - snd q i * snd q i))).
  { intros i. unfold inertia_of. rewrite Nat.eqb_refl. reflexivity. }
  split; [|split; [|split; [|split; [|split]]]].
  1-3: rewrite D, !Es by lia; unfold second_of; rewrite <- sum_over_add; apply sum_over_ext; intros q _; unfold rs; rsums; ring.
  - intros i j Hij. unfold inertia_of. destruct (Nat.eqb_spec i j); [lia|]. rewrite Es by lia. reflexivity.
  - intros v. assert (E : rs 3 (fun i => rs 3 (fun j => v i * inertia_of b i j * v j)) =
      sum_over b (fun q => fst q * (Rsqr (v 0%nat * snd q 1%nat - v 1%nat * snd q 0%nat) + Rsqr (v 0%nat * snd q 2%nat - v 2%nat * snd q 0%nat) + Rsqr (v 1%nat * snd q 2%nat - v 2%nat * snd q 1%nat)))).
    { clear. unfold inertia_of, rs. induction b as [|q b IH]; [cbn; ring|]. cbn [sum_over]. rewrite <- IH. unfold Rsqr. rsums. cbn [Nat.eqb]. req. ring. }
    rewrite E. apply sum_over_nonneg. intros q Hq. apply Rmult_le_pos; [apply Pb; exact Hq|].
    repeat match goal with |- context [Rsqr ?t] => let H := fresh in pose proof (Rle_0_sqr t) as H; revert H; generalize (Rsqr t); intros end. lra.
  - intros i j k Hi Hj Hk H1 H2 H3. rewrite !D. rewrite <- sum_over_add.
    enough (G : 0 <= sum_over b (fun q => (fst q * (rs 3 (fun k0 => snd q k0 * snd q k0) - snd q j * snd q j) + fst q * (rs 3 (fun k0 => snd q k0 * snd q k0) - snd q k * snd q k))
      + (-1) * (fst q * (rs 3 (fun k0 => snd q k0 * snd q k0) - snd q i * snd q i)))) by (rewrite sum_over_add, sum_over_scal in G; lra).
    apply sum_over_nonneg. intros q Hq. replace (_ + _ * _) with (fst q * (2 * (snd q i * snd q i))).
    + apply Rmult_le_pos; [apply Pb; exact Hq|]. pose proof (Rle_0_sqr (snd q i)) as P. unfold Rsqr in P. lra.
    + unfold rs. rsums. destruct i as [|[|[|i]]]; [..|lia]; (destruct j as [|[|[|j]]]; [..|lia]); (destruct k as [|[|[|k]]]; [..|lia]); try lia; ring.
Qed.
Print Assumptions C118_inertia.

(** ** What the point masses miss *)
(** A solid tetrahedron with its middle on the x axis. *)
Definition spike_X (n i : nat) : R := match n, i with 1%nat, 0%nat => 1 | _, 0%nat => 0 | 2%nat, 1%nat => 3 | _, 1%nat => -1 | 3%nat, 2%nat => 3 | _, 2%nat => -1 | _, _ => 0 end.
Definition spike : list (cell R) := [mkCell (fun a => a) 1].
(** A moment of inertia of a solid body of positive mass is positive: not as computed. *)
Theorem C118_inertia_refuted :
  ~ (forall X Z cells m f s, nonnegative_design 3 Z cells -> measured 3 X Z cells m f s -> 0 < m -> 0 < s 1%nat 1%nat + s 2%nat 2%nat).
Proof.
  intros H. assert (N : nonnegative_design 3 (fun _ => 1) spike) by (intros c [<-|[]]; cbn [c_mat]; split; [lra|intros; lra]).
  specialize (H spike_X (fun _ => 1) spike _ _ _ N (measured_body 3 spike_X (fun _ => 1) spike ltac:(lia))).
  assert (M : mass_of (design_body 3 spike_X (fun _ => 1) (map (fun c => (c_node c, c_mat c)) spike)) = 8 / 3).
  { unfold mass_of, design_body, spike. cbn [map sum_over fst snd c_node c_mat]. unfold mean, simplex_measure, rs, spike_X. rsums. cbn [INR].
    match goal with |- context [Rabs ?t] => replace t with 16 by ring end. rewrite Rabs_pos_eq by lra. field. }
  rewrite M in H. specialize (H ltac:(lra)). revert H. unfold second_of, design_body, spike. cbn [map sum_over fst snd c_node c_mat].
  unfold middle, rs, spike_X. rsums. cbn [INR]. replace ((0 + -1 + -1 + 3 + -1) / (1 + 1 + 1 + 1)) with 0 by field.
  replace ((0 + -1 + -1 + -1 + 3) / (1 + 1 + 1 + 1)) with 0 by field. lra.
Qed.
Print Assumptions C118_inertia_refuted.

(** Nonnegative designs with mass exist: the spike, and its moments. *)
Example C118_instance :
  nonnegative_design 3 (fun _ => 1) spike /\ mass_moment 3 "Mass" spike_X (fun _ => 1) spike = Ok (8 / 3) /\
  mass_moment 3 "FirstX" spike_X (fun _ => 1) spike = Ok (2 / 3) /\ mass_moment 2 "FirstZ" spike_X (fun _ => 1) spike = UB /\
  orthonormal 3 (fun i j => match i, j with 0%nat, 1%nat => 1 | 1%nat, 0%nat => -1 | 2%nat, 2%nat => 1 | _, _ => 0 end).
Proof.
  assert (V : simplex_measure 3 (fun a i => spike_X a i) = 8 / 3).
  { unfold simplex_measure, spike_X. match goal with |- context [Rabs ?t] => replace t with 16 by ring end. rewrite Rabs_pos_eq by lra. field. }
  destruct (C118_value 3 spike_X (fun _ => 1) spike ltac:(lia)) as (H1 & H2 & _). split; [|split; [|split; [|split]]].
  - intros c [<-|[]]; cbn [c_mat]; split; [lra|intros; lra].
  - rewrite H1. f_equal. unfold mass_of, design_body, spike. cbn [map sum_over fst snd c_node c_mat]. rewrite V. unfold mean, rs. rsums. cbn [INR]. field.
  - change "FirstX" with (first_name 0). rewrite H2 by lia. cbn [Nat.ltb Nat.leb]. f_equal. unfold first_of, design_body, spike. cbn [map sum_over fst snd c_node c_mat]. rewrite V.
    unfold mean, middle, rs, spike_X. rsums. cbn [INR]. field.
  - reflexivity.
  - intros i j Hi Hj. unfold rs. rsums. destruct i as [|[|[|i]]]; [..|lia]; (destruct j as [|[|[|j]]]; [..|lia]); cbn [Nat.eqb]; req; ring.
Qed.
