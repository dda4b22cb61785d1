(** C50-C53, C72, C73: mesh maps. *)
From Coq Require Import Arith Lia ZArith QArith Qcanon List Bool Permutation Reals Lra.
From Verif Require Import Base.Field Base.Sums Base.ListUpd Base.Res Base.Scatter Base.Loops Sparse.CrsModel MeshMap.MapModel MeshMap.MapSpec MeshMap.TransposeProof MeshMap.MapProof.
Import ListNotations.
Local Open Scope nat_scope.

(** C50.  For every map matrix and optional filter, both filter orders, every schedule of the products and every order
    in which the two transpositions' atomic updates take effect, the transposed map is the adjoint of the map. *)
Theorem C50_adjoint : forall (K : CRing) sched o1 o2 o3 o4 n (M : sparse K) (F : option (sparse K)) filter_first (x y out out' : list K),
  fair sched -> perm_order o1 -> perm_order o2 -> perm_order o3 -> perm_order o4 ->
  wf n M -> match F with Some f => wf n f | None => True end ->
  length x = n -> length y = n -> length out = n -> length out' = n ->
  exists MT FT u v, create_transpose o1 o2 M = Ok MT /\ create_transpose_opt o3 o4 F = Ok FT /\
    map_apply sched M F filter_first x out = Ok u /\ map_applyT sched MT FT filter_first y out' = Ok v /\
    inner y u = inner v x.
Proof. intros K. exact (@apply_adjoint K). Qed.
Print Assumptions C50_adjoint.

(** The matrices the constructor builds satisfy the hypotheses. *)
Theorem C50_built : forall sched o1 o2 o3 o4 (m : tets R_field) parents loc radius floc indices offset filter_first (x y out out' : list R_ring),
  fair sched -> perm_order o1 -> perm_order o2 -> perm_order o3 -> perm_order o4 ->
  length parents = t_nverts m -> Forall (parent_ok m) parents ->
  (0 < radius)%R -> neighbours (t_nverts m) radius floc indices offset ->
  length x = t_nverts m -> length y = t_nverts m -> length out = t_nverts m -> length out' = t_nverts m ->
  exists M F MT FT u v, set_matrix sched m parents loc = Ok M /\ create_filter sched (t_nverts m) radius floc indices offset = Ok F /\
    create_transpose o1 o2 M = Ok MT /\ create_transpose_opt o3 o4 (Some F) = Ok FT /\
    map_apply sched M (Some F) filter_first x out = Ok u /\ map_applyT sched MT FT filter_first y out' = Ok v /\
    inner y u = inner v x.
Proof.
  intros sched o1 o2 o3 o4 m parents loc radius floc indices offset first x y out out' Hf H1 H2 H3 H4 Hl Hp Hr Hn Lx Ly Lo Lo'.
  destruct (set_matrix_ok sched m parents loc Hf Hl Hp) as (M & EM & WM & _).
  destruct (filter_ok sched (t_nverts m) radius floc indices offset Hf Hr Hn) as (F & EF & WF & _).
  destruct (apply_adjoint (K := R_ring) sched o1 o2 o3 o4 (t_nverts m) M (Some F) first x y out out' Hf H1 H2 H3 H4 WM WF Lx Ly Lo Lo') as (MT & FT & u & v & A & B & C & D & E).
  exists M, F, MT, FT, u, v. repeat split; assumption.
Qed.
Print Assumptions C50_built.

Definition M_ex : sparse Z_ring := mkS (K := Z_ring) [0; 2; 2; 5] [2; 0; 1; 2; 1] [3%Z; 5%Z; 7%Z; (-2)%Z; 4%Z] 3 3.
Definition F_ex : sparse Z_ring := mkS (K := Z_ring) [0; 1; 3; 4] [1; 0; 2; 2] [2%Z; 1%Z; 1%Z; 6%Z] 3 3.
Example C50_applies : wf 3 M_ex /\ wf 3 F_ex /\ perm_order (@rev (nat * nat)) /\
  match create_transpose (@rev _) (fun l => l) M_ex, create_transpose_opt (fun l => l) (@rev _) (Some F_ex) with
  | Ok MT, Ok FT =>
      map_apply (fun n => rev (seq 0 n)) M_ex (Some F_ex) true [1%Z; 2%Z; 3%Z] [0%Z; 0%Z; 0%Z] = Ok [74%Z; 0%Z; 8%Z] /\
      map_applyT (fun n => seq 0 n) MT FT true [1%Z; 10%Z; 100%Z] [0%Z; 0%Z; 0%Z] = Ok [1100%Z; 10%Z; (-82)%Z]
  | _, _ => False
  end /\ (1 * 74 + 10 * 0 + 100 * 8 = 1100 * 1 + 10 * 2 + (-82) * 3)%Z.
Proof.
  assert (W : forall M : sparse Z_ring, m_nrows M = 3 -> m_ncols M = 3 -> length (m_rowmap M) = 4 -> nth 0 (m_rowmap M) 0 = 0 ->
    forallb (fun i => Nat.leb (nth i (m_rowmap M) 0) (nth (S i) (m_rowmap M) 0)) (seq 0 3) = true -> nth 3 (m_rowmap M) 0 = length (m_colmap M) -> length (m_entries M) = length (m_colmap M) ->
    forallb (fun c => Nat.ltb c 3) (m_colmap M) = true -> wf 3 M).
  { intros M A1 A2 A3 A4 A5 A6 A7 A8. split; try assumption.
    - intros i Hi. rewrite forallb_forall in A5. apply Nat.leb_le. apply A5. apply in_seq. lia.
    - apply Forall_forall. intros c Hc. rewrite forallb_forall in A8. apply Nat.ltb_lt. apply A8. exact Hc. }
  split; [apply W; reflexivity|]. split; [apply W; reflexivity|]. split; [intros l; apply Permutation_sym, Permutation_rev|]. vm_compute. repeat split.
Qed.

(** C51.  For every radius > 0 and every list of neighbours within that radius that contains the vertex itself, the
    filter matrix exists, its weights are not negative, each row sums to one, and every filtered value lies between any
    bounds [lo], [hi] of the input over the neighbours; with lo = hi constants are preserved. *)
Local Open Scope R_scope.
Theorem C51_average : forall sched n radius loc indices offset,
  fair sched -> 0 < radius -> neighbours n radius loc indices offset ->
  exists F, create_filter sched n radius loc indices offset = Ok F /\ wf n F /\
    (forall i j, (i < n)%nat -> 0 <= entry F i j) /\
    (forall i, (i < n)%nat -> sum (K := R_ring) n (entry F i) = 1) /\
    forall (x out : list R_ring) lo hi i, length x = n -> length out = n -> (i < n)%nat ->
      (forall j, (j < n)%nat -> within radius (loc i) (loc j) -> lo <= nth j x 0 <= hi) ->
      exists u, map_matvec sched F x out = Ok u /\ lo <= nth i u 0 <= hi.
Proof.
  intros sched n radius loc indices offset Hf Hr Hn. destruct (filter_ok sched n radius loc indices offset Hf Hr Hn) as (F & E & W & HR).
  exists F. split; [exact E|]. split; [exact W|].
  assert (Hent : forall i j, (i < n)%nat -> entry F i j = rlsum (map (fun p => if Nat.eqb (fst p) j then snd p else 0) (nrow radius loc indices offset i))).
  { intros i j Hi. rewrite <- (HR i Hi), map_map. reflexivity. }
  split; [|split].
  - intros i j Hi. rewrite (Hent i j Hi). destruct (nrow_convex n radius loc indices offset i Hr Hn Hi) as [Hp _]. apply rlsum_nonneg.
    intros w Hw. apply in_map_iff in Hw. destruct Hw as ([c a] & <- & Hw). cbn. destruct (Nat.eqb c j); [exact (proj1 (Hp c a Hw))|lra].
  - intros i Hi. destruct (nrow_convex n radius loc indices offset i Hr Hn Hi) as [Hp Hs]. rewrite (sum_ext n (entry F i) _ (fun j _ => Hent i j Hi)).
    rewrite <- Hs. clear Hs. induction (nrow radius loc indices offset i) as [|[c a] l IH]; [apply (sum_0 (K := R_ring)); reflexivity|]. cbn [map lsum fst snd].
    transitivity (@radd R_ring (sum (K := R_ring) n (fun j => if Nat.eqb c j then a else 0)) (sum (K := R_ring) n (fun j => rlsum (map (fun p => if Nat.eqb (fst p) j then snd p else 0) l)))).
    { exact (sum_add (K := R_ring) n (fun j => if Nat.eqb c j then a else 0) (fun j => rlsum (map (fun p => if Nat.eqb (fst p) j then snd p else 0) l))). }
    rewrite IH by (intros c' a' H'; apply (Hp c' a'); right; exact H'). f_equal.
    destruct (Hp c a (or_introl eq_refl)) as (_ & Hc & _). clear - Hc. rewrite (sum_single (K := R_ring) n c); [rewrite Nat.eqb_refl; reflexivity|exact Hc|].
    intros j _ Hj. destruct (Nat.eqb_spec c j); [congruence|reflexivity].
  - intros x out lo hi i Lx Lo Hi Hb. exists (map (row_dot F x) (seq 0 n)). split; [apply matvec_ok; assumption|]. rewrite (nth_map_seq (row_dot F x) n i 0 Hi).
    rewrite (row_dot_row F x i _ (HR i Hi)). destruct (nrow_convex n radius loc indices offset i Hr Hn Hi) as [Hp Hs].
    assert (HC := convex_bounds (nrow radius loc indices offset i) x lo hi (fun c a H => proj1 (Hp c a H)) (fun c a H => Hb c (proj1 (proj2 (Hp c a H))) (proj2 (proj2 (Hp c a H))))).
    rewrite Hs, !Rmult_1_r in HC. exact HC.
Qed.
Print Assumptions C51_average.
(** A radius that is not positive is refused. *)
Theorem C51_radius : forall sched n radius loc indices offset, radius <= 0 -> create_filter sched n radius loc indices offset = Throw.
Proof. intros sched n radius loc indices offset H. unfold create_filter. destruct (Rle_dec radius 0); [reflexivity|contradiction]. Qed.
Print Assumptions C51_radius.

(** Two points at distance one, radius two: each has itself and the other as neighbours. *)
Definition loc_ex (i : nat) : rpoint := rpt (INR i) 0 0.
Example C51_applies : neighbours 2 2 loc_ex [0; 1; 1; 0]%nat [0; 2; 4]%nat.
Proof.
  assert (D : forall i j, (i < 2)%nat -> (j < 2)%nat -> within 2 (loc_ex i) (loc_ex j)).
  { intros i j Hi Hj. unfold within, loc_ex, rpt. cbn [px py pz]. rewrite <- (sqrt_square 2) by lra. apply sqrt_le_1_alt.
    assert (i = 0 \/ i = 1)%nat as [->| ->] by lia; assert (j = 0 \/ j = 1)%nat as [->| ->] by lia; cbn; lra. }
  assert (R4 : forall v, In v [0; 1; 1; 0]%nat -> (v < 2)%nat) by (intros v; cbn; lia).
  split.
  - reflexivity.
  - intros i Hi. assert (i = 0 \/ i = 1)%nat as [->| ->] by lia; cbn; lia.
  - intros i Hi. assert (i = 0 \/ i = 1)%nat as [->| ->] by lia; cbn; lia.
  - exact R4.
  - intros i o Hi Ho. apply D; [exact Hi|]. apply R4. apply nth_In. assert (i = 0 \/ i = 1)%nat as [->| ->] by lia; cbn in Ho |- *; lia.
  - intros i Hi. assert (i = 0 \/ i = 1)%nat as [->| ->] by lia; [exists 0%nat|exists 2%nat]; cbn; split; lia.
Qed.

(** C52, second half.  The barycentric coordinates sum to one and reproduce affine fields. *)
Theorem C52_basis : forall (K : CField) (p p0 p1 p2 p3 : point K),
  let '(b0, b1, b2, b3) := basis p p0 p1 p2 p3 in
  (b0 + b1 + b2 + b3 = 1)%K /\
  (volume6 p0 p1 p2 p3 <> r0 -> forall f : affine K,
    (b0 * at_point f p0 + b1 * at_point f p1 + b2 * at_point f p2 + b3 * at_point f p3 = at_point f p)%K).
Proof.
  intros K p p0 p1 p2 p3. pose proof (basis_sum p p0 p1 p2 p3) as H1. pose proof (fun f => basis_affine f p p0 p1 p2 p3) as H2. destruct (basis p p0 p1 p2 p3) as [[[b0 b1] b2] b3].
  split; [exact H1|]. intros Hv f. exact (H2 f Hv).
Qed.
Print Assumptions C52_basis.
(** The map built from any parents (with elements of non-zero volume) takes the nodal values of an affine field to the
    values of that field at the mapped locations. *)
Theorem C52_affine_fields : forall (K : CField) sched (m : tets K) parents loc (f : affine K) out,
  fair sched -> length parents = t_nverts m -> Forall (parent_ok m) parents -> length out = t_nverts m ->
  (forall i, (i < t_nverts m)%nat -> match nth i parents NotFound with
     | Elem e => match nth_error (t_cells m) e with Some (i0, i1, i2, i3) => volume6 (t_coord m i0) (t_coord m i1) (t_coord m i2) (t_coord m i3) <> r0 | None => False end
     | _ => loc i = t_coord m i end) ->
  exists M, set_matrix sched m parents loc = Ok M /\
    map_apply sched M None true (map (fun i => at_point f (t_coord m i)) (seq 0 (t_nverts m))) out = Ok (map (fun i => at_point f (loc i)) (seq 0 (t_nverts m))).
Proof. intros K. exact interpolation_affine. Qed.
Print Assumptions C52_affine_fields.

(** C52, first half is violated: two tetrahedra share a face, the point lies inside the first one (smallest
    coordinate 1/10), and the second one (smallest coordinate -7/20) is returned because it comes last. *)
Definition qc (n : Z) (d : positive) : Qc_field := Q2Qc (n # d).
Definition qp (x y z : Qc_field) : point Qc_field := mkP x y z.
Definition two_tets : tets Qc_field :=
  mkT (K := Qc_field) 5 [(0, 1, 2, 3); (4, 1, 2, 3)]%nat
    (fun i => match i with 0 => qp (qc 0 1) (qc 0 1) (qc 0 1) | 1 => qp (qc 1 1) (qc 0 1) (qc 0 1) | 2 => qp (qc 0 1) (qc 1 1) (qc 0 1) | 3 => qp (qc 0 1) (qc 0 1) (qc 1 1) | _ => qp (qc 1 1) (qc 1 1) (qc 1 1) end%nat).
Definition qc_eqb (a b : Qc_field) : bool := if Qc_eq_dec a b then true else false.
Definition qc_gt (a b : Qc_field) : bool := match Qccompare a b with Gt => true | _ => false end.
Definition inside_first : point Qc_field := qp (qc 1 10) (qc 1 10) (qc 1 10).
Theorem C52_best_refuted :
  ~ (forall (m : tets Qc_field) p mapped cands e0 c0 e c, find_parent qc_eqb qc_gt (qc (-100000000) 1) m p mapped cands = Ok (Elem e) ->
       In e0 cands -> nth_error (t_cells m) e0 = Some c0 -> nth_error (t_cells m) e = Some c ->
       qc_gt (min_basis qc_gt (elem_basis m mapped c0)) (min_basis qc_gt (elem_basis m mapped c)) = false).
Proof.
  intros H. specialize (H two_tets (qp (qc 1 1) (qc 1 1) (qc 1 1)) inside_first [0; 1]%nat 0%nat (0, 1, 2, 3)%nat 1%nat (4, 1, 2, 3)%nat).
  assert (E : qc_gt (min_basis qc_gt (elem_basis two_tets inside_first (0, 1, 2, 3)%nat)) (min_basis qc_gt (elem_basis two_tets inside_first (4, 1, 2, 3)%nat)) = true) by (vm_compute; reflexivity).
  rewrite H in E; [discriminate|vm_compute; reflexivity|left; reflexivity|reflexivity|reflexivity].
Qed.
Print Assumptions C52_best_refuted.
(** What holds: the result is the last candidate whose smallest coordinate exceeds the sentinel, and there is none
    exactly if no candidate does. *)
Theorem C52_search_partial : forall (K : CField) eqb gt (nf : K) (m : tets K) p mapped cands r,
  find_parent eqb gt nf m p mapped cands = Ok r ->
  let ok e := exists c, nth_error (t_cells m) e = Some c /\ gt (min_basis gt (elem_basis m mapped c)) nf = true in
  match r with
  | Unmoved => same_point eqb p mapped = true
  | NotFound => forall e, In e cands -> ~ ok e
  | Elem e => ok e /\ exists before after, cands = before ++ e :: after /\ forall e', In e' after -> ~ ok e'
  end.
Proof.
  intros K eqb gt nf m p mapped cands r H ok. unfold find_parent in H. destruct (same_point eqb p mapped) eqn:Es; [injection H as <-; reflexivity|].
  revert r H. induction cands as [|e0 cands IH] using rev_ind; intros r H.
  - cbn in H. unfold search in H. cbn in H. destruct (gt nf nf); injection H as <-; intros e [].
  - assert (Hm : forall l1 l2, mapR (fun e => let! c := ub (nth_error (t_cells m) e) in Ok (e, min_basis gt (elem_basis m mapped c))) (l1 ++ l2) =
        let! a := mapR (fun e => let! c := ub (nth_error (t_cells m) e) in Ok (e, min_basis gt (elem_basis m mapped c))) l1 in
        let! b := mapR (fun e => let! c := ub (nth_error (t_cells m) e) in Ok (e, min_basis gt (elem_basis m mapped c))) l2 in Ok (a ++ b)).
    { clear. intros l1 l2. induction l1 as [|a l1 IH]; [cbn; destruct (mapR _ l2); reflexivity|]. cbn [app mapR]. destruct (ub _); cbn [rbind]; try reflexivity. rewrite IH. destruct (mapR _ l1); cbn [rbind]; try reflexivity. destruct (mapR _ l2); reflexivity. }
    rewrite Hm in H. destruct (mapR _ cands) as [cs| |]; cbn [rbind] in H, IH; try discriminate. cbn [mapR] in H. destruct (nth_error (t_cells m) e0) as [c0|] eqn:E0; cbn [ub rbind] in H; [|discriminate].
    injection H as <-. rewrite search_last, filter_app, rev_app_distr. cbn [filter snd].
    destruct (gt (min_basis gt (elem_basis m mapped c0)) nf) eqn:G; cbn [rev app fst].
    + split; [exists c0; split; assumption|]. exists cands, []. split; [reflexivity|intros e' []].
    + assert (N0 : ~ ok e0) by (intros (c & Hc & Hg); rewrite E0 in Hc; injection Hc as <-; congruence).
      specialize (IH _ eq_refl). rewrite search_last in IH. destruct (rev (filter _ cs)) as [|[e sc] l].
      * intros e Hin. apply in_app_or in Hin. destruct Hin as [Hin|[<-|[]]]; [apply IH; exact Hin|exact N0].
      * cbn [fst] in IH |- *. destruct IH as [Ho (b & a & -> & Ha)]. split; [exact Ho|]. exists b, (a ++ [e0]). split; [rewrite <- app_assoc; reflexivity|].
        intros e' Hin. apply in_app_or in Hin. destruct Hin as [Hin|[<-|[]]]; [apply Ha; exact Hin|exact N0].
Qed.
Print Assumptions C52_search_partial.
Example C52_applies :
  volume6 (t_coord two_tets 4%nat) (t_coord two_tets 1%nat) (t_coord two_tets 2%nat) (t_coord two_tets 3%nat) <> r0 /\
  find_parent qc_eqb qc_gt (qc (-100000000) 1) two_tets (qp (qc 1 1) (qc 1 1) (qc 1 1)) inside_first [0; 1]%nat = Ok (Elem 1) /\
  Forall (parent_ok two_tets) [Unmoved; Unmoved; Unmoved; Unmoved; Elem 1].
Proof.
  split; [intros H; apply (f_equal this) in H; vm_compute in H; discriminate|]. split; [vm_compute; reflexivity|].
  repeat constructor; cbn. exists 4%nat, 1%nat, 2%nat, 3%nat. cbn. repeat split; lia.
Qed.

(** C53.  For every plane the constructor accepts, the map sends every point to the non-negative side, fixes the points
    there, sends mirror images to the same point, is idempotent, and moves a point only to its mirror image; a zero
    normal is refused. *)
Theorem C53_fold : forall origin normal pl, make_plane origin normal = Ok pl -> forall p,
  0 <= height origin normal (plane_map pl p) /\
  (0 <= height origin normal p -> plane_map pl p = p) /\
  plane_map pl (mirror origin normal p) = plane_map pl p /\
  plane_map pl (plane_map pl p) = plane_map pl p /\
  (plane_map pl p = p \/ plane_map pl p = mirror origin normal p).
Proof.
  intros o n pl E p. destruct (plane_map_spec o n pl E) as [Hn HS]. rewrite !HS. pose proof (height_mirror o n p Hn) as HM.
  destruct (Rlt_dec (height o n p) 0) as [h|h].
  - split; [lra|]. split; [lra|]. split; [destruct (Rlt_dec (height o n (mirror o n p)) 0); [lra|reflexivity]|]. split; [destruct (Rlt_dec (height o n (mirror o n p)) 0); [lra|reflexivity]|]. right. reflexivity.
  - split; [lra|]. split; [reflexivity|]. split; [|split; [destruct (Rlt_dec (height o n p) 0); [contradiction|reflexivity]|left; reflexivity]].
    destruct (Rlt_dec (height o n (mirror o n p)) 0) as [h'|h']; [apply mirror_mirror; exact Hn|].
    assert (H0 : height o n p = 0) by lra. unfold mirror. rewrite H0. unfold rpt. destruct p as [x y z]. cbn [px py pz]. f_equal; cbn; unfold Rdiv; ring.
Qed.
Print Assumptions C53_fold.
Theorem C53_normal : forall origin normal, (exists pl, make_plane origin normal = Ok pl) <-> normal <> rpt 0 0 0.
Proof.
  intros o n. unfold make_plane. destruct (Req_EM_T _ 0) as [h|h].
  - split; [intros [pl H]; discriminate|]. intros H. exfalso. apply H. destruct n as [x y z]. cbn [px py pz] in h.
    assert (Hx : x * x + y * y + z * z = 0) by exact h. assert (x = 0 /\ y = 0 /\ z = 0) as (-> & -> & ->); [|reflexivity].
    pose proof (Rle_0_sqr x) as Sx. pose proof (Rle_0_sqr y) as Sy. pose proof (Rle_0_sqr z) as Sz. unfold Rsqr in *. cbn in *.
    split; [apply Rsqr_0_uniq; unfold Rsqr; lra|split; apply Rsqr_0_uniq; unfold Rsqr; lra].
  - split; [|intros _; eexists; reflexivity]. intros _ ->. apply h. cbn. ring.
Qed.
Print Assumptions C53_normal.
Example C53_applies : exists pl, make_plane (rpt 1 0 0) (rpt 2 0 0) = Ok pl /\ plane_map pl (rpt (-3) 4 5) = rpt 5 4 5.
Proof.
  destruct (proj2 (C53_normal (rpt 1 0 0) (rpt 2 0 0))) as [pl E]; [unfold rpt; intros H; injection H; lra|]. exists pl. split; [exact E|].
  destruct (plane_map_spec _ _ _ E) as [_ HS]. rewrite HS. unfold height, mirror, sq_norm, rpt. cbn [px py pz].
  destruct (Rlt_dec _ 0) as [h|h]; [|exfalso; apply h; cbn; lra]. unfold height. cbn [px py pz]. f_equal; cbn; field.
Qed.

(** C72.  The enlarged bounding box of an element contains the element; so if the tree returns every element whose box
    contains the mapped point, a mapped point inside some element of non-zero volume always gets a parent. *)
Definition r_gt (a b : R_field) : bool := if Rlt_dec b a then true else false.
Definition corner (m : tets R_field) (c : nat * nat * nat * nat) (k : nat) : rpoint :=
  let '(i0, i1, i2, i3) := c in t_coord m (match k with 0 => i0 | 1 => i1 | 2 => i2 | _ => i3 end%nat).
Definition inside_elem (m : tets R_field) (p : rpoint) (c : nat * nat * nat * nat) : Prop :=
  volume6 (corner m c 0) (corner m c 1) (corner m c 2) (corner m c 3) <> 0 /\
  exists b0 b1 b2 b3 : R, 0 <= b0 /\ 0 <= b1 /\ 0 <= b2 /\ 0 <= b3 /\ b0 + b1 + b2 + b3 = 1 /\
    let comb (f : rpoint -> R) := b0 * f (corner m c 0) + b1 * f (corner m c 1) + b2 * f (corner m c 2) + b3 * f (corner m c 3) in
    (px p : R) = comb (@px R_field) /\ (py p : R) = comb (@py R_field) /\ (pz p : R) = comb (@pz R_field).
Lemma min_basis_min (b0 b1 b2 b3 : R) : min_basis (K := R_field) r_gt (b0, b1, b2, b3) = Rmin (Rmin b0 b1) (Rmin b2 b3).
Proof.
  unfold min_basis. assert (E : forall a b : R, (if r_gt a b then b else a) = Rmin a b).
  { intros a b. unfold r_gt. destruct (Rlt_dec b a); [rewrite Rmin_right by lra; reflexivity|rewrite Rmin_left by lra; reflexivity]. }
  rewrite !E, Rmin_assoc. reflexivity.
Qed.
(** The score of an element: it is the smallest of the four basis values, so it is non-negative exactly when the location lies in the element. *)
Theorem C52_score : forall b0 b1 b2 b3 : R,
  (forall m, m = min_basis (K := R_field) r_gt (b0, b1, b2, b3) <-> (m <= b0 /\ m <= b1 /\ m <= b2 /\ m <= b3 /\ (m = b0 \/ m = b1 \/ m = b2 \/ m = b3))%R) /\
  ((0 <= min_basis (K := R_field) r_gt (b0, b1, b2, b3))%R <-> (0 <= b0 /\ 0 <= b1 /\ 0 <= b2 /\ 0 <= b3)%R).
Proof.
  intros b0 b1 b2 b3. rewrite min_basis_min. unfold Rmin.
  split; [intros m|]; repeat (destruct (Rle_dec _ _)); split; intros; try lra; subst; repeat split; try lra; auto.
Qed.
Print Assumptions C52_score.
Theorem C72_found : forall eqb (m : tets R_field) p mapped cands,
  (forall e, In e cands -> (e < length (t_cells m))%nat) ->
  (forall e c, nth_error (t_cells m) e = Some c -> in_box mapped (corner m c 0) (corner m c 1) (corner m c 2) (corner m c 3) -> In e cands) ->
  (exists e c, nth_error (t_cells m) e = Some c /\ inside_elem m mapped c) ->
  exists r, find_parent eqb r_gt (-100000000)%R m p mapped cands = Ok r /\ r <> NotFound.
Proof.
  intros eqb m p mapped cands Hr Hbox (e & c & Ec & Hv & b0 & b1 & b2 & b3 & P0 & P1 & P2 & P3 & Hs & Ex & Ey & Ez).
  assert (HI : In e cands).
  { apply (Hbox e c Ec). unfold in_box. rewrite Ex, Ey, Ez. split; [|split]; apply box1_contains; assumption. }
  assert (Hbasis : elem_basis m mapped c = (b0, b1, b2, b3)).
  { destruct c as [[[i0 i1] i2] i3]. unfold elem_basis. cbn [corner] in *.
    destruct mapped as [x y z]. cbn [px py pz] in Ex, Ey, Ez. destruct (t_coord m i0) as [x0 y0 z0], (t_coord m i1) as [x1 y1 z1], (t_coord m i2) as [x2 y2 z2], (t_coord m i3) as [x3 y3 z3].
    unfold volume6 in Hv. unfold basis. cbn [px py pz] in *. assert (B3 : b3 = 1 - b0 - b1 - b2) by lra. cbn in Hv, x, y, z, x0, y0, z0, x1, y1, z1, x2, y2, z2, x3, y3, z3 |- *. subst x y z b3.
    f_equal; [f_equal; [f_equal|]|]; field; intros HD; apply Hv; rewrite <- HD; ring. }
  unfold find_parent. destruct (same_point eqb p mapped); [exists Unmoved; split; [reflexivity|discriminate]|].
  rewrite (mapR_ok _ (fun e => (e, min_basis r_gt (elem_basis m mapped (nth e (t_cells m) (0, 0, 0, 0)%nat))))).
  2:{ intros e' He'. rewrite (nth_error_some_nth _ e' (0, 0, 0, 0)%nat) by (apply Hr; exact He'). reflexivity. }
  cbn [rbind]. eexists. split; [reflexivity|]. rewrite search_last.
  destruct (rev _) as [|q l] eqn:E; [|discriminate]. exfalso.
  assert (Hin : In (e, min_basis r_gt (elem_basis m mapped c)) (filter (fun c => r_gt (snd c) (-100000000)%R) (map (fun e => (e, min_basis r_gt (elem_basis m mapped (nth e (t_cells m) (0, 0, 0, 0)%nat)))) cands))).
  { apply filter_In. split.
    - apply in_map_iff. exists e. split; [|exact HI]. f_equal. f_equal. f_equal. apply nth_error_nth. exact Ec.
    - cbn [snd]. rewrite Hbasis. assert (HM : 0 <= min_basis r_gt (b0, b1, b2, b3)).
      { unfold min_basis. destruct (r_gt b0 b1); [destruct (r_gt b1 b2)|destruct (r_gt b0 b2)]; match goal with |- 0 <= if r_gt ?a ?b then _ else _ => destruct (r_gt a b) end; assumption. }
      unfold r_gt at 1. destruct (Rlt_dec _ _) as [h|h]; [reflexivity|]. exfalso. apply h. apply Rlt_le_trans with 0; [lra|exact HM]. }
  apply in_rev in Hin. rewrite E in Hin. exact Hin.
Qed.
Print Assumptions C72_found.
Example C72_applies : exists m mapped cands e c, nth_error (t_cells m) e = Some c /\ inside_elem m mapped c /\ (forall e, In e cands -> (e < length (t_cells m))%nat) /\
  (forall e c, nth_error (t_cells m) e = Some c -> in_box mapped (corner m c 0) (corner m c 1) (corner m c 2) (corner m c 3) -> In e cands).
Proof.
  exists (mkT (K := R_field) 4 [(0, 1, 2, 3)]%nat (fun i => match i with 0 => rpt 0 0 0 | 1 => rpt 1 0 0 | 2 => rpt 0 1 0 | _ => rpt 0 0 1 end%nat)), (rpt (1/4) (1/4) (1/4)), [0%nat], 0%nat, (0, 1, 2, 3)%nat.
  split; [reflexivity|]. split.
  - split.
    + unfold volume6, rpt. cbn. lra.
    + exists (1/4), (1/4), (1/4), (1/4). unfold rpt. cbn. repeat split; lra.
  - split; [intros e [<-|[]]; cbn; lia|]. intros e c H _. destruct e as [|[|e]]; [left; reflexivity|discriminate|discriminate].
Qed.

(** C73.  A vertex whose image is found in no element should be reported or mapped to nothing.  Violated: whatever the
    mesh, the other vertices and the schedule, building the map then reads vertex data of element -2. *)
Theorem C73_outside_refuted : forall (K : CField) sched (m : tets K) parents loc i,
  fair sched -> (i < t_nverts m)%nat -> nth_error parents i = Some NotFound ->
  forall M, set_matrix sched m parents loc <> Ok M.
Proof. intros K. exact set_matrix_not_found. Qed.
Print Assumptions C73_outside_refuted.
Example C73_undefined : set_matrix (fun n => seq 0 n) two_tets [Unmoved; NotFound; Unmoved; Unmoved; Elem 1] (t_coord two_tets) = UB.
Proof. vm_compute. reflexivity. Qed.
(** What holds: with every vertex moved into an element or not at all, the map is built and well formed. *)
Theorem C73_built_partial : forall (K : CField) sched (m : tets K) parents loc,
  fair sched -> length parents = t_nverts m -> Forall (parent_ok m) parents ->
  exists M, set_matrix sched m parents loc = Ok M /\ wf (t_nverts m) M.
Proof. intros K sched m parents loc Hf Hl Hp. destruct (set_matrix_ok sched m parents loc Hf Hl Hp) as (M & E & W & _). exists M. split; assumption. Qed.
Print Assumptions C73_built_partial.
