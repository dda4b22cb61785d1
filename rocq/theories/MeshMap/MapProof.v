(** Building the interpolation and filter matrices; basis; search; symmetry plane. *)
From Coq Require Import Arith Lia List Bool Permutation Ring Field Reals Lra.
From Verif Require Import Base.Field Base.Sums Base.ListUpd Base.Res Base.Scatter Base.Loops Sparse.CrsModel MeshMap.MapModel MeshMap.MapSpec MeshMap.TransposeProof.
Import ListNotations.

Lemma nsum_slot_inj f j m j' m' : m < f j -> m' < f j' -> nsum f j + m = nsum f j' + m' -> j = j' /\ m = m'.
Proof.
  intros Hm Hm' E. destruct (Nat.lt_trichotomy j j') as [H|[->|H]].
  - pose proof (nsum_mono f (S j) j' H) as H1. cbn in H1. lia.
  - split; [reflexivity|lia].
  - pose proof (nsum_mono f (S j') j H) as H1. cbn in H1. lia.
Qed.
Lemma nsum_slot_lt f n j m : j < n -> m < f j -> nsum f j + m < nsum f n.
Proof. intros Hj Hm. pose proof (nsum_mono f (S j) n Hj) as H. cbn in H. lia. Qed.
Lemma number_in {A} (l : list A) : forall k p x, In (p, x) (number k l) <-> exists m, p = k + m /\ nth_error l m = Some x.
Proof.
  induction l as [|a l IH]; intros k p x; cbn [number].
  - split; [contradiction|]. intros (m & _ & H). destruct m; discriminate.
  - cbn [In]. rewrite IH. split.
    + intros [H|(m & -> & H)]; [inversion H; subst; exists 0; split; [lia|reflexivity]|exists (S m); split; [lia|exact H]].
    + intros (m & -> & H). destruct m as [|m]; [left; inversion H; f_equal; lia|right; exists m; split; [lia|exact H]].
Qed.
Lemma fold_add_nsum f n : fold_left Nat.add (map f (seq 0 n)) 0 = nsum f n.
Proof. induction n as [|n IH]; [reflexivity|]. rewrite seq_S, map_app, fold_left_app, IH. reflexivity. Qed.
Lemma nsum_cond f n : nsum (fun i => if Nat.ltb i n then f i else 0) n = nsum f n.
Proof. apply nsum_ext. intros i Hi. apply Nat.ltb_lt in Hi. rewrite Hi. reflexivity. Qed.
Lemma exscan_counts f n : exscan 0 (S n) (map f (seq 0 n) ++ [0]) = Ok (map (nsum f) (seq 0 (S n))).
Proof.
  replace (map f (seq 0 n) ++ [0]) with (map (fun i => if Nat.ltb i n then f i else 0) (seq 0 (S n))).
  - rewrite (exscan_spec _ (S n) 0 (S n) 0 eq_refl). f_equal. apply map_ext_in. intros j Hj. apply in_seq in Hj. cbn [Nat.add]. apply nsum_ext. intros i Hi. assert (E : Nat.ltb i n = true) by (apply Nat.ltb_lt; lia). rewrite E. reflexivity.
  - rewrite seq_S, map_app. cbn [map Nat.add]. rewrite Nat.ltb_irrefl. f_equal. apply map_ext_in. intros i Hi. apply in_seq in Hi. assert (E : Nat.ltb i n = true) by (apply Nat.ltb_lt; lia). rewrite E. reflexivity.
Qed.

Section Build.
Context {K : CRing}.
Add Ring KringBU : (r_th K).
Local Open Scope K_scope.

Lemma build_ok sched n (cnt : nat -> nat) (row : nat -> list (nat * K)) item : fair sched ->
  (forall i, (i < n)%nat -> item i = Ok (number (nsum cnt i) (row i))) ->
  (forall i, (i < n)%nat -> length (row i) = cnt i) ->
  (forall i c a, (i < n)%nat -> In (c, a) (row i) -> (c < n)%nat) ->
  exists ce, par_write sched n item (repeat (0%nat, 0) (nsum cnt n)) = Ok ce /\
    let M := mkS (map (nsum cnt) (seq 0 (S n))) (map fst ce) (map snd ce) n n in
    wf n M /\ forall i, (i < n)%nat ->
      map (fun e => (nth e (m_colmap M) 0%nat, nth e (m_entries M) 0)) (range (nth i (m_rowmap M) 0%nat) (nth (S i) (m_rowmap M) 0%nat)) = row i.
Proof.
  intros Hf Hi Hl Hc.
  destruct (par_write_spec sched n item (fun i => number (nsum cnt i) (row i)) (repeat (0%nat, 0) (nsum cnt n)) Hf Hi) as (ce & E & L & H1 & _).
  - intros i p x Hin Hp. apply number_in in Hp. destruct Hp as (m & -> & Hm). rewrite repeat_length. apply nsum_slot_lt; [exact Hin|]. rewrite <- (Hl i Hin). apply nth_error_Some. congruence.
  - intros i j p x y Hin Hjn Hp Hq. apply number_in in Hp, Hq. destruct Hp as (m & -> & Hm). destruct Hq as (m' & E & Hm').
    assert (Hx : (m < cnt i)%nat) by (rewrite <- (Hl i Hin); apply nth_error_Some; congruence).
    assert (Hy : (m' < cnt j)%nat) by (rewrite <- (Hl j Hjn); apply nth_error_Some; congruence).
    apply (nsum_slot_inj cnt) in E; [|exact Hx|exact Hy]. destruct E as [-> ->]. congruence.
  - rewrite repeat_length in L. exists ce. split; [exact E|]. intros M.
    assert (Hat : forall i m, (i < n)%nat -> (m < cnt i)%nat -> nth_error ce (nsum cnt i + m) = nth_error (row i) m).
    { intros i m Hin Hm. destruct (nth_error (row i) m) as [x|] eqn:Ex; [|apply nth_error_None in Ex; rewrite (Hl i Hin) in Ex; lia].
      apply (H1 i); [exact Hin|]. apply number_in. exists m. split; [reflexivity|exact Ex]. }
    split.
    + split; cbn [M m_rowmap m_colmap m_entries m_nrows m_ncols]; try reflexivity.
      * rewrite map_length, seq_length. reflexivity.
      * intros i Hin. rewrite !nth_map_seq by lia. cbn. lia.
      * rewrite nth_map_seq by lia. rewrite map_length. lia.
      * rewrite !map_length. reflexivity.
      * apply Forall_forall. intros c Hcin. apply in_map_iff in Hcin. destruct Hcin as ([c' a] & <- & Hin'). cbn. apply In_nth_error in Hin'. destruct Hin' as (s & Hs).
        assert (Hsl : (s < nsum cnt n)%nat) by (rewrite <- L; apply nth_error_Some; congruence).
        assert (Hslot : exists i m, (i < n)%nat /\ (m < cnt i)%nat /\ s = (nsum cnt i + m)%nat).
        { clear - Hsl. induction n as [|k IH]; [cbn in Hsl; lia|]. cbn in Hsl. destruct (Nat.ltb_spec s (nsum cnt k)) as [Hlt|Hge].
          - destruct (IH Hlt) as (i & m & ? & ? & ?). exists i, m. repeat split; auto.
          - exists k, (s - nsum cnt k)%nat. repeat split; lia. }
        destruct Hslot as (i & m & Hin & Hm & ->). rewrite (Hat i m Hin Hm) in Hs. apply nth_error_In in Hs. apply (Hc i c' a Hin Hs).
    + intros i Hin. cbn [M m_rowmap m_colmap m_entries]. rewrite !nth_map_seq by lia. cbn [nsum]. rewrite range_seq, map_seq_shift.
      apply nth_ext with (d := (0%nat, 0)) (d' := (0%nat, 0)); [rewrite map_length, seq_length; symmetry; apply Hl; exact Hin|].
      intros m Hm. rewrite map_length, seq_length in Hm. rewrite nth_map_seq by exact Hm.
      assert (Hce : (nsum cnt i + m < length ce)%nat) by (rewrite L; apply nsum_slot_lt; assumption).
      pose proof (Hat i m Hin Hm) as Ha. rewrite (nth_error_some_nth _ _ (0%nat, 0) Hce) in Ha. rewrite (nth_error_some_nth _ m (0%nat, 0)) in Ha by (rewrite (Hl i Hin); exact Hm). injection Ha as Ha'.
      etransitivity; [|exact Ha']. etransitivity; [|symmetry; apply surjective_pairing].
      f_equal; [exact (map_nth fst ce (0%nat, 0) _)|exact (map_nth snd ce (0%nat, 0) _)].
Qed.
Lemma row_dot_row (M : sparse K) x i row :
  map (fun e => (nth e (m_colmap M) 0%nat, nth e (m_entries M) 0)) (range (nth i (m_rowmap M) 0%nat) (nth (S i) (m_rowmap M) 0%nat)) = row ->
  row_dot M x i = lsum (map (fun p => snd p * nth (fst p) x 0) row).
Proof. intros <-. rewrite map_map. reflexivity. Qed.
End Build.

Section Interp.
Context {K : CField}.
Add Field KfieldIN : (f_th K).
Local Open Scope K_scope.

Theorem basis_sum (p p0 p1 p2 p3 : point K) : let '(b0, b1, b2, b3) := basis p p0 p1 p2 p3 in b0 + b1 + b2 + b3 = 1.
Proof. unfold basis. cbv zeta. ring. Qed.
Theorem basis_affine (f : affine K) (p p0 p1 p2 p3 : point K) : volume6 p0 p1 p2 p3 <> 0 ->
  let '(b0, b1, b2, b3) := basis p p0 p1 p2 p3 in
  b0 * at_point f p0 + b1 * at_point f p1 + b2 * at_point f p2 + b3 * at_point f p3 = at_point f p.
Proof.
  unfold volume6, basis, at_point. cbv zeta. destruct p as [x y z], p0 as [x0 y0 z0], p1 as [x1 y1 z1], p2 as [x2 y2 z2], p3 as [x3 y3 z3], f as [c fx fy fz]. cbn [px py pz f_c f_x f_y f_z].
  intros H. field. intros E. apply H. rewrite <- E. ring.
Qed.

Definition row_of (m : tets K) (parents : list parent) (loc : nat -> point K) (i : nat) : list (nat * K) :=
  match nth i parents NotFound with
  | Unmoved => [(i, 1)]
  | NotFound => []
  | Elem e => match nth_error (t_cells m) e with
              | Some (i0, i1, i2, i3) => let '(b0, b1, b2, b3) := elem_basis m (loc i) (i0, i1, i2, i3) in [(i0, b0); (i1, b1); (i2, b2); (i3, b3)]
              | None => []
              end
  end.
Theorem set_matrix_ok sched (m : tets K) parents loc : fair sched -> length parents = t_nverts m -> Forall (parent_ok m) parents ->
  exists M, set_matrix sched m parents loc = Ok M /\ wf (t_nverts m) M /\
    forall x i, (i < t_nverts m)%nat -> row_dot M x i = lsum (map (fun p => snd p * nth (fst p) x 0) (row_of m parents loc i)).
Proof.
  intros Hf Hl Hp. set (n := t_nverts m) in *. unfold set_matrix. fold n.
  set (cnt := fun i => parent_count (nth i parents NotFound)).
  rewrite (mapR_ok _ cnt).
  2:{ intros i Hi. apply in_seq in Hi. rewrite (nth_error_some_nth _ i NotFound) by lia. reflexivity. }
  cbn [rbind]. rewrite exscan_counts. cbn [rbind]. rewrite fold_add_nsum.
  assert (Hpi : forall i, (i < n)%nat -> parent_ok m (nth i parents NotFound)) by (intros i Hi; rewrite Forall_forall in Hp; apply Hp; apply nth_In; lia).
  destruct (build_ok sched n cnt (row_of m parents loc) (matrix_row m parents loc (map (nsum cnt) (seq 0 (S n)))) Hf) as (ce & E & W & HR).
  - intros i Hi. specialize (Hpi i Hi). unfold matrix_row, row_of. rewrite nth_error_map_seq by lia. cbn [ub rbind]. rewrite (nth_error_some_nth _ i NotFound) by lia. cbn [ub rbind].
    destruct (nth i parents NotFound) as [| |e]; [reflexivity|contradiction|]. destruct Hpi as (i0 & i1 & i2 & i3 & Ec & _). rewrite Ec. cbn [ub rbind]. destruct (elem_basis m (loc i) (i0, i1, i2, i3)) as [[[b0 b1] b2] b3].
    cbn [number]. rewrite !Nat.add_succ_r, Nat.add_0_r. reflexivity.
  - intros i Hi. specialize (Hpi i Hi). unfold row_of, cnt. destruct (nth i parents NotFound) as [| |e]; [reflexivity|contradiction|]. destruct Hpi as (i0 & i1 & i2 & i3 & Ec & _). rewrite Ec. destruct (elem_basis _ _ _) as [[[b0 b1] b2] b3]. reflexivity.
  - intros i c a Hi Hin. specialize (Hpi i Hi). unfold row_of in Hin. destruct (nth i parents NotFound) as [| |e]; [destruct Hin as [Hin|[]]; inversion Hin; subst; exact Hi|contradiction|].
    destruct Hpi as (i0 & i1 & i2 & i3 & Ec & B0 & B1 & B2 & B3). rewrite Ec in Hin. destruct (elem_basis _ _ _) as [[[b0 b1] b2] b3]. cbn in Hin.
    destruct Hin as [Hin|[Hin|[Hin|[Hin|[]]]]]; inversion Hin; subst; assumption.
  - rewrite E. cbn [rbind]. eexists. split; [reflexivity|]. split; [exact W|]. intros x i Hi. apply row_dot_row. apply HR. exact Hi.
Qed.
(** A vertex without parent element makes the construction undefined. *)
Theorem set_matrix_not_found sched (m : tets K) parents loc i : fair sched -> (i < t_nverts m)%nat -> nth_error parents i = Some NotFound -> forall M, set_matrix sched m parents loc <> Ok M.
Proof.
  intros Hf Hi Hp M. unfold set_matrix. destruct (mapR _ _) as [c| |]; cbn [rbind]; try discriminate. destruct (exscan _ _ _) as [rm| |]; cbn [rbind]; try discriminate.
  assert (H : forall v w, par_write sched (t_nverts m) (matrix_row m parents loc rm) v <> Ok w); [|destruct (par_write _ _ _ _) as [w| |] eqn:E; cbn [rbind]; try discriminate; exfalso; exact (H _ _ E)].
  unfold par_write. assert (Hin : In i (sched (t_nverts m))) by (apply fair_in; assumption).
  revert Hin. generalize (sched (t_nverts m)). intros l. induction l as [|j l IH]; intros Hin v w; [contradiction|]. cbn [foldR].
  destruct Hin as [->|Hin].
  - unfold matrix_row at 1. destruct (nth_error rm i); cbn [ub rbind]; [|discriminate]. rewrite Hp. cbn [ub rbind]. discriminate.
  - destruct (let! ws := matrix_row m parents loc rm j in write_all ws v) as [v'| |]; cbn [rbind]; try discriminate. apply IH. exact Hin.
Qed.

(** Affine fields. *)
Theorem interpolation_affine sched (m : tets K) parents loc (f : affine K) out : fair sched -> length parents = t_nverts m -> Forall (parent_ok m) parents -> length out = t_nverts m ->
  (forall i, (i < t_nverts m)%nat -> match nth i parents NotFound with
     | Elem e => match nth_error (t_cells m) e with Some (i0, i1, i2, i3) => volume6 (t_coord m i0) (t_coord m i1) (t_coord m i2) (t_coord m i3) <> 0 | None => False end
     | _ => loc i = t_coord m i end) ->
  exists M, set_matrix sched m parents loc = Ok M /\
    map_apply sched M None true (map (fun i => at_point f (t_coord m i)) (seq 0 (t_nverts m))) out = Ok (map (fun i => at_point f (loc i)) (seq 0 (t_nverts m))).
Proof.
  intros Hf Hl Hp Ho Hv. destruct (set_matrix_ok sched m parents loc Hf Hl Hp) as (M & E & W & HR). exists M. split; [exact E|]. cbn [map_apply].
  rewrite (matvec_ok sched (t_nverts m) M); [|exact Hf|exact W|rewrite map_length, seq_length; reflexivity|exact Ho]. f_equal. apply map_ext_in. intros i Hi. apply in_seq in Hi.
  rewrite HR by lia. specialize (Hv i ltac:(lia)). unfold row_of. rewrite Forall_forall in Hp. assert (Hpi : parent_ok m (nth i parents NotFound)) by (apply Hp; apply nth_In; lia).
  destruct (nth i parents NotFound) as [| |e]; [|contradiction|].
  - cbn [map lsum fst snd]. rewrite nth_map_seq by lia. rewrite Hv. ring.
  - destruct Hpi as (i0 & i1 & i2 & i3 & Ec & B0 & B1 & B2 & B3). rewrite Ec in Hv |- *. unfold elem_basis. pose proof (basis_affine f (loc i) _ _ _ _ Hv) as HB.
    destruct (basis _ _ _ _ _) as [[[b0 b1] b2] b3]. cbn [map lsum fst snd]. rewrite !nth_map_seq by lia. rewrite <- HB. ring.
Qed.

(** What the search returns: the last acceptable candidate. *)
Theorem search_last gt nf (scored : list (nat * K)) :
  search gt nf scored = match rev (filter (fun c => gt (snd c) nf) scored) with c :: _ => Elem (fst c) | [] => NotFound end.
Proof.
  unfold search.
  assert (H : fold_left (fun (s : K * parent) c => if gt (snd c) nf then (snd c, Elem (fst c)) else s) scored (nf, NotFound) =
     match rev (filter (fun c => gt (snd c) nf) scored) with c :: _ => (snd c, Elem (fst c)) | [] => (nf, NotFound) end).
  { induction scored as [|c l IH] using rev_ind; [reflexivity|]. rewrite fold_left_app, filter_app, rev_app_distr, IH. cbn. destruct (gt (snd c) nf); reflexivity. }
  rewrite H. destruct (rev _) as [|c l] eqn:E; [destruct (gt nf nf); reflexivity|].
  assert (Hc : In c (filter (fun c => gt (snd c) nf) scored)) by (apply in_rev; rewrite E; left; reflexivity). apply filter_In in Hc. destruct Hc as [_ Hc]. rewrite Hc. reflexivity.
Qed.
End Interp.

(** ---- Over the reals ---- *)
Local Open Scope R_scope.
Notation rlsum := (lsum (K := R_ring)).

Lemma lsum_fold (l : list R) : forall a, fold_left Rplus l a = a + rlsum l.
Proof. induction l as [|x l IH]; intros a; cbn [fold_left lsum]; [cbn; ring|]. rewrite IH. cbn. ring. Qed.
Lemma rlsum_div (l : list R) t : rlsum (map (fun w => w / t) l) = rlsum l / t.
Proof. induction l as [|x l IH]; [cbn; unfold Rdiv; ring|]. cbn [map lsum]. rewrite IH. cbn. unfold Rdiv. ring. Qed.
Lemma rlsum_nonneg (l : list R) : (forall w, In w l -> 0 <= w) -> 0 <= rlsum l.
Proof. induction l as [|x l IH]; intros H; [cbn; lra|]. assert (Hx := H x (or_introl eq_refl)). assert (Hl : 0 <= rlsum l) by (apply IH; intros w Hw; apply H; right; exact Hw). cbn [lsum]. change (0 <= x + rlsum l). lra. Qed.
Lemma rlsum_pos (l : list R) x : (forall w, In w l -> 0 <= w) -> In x l -> 0 < x -> 0 < rlsum l.
Proof.
  induction l as [|y l IH]; intros H Hin Hx; [contradiction|]. assert (Hy := H y (or_introl eq_refl)). assert (Hl : forall w, In w l -> 0 <= w) by (intros w Hw; apply H; right; exact Hw). cbn [lsum]. change (0 < y + rlsum l).
  destruct Hin as [->|Hin]; [pose proof (rlsum_nonneg l Hl); lra|]. specialize (IH Hl Hin Hx). lra.
Qed.
(** A convex combination stays between the bounds of what is combined. *)
Lemma convex_bounds (ws : list (nat * R)) (x : list R) lo hi :
  (forall c a, In (c, a) ws -> 0 <= a) -> (forall c a, In (c, a) ws -> lo <= nth c x 0 <= hi) ->
  lo * rlsum (map snd ws) <= rlsum (map (fun p => snd p * nth (fst p) x 0) ws) <= hi * rlsum (map snd ws).
Proof.
  induction ws as [|[c a] ws IH]; intros Ha Hb; [cbn; lra|]. cbn [map lsum fst snd].
  assert (H1 := Ha c a (or_introl eq_refl)). assert (H2 := Hb c a (or_introl eq_refl)).
  assert (H3 := IH (fun c' a' H => Ha c' a' (or_intror H)) (fun c' a' H => Hb c' a' (or_intror H))).
  change (lo * (a + rlsum (map snd ws)) <= a * nth c x 0 + rlsum (map (fun p => snd p * nth (fst p) x 0) ws) <= hi * (a + rlsum (map snd ws))).
  set (S1 := rlsum (map snd ws)) in *. set (S2 := rlsum (map (fun p => snd p * nth (fst p) x 0) ws)) in *. set (v := nth c x 0) in *.
  assert (lo * a <= a * v) by nra. assert (a * v <= hi * a) by nra. split; nra.
Qed.

Lemma distance_within radius p q : within radius p q -> distance p q <= radius.
Proof.
  unfold within, distance. intros H. destruct (Rlt_dec _ _) as [h|h]; [exact H|]. eapply Rle_trans; [|exact H]. apply sqrt_pos.
Qed.
Lemma distance_self p : distance p p = 0.
Proof. unfold distance. destruct (Rlt_dec _ _) as [h|h]; [|reflexivity]. exfalso. revert h. rewrite !Rminus_diag_eq by reflexivity. lra. Qed.

Definition nrow (radius : R) (loc : nat -> rpoint) (indices offset : list nat) (i : nat) : list (nat * R) :=
  let vs := map (fun o => nth o indices 0%nat) (range (nth i offset 0%nat) (nth (S i) offset 0%nat)) in
  let ws := map (fun v => radius - distance (loc i) (loc v)) vs in
  combine vs (map (fun w => w / fold_left Rplus ws 0) ws).
Lemma map_fst_combine {A B} (l : list A) (l' : list B) : length l = length l' -> map fst (combine l l') = l.
Proof. revert l'. induction l as [|a l IH]; intros [|b l'] H; try discriminate; [reflexivity|]. cbn. rewrite IH by (cbn in H; lia). reflexivity. Qed.
Lemma map_snd_combine {A B} (l : list A) (l' : list B) : length l = length l' -> map snd (combine l l') = l'.
Proof. revert l'. induction l as [|a l IH]; intros [|b l'] H; try discriminate; [reflexivity|]. cbn. rewrite IH by (cbn in H; lia). reflexivity. Qed.

Theorem filter_ok sched n radius loc indices offset : fair sched -> 0 < radius -> neighbours n radius loc indices offset ->
  exists M, create_filter sched n radius loc indices offset = Ok M /\ wf n M /\
    forall i, (i < n)%nat ->
      map (fun e => (nth e (m_colmap M) 0%nat, nth e (m_entries M) 0)) (range (nth i (m_rowmap M) 0%nat) (nth (S i) (m_rowmap M) 0%nat)) = nrow radius loc indices offset i.
Proof.
  intros Hf Hr [L Hm Hl Hv Hw Hs]. unfold create_filter. destruct (Rle_dec radius 0) as [h|_]; [lra|]. unfold set_filter.
  set (cnt := fun i => (nth (S i) offset 0 - nth i offset 0)%nat).
  rewrite (mapR_ok _ cnt).
  2:{ intros i Hi. apply in_seq in Hi. rewrite (nth_error_some_nth offset i 0%nat) by lia. cbn [ub rbind]. rewrite (nth_error_some_nth offset (S i) 0%nat) by lia. reflexivity. }
  cbn [rbind]. rewrite exscan_counts. cbn [rbind]. rewrite fold_add_nsum.
  destruct (build_ok (K := R_ring) sched n cnt (nrow radius loc indices offset) (filter_row radius loc indices offset (map (nsum cnt) (seq 0 (S n)))) Hf) as (ce & E & W & HR).
  - intros i Hi. unfold filter_row, nrow. rewrite nth_error_map_seq by lia. cbn [ub rbind]. unfold row_range.
    rewrite (nth_error_some_nth offset i 0%nat) by lia. cbn [ub rbind]. rewrite (nth_error_some_nth offset (S i) 0%nat) by lia. cbn [ub rbind].
    rewrite (mapR_ok _ (fun o => nth o indices 0%nat)); [reflexivity|]. intros o Ho. apply in_range in Ho. specialize (Hl i Hi). rewrite (nth_error_some_nth indices o 0%nat) by lia. reflexivity.
  - intros i Hi. unfold nrow, cnt. rewrite combine_length, !map_length. unfold range. rewrite seq_length. apply Nat.min_id.
  - intros i c a Hi Hin. unfold nrow in Hin. apply in_combine_l in Hin. apply in_map_iff in Hin. destruct Hin as (o & <- & Ho). apply in_range in Ho. specialize (Hl i Hi). apply Hv. apply nth_In. lia.
  - assert (E' : par_write sched n (filter_row radius loc indices offset (map (nsum cnt) (seq 0 (S n)))) (repeat (0%nat, 0) (nsum cnt n)) = Ok ce) by exact E.
    rewrite E'. cbn [rbind]. eexists. split; [reflexivity|]. split; [exact W|exact HR].
Qed.
Theorem nrow_convex n radius loc indices offset i : 0 < radius -> neighbours n radius loc indices offset -> (i < n)%nat ->
  (forall c a, In (c, a) (nrow radius loc indices offset i) -> 0 <= a /\ (c < n)%nat /\ within radius (loc i) (loc c)) /\ rlsum (map snd (nrow radius loc indices offset i)) = 1.
Proof.
  intros Hr [L Hm Hl Hv Hw Hs] Hi. unfold nrow.
  set (vs := map (fun o => nth o indices 0%nat) (range (nth i offset 0%nat) (nth (S i) offset 0%nat))).
  set (ws := map (fun v => radius - distance (loc i) (loc v)) vs).
  assert (Hvs : forall v, In v vs -> (v < n)%nat /\ within radius (loc i) (loc v)).
  { intros v Hin. apply in_map_iff in Hin. destruct Hin as (o & <- & Ho). apply in_range in Ho. specialize (Hl i Hi). split; [apply Hv; apply nth_In; lia|apply Hw; [exact Hi|lia]]. }
  assert (Hws : forall w, In w ws -> 0 <= w).
  { intros w Hin. apply in_map_iff in Hin. destruct Hin as (v & <- & Hin). destruct (Hvs v Hin) as [_ Hd]. apply distance_within in Hd. lra. }
  assert (Htot : 0 < fold_left Rplus ws 0).
  { rewrite lsum_fold, Rplus_0_l. destruct (Hs i Hi) as (o & Ho & Eo). apply (rlsum_pos ws (radius - distance (loc i) (loc i)) Hws).
    - apply in_map_iff. exists i. split; [reflexivity|]. apply in_map_iff. exists o. split; [exact Eo|]. apply in_range. lia.
    - rewrite distance_self. lra. }
  split.
  - intros c a Hin. pose proof (in_combine_l _ _ _ _ Hin) as H1. pose proof (in_combine_r _ _ _ _ Hin) as H2. apply in_map_iff in H2. destruct H2 as (w & <- & H2).
    split; [|exact (Hvs c H1)]. apply Rmult_le_pos; [apply Hws; exact H2|]. left. apply Rinv_0_lt_compat. exact Htot.
  - rewrite map_snd_combine by (unfold ws; rewrite !map_length; reflexivity). rewrite rlsum_div. rewrite lsum_fold, Rplus_0_l in *. apply Rinv_r. lra.
Qed.

(** Bounding boxes. *)
Lemma grow_spec lo hi c : lo <= hi -> let '(l, h) := grow (lo, hi) c in l <= h /\ l <= lo /\ hi <= h /\ l <= c <= h.
Proof. intros H. unfold grow. destruct (Rlt_dec c lo); [lra|]. destruct (Rlt_dec hi c); lra. Qed.
Lemma box1_contains v0 v1 v2 v3 b0 b1 b2 b3 : 0 <= b0 -> 0 <= b1 -> 0 <= b2 -> 0 <= b3 -> b0 + b1 + b2 + b3 = 1 -> in_box1 (b0 * v0 + b1 * v1 + b2 * v2 + b3 * v3) v0 v1 v2 v3.
Proof.
  intros H0 H1 H2 H3 Hs. unfold in_box1, box1. cbn [fold_left].
  pose proof (grow_spec v0 v0 v1 (Rle_refl _)) as G1. destruct (grow (v0, v0) v1) as [l1 h1].
  pose proof (grow_spec l1 h1 v2 ltac:(lra)) as G2. destruct (grow (l1, h1) v2) as [l2 h2].
  pose proof (grow_spec l2 h2 v3 ltac:(lra)) as G3. destruct (grow (l2, h2) v3) as [l3 h3]. cbn [fst snd].
  assert (Hlo : l3 <= b0 * v0 + b1 * v1 + b2 * v2 + b3 * v3).
  { apply Rle_trans with (b0 * l3 + b1 * l3 + b2 * l3 + b3 * l3); [replace (b0 * l3 + b1 * l3 + b2 * l3 + b3 * l3) with ((b0 + b1 + b2 + b3) * l3) by ring; rewrite Hs; lra|].
    repeat apply Rplus_le_compat; apply Rmult_le_compat_l; lra. }
  assert (Hhi : b0 * v0 + b1 * v1 + b2 * v2 + b3 * v3 <= h3).
  { apply Rle_trans with (b0 * h3 + b1 * h3 + b2 * h3 + b3 * h3); [|replace (b0 * h3 + b1 * h3 + b2 * h3 + b3 * h3) with ((b0 + b1 + b2 + b3) * h3) by ring; rewrite Hs; lra].
    repeat apply Rplus_le_compat; apply Rmult_le_compat_l; lra. }
  split; nra.
Qed.

(** Symmetry planes. *)
Lemma sq_norm_nonneg n : 0 <= sq_norm n.
Proof. unfold sq_norm. pose proof (Rle_0_sqr (px n)). pose proof (Rle_0_sqr (py n)). pose proof (Rle_0_sqr (pz n)). unfold Rsqr in *. lra. Qed.
Lemma height_mirror o n p : sq_norm n <> 0 -> height o n (mirror o n p) = - height o n p.
Proof. intros H. unfold mirror. set (h := height o n p). assert (E : h = height o n p) by reflexivity. clearbody h. unfold height, rpt in *. cbn [px py pz]. 
  replace ((px p - 2 * (h / sq_norm n) * px n - px o) * px n + (py p - 2 * (h / sq_norm n) * py n - py o) * py n + (pz p - 2 * (h / sq_norm n) * pz n - pz o) * pz n)
    with (((px p - px o) * px n + (py p - py o) * py n + (pz p - pz o) * pz n) - 2 * (h / sq_norm n) * sq_norm n) by (unfold sq_norm; ring).
  rewrite <- E. field. exact H.
Qed.
Lemma mirror_mirror o n p : sq_norm n <> 0 -> mirror o n (mirror o n p) = p.
Proof.
  intros H. unfold mirror at 1. rewrite height_mirror by exact H. unfold mirror. cbn [px py pz rpt]. destruct p as [x y z]. unfold rpt. cbn [px py pz]. f_equal; cbn; field; exact H.
Qed.
Theorem plane_map_spec o n pl : make_plane o n = Ok pl -> sq_norm n <> 0 /\ forall p, plane_map pl p = if Rlt_dec (height o n p) 0 then mirror o n p else p.
Proof.
  unfold make_plane. fold (sq_norm n). destruct (Req_EM_T (sq_norm n) 0) as [h|h]; [discriminate|]. intros E. injection E as <-. split; [exact h|]. intros p.
  assert (Hp : 0 < sq_norm n) by (pose proof (sq_norm_nonneg n); lra). assert (Hs : 0 < sqrt (sq_norm n)) by (apply sqrt_lt_R0; exact Hp).
  pose proof (sqrt_sqrt (sq_norm n) ltac:(lra)) as Hss.
  unfold plane_map. cbn [pl_normal pl_origin px py pz].
  replace (0 + (px p - px o) * (px n / sqrt (sq_norm n)) + (py p - py o) * (py n / sqrt (sq_norm n)) + (pz p - pz o) * (pz n / sqrt (sq_norm n)))
    with (height o n p / sqrt (sq_norm n)) by (unfold height; cbn; field; lra).
  destruct (Rlt_dec (height o n p) 0) as [H0|H0], (Rlt_dec (height o n p / sqrt (sq_norm n)) 0) as [H1|H1]; try reflexivity.
  - unfold mirror, rpt.
    assert (Hq : forall c, 2 * (height o n p / sqrt (sq_norm n)) * (c / sqrt (sq_norm n)) = 2 * (height o n p / sq_norm n) * c).
    { intros c. transitivity (2 * height o n p * c / (sqrt (sq_norm n) * sqrt (sq_norm n))); [field; lra|]. rewrite Hss. field. exact h. }
    f_equal; f_equal; apply Hq.
  - exfalso. apply H1. assert (0 < / sqrt (sq_norm n)) by (apply Rinv_0_lt_compat; exact Hs). unfold Rdiv. nra.
  - exfalso. apply H0. replace (height o n p) with (height o n p / sqrt (sq_norm n) * sqrt (sq_norm n)) by (field; lra). nra.
Qed.
