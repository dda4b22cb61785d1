(** C60, C84-C86: exporting fields. *)
From Coq Require Import Reals String Ascii List Arith ZArith Bool Lia Lra.
From Verif Require Import Base.ListUpd Base.Res Base.Loops App.AppModel App.AppSpec App.TargetProps.
Import ListNotations.

Lemma split_plain s : no_char "@"%char s -> s <> EmptyString -> split "@"%char s = [s].
Proof. intros H N. unfold split. rewrite split_last; [reflexivity|exact H|left; exact N]. Qed.
Lemma split_two s t : no_char "@"%char s -> no_char "@"%char t -> t <> EmptyString -> split "@"%char (append s (String "@"%char t)) = [s; t].
Proof. intros H H2 N. unfold split. rewrite split_tok by exact H. rewrite split_last; [reflexivity|exact H2|left; exact N]. Qed.
Lemma component_ok g k stride n : k < stride -> List.length g = stride * n ->
  component g (Z.of_nat k) stride = Ok (map (fun i => nth (stride * i + k) g 0%R) (seq 0 n)).
Proof.
  intros Hk Hg. unfold component. destruct stride as [|s]; [lia|]. rewrite Hg, Nat.mul_comm, Nat.div_mul by lia.
  apply mapR_ok. intros i Hi. apply in_seq in Hi.
  replace (Z.of_nat (S s) * Z.of_nat i + Z.of_nat k)%Z with (Z.of_nat (S s * i + k)) by lia.
  destruct (Z.ltb_spec (Z.of_nat (S s * i + k)) 0); [lia|]. rewrite Nat2Z.id.
  assert (B : S s * i + k < List.length g) by (rewrite Hg; nia).
  rewrite (nth_error_nth' g 0%R B). reflexivity.
Qed.
(** Names with a meaning of their own. *)
Definition reserved (s : string) : Prop := In s ["Topology"; "Solution"; "Solution X"; "Solution Y"; "Solution Z"]%string.
Lemma not_reserved s t : ~ reserved s -> In t ["Topology"; "Solution"; "Solution X"; "Solution Y"; "Solution Z"]%string -> String.eqb s t = false.
Proof. intros H I. destruct (String.eqb_spec s t) as [->|N]; [contradiction|reflexivity]. Qed.

(** The control gradient registered under a name is what both outputs deliver. *)
Theorem C60_control : forall f name c g,
  no_char "@"%char name -> name <> EmptyString -> name <> "Topology"%string -> get (zname f) name = Some c -> get (zgrad f) c = Some g ->
  (exists f', host_mirror f name = Ok (g, f')) /\ (meshmapT f = None -> exists f', export f name = Ok (Some g, f')).
Proof.
  intros f name c g H N T Z G. unfold host_mirror, export. rewrite split_plain by assumption. rewrite Z. unfold fetch. rewrite G. split; [eexists; reflexivity|].
  intros M. destruct (String.eqb_spec name "Topology"); [contradiction|]. rewrite M. eexists. reflexivity.
Qed.
(** Exporting component k of the shape gradient registered under a name delivers that criterion's derivatives with respect to coordinate k of each node (if the name is not also a control gradient's). *)
Theorem C60_shape_export_partial : forall f name ks k c g n,
  no_char "@"%char name -> no_char "@"%char ks -> ks <> EmptyString -> ~ reserved name -> number ks = Some (Z.of_nat k) -> k < ndims f ->
  get (zname f) name = None -> get (xname f) name = Some c -> get (xgrad f) c = Some g -> List.length g = ndims f * n ->
  exists f' out, export f (append name (String "@"%char ks)) = Ok (Some out, f') /\ List.length out = n /\
    (forall i, i < n -> nth_error out i = nth_error g (ndims f * i + k)).
Proof.
  intros f name ks k c g n H Hk Nk Res K Lt Z X G L. unfold export. rewrite split_two by assumption.
  rewrite (not_reserved name "Topology"%string Res) by (simpl; auto).
  rewrite Z.
  rewrite (not_reserved name "Solution"%string Res), (not_reserved name "Solution X"%string Res), (not_reserved name "Solution Y"%string Res), (not_reserved name "Solution Z"%string Res) by (simpl; auto 10).
  rewrite X. unfold fetch. rewrite G. unfold index_of. rewrite K, (component_ok g k (ndims f) n Lt L). cbn [rbind].
  eexists. eexists. split; [reflexivity|]. split; [rewrite map_length, seq_length; reflexivity|].
  intros i Hi. rewrite nth_error_map, (nth_error_nth' (seq 0 n) 0) by (rewrite seq_length; exact Hi). rewrite seq_nth by exact Hi. cbn [option_map Nat.add].
  symmetry. apply nth_error_nth'. rewrite L. nia.
Qed.
(** Writing the same field to an HDF5 file delivers nothing, whatever the gradient is: the name is looked up in the table of control gradients. *)
Theorem C60_shape_hdf5_refuted :
  (forall f name ks, no_char "@"%char name -> no_char "@"%char ks -> ks <> EmptyString -> ~ reserved name -> 0 < ndims f ->
     get (zname f) name = None -> get (xname f) name <> None -> get (xgrad f) EmptyString = None ->
     exists f', host_mirror f (append name (String "@"%char ks)) = Ok ([], f')) /\
  (exists f g, get (xname f) "dJ/dX" = Some "J"%string /\ get (xgrad f) "J" = Some g /\ g <> [] /\ get (zname f) "dJ/dX" = None /\ ndims f = 2 /\
     exists f', host_mirror f "dJ/dX@0" = Ok ([], f') /\
       (* and from then on the ordinary export of it delivers nothing either *)
       (exists f1 out, export f "dJ/dX@0" = Ok (Some out, f1) /\ out <> []) /\ (exists f2, export f' "dJ/dX@0" = Ok (Some [], f2))).
Proof.
  split.
  - intros f name ks H Hk Nk Res D Z X E. unfold host_mirror. rewrite split_two by assumption. rewrite Z.
    assert (W : forall t, In t ["Solution"; "Solution X"; "Solution Y"; "Solution Z"]%string -> String.eqb (append name (String "@"%char ks)) t = false).
    { intros t It. destruct (String.eqb_spec (append name (String "@"%char ks)) t) as [Q|]; [|reflexivity]. exfalso.
      assert (V : ~ no_char "@"%char (append name (String "@"%char ks))).
      { clear. induction name as [|a name IH]; simpl; intros [A B]; [apply A; reflexivity|exact (IH B)]. }
      apply V. rewrite Q. simpl in It. destruct It as [<-|[<-|[<-|[<-|[]]]]]; simpl; repeat split; discriminate. }
    rewrite (W "Solution"%string), (W "Solution X"%string), (W "Solution Y"%string), (W "Solution Z"%string) by (simpl; auto 10).
    destruct (get (xname f) name); [|contradiction]. unfold fetch. rewrite Z, E. unfold component. destruct (ndims f); [lia|].
    replace (List.length (@nil R) / S n) with 0 by (symmetry; apply Nat.div_small; simpl; lia). eexists. reflexivity.
  - exists (mkFields [] [("dJ/dX"%string, "J"%string)] [] [("J"%string, [1%R; 2%R; 3%R; 4%R])] [] None 2 2 []), [1%R; 2%R; 3%R; 4%R].
    split; [reflexivity|]. split; [reflexivity|]. split; [discriminate|]. split; [reflexivity|]. split; [reflexivity|].
    eexists. split; [reflexivity|]. split; [exists (mkFields [] [("dJ/dX"%string, "J"%string)] [] [("J"%string, [1%R; 2%R; 3%R; 4%R])] [] None 2 2 []), [1%R; 3%R]; split; [reflexivity|discriminate]|].
    eexists. reflexivity.
Qed.
Example C60_met : let f := mkFields [("dV/dz"%string, "V"%string)] [("dJ/dX"%string, "J"%string)] [("V"%string, [5%R])] [("J"%string, [1%R; 2%R; 3%R; 4%R])] [] None 2 2 [] in
  export f "dJ/dX@1" = Ok (Some [2%R; 4%R], f) /\ export f "dV/dz" = Ok (Some [5%R], f).
Proof. split; reflexivity. Qed.

(** With a mesh map the first export of a control gradient replaces the stored gradient, so exporting it again maps it again. *)
Theorem C84_repeat_refuted : exists f mm out f1 out2 f2, meshmapT f = Some mm /\
  export f "dV/dz" = Ok (Some out, f1) /\ export f1 "dV/dz" = Ok (Some out2, f2) /\ out <> out2.
Proof.
  exists (mkFields [("dV/dz"%string, "V"%string)] [] [("V"%string, [1%R; 2%R])] [] [] (Some (fun v => map (Rmult 2) v)) 2 2 []), (fun v => map (Rmult 2) v).
  eexists. eexists. eexists. eexists. split; [reflexivity|]. split; [reflexivity|]. split; [reflexivity|]. cbn [map]. intros E. injection E as E _. lra.
Qed.
(** Without one, exports do not disturb each other: any name exports the same after any other. *)
Theorem C84_no_map_partial : forall f n m out f1 out2 f2, meshmapT f = None ->
  export f n = Ok (out, f1) -> export f m = Ok (out2, f2) -> exists f3, export f1 m = Ok (out2, f3).
Proof.
  intros f n m out f1 out2 f2 M E1 E2.
  (* what one export changes: at most empty entries are added for criteria without a gradient *)
  assert (same : zname f1 = zname f /\ xname f1 = xname f /\ topology f1 = topology f /\ meshmapT f1 = None /\ ndims f1 = ndims f /\ ndofs f1 = ndofs f /\ steps f1 = steps f /\
    (forall c, fst (fetch [] (zgrad f1) c) = fst (fetch [] (zgrad f) c)) /\ (forall c, fst (fetch [] (xgrad f1) c) = fst (fetch [] (xgrad f) c))).
  { assert (Id : zname f = zname f /\ xname f = xname f /\ topology f = topology f /\ meshmapT f = None /\ ndims f = ndims f /\ ndofs f = ndofs f /\ steps f = steps f /\
      (forall c, fst (fetch [] (zgrad f) c) = fst (fetch [] (zgrad f) c)) /\ (forall c, fst (fetch [] (xgrad f) c) = fst (fetch [] (xgrad f) c))) by (repeat split; assumption).
    assert (ins : forall (g : smap (list R)) c c', fst (fetch [] (snd (fetch [] g c)) c') = fst (fetch [] g c')).
    { intros g c c'. unfold fetch. destruct (get g c) eqn:G; cbn [snd]; [reflexivity|]. rewrite get_set. destruct (String.eqb_spec c' c) as [->|]; [rewrite G; reflexivity|destruct (get g c'); reflexivity]. }
    unfold export in E1. destruct (split "@"%char n) as [|field rest]; [discriminate|].
    destruct (String.eqb field "Topology"); [injection E1 as _ <-; exact Id|].
    destruct (get (zname f) field) as [c|].
    - rewrite M in E1. pose proof (ins (zgrad f) c) as I. destruct (fetch [] (zgrad f) c) as [v mm]. cbn [snd] in I. injection E1 as _ <-. cbn. repeat split; try assumption; try reflexivity.
    - assert (S : forall k comp stride, (let! s := step_of f k in let! v := component s comp stride in Ok (Some v, f)) = Ok (out, f1) -> f1 = f).
      { intros k comp stride. destruct (step_of f k); cbn [rbind]; try discriminate. destruct (component a comp stride); cbn [rbind]; try discriminate. intros Q. injection Q as _ <-. reflexivity. }
      destruct (String.eqb field "Solution"); [apply S in E1; subst; exact Id|].
      destruct (String.eqb field "Solution X"); [apply S in E1; subst; exact Id|].
      destruct (String.eqb field "Solution Y"); [apply S in E1; subst; exact Id|].
      destruct (String.eqb field "Solution Z"); [apply S in E1; subst; exact Id|].
      destruct (get (xname f) field) as [c|]; [|injection E1 as _ <-; exact Id].
      pose proof (ins (xgrad f) c) as I. destruct (fetch [] (xgrad f) c) as [v mm]. cbn [snd] in I. destruct (component v (index_of (field :: rest)) (ndims f)); cbn [rbind] in E1; try discriminate.
      injection E1 as _ <-. cbn. repeat split; try assumption; try reflexivity. }
  destruct same as [A1 [A2 [A3 [A4 [A5 [A6 [A7 [A8 A9]]]]]]]].
  unfold export in E2 |- *. destruct (split "@"%char m) as [|field rest]; [discriminate|].
  rewrite A1, A2, A3, A4, A5, A6, A7. unfold step_of in *. rewrite A7.
  destruct (String.eqb field "Topology"); [injection E2 as <- _; eexists; reflexivity|].
  destruct (get (zname f) field) as [c|].
  { rewrite M in E2. specialize (A8 c). destruct (fetch [] (zgrad f) c) as [v mm]. destruct (fetch [] (zgrad f1) c) as [v1 mm1]. cbn [fst] in A8. subst v1. injection E2 as <- _. eexists. reflexivity. }
  assert (S : forall k comp stride, (let! s := ub (nth_error (steps f) k) in let! v := component s comp stride in Ok (Some v, f)) = Ok (out2, f2) ->
     exists f3, (let! s := ub (nth_error (steps f) k) in let! v := component s comp stride in Ok (Some v, f1)) = Ok (out2, f3)).
  { intros k comp stride. destruct (ub (nth_error (steps f) k)); cbn [rbind]; try discriminate. destruct (component a comp stride); cbn [rbind]; try discriminate. intros Q. injection Q as <- _. eexists. reflexivity. }
  destruct (String.eqb field "Solution"); [apply S; exact E2|].
  destruct (String.eqb field "Solution X"); [apply S; exact E2|].
  destruct (String.eqb field "Solution Y"); [apply S; exact E2|].
  destruct (String.eqb field "Solution Z"); [apply S; exact E2|].
  destruct (get (xname f) field) as [c|]; [|injection E2 as <- _; eexists; reflexivity].
  specialize (A9 c). destruct (fetch [] (xgrad f) c) as [v mm]. destruct (fetch [] (xgrad f1) c) as [v1 mm1]. cbn [fst] in A9. subst v1.
  destruct (component v (index_of (field :: rest)) (ndims f)); cbn [rbind] in *; try discriminate. injection E2 as <- _. eexists. reflexivity.
Qed.
Example C84_met : let f := mkFields [("dV/dz"%string, "V"%string)] [] [("V"%string, [5%R])] [] [7%R] None 2 2 [] in
  export f "dV/dz" = Ok (Some [5%R], f) /\ export f "Topology" = Ok (Some [7%R], f).
Proof. split; reflexivity. Qed.

(** A component of the displacement: the optimiser receives the last step's, the HDF5 file the first step's, and their strides differ when a node has more unknowns than the space has dimensions. *)
Theorem C85_agree_refuted : exists f, get (zname f) "Solution X" = None /\
  export f "Solution X" = Ok (Some [3%R; 4%R], f) /\ host_mirror f "Solution X" = Ok ([1%R; 2%R], f).
Proof. exists (mkFields [] [] [] [] [] None 1 1 [[1%R; 2%R]; [3%R; 4%R]]). repeat split; reflexivity. Qed.
(** With one step and as many unknowns per node as dimensions both are that component of the displacement. *)
Theorem C85_one_step_partial : forall f s n (x : string) k,
  In (x, k) [("Solution X"%string, 0); ("Solution Y"%string, 1); ("Solution Z"%string, 2)] -> get (zname f) x = None ->
  steps f = [s] -> ndofs f = ndims f -> k < ndims f -> List.length s = ndims f * n ->
  let out := map (fun i => nth (ndims f * i + k) s 0%R) (seq 0 n) in
  export f x = Ok (Some out, f) /\ host_mirror f x = Ok (out, f).
Proof.
  intros f s n x k I Z S D K L out. unfold export, host_mirror, step_of. rewrite S. cbn [List.length Nat.sub nth_error ub rbind].
  assert (C := component_ok s k (ndims f) n K L).
  simpl in I. destruct I as [I|[I|[I|[]]]]; injection I as <- <-;
    (change (split "@" _) with ["Solution X"%string] || change (split "@" _) with ["Solution Y"%string] || change (split "@" _) with ["Solution Z"%string]);
    cbn [String.eqb Ascii.eqb Bool.eqb]; rewrite Z; cbn [String.eqb Ascii.eqb Bool.eqb]; rewrite ?D;
    cbn [Z.of_nat Pos.of_succ_nat Pos.succ] in C; rewrite C; split; reflexivity.
Qed.
Example C85_met : let f := mkFields [] [] [] [] [] None 2 2 [[1%R; 2%R; 3%R; 4%R]] in export f "Solution Y" = Ok (Some [2%R; 4%R], f).
Proof. reflexivity. Qed.

(** Registering output names (addUnique): if no registration is refused, every name delivers the criterion it was registered for, whatever the order. *)
Definition register (m : smap string) (l : list (string * string)) : res (smap string) := foldR (fun kv m => add_unique m (fst kv) (snd kv)) l m.
Theorem C86_unique : forall l m, register [] l = Ok m -> (forall k v, In (k, v) l -> k <> EmptyString -> get m k = Some v) /\ (forall k v, get m k = Some v -> In (k, v) l).
Proof.
  intros l.
  assert (G : forall l m m', register m l = Ok m' -> (forall k v, get m k = Some v -> get m' k = Some v) /\ (forall k v, In (k, v) l -> k <> EmptyString -> get m' k = Some v) /\
     (forall k v, get m' k = Some v -> get m k = Some v \/ In (k, v) l)).
  { clear l. induction l as [|[k v] l IH]; intros m m' E; unfold register in E; cbn [foldR] in E.
    - injection E as <-. split; [auto|]. split; [intros k v []|]. auto.
    - destruct (add_unique m (fst (k, v)) (snd (k, v))) as [m1| |] eqn:A; cbn [rbind] in E; try discriminate. destruct (IH m1 m' E) as [K1 [K2 K3]]. cbn [fst snd] in A. unfold add_unique in A.
      destruct (String.eqb_spec k "") as [->|N].
      + injection A as <-. split; [exact K1|]. split; [intros k' v' [Q|Q] N'; [injection Q as <- <-; contradiction|apply K2; assumption]|]. intros k' v' Q. destruct (K3 k' v' Q); [left; assumption|right; right; assumption].
      + destruct (get m k) as [v0|] eqn:Gk.
        * destruct (String.eqb_spec v0 v) as [->|]; [|discriminate]. injection A as <-. split; [exact K1|]. split; [intros k' v' [Q|Q] N'; [injection Q as <- <-; apply K1; exact Gk|apply K2; assumption]|].
          intros k' v' Q. destruct (K3 k' v' Q); [left; assumption|right; right; assumption].
        * injection A as <-. split.
          { intros k' v' Q. apply K1. rewrite get_set. destruct (String.eqb_spec k' k) as [->|]; [congruence|exact Q]. }
          split.
          { intros k' v' [Q|Q] N'; [injection Q as <- <-; apply K1; rewrite get_set, String.eqb_refl; reflexivity|apply K2; assumption]. }
          intros k' v' Q. destruct (K3 k' v' Q) as [Q'|Q']; [|right; right; exact Q']. rewrite get_set in Q'. destruct (String.eqb_spec k' k) as [->|]; [injection Q' as <-; right; left; reflexivity|left; exact Q']. }
  intros m E. destruct (G l [] m E) as [_ [K2 K3]]. split; [exact K2|]. intros k v Q. destruct (K3 k v Q) as [Q'|Q']; [discriminate|exact Q'].
Qed.
(** Two operations that give one name to different criteria are refused. *)
Theorem C86_conflict : forall l k v v', In (k, v) l -> In (k, v') l -> v <> v' -> k <> EmptyString -> register [] l = Throw.
Proof.
  intros l k v v' I1 I2 N Nk. destruct (register [] l) as [m| |] eqn:E; [|reflexivity|].
  - destruct (C86_unique l m E) as [K _]. exfalso. apply N. pose proof (K k v I1 Nk). pose proof (K k v' I2 Nk). congruence.
  - exfalso. revert E. clear. unfold register. generalize (@nil (string * string)) as m. induction l as [|[a b] l IH]; intros m; cbn [foldR]; [discriminate|].
    unfold add_unique at 1. cbn [fst snd]. destruct (String.eqb a ""); [cbn [rbind]; apply IH|]. destruct (get m a) as [w|]; [destruct (String.eqb w b)|]; cbn [rbind]; try apply IH; discriminate.
Qed.
Example C86_met : register [] [("dV/dz", "Volume"); ("dJ/dz", "Energy"); ("dV/dz", "Volume")]%string = Ok [("dV/dz", "Volume"); ("dJ/dz", "Energy")]%string.
Proof. reflexivity. Qed.

Print Assumptions C60_control.
Print Assumptions C60_shape_export_partial.
Print Assumptions C60_shape_hdf5_refuted.
Print Assumptions C84_repeat_refuted.
Print Assumptions C84_no_map_partial.
Print Assumptions C85_agree_refuted.
Print Assumptions C85_one_step_partial.
Print Assumptions C86_unique.
Print Assumptions C86_conflict.
