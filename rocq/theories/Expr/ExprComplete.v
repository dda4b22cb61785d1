(** What acceptance by the parser and the validator means; memory safety of the parser's stacks. *)
From Coq Require Import Arith ZArith QArith Ascii String List Bool Lia.
From Verif Require Import Base.Res Expr.ExprModel Expr.ExprSpec Expr.ExprParse.
Import ListNotations.
Local Open Scope nat_scope.

Definition leafid (id : nid) : bool := match id with Num _ | Var _ => true | _ => false end.
Definition bad (t : tree) : Prop := validate t <> Ok tt.

(** Leaves have no right child, and a left child only if it will be rejected. *)
Fixpoint leafok (t : tree) : Prop :=
  match t with
  | Null => True
  | Node l id r =>
    leafok l /\ leafok r /\
    match id with
    | Empty | CloseP | CloseB => False
    | Num _ | Var _ => r = Null /\ (l = Null \/ bad l)
    | _ => True
    end
  end.

Definition fok (G : frame) : Prop :=
  leafok (f_left G) /\
  match f_id G with
  | Empty | CloseP | CloseB => False
  | Num _ | Var _ => f_prec G = 7 /\ (f_left G = Null \/ bad (f_left G))
  | Fun _ => f_prec G = 7
  | OpenP => f_prec G = 0
  | OpenB => f_prec G = 1
  | _ => 2 <= f_prec G < 7
  end.

(** Leaf frames stand only at the head, with nothing below. *)
Definition noleaf (fs : list frame) : Prop := Forall (fun G => leafid (f_id G) = false) fs.
Definition zok (fs : list frame) (t : tree) : Prop :=
  Forall fok fs /\ leafok t /\
  match fs with [] => True | G :: gs => noleaf gs /\ (leafid (f_id G) = true -> t = Null) end.

Lemma bad_left l id r : bad l -> bad (Node l id r).
Proof. unfold bad. cbn [validate]. destruct (validate l) as [[]| |]; cbn [rbind]; congruence. Qed.
Lemma bad_right l id r : bad r -> bad (Node l id r).
Proof. unfold bad. cbn [validate]. destruct (validate l) as [[]| |]; cbn [rbind]; try congruence. destruct (validate r) as [[]| |]; cbn [rbind]; congruence. Qed.
Lemma bad_fun l f : bad (Node l (Fun f) Null).
Proof. unfold bad. cbn [validate]. destruct (validate l) as [[]| |]; cbn [rbind isnull]; congruence. Qed.

Lemma pop_leafok G t : fok G -> leafok t -> (leafid (f_id G) = true -> t = Null) -> leafok (Node (f_left G) (f_id G) t).
Proof.
  intros [H1 H2] Ht Hl. cbn. split; [exact H1|]. split; [exact Ht|]. destruct (f_id G); auto; try contradiction; destruct H2; split; auto.
Qed.

Lemma climb_bad stop stk : forall t, bad t -> bad (snd (climb stop stk t)).
Proof. induction stk as [|F stk IH]; intros t Hb; cbn; [exact Hb|]. destruct (stop (f_prec F)); [exact Hb|]. apply IH, bad_right, Hb. Qed.

(** Climbing from a good state: some frames are popped. *)
Lemma climb_spec stop R : stop (f_prec R) = true -> forall fs t, zok fs t ->
  exists ps gs t', fs = ps ++ gs /\ climb stop (fs ++ [R]) t = (gs ++ [R], t') /\ zok gs t' /\
    Forall (fun G => stop (f_prec G) = false) ps /\ match gs with [] => True | G :: _ => stop (f_prec G) = true end /\
    (ps = [] -> t' = t) /\ (ps <> [] -> noleaf gs /\ (match ps with G :: _ => (exists f, f_id G = Fun f) -> t = Null -> bad t' | [] => True end)).
Proof.
  intros HR. induction fs as [|G fs IH]; intros t Hz.
  - exists [], [], t. cbn. rewrite HR. do 6 (split; [auto|]). congruence.
  - cbn [app climb]. destruct (stop (f_prec G)) eqn:E.
    + exists [], (G :: fs), t. do 6 (split; [auto|]). congruence.
    + destruct Hz as (Hf & Ht & Hn & Hl). inversion Hf; subst.
      destruct (IH (Node (f_left G) (f_id G) t)) as (ps & gs & t' & E1 & E2 & E3 & E4 & E5 & E6 & E7).
      * split; [assumption|]. split; [apply pop_leafok; assumption|]. destruct fs as [|G' fs]; [exact I|]. inversion Hn; subst. split; [assumption|congruence].
      * exists (G :: ps), gs, t'. rewrite E1, <- E1, E2. split; [rewrite E1; reflexivity|]. split; [reflexivity|]. split; [exact E3|]. split; [constructor; assumption|].
        split; [exact E5|]. split; [discriminate|]. intros _. split.
        -- clear - Hn E1. rewrite E1 in Hn. apply Forall_app in Hn. apply Hn.
        -- intros [f Hf'] ->.
           assert (Hb : bad (Node (f_left G) (f_id G) Null)) by (rewrite Hf'; apply bad_fun).
           rewrite <- (f_equal snd E2 : snd (climb _ _ _) = t'). apply climb_bad. exact Hb.
Qed.

(** The brackets open in a state. *)
Definition brackets (fs : list frame) : list bool :=
  flat_map (fun G => match f_id G with OpenP => [true] | OpenB => [false] | _ => [] end) fs.
Lemma brackets_app a b : brackets (a ++ b) = brackets a ++ brackets b.
Proof. apply flat_map_app. Qed.

Fixpoint nPof (st : list bool) : list nat :=
  match st with
  | [] => [0]
  | true :: st => match nPof st with n :: l => S n :: l | [] => [] end
  | false :: st => 0 :: nPof st
  end.
Fixpoint nBof (st : list bool) : list nat :=
  match st with
  | [] => [0]
  | true :: st => 0 :: nBof st
  | false :: st => match nBof st with n :: l => S n :: l | [] => [] end
  end.
Lemma nPof_cons st : exists n l, nPof st = n :: l.
Proof. induction st as [|[] st [n [l E]]]; cbn; eauto. rewrite E. eauto. Qed.
Lemma nBof_cons st : exists n l, nBof st = n :: l.
Proof. induction st as [|[] st [n [l E]]]; cbn; eauto. rewrite E. eauto. Qed.
Definition inbar (st : list bool) : bool := match st with false :: _ => true | _ => false end.
Definition countb (b : bool) (st : list bool) : nat := List.length (filter (Bool.eqb b) st).

Definition root : frame := mkF Null Empty 0.
Record sok (st : list bool) (two : nat) (s : pstate) : Prop := {
  s_zip : exists fs, fst (p_zip s) = fs ++ [root] /\ zok fs (snd (p_zip s)) /\ brackets fs = st /\
            (valueish (p_prev s) = false -> snd (p_zip s) = Null /\ match fs with G :: _ => leafid (f_id G) = false | [] => True end);
  s_begin : p_begin s = inbar st;
  s_nP : p_nP s = nPof st;
  s_nB : p_nB s = nBof st;
  s_openP : p_openP s = countb true st;
  s_openB : p_openB s = countb false st;
  s_two : p_two s = two }.

(** Precedence that goes with an ID. *)
Definition precid (id : nid) (p : nat) : Prop :=
  match id with
  | Num _ | Var _ | Fun _ => p = 7
  | Add | Sub | Mul | Dvd | Pw | Fct | Pos | Neg => 2 <= p < 7
  | _ => False
  end.

Lemma brackets_none ps : Forall (fun G => f_id G <> OpenP /\ f_id G <> OpenB) ps -> brackets ps = [].
Proof. induction 1 as [|G ps [H1 H2] _ IH]; [reflexivity|]. unfold brackets in *. cbn. rewrite IH. destruct (f_id G); try reflexivity; congruence. Qed.
Lemma popped_no_bracket p ps : 2 <= p -> Forall fok ps -> Forall (fun G => p <= f_prec G) ps -> brackets ps = [].
Proof.
  intros Hp Hf Ha. apply brackets_none. apply Forall_forall. intros G HG. rewrite Forall_forall in Hf, Ha. specialize (Ha G HG). destruct (Hf G HG) as [_ H].
  split; intros E; rewrite E in H; lia.
Qed.

(** Inserting an operator or a leaf. *)
Lemma insert_ok fs t id p i z : zok fs t -> precid id p ->
  (p = 7 -> i = LeftAssoc) ->
  (i = SkipClimbUp -> signish id = true) ->
  (leafid id = true -> i = LeftAssoc /\ t = Null /\ match fs with G :: _ => leafid (f_id G) = false | [] => True end) ->
  (signish id = true -> match fs with G :: _ => leafid (f_id G) = false | [] => True end) ->
  insert (fs ++ [root], t) id p i = Ok z ->
  exists gs, fst z = gs ++ [root] /\ zok gs (snd z) /\ brackets gs = brackets fs /\ snd z = Null /\
    match gs with G :: _ => f_id G = id | [] => False end.
Proof.
  intros Hz Hp Hsk Hi Hleaf Hsign E.
  assert (Hgen : forall gs t', zok gs t' -> brackets gs = brackets fs -> noleaf gs ->
     (leafid id = true -> t' = Null \/ bad t') ->
     match gs ++ [root] with
      | [] => Throw
      | F :: rest => match id with CloseP => match rest with [] => Throw | _ => Ok (rest, t') end | CloseB => Ok (rest, Node (f_left F) (Fun Abs) t') | _ => Ok (mkF t' id p :: gs ++ [root], Null) end
      end = Ok z ->
     exists gs, fst z = gs ++ [root] /\ zok gs (snd z) /\ brackets gs = brackets fs /\ snd z = Null /\ match gs with G :: _ => f_id G = id | [] => False end).
  { intros gs t' (Z1 & Z2 & Z3) Hb Hn Hl E0. exists (mkF t' id p :: gs).
    assert (Ez : z = (mkF t' id p :: gs ++ [root], Null)).
    { destruct (gs ++ [root]) eqn:Eg; [destruct gs; discriminate|]. destruct id; cbn in Hp; try contradiction; inversion E0; reflexivity. }
    subst z. cbn [fst snd]. split; [reflexivity|]. split; [|split; [|split; [reflexivity|reflexivity]]].
    - split; [|split; [exact I|]].
      + constructor; [|exact Z1]. split; [exact Z2|]. cbn. destruct id; cbn in *; try contradiction; try lia; split; auto.
      + split; [exact Hn|auto].
    - rewrite <- Hb. unfold brackets. cbn. destruct id; try reflexivity; contradiction. }
  unfold insert in E. cbn [fst snd] in E. destruct i.
  - (* sign *)
    specialize (Hi eq_refl). apply (Hgen fs t); [exact Hz|reflexivity| | |exact E].
    + destruct Hz as (Z1 & Z2 & Z3). destruct fs as [|G fs]; [constructor|]. destruct Z3 as [Z3 _]. constructor; [exact (Hsign Hi)|exact Z3].
    + destruct id; discriminate.
  - destruct (climb_spec (fun x => Nat.leb x p) root) with (fs := fs) (t := t) as (ps & gs & t' & E1 & E2 & E3 & E4 & E5 & E6 & E7); [cbn; destruct p; reflexivity|exact Hz|].
    rewrite E2 in E. assert (Hid : leafid id = false).
    { destruct (leafid id) eqn:El; [|reflexivity]. destruct (Hleaf eq_refl) as [X _]. discriminate X. }
    apply (Hgen gs t'); [exact E3| | |congruence|exact E].
    + rewrite E1, brackets_app. rewrite (popped_no_bracket (S p) ps); [reflexivity| | |].
      * destruct id; cbn in Hp; try contradiction; lia.
      * destruct Hz as (Z1 & _). rewrite E1 in Z1. apply Forall_app in Z1. apply Z1.
      * eapply Forall_impl; [|exact E4]. cbv beta. intros G HG. apply Nat.leb_gt in HG. lia.
    + (* no leaf: leaves have precedence 7 *)
      destruct E3 as (Z1 & _ & Z3). destruct gs as [|G gs]; [constructor|]. destruct Z3 as [Z3 _]. constructor; [|exact Z3].
      apply Nat.leb_le in E5. inversion Z1; subst. destruct H1 as [_ H1]. destruct (f_id G); try reflexivity; destruct H1 as [H1 _]; exfalso; (assert (p <> 7) by (intros E7'; specialize (Hsk E7'); discriminate Hsk)); destruct id; cbn in Hp, Hid; try contradiction; try discriminate; lia.
  - destruct (climb_spec (fun x => Nat.ltb x p) root) with (fs := fs) (t := t) as (ps & gs & t' & E1 & E2 & E3 & E4 & E5 & E6 & E7).
    { apply Nat.ltb_lt. cbn [root f_prec]. destruct id; cbn in Hp; try contradiction; lia. }
    { exact Hz. }
    rewrite E2 in E. apply (Hgen gs t'); [exact E3| | | |exact E].
    + rewrite E1, brackets_app. rewrite (popped_no_bracket p ps); [reflexivity| | |].
      * destruct id; cbn in Hp; try contradiction; lia.
      * destruct Hz as (Z1 & _). rewrite E1 in Z1. apply Forall_app in Z1. apply Z1.
      * eapply Forall_impl; [|exact E4]. cbv beta. intros G HG. apply Nat.ltb_ge in HG. exact HG.
    + destruct E3 as (Z1 & _ & Z3). destruct gs as [|G gs]; [constructor|]. destruct Z3 as [Z3 _]. constructor; [|exact Z3].
      apply Nat.ltb_lt in E5. inversion Z1; subst. destruct H1 as [_ H1]. destruct (f_id G); try reflexivity; destruct H1 as [H1 _]; exfalso; destruct id; cbn in Hp; try contradiction; lia.
    + intros Hl. destruct (Hleaf Hl) as (_ & -> & Hh). destruct ps as [|P ps]; [left; apply E6; reflexivity|right].
      assert (HP : exists f, f_id P = Fun f).
      { inversion E4; subst. apply Nat.ltb_ge in H1. destruct Hz as (Z1 & _). cbn in Z1. inversion Z1; subst. cbn in Hh.
        assert (p = 7) by (destruct id; cbn in Hl, Hp; try discriminate; exact Hp). subst p.
        destruct H3 as [_ H3]. destruct (f_id P); try discriminate; try contradiction; try lia. eauto. }
      apply (proj2 (E7 ltac:(discriminate))); [exact HP|reflexivity].
Qed.

Definition zstate (s : pstate) (st : list bool) : Prop :=
  exists fs, fst (p_zip s) = fs ++ [root] /\ zok fs (snd (p_zip s)) /\ brackets fs = st /\
    (valueish (p_prev s) = false -> snd (p_zip s) = Null /\ match fs with G :: _ => leafid (f_id G) = false | [] => True end).
Definition same (s s' : pstate) : Prop :=
  p_begin s' = p_begin s /\ p_nP s' = p_nP s /\ p_nB s' = p_nB s /\ p_openP s' = p_openP s /\ p_openB s' = p_openB s /\ p_two s' = p_two s /\ p_err s' = p_err s.

Lemma rbind_ok A B (x : res A) (k : A -> res B) v : rbind x k = Ok v -> exists a, x = Ok a /\ k a = Ok v.
Proof. destruct x; cbn; try discriminate. eauto. Qed.

Definition kind_ok (id : nid) (i : info) (s : pstate) : Prop :=
  (signish id = true -> i = SkipClimbUp /\ valueish (p_prev s) = false) /\ (i = SkipClimbUp -> signish id = true) /\
  (match id with Num _ | Var _ | Fun _ => i = LeftAssoc | _ => True end).

Lemma add_simple id p i s s' st : zstate s st -> precid id p -> kind_ok id i s -> add_node id p i s = Ok s' -> zstate s' st /\ same s s' /\ p_prev s' = id.
Proof.
  intros (fs & F1 & F2 & F3 & F4) Hp (K1 & K2 & K3) E. unfold add_node in E.
  assert (Ei : implicit_mult id s = Ok s) by (destruct id; try reflexivity; contradiction).
  rewrite Ei in E. cbn [rbind] in E.
  destruct (match id with OpenP | OpenB | Num _ | Var _ => true | _ => false end && valueish (p_prev s)) eqn:E1; [discriminate|].
  destruct (signish id && signish (p_prev s)) eqn:E2; [discriminate|].
  apply rbind_ok in E. destruct E as (z & Ez & E). destruct (p_zip s) as [stk t] eqn:Es. cbn [fst snd] in *. subst stk.
  destruct (insert_ok fs t id p i z F2 Hp) as (gs & G1 & G2 & G3 & G4 & G5).
  - intros ->. destruct id; cbn in Hp, K3; try contradiction; try lia; exact K3.
  - exact K2.
  - intros Hl. assert (Hv : valueish (p_prev s) = false) by (destruct id; try discriminate; exact E1). destruct (F4 Hv) as [F5 F6].
    split; [destruct id; try discriminate; exact K3|]. split; [exact F5|exact F6].
  - intros Hs. destruct (K1 Hs) as [_ Hv]. apply (F4 Hv).
  - exact Ez.
  - rewrite G1 in E. destruct gs as [|G gs]; [contradiction|]. cbn [app] in E. inversion E; subst s'. clear E. split; [|split; [repeat split|reflexivity]].
    exists (G :: gs). cbn [p_zip p_prev]. split; [exact G1|]. split; [exact G2|]. split; [congruence|]. intros Hv. split; [exact G4|]. rewrite G5. destruct id; try reflexivity; discriminate.
Qed.

Lemma zstate_err s st e : zstate s st -> zstate (mkP (p_zip s) (p_prev s) (p_begin s) (p_nP s) (p_nB s) (p_openP s) (p_openB s) (p_two s) e) st.
Proof. intros (fs & H). exists fs. exact H. Qed.

(** Opening a bracket. *)
Lemma add_open id (b : bool) p s s' st : id = (if b then OpenP else OpenB) -> p = (if b then 0 else 1) -> zstate s st -> add_node id p SkipClimbUp s = Ok s' ->
  zstate s' (b :: st) /\ same s s' /\ p_prev s' = id.
Proof.
  intros Hid Hp Hz E. unfold add_node in E.
  assert (Hm : exists s1, implicit_mult id s = Ok s1 /\ zstate s1 st /\ same s s1).
  { destruct b; subst id; [|exists s; split; [reflexivity|]; split; [exact Hz|repeat split]]. destruct (p_prev s) eqn:Ep; cbn [implicit_mult]; rewrite ?Ep; try (exists s; split; [reflexivity|]; split; [exact Hz|repeat split]; fail).
    cbn [implicit_mult] in E. rewrite Ep in E. apply rbind_ok in E. destruct E as (s1 & E & _).
    exists s1. split; [exact E|]. destruct Hz as (fs & F1 & F2 & F3 & F4). apply rbind_ok in E. destruct E as (z & Ez & E). inversion E; subst s1. clear E.
    destruct (p_zip s) as [stk t]. cbn [fst snd] in *. subst stk.
    destruct (insert_ok fs t Mul 3 LeftAssoc z F2) as (gs & G1 & G2 & G3 & G4 & G5); cbn; try lia; try discriminate; auto.
    split; [|repeat split]. exists gs. cbn [p_zip p_prev]. split; [exact G1|]. split; [exact G2|]. split; [congruence|]. intros _. split; [exact G4|]. destruct gs as [|G gs]; [contradiction|]. rewrite G5. reflexivity. }
  destruct Hm as (s1 & Es1 & (fs & F1 & F2 & F3 & F4) & Hs). rewrite Es1 in E. cbn [rbind] in E.
  assert (Hv : valueish (p_prev s1) = false).
  { destruct (valueish (p_prev s1)); [|reflexivity]. exfalso. destruct b; subst id; cbn in E; discriminate. }
  destruct (F4 Hv) as [F5 F6].
  assert (Es' : s' = mkP (mkF Null id p :: fs ++ [root], Null) id (p_begin s1) (p_nP s1) (p_nB s1) (p_openP s1) (p_openB s1) (p_two s1) (p_err s1)).
  { destruct (p_zip s1) as [stk t]. cbn [fst snd] in *. subst stk t. destruct b; subst id; rewrite Hv in E; cbn in E; destruct (fs ++ [root]) eqn:Ef; try (destruct fs; discriminate); inversion E; subst; reflexivity. }
  subst s'. split; [|split; [exact Hs|reflexivity]].
  exists (mkF Null id p :: fs). cbn [p_zip p_prev fst snd]. split; [reflexivity|]. destruct F2 as (Z1 & Z2 & Z3). split; [|split].
  - split; [|split; [exact I|]].
    + constructor; [|exact Z1]. split; [exact I|]. destruct b; subst; reflexivity.
    + split; [|auto]. destruct fs as [|G fs]; [constructor|]. constructor; [exact F6|exact (proj1 Z3)].
  - subst st. unfold brackets. cbn. destruct b; subst id; reflexivity.
  - intros _. split; [reflexivity|]. destruct b; subst id; reflexivity.
Qed.

Lemma brackets_in ps (b : bool) : In b (brackets ps) -> exists G, In G ps /\ f_id G = if b then OpenP else OpenB.
Proof.
  unfold brackets. rewrite in_flat_map. intros (G & H1 & H2). exists G. split; [exact H1|].
  destruct (f_id G); cbn in H2; try contradiction; destruct H2 as [<-|[]]; reflexivity.
Qed.

(** Closing a bracket. *)
Lemma add_close id (b : bool) p s s' st : id = (if b then CloseP else CloseB) -> p = (if b then 0 else 1) -> zstate s (b :: st) -> add_node id p RightAssoc s = Ok s' ->
  zstate s' st /\ same s s' /\ p_prev s' = id.
Proof.
  intros Hid Hp (fs & F1 & F2 & F3 & F4) E. unfold add_node in E.
  assert (Ei : implicit_mult id s = Ok s) by (destruct b; subst id; reflexivity). rewrite Ei in E. cbn [rbind] in E. clear Ei.
  assert (Ez : exists z, insert (p_zip s) id p RightAssoc = Ok z /\ fst z <> [] /\ s' = mkP z id (p_begin s) (p_nP s) (p_nB s) (p_openP s) (p_openB s) (p_two s) (p_err s)).
  { destruct b; subst id; cbn [andb signish] in E; apply rbind_ok in E; destruct E as (z & Ez & E); exists z; (split; [exact Ez|]); destruct (fst z); try discriminate; inversion E; (split; [discriminate|reflexivity]). }
  clear E. destruct Ez as (z & Ez & Hne & ->). cbn [p_zip p_prev].
  destruct (p_zip s) as [stk t]. cbn [fst snd] in *. subst stk. unfold insert in Ez. cbn [fst snd] in Ez.
  destruct (climb_spec (fun x => Nat.leb x p) root) with (fs := fs) (t := t) as (ps & gs & t' & E1 & E2 & E3 & E4 & E5 & E6 & E7); [cbn; destruct p; reflexivity|exact F2|].
  rewrite E2 in Ez.
  assert (Hps : brackets ps = []).
  { destruct (brackets ps) as [|x l] eqn:Eb; [reflexivity|]. exfalso. rewrite E1, brackets_app, Eb in F3. cbn in F3. inversion F3; subst x.
    destruct (brackets_in ps b) as (G & G1 & G2); [rewrite Eb; left; reflexivity|].
    rewrite Forall_forall in E4. specialize (E4 G G1). apply Nat.leb_gt in E4. destruct F2 as (Z1 & _). rewrite Forall_forall in Z1.
    destruct (Z1 G) as [_ H]; [rewrite E1; apply in_or_app; left; exact G1|]. rewrite G2 in H. destruct b; lia. }
  rewrite E1, brackets_app, Hps in F3. cbn [app] in F3.
  destruct gs as [|G gs]; [discriminate F3|]. destruct E3 as (Z1 & Z2 & Z3 & Z4). inversion Z1 as [|? ? [HG1 HG2] Z1']; subst.
  apply Nat.leb_le in E5.
  assert (HG : f_id G = (if b then OpenP else OpenB) /\ brackets gs = st).
  { unfold brackets in F3. cbn in F3. destruct b, (f_id G); cbn in F3; try contradiction; try lia; try (inversion F3; subst; split; reflexivity); try (destruct HG2; lia). }
  destruct HG as [HG Hst].
  assert (Hz : z = (gs ++ [root], if b then t' else Node (f_left G) (Fun Abs) t')).
  { cbn [app] in Ez. destruct b; [|inversion Ez; reflexivity]. destruct (gs ++ [root]) eqn:Eg; [discriminate|]. inversion Ez; reflexivity. }
  subst z. split; [|split; [repeat split|reflexivity]].
  exists gs. cbn [fst snd p_zip p_prev]. split; [reflexivity|]. split; [|split; [exact Hst|destruct b; discriminate]].
  split; [exact Z1'|]. split.
  - destruct b; [exact Z2|]. cbn. auto.
  - destruct gs as [|H gs]; [exact I|]. inversion Z3; subst. split; [assumption|congruence].
Qed.

(** The invariant of the loop. *)
Fixpoint noadj (st : list bool) : Prop := match st with false :: false :: _ => False | _ :: st => noadj st | [] => True end.
Record good (st : list bool) (two : nat) (s : pstate) : Prop := {
  g_zip : zstate s st; g_adj : noadj st; g_begin : p_begin s = inbar st; g_nP : p_nP s = nPof st; g_nB : p_nB s = nBof st;
  g_openP : p_openP s = countb true st; g_openB : p_openB s = countb false st; g_two : p_two s = two }.

Lemma good_init : good [] 0 p_init.
Proof. split; try reflexivity. exists []. cbn. repeat split; auto. Qed.
Lemma good_err st two s e : good st two s -> good st two (mkP (p_zip s) (p_prev s) (p_begin s) (p_nP s) (p_nB s) (p_openP s) (p_openB s) (p_two s) e).
Proof. intros []. split; assumption. Qed.
Lemma good_same st two s s' : good st two s -> zstate s' st -> same s s' -> good st two s'.
Proof. intros [] Hz (S1 & S2 & S3 & S4 & S5 & S6 & _). split; congruence || assumption. Qed.
Lemma noadj_tail b st : noadj (b :: st) -> noadj st.
Proof. destruct b; [exact (fun H => H)|]. destruct st as [|[] st]; cbn; intros H; [exact I|exact H|contradiction]. Qed.

Lemma step_good st two s k s' : good st two s -> step s k = Ok s' ->
  exists st' two', good st' two' s' /\ (forall l, balanced st' l -> balanced st (k :: l)) /\ (forall l, commas two' l -> commas two (k :: l)) /\ p_err s' = p_err s.
Proof.
  intros HG E. pose proof HG as [Gz Ga Gb GP GB GoP GoB Gt].
  assert (Hsimple : forall id p i, precid id p -> kind_ok id i s -> add_node id p i s = Ok s' -> good st two s' /\ p_err s' = p_err s).
  { intros id p i H1 H2 H3. destruct (add_simple id p i s s' st Gz H1 H2 H3) as (A1 & A2 & _). split; [exact (good_same _ _ _ _ HG A1 A2)|apply A2]. }
  assert (Hdone : match k with TOpen | TClose | TBar | TPow | TComma => False | _ => True end ->
            good st two s' /\ p_err s' = p_err s -> exists st' two', good st' two' s' /\ (forall l, balanced st' l -> balanced st (k :: l)) /\ (forall l, commas two' l -> commas two (k :: l)) /\ p_err s' = p_err s).
  { intros Hk [H1 H2]. exists st, two. split; [exact H1|]. destruct k; try contradiction; cbn; auto. }
  destruct k; cbn [step] in E.
  - (* ( *)
    destruct (p_nP s) as [|n nP] eqn:En; [discriminate|].
    apply (add_open OpenP true 0 _ _ st eq_refl eq_refl) in E; [|destruct Gz as (fs & H); exists fs; exact H].
    destruct E as (A1 & (S1 & S2 & S3 & S4 & S5 & S6 & S7) & _). cbn in S1, S2, S3, S4, S5, S6, S7.
    exists (true :: st), two. split; [|cbn; auto]. split; try assumption; try congruence.
    + cbn. rewrite <- GP. exact S2.
    + cbn. rewrite S3, GB. reflexivity.
    + rewrite S4, GoP. reflexivity.
    + rewrite S5, GoB. reflexivity.
  - (* ) *)
    destruct (p_nP s) as [|[|n] nP] eqn:EnP; [discriminate| |].
    { destruct (p_nB s); discriminate. }
    destruct (p_nB s) as [|[|b] [|b1 nB]] eqn:EnB; try discriminate.
    destruct st as [|[] st]; cbn in GP; try discriminate.
    apply (add_close CloseP true 0 _ _ st eq_refl eq_refl) in E; [|destruct Gz as (fs & H); exists fs; exact H].
    destruct E as (A1 & (S1 & S2 & S3 & S4 & S5 & S6 & S7) & _). cbn in S1, S2, S3, S4, S5, S6, S7.
    exists st, two. split; [|cbn; auto]. cbn in GB. inversion GB as [GB'].
    split; try assumption; try congruence.
    + rewrite S1. destruct st as [|[] st]; cbn in GB'; try (inversion GB'; reflexivity). cbn. destruct (nBof st); inversion GB'; reflexivity.
    + destruct (nPof_cons st) as (n' & l' & E'). rewrite E' in GP. rewrite E', S2. congruence.
    + rewrite S4, GoP. reflexivity.
    + rewrite S5, GoB. reflexivity.
  - (* | *)
    destruct (p_nB s) as [|b nB] eqn:EnB; [discriminate|].
    destruct (p_begin s) eqn:Ebeg; cbn [negb] in E.
    + destruct st as [|[] st]; try discriminate Gb.
      destruct b as [|b']; [discriminate|]. destruct (p_nP s) as [|[|n] nP] eqn:EnP; try discriminate.
      apply (add_close CloseB false 1 _ _ st eq_refl eq_refl) in E; [|destruct Gz as (fs & H); exists fs; exact H].
      destruct E as (A1 & (S1 & S2 & S3 & S4 & S5 & S6 & S7) & _). cbn in S1, S2, S3, S4, S5, S6, S7.
      exists st, two. split; [|cbn; auto].
      split; try assumption; try congruence.
      * exact (noadj_tail _ _ Ga).
      * rewrite S1. destruct st as [|[] st]; try reflexivity. contradiction Ga.
      * cbn in GP. congruence.
      * cbn in GB. destruct (nBof_cons st) as (n' & l' & E'). rewrite E' in GB. rewrite E', S3. congruence.
      * rewrite S4, GoP. reflexivity.
      * rewrite S5, GoB. reflexivity.
    + apply (add_open OpenB false 1 _ _ st eq_refl eq_refl) in E; [|destruct Gz as (fs & H); exists fs; exact H].
      destruct E as (A1 & (S1 & S2 & S3 & S4 & S5 & S6 & S7) & _). cbn in S1, S2, S3, S4, S5, S6, S7.
      exists (false :: st), two. split.
      * split; try assumption; try congruence.
        -- destruct st as [|[] st]; cbn; auto. discriminate Gb.
        -- cbn. rewrite S2, GP. reflexivity.
        -- cbn. rewrite <- GB. exact S3.
        -- rewrite S4, GoP. reflexivity.
        -- rewrite S5, GoB. reflexivity.
      * cbn. split; [|split; [auto|exact S7]]. destruct st as [|[] st]; auto. discriminate Gb.
  - apply Hdone; [exact I|]. destruct (valueish (p_prev s)) eqn:Ev; [apply (Hsimple Add 2 LeftAssoc)|apply (Hsimple Pos 5 SkipClimbUp)]; try exact E; try (cbn; lia); repeat split; try discriminate; auto.
  - apply Hdone; [exact I|]. destruct (valueish (p_prev s)) eqn:Ev; [apply (Hsimple Sub 2 LeftAssoc)|apply (Hsimple Neg 5 SkipClimbUp)]; try exact E; try (cbn; lia); repeat split; try discriminate; auto.
  - apply Hdone; [exact I|]. apply (Hsimple Mul 3 LeftAssoc); try exact E; try (cbn; lia); repeat split; discriminate.
  - apply Hdone; [exact I|]. apply (Hsimple Dvd 3 LeftAssoc); try exact E; try (cbn; lia); repeat split; discriminate.
  - apply Hdone; [exact I|]. apply (Hsimple Pw 4 RightAssoc); try exact E; try (cbn; lia); repeat split; discriminate.
  - apply Hdone; [exact I|]. apply (Hsimple Fct 6 LeftAssoc); try exact E; try (cbn; lia); repeat split; discriminate.
  - apply Hdone; [exact I|]. apply (Hsimple (Fun f) 7 LeftAssoc); try exact E; try (cbn; lia); repeat split; discriminate.
  - inversion E; subst s'. exists st, (S two). split; [|cbn; auto]. split; cbn; try assumption; try congruence.
  - destruct (p_two s) as [|n] eqn:Et; [discriminate|].
    apply (add_simple Pw 5 LeftAssoc _ _ st) in E; [|destruct Gz as (fs & H); exists fs; exact H|cbn; lia|repeat split; discriminate].
    destruct E as (A1 & (S1 & S2 & S3 & S4 & S5 & S6 & S7) & _). cbn in S1, S2, S3, S4, S5, S6, S7.
    exists st, n. split; [|split; [cbn; auto|split; [|exact S7]]].
    + split; try assumption; congruence.
    + intros l Hl. destruct two as [|m]; [congruence|]. cbn. assert (m = n) by congruence. subst m. exact Hl.
  - apply Hdone; [exact I|]. apply (Hsimple (Num n) 7 LeftAssoc); try exact E; try (cbn; lia); repeat split; discriminate.
  - apply Hdone; [exact I|]. apply (Hsimple (Var s0) 7 LeftAssoc); try exact E; try (cbn; lia); repeat split; discriminate.
Qed.

Lemma insert_no_ub z id p i : insert z id p i <> UB.
Proof. unfold insert. destruct i; [destruct z as [stk t]|destruct (climb _ _ _) as [stk t]|destruct (climb _ _ _) as [stk t]]; destruct stk as [|F [|G l]], id; discriminate. Qed.
Lemma add_no_ub id p i s : add_node id p i s <> UB.
Proof.
  unfold add_node. destruct (implicit_mult id s) as [s1| |] eqn:E; cbn [rbind]; try discriminate.
  - destruct (_ && _); [discriminate|]. destruct (_ && _); [discriminate|]. pose proof (insert_no_ub (p_zip s1) id p i). destruct (insert _ _ _ _) as [z| |]; cbn [rbind]; try congruence. destruct (fst z); discriminate.
  - unfold implicit_mult in E. destruct id; try discriminate. destruct (p_prev s); try discriminate.
    pose proof (insert_no_ub (p_zip s) Mul 3 LeftAssoc). destruct (insert _ _ _ _) as [z| |]; cbn [rbind] in E; congruence.
Qed.
Lemma step_no_ub st two s k : good st two s -> step s k <> UB.
Proof.
  intros HG. pose proof HG as [Gz Ga Gb GP GB GoP GoB Gt]. destruct (nPof_cons st) as (n & l & EP). destruct (nBof_cons st) as (n' & l' & EB).
  destruct k; cbn [step]; try apply add_no_ub; try discriminate; try (destruct (valueish _); apply add_no_ub).
  - rewrite GP, EP. apply add_no_ub.
  - rewrite GP, EP, GB, EB. destruct n as [|n]; [discriminate|]. destruct n' as [|n']; [|discriminate]. destruct l' as [|b l']; [|apply add_no_ub].
    exfalso. destruct st as [|[] st]; cbn in EP, EB; try discriminate. destruct (nBof_cons st) as (x & y & Ey). congruence.
  - rewrite GB, EB. destruct (negb _); [apply add_no_ub|]. destruct n' as [|n']; [discriminate|]. rewrite GP, EP. destruct n; [apply add_no_ub|discriminate].
  - destruct (p_two s); [discriminate|apply add_no_ub].
Qed.

(** The tree that is handed out. *)
Lemma plug_leafok fs : forall t, zok fs t -> leafok (plug (fs ++ [root]) t).
Proof.
  induction fs as [|G fs IH]; intros t (Z1 & Z2 & Z3); [exact Z2|].
  assert (Ef : forall u, plug ((G :: fs) ++ [root]) u = plug (fs ++ [root]) (Node (f_left G) (f_id G) u)) by (intros u; destruct fs; reflexivity).
  rewrite Ef. destruct Z3 as [Z3 Z4]. inversion Z1; subst. apply IH. split; [assumption|].
  split; [apply pop_leafok; assumption|]. destruct fs as [|H fs]; [exact I|]. inversion Z3; subst. split; [assumption|congruence].
Qed.

Lemma isnull_spec t : isnull t = true <-> t = Null.
Proof. destruct t; cbn; split; congruence. Qed.
Lemma validate_complete t : leafok t -> validate t = Ok tt -> t <> Null -> complete t.
Proof.
  induction t as [|l IHl id r IHr]; intros Hl Hv Hn; [congruence|]. cbn in Hl, Hv. destruct Hl as (L1 & L2 & L3).
  destruct (validate l) as [[]| |] eqn:El; cbn [rbind] in Hv; try discriminate.
  destruct (validate r) as [[]| |] eqn:Er; cbn [rbind] in Hv; try discriminate.
  assert (Hc : forall t, t = l \/ t = r -> isnull t = false -> complete t).
  { intros t [->| ->] H; [apply IHl|apply IHr]; auto; intros ->; discriminate. }
  cbn. destruct id; try contradiction; try discriminate;
    destruct (isnull l) eqn:Nl; destruct (isnull r) eqn:Nr; cbn in Hv; try discriminate;
    try apply isnull_spec in Nl; try apply isnull_spec in Nr; try (split; auto; fail); try (destruct L3 as [? [?|?]]; [auto|contradiction]).
Qed.

Lemma countb_zero st : countb true st = 0 -> countb false st = 0 -> st = [].
Proof. destruct st as [|[] st]; cbn; [reflexivity|discriminate|discriminate]. Qed.

Lemma finish_good st two s t : good st two s -> finish s = Ok t -> st = [] /\ two = 0 /\ leafok t /\ t <> Null.
Proof.
  intros [Gz Ga Gb GP GB GoP GoB Gt] E. unfold finish in E.
  destruct (p_err s); [discriminate|]. destruct (Nat.eqb (p_openP s) 0) eqn:E1; [|discriminate]. destruct (Nat.eqb (p_openB s) 0) eqn:E2; [|discriminate].
  destruct (Nat.eqb (p_two s) 0) eqn:E3; [|discriminate]. cbn in E. apply Nat.eqb_eq in E1, E2, E3.
  split; [apply countb_zero; congruence|]. split; [congruence|]. destruct Gz as (fs & F1 & F2 & _). rewrite F1 in E. pose proof (plug_leafok fs _ F2) as H.
  destruct (plug _ _); [discriminate|]. inversion E; subst. split; [exact H|discriminate].
Qed.
